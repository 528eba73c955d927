(** Properties C15, C16, C17: truncated SVD, truncated Hermitian
    eigendecomposition, biorthogonal eigenvectors. *)
From Coq Require Import List Arith Lia Bool Field Ring Setoid Morphisms ZArith Permutation.
Import ListNotations.
From Verif Require Import Prelude Field FieldInst Matrix NdArray DecompModel DecompProofs.
Open Scope nat_scope.
Open Scope k_scope.

(** * C15 *)

(** What util.svd returns: the leading [k] singular triples, [k] counting exactly
    the singular values above both tolerances. *)
Record svd_result {F : sfield} (A : arr F) (S0 : list F) (atol rtol : option F)
    (U : arr F) (S : list F) (V : arr F) : Prop := {
  sr_prefix : S = firstn (length S) S0;
  sr_kept : forall i, i < length S0 -> (i < length S <-> above atol rtol S0 i);
  sr_Ur : nr U = nr A; sr_Uc : nc U = length S;
  sr_Vr : nr V = nc A; sr_Vc : nc V = length S;
  sr_U : meq (length S) (length S) (mmul (nr A) (madj (ent U)) (ent U)) mid;
  sr_V : meq (length S) (length S) (mmul (nc A) (madj (ent V)) (ent V)) mid;
  sr_AV : meq (nr A) (length S) (mmul (nc A) (ent A) (ent V))
            (mmul (length S) (ent U) (mdiag (at1 S)));
  sr_AU : meq (nc A) (length S) (mmul (nr A) (madj (ent A)) (ent U))
            (mmul (length S) (ent V) (mdiag (at1 S)));
  sr_exact : (forall i, length S <= i < length S0 -> at1 S0 i = 0) ->
    meq (nr A) (nc A) (ent A)
      (mmul (length S) (ent U) (mmul (length S) (mdiag (at1 S)) (madj (ent V))))
}.

Theorem C15_truncated_svd {F : sfield} lapack (A U0 Vh0 : arr F) S0 atol rtol :
  lapack A = Ok (U0, S0, Vh0) -> svd_contract A U0 S0 Vh0 ->
  tol_real atol -> tol_real rtol -> rtol = None \/ S0 <> [] ->
  exists U S V, svd lapack A atol rtol = Ok (U, S, V) /\ svd_result A S0 atol rtol U S V.
Proof.
  intros HL HC Ha Hr Hne.
  destruct (num_kept_spec atol rtol S0) as (k & Ek & Hk & Hkept); auto.
  { apply (svd_real _ _ _ _ HC). }
  { apply svd_abs_decreasing; apply HC. }
  unfold svd. rewrite HL. cbn [rbind fst snd]. rewrite Ek. cbn [rbind].
  do 3 eexists. split; [reflexivity|].
  assert (Lk : length (firstn k S0) = k) by (rewrite firstn_length; lia).
  assert (Ed : meq k k (mdiag (at1 (firstn k S0))) (mdiag (at1 S0))).
  { apply mdiag_ext. intros i Hi. apply at1_firstn. auto. }
  split; rewrite ?Lk; simpl.
  - reflexivity.
  - auto.
  - apply (svd_Ur _ _ _ _ HC).
  - rewrite (svd_Uc _ _ _ _ HC). lia.
  - apply (svd_Vc _ _ _ _ HC).
  - rewrite (svd_Vr _ _ _ _ HC). lia.
  - apply (orthonormal_sub _ _ _ _ Hk (svd_U _ _ _ _ HC)).
  - apply (orthonormal_sub _ _ _ _ Hk (svd_V _ _ _ _ HC)).
  - rewrite Ed. apply (svd_right _ _ _ _ HC k Hk).
  - rewrite Ed. apply (svd_left _ _ _ _ HC k Hk).
  - intros Hz. rewrite Ed, (madj_madj k (nc A)). apply (svd_exact _ _ _ _ HC k Hk Hz).
Qed.

(** An array without rows or columns and a relative tolerance: IndexError. *)
Theorem C15_empty {F : sfield} lapack (A U0 Vh0 : arr F) S0 atol r :
  lapack A = Ok (U0, S0, Vh0) -> svd_contract A U0 S0 Vh0 ->
  nr A = O \/ nc A = O -> svd lapack A atol (Some r) = Raise IndexError.
Proof.
  intros HL HC H0. assert (E : S0 = []).
  { apply length_zero_iff_nil. rewrite (svd_len _ _ _ _ HC). lia. }
  subst S0. unfold svd. rewrite HL. reflexivity.
Qed.

(** Errors of the wrapped routine pass through. *)
Theorem C15_lapack_error {F : sfield} lapack (A : arr F) atol rtol e :
  lapack A = Raise e -> svd lapack A atol rtol = Raise e.
Proof. intros H. unfold svd. rewrite H. reflexivity. Qed.

(** ** Instance: a 2 x 3 Gaussian-rational array with singular values 2 and 1/3. *)
Notation q a := (qi a 0 1).
Definition ex_A : arr QI := of_rows 3 [[qi 0 2 1; q 0; q 0]; [q 0; qi 1 0 3; q 0]].
Definition ex_U : arr QI := of_rows 2 [[qi 0 1 1; q 0]; [q 0; q 1]].
Definition ex_S : list QI := [q 2; qi 1 0 3].
Definition ex_Vh : arr QI := of_rows 3 [[q 1; q 0; q 0]; [q 0; q 1; q 0]].

Lemma ex_svd : svd_contract ex_A ex_U ex_S ex_Vh.
Proof.
  split; try reflexivity.
  - apply meqb_true. vm_compute. reflexivity.
  - apply meqb_true. vm_compute. reflexivity.
  - apply meqb_true. vm_compute. reflexivity.
  - repeat constructor; apply keqb_true; vm_compute; reflexivity.
  - repeat constructor; vm_compute; reflexivity.
  - intros i j Hij Hj. simpl in Hj.
    destruct i as [|[|i]]; destruct j as [|[|j]]; try lia.
    + right. reflexivity.
    + left. vm_compute. reflexivity.
    + right. reflexivity.
Qed.

(** The absolute tolerance 1/2 keeps one value, the relative tolerance 1/10 both. *)
Example C15_example :
  rmap (fun r => (snd (fst r), nc (fst (fst r)), nc (snd r)))
    (svd (fun _ => Ok (ex_U, ex_S, ex_Vh)) ex_A (Some (qi 1 0 2)) None)
    = Ok ([q 2], 1, 1)%nat /\
  rmap (fun r => snd (fst r)) (svd (fun _ => Ok (ex_U, ex_S, ex_Vh)) ex_A None (Some (qi 1 0 10)))
    = Ok ex_S /\
  (exists U S V, svd (fun _ => Ok (ex_U, ex_S, ex_Vh)) ex_A (Some (qi 1 0 2)) (Some (qi 1 0 10))
     = Ok (U, S, V) /\ svd_result ex_A ex_S (Some (qi 1 0 2)) (Some (qi 1 0 10)) U S V).
Proof.
  split; [vm_compute; reflexivity|].
  split; [vm_compute; reflexivity|].
  apply (C15_truncated_svd _ ex_A ex_U ex_Vh ex_S); auto.
  - apply ex_svd.
  - apply keqb_true. vm_compute. reflexivity.
  - apply keqb_true. vm_compute. reflexivity.
  - right. discriminate.
Qed.

(** Two rows and no columns: the decomposition is empty. *)
Example C15_empty_example : let A := zeros 2 0 : arr QI in
  svd (fun _ => Ok (zeros 2 0, [], zeros 0 0)) A None (Some (qi 1 0 10)) = Raise IndexError.
Proof.
  intros A. apply (C15_empty _ A (zeros 2 0) (zeros 0 0) []); auto.
  split; try reflexivity; try (intros i j Hi Hj; simpl in *; lia); try constructor; cbn [length]; intros; lia.
Qed.

Example C15_lapack_error_example :
  svd (fun A => if nr A =? 2 then Raise LinAlgError else Ok (ex_U, ex_S, ex_Vh))%nat ex_A
    (Some (qi 1 0 2)) None = Raise LinAlgError.
Proof. apply C15_lapack_error. reflexivity. Qed.

(** * C16 *)

(** The absolute tolerance actually used: for positive definite arrays it is
    raised to the magnitude of the most negative eigenvalue if that is larger. *)
Definition raised {F : sfield} (pd : bool) (atol : option F) (w : list F) (atol' : option F) : Prop :=
  (pd = false \/ Forall (kle 0) w) /\ atol' = atol \/
  pd = true /\ exists t m, atol = Some t /\ In m w /\ (forall x, In x w -> kle m x) /\
    klt_p m 0 /\ (klt_p t (- m) /\ atol' = Some (- m) \/ kle (- m) t /\ atol' = atol).

Record eigh_result {F : sfield} (A : arr F) (w0 w : list F) (atol rtol : option F)
    (vals : list F) (vecs : arr F) : Prop := {
  er_perm : Permutation w w0;
  er_sorted : abs_decreasing w;
  er_prefix : vals = firstn (length vals) w;
  er_kept : forall i, i < length w -> (i < length vals <-> above atol rtol w i);
  er_r : nr vecs = nr A; er_c : nc vecs = length vals;
  er_orth : meq (length vals) (length vals) (mmul (nr A) (madj (ent vecs)) (ent vecs)) mid;
  er_eig : meq (nr A) (length vals) (mmul (nr A) (ent A) (ent vecs))
             (mmul (length vals) (ent vecs) (mdiag (at1 vals)));
  er_exact : (forall i, length vals <= i < length w -> at1 w i = 0) ->
    meq (nr A) (nr A) (ent A)
      (mmul (length vals) (ent vecs) (mmul (length vals) (mdiag (at1 vals)) (madj (ent vecs))))
}.

(** A square array with orthonormal eigenvectors is their sum; eigenvectors of
    eigenvalue zero may be dropped. *)
Lemma eig_exact {F : sfield} n k (A P : mat F) w : k <= n ->
  meq n n (mmul n (madj P) P) mid -> meq n n (mmul n A P) (mmul n P (mdiag w)) ->
  (forall i, k <= i < n -> w i = 0) ->
  meq n n A (mmul k P (mmul k (mdiag w) (madj P))).
Proof.
  intros Hk HP HA Hz. pose proof (left_inverse_right n P (madj P) HP) as HP'.
  transitivity (mmul n A (mmul n P (madj P))).
  { rewrite HP', mmul_id_r. reflexivity. }
  rewrite <- mmul_assoc, HA, mmul_assoc.
  split. intros i j Hi Hj. unfold mmul at 1 3. rewrite (sum_pad k n); auto.
  - apply sum_ext. intros l Hl. f_equal.
    rewrite (meq_at _ _ _ _ (mmul_diag_l n n w (madj P)) l j) by lia.
    rewrite (meq_at _ _ _ _ (mmul_diag_l k n w (madj P)) l j) by lia. reflexivity.
  - intros l Hl. rewrite (meq_at _ _ _ _ (mmul_diag_l n n w (madj P)) l j) by lia.
    rewrite Hz by lia. rewrite mul_0_l. apply mul_0_r.
Qed.

Lemma raise_atol_spec {F : sfield} pd atol (l : list F) :
  all_real l -> tol_real atol -> pd = false \/ l <> [] ->
  (raise_atol pd atol l = Raise TypeError /\ pd = true /\ atol = None /\ Exists (fun x => klt_p x 0) l)
  \/ exists atol', raise_atol pd atol l = Ok atol' /\ raised pd atol l atol' /\ tol_real atol'.
Proof.
  intros Hl Ht Hne. unfold raise_atol. destruct pd; simpl; [|right; exists atol; unfold raised; auto 10].
  destruct Hne as [|Hne]; [discriminate|].
  destruct (min1 l) as [m|e] eqn:Em; [|destruct l; [congruence|discriminate]].
  destruct (min1_spec l m Hl Em) as (Rm & Im & Lm). simpl.
  destruct (klt F m 0) eqn:E.
  - destruct atol as [t|].
    + right. assert (Ea : kabs m = - m) by (unfold kabs; rewrite E; auto).
      rewrite Ea. simpl in Ht.
      destruct (klt F t (- m)) eqn:Et.
      * eexists. split; [reflexivity|]. split; [|apply real_opp; auto].
        right. split; auto. exists t, m. repeat (split; auto).
      * eexists. split; [reflexivity|]. split; [|auto].
        right. split; auto. exists t, m. split; auto. split; auto. split; auto. split; auto.
        right. split; auto. apply not_lt; auto. apply real_opp; auto.
    + left. split; auto. split; auto. split; auto. apply Exists_exists. exists m. auto.
  - right. exists atol. split; auto. split; auto. left. split; auto. right.
    apply Forall_forall. intros x Hx. apply (proj1 (not_lt m 0 Rm real_0)) in E.
    apply (le_trans 0 m x); auto using real_0.
    apply (proj1 (Forall_forall _ _) Hl x Hx).
Qed.

Lemma raised_perm {F : sfield} pd atol (w w' : list F) atol' :
  Permutation w w' -> raised pd atol w atol' -> raised pd atol w' atol'.
Proof.
  intros Hp [[H E]|(Hpd & t & m & Ha & Hm & Hl & Hn & Hc)].
  - left. split; auto. destruct H as [H|H]; auto. right. rewrite <- Hp. auto.
  - right. split; auto. exists t, m. split; auto. split; [rewrite <- Hp; auto|].
    split; auto. intros x Hx. apply Hl. rewrite Hp. auto.
Qed.

(** The kept pairs are exactly those above the used absolute tolerance and the
    relative one, among the eigenvalues sorted by decreasing magnitude. *)
Theorem C16_truncated_eigh {F : sfield} lapack argsort (A V0 : arr F) w0 atol rtol pd :
  lapack A = Ok (w0, V0) -> eigh_contract A w0 V0 ->
  argsort_contract (map kabs w0) (argsort (map kabs w0)) ->
  tol_real atol -> tol_real rtol -> (rtol = None /\ pd = false) \/ (0 < nr A)%nat ->
  (pd = true -> atol = None -> Forall (kle 0) w0) ->
  exists atol' w vals vecs, eigh lapack argsort A atol rtol pd = Ok (vals, vecs) /\
    raised pd atol w0 atol' /\ eigh_result A w0 w atol' rtol vals vecs.
Proof.
  intros HL HC HS Ha Hr Hne Hpd.
  set (p := argsort (map kabs w0)) in *.
  set (w := map (at1 w0) (rev p)).
  assert (Pw : Permutation w w0) by (apply sorted_perm; auto).
  assert (Rw : all_real w).
  { unfold all_real. rewrite Pw. apply (eigh_real _ _ _ HC). }
  assert (Lw : length w = nr A) by (rewrite Pw; apply (eigh_len _ _ _ HC)).
  assert (Ne : rtol = None /\ pd = false \/ w <> []).
  { destruct Hne as [H|H]; auto. right. intros E. rewrite E in Lw. simpl in Lw. lia. }
  destruct (raise_atol_spec pd atol w Rw Ha) as [(E1 & E2 & E3 & E4)|(atol' & E1 & E2 & E3)].
  { tauto. }
  { exfalso. rewrite Pw in E4. apply Exists_exists in E4. destruct E4 as (x & Hx & Lx).
    pose proof (proj1 (Forall_forall _ _) (Hpd E2 E3) x Hx) as G.
    pose proof (proj1 (Forall_forall _ _) (eigh_real _ _ _ HC) x Hx) as Rx. simpl in Rx.
    apply not_lt in G; auto using real_0. red in Lx. congruence. }
  destruct (num_kept_spec atol' rtol w) as (k & Ek & Hk & Hkept); auto.
  { apply sorted_decreasing; auto. }
  { tauto. }
  exists atol', w. unfold eigh. rewrite HL. cbn [rbind fst snd]. fold p. fold w. rewrite E1.
  cbn [rbind]. rewrite Ek. cbn [rbind]. do 2 eexists. split; [reflexivity|].
  split; [apply (raised_perm _ _ w); auto|].
  assert (Lk : length (firstn k w) = k) by (rewrite firstn_length; lia).
  assert (Lp : length (rev p) = nr A).
  { rewrite <- Lw. unfold w. rewrite map_length. reflexivity. }
  assert (Hin : forall j, j < nr A -> nth j (rev p) O < nr A).
  { intros j Hj. assert (Hi : In (nth j (rev p) O) p).
    { apply in_rev, nth_In. lia. }
    pose proof (proj1 (Forall_forall _ _) (as_range _ _ HS) _ Hi) as G. simpl in G.
    rewrite map_length, (eigh_len _ _ _ HC) in G. auto. }
  assert (Hinj : forall i j, i < nr A -> j < nr A -> nth i (rev p) O = nth j (rev p) O -> i = j).
  { intros i j Hi Hj. apply NoDup_nth; try lia. apply NoDup_rev, (as_nodup _ _ HS). }
  assert (Aw : forall j, j < nr A -> at1 w j = at1 w0 (nth j (rev p) O)).
  { intros j Hj. unfold at1 at 1, w. rewrite (nth_indep _ 0 (at1 w0 O)) by (rewrite map_length; lia).
    apply map_nth. }
  set (P := mcols (ent V0) (fun j => nth j (rev p) O)).
  assert (OP : meq (nr A) (nr A) (mmul (nr A) (madj P) P) mid).
  { split. intros i j Hi Hj.
    pose proof (meq_at _ _ _ _ (eigh_V _ _ _ HC) (nth i (rev p) O) (nth j (rev p) O)
      (Hin i ltac:(lia)) (Hin j ltac:(lia))) as G.
    unfold P, mmul, madj, mcols in *. rewrite G. unfold mid.
    destruct (Nat.eqb_spec (nth i (rev p) O) (nth j (rev p) O)) as [E|E].
    + apply Hinj in E; try lia. subst. rewrite Nat.eqb_refl. reflexivity.
    + rewrite (proj2 (Nat.eqb_neq i j)); auto. congruence. }
  assert (EP : meq (nr A) (nr A) (mmul (nr A) (ent A) P) (mmul (nr A) P (mdiag (at1 w)))).
  { rewrite mmul_diag_r. split. intros i j Hi Hj.
    pose proof (eigh_eq _ _ _ HC) as G. rewrite mmul_diag_r in G.
    pose proof (meq_at _ _ _ _ G i (nth j (rev p) O) Hi (Hin j ltac:(lia))) as G'.
    unfold P, mmul, mcols in *. rewrite G'. f_equal.
    symmetry. apply Aw. lia. }
  assert (Ed : meq k k (mdiag (at1 (firstn k w))) (mdiag (at1 w))).
  { apply mdiag_ext. intros i Hi. apply at1_firstn. auto. }
  split; rewrite ?Lk; simpl; fold P; auto.
  - apply sorted_decreasing; auto.
  - apply (eigh_r _ _ _ HC).
  - rewrite Lp. lia.
  - apply (meq_sub (nr A) (nr A)); auto; lia.
  - rewrite Ed, <- (mmul_diag_trunc (nr A) k (nr A)) by lia.
    apply (meq_sub (nr A) (nr A)); auto; lia.
  - intros Hz. rewrite Ed. apply eig_exact; auto; [lia|]. intros i Hi. apply Hz. lia.
Qed.

(** With a non-negative tolerance the positive definite option returns strictly
    positive eigenvalues. *)
Theorem C16_positive {F : sfield} (A : arr F) w0 w (t : F) atol' rtol vals vecs :
  raised true (Some t) w0 atol' -> eigh_result A w0 w atol' rtol vals vecs ->
  all_real w0 -> real t -> kle 0 t ->
  Forall (klt_p 0) vals.
Proof.
  intros HR HE Rw Rt Ht.
  assert (Rw' : all_real w) by (unfold all_real; rewrite (er_perm _ _ _ _ _ _ _ HE); auto).
  apply Forall_forall. intros x Hx.
  apply (In_nth _ _ 0) in Hx. destruct Hx as (i & Hi & <-). change (nth i vals 0) with (at1 vals i).
  assert (Li : i < length w).
  { rewrite (er_prefix _ _ _ _ _ _ _ HE), firstn_length in Hi. lia. }
  assert (Ei : at1 vals i = at1 w i).
  { rewrite (er_prefix _ _ _ _ _ _ _ HE). apply at1_firstn. auto. }
  rewrite Ei.
  pose proof (proj1 (er_kept _ _ _ _ _ _ _ HE i Li) Hi) as [Ab _].
  assert (Ri : real (at1 w i)) by (apply all_real_at; auto).
  assert (Iw : In (at1 w i) w0).
  { rewrite <- (er_perm _ _ _ _ _ _ _ HE). apply nth_In. auto. }
  assert (T : exists t', atol' = Some t' /\ real t' /\ kle 0 t' /\ kle (- at1 w i) t').
  { destruct HR as [[[H|H] ->]|(_ & t1 & m & E & Hm & Hl & Hn & Hc)]; [discriminate| |].
    - exists t. split; auto. split; auto. split; auto.
      pose proof (proj1 (Forall_forall _ _) H _ Iw) as G. cbv beta in G.
      apply le_opp in G; auto using real_0. rewrite opp_0 in G.
      apply (le_trans _ 0 t); auto using real_0, real_opp.
    - injection E as <-.
      assert (Rm : real m) by (apply (proj1 (Forall_forall _ _) Rw m Hm)).
      assert (G : kle (- at1 w i) (- m)) by (apply le_opp; auto).
      destruct Hc as [[Hc ->]|[Hc ->]].
      + exists (- m). split; auto. split; [apply real_opp; auto|]. split; auto.
        left. apply lt_opp; auto.
      + exists t. split; auto. split; auto. split; auto.
        apply (le_trans _ (- m)); auto using real_opp. }
  destruct T as (t' & -> & Rt' & Ht' & Hm). simpl in Ab.
  unfold kabs in Ab. destruct (klt F (at1 w i) 0) eqn:En.
  - exfalso. apply (lt_not_le t' (- at1 w i)); auto using real_opp.
  - apply (le_lt_trans _ t'); auto using real_0.
Qed.

(** Positive definite, no absolute tolerance and a negative eigenvalue: the
    comparison with None raises TypeError. *)
Theorem C16_no_tolerance_negative {F : sfield} lapack argsort (A V0 : arr F) w0 rtol :
  lapack A = Ok (w0, V0) -> all_real w0 ->
  argsort_contract (map kabs w0) (argsort (map kabs w0)) ->
  Exists (fun x => klt_p x 0) w0 ->
  eigh lapack argsort A None rtol true = Raise TypeError.
Proof.
  intros HL HR HS HE. set (p := argsort (map kabs w0)) in *.
  set (w := map (at1 w0) (rev p)).
  assert (Pw : Permutation w w0) by (apply sorted_perm; auto).
  assert (Rw : all_real w) by (unfold all_real; rewrite Pw; auto).
  unfold eigh. rewrite HL. cbn [rbind fst snd]. fold p. fold w.
  rewrite <- Pw in HE.
  destruct (raise_atol_spec true None w Rw I) as [(E & _)|(a & E1 & E2 & E3)].
  - right. intros E. rewrite E in HE. inversion HE.
  - rewrite E. reflexivity.
  - exfalso. apply Exists_exists in HE. destruct HE as (x & Hx & Lx).
    destruct E2 as [[[H|H] _]|(_ & t & m & H & _)]; try discriminate.
    pose proof (proj1 (Forall_forall _ _) H _ Hx) as G. cbv beta in G.
    apply (lt_not_le x 0); auto using real_0. apply (proj1 (Forall_forall _ _) Rw x Hx).
Qed.

(** The empty array: ValueError under the positive definite option, otherwise
    IndexError under a relative tolerance. *)
Theorem C16_empty {F : sfield} lapack argsort (A V0 : arr F) atol r pd :
  lapack A = Ok ([], V0) -> argsort [] = [] ->
  eigh lapack argsort A atol (Some r) pd = Raise (if pd then ValueError else IndexError).
Proof.
  intros HL HS. unfold eigh. rewrite HL. cbn [rbind fst snd map]. rewrite HS.
  destruct pd; reflexivity.
Qed.

(** Without tolerances every eigenvalue is returned, zeros included. *)
Theorem C16_zero_kept {F : sfield} (A : arr F) w0 w vals vecs :
  eigh_result A w0 w None None vals vecs -> Permutation vals w0.
Proof.
  intros HE. rewrite <- (er_perm _ _ _ _ _ _ _ HE).
  assert (L : length w <= length vals).
  { destruct (Nat.le_gt_cases (length w) (length vals)) as [|H]; auto.
    exfalso. assert (G : length vals < length vals); [|lia].
    apply (er_kept _ _ _ _ _ _ _ HE); auto. split; exact I. }
  rewrite (er_prefix _ _ _ _ _ _ _ HE), firstn_all2; auto.
Qed.

(** ** Instance: a 3 x 3 Hermitian array with eigenvalues -1/4, 1/5, 3. *)
Definition ex_H : arr QI := of_rows 3
  [[qi (-1) 0 4; q 0; q 0];
   [q 0; qi 151 0 125; qi 0 (-168) 125]; [q 0; qi 0 168 125; qi 249 0 125]].
Definition ex_w : list QI := [qi (-1) 0 4; qi 1 0 5; q 3].
Definition ex_W : arr QI := of_rows 3
  [[q 1; q 0; q 0]; [q 0; qi 0 4 5; qi 3 0 5]; [q 0; qi 3 0 5; qi 0 4 5]].
Definition ex_sort (l : list QI) : list nat := [1; 0; 2]%nat.

Lemma ex_eigh : eigh_contract ex_H ex_w ex_W.
Proof.
  split; try reflexivity.
  - apply meqb_true. vm_compute. reflexivity.
  - apply meqb_true. vm_compute. reflexivity.
  - repeat constructor; apply keqb_true; vm_compute; reflexivity.
Qed.
Lemma ex_argsort : argsort_contract (map kabs ex_w) (ex_sort (map kabs ex_w)).
Proof.
  split; try reflexivity.
  - repeat constructor; simpl; lia.
  - repeat constructor; simpl; lia.
  - simpl. intros i j Hij Hj. destruct i as [|[|[|i]]]; destruct j as [|[|[|j]]]; try lia;
      try (left; vm_compute; reflexivity); right; reflexivity.
Qed.

(** The tolerance 1/10 is raised to 1/4: only the eigenvalue 3 remains. *)
Example C16_example :
  rmap (fun r => (fst r, nc (snd r)))
    (eigh (fun _ => Ok (ex_w, ex_W)) ex_sort ex_H (Some (qi 1 0 10)) None true)
    = Ok ([q 3], 1%nat) /\
  rmap fst (eigh (fun _ => Ok (ex_w, ex_W)) ex_sort ex_H (Some (qi 1 0 10)) None false)
    = Ok [q 3; qi (-1) 0 4; qi 1 0 5] /\
  (exists atol' w vals vecs,
     eigh (fun _ => Ok (ex_w, ex_W)) ex_sort ex_H (Some (qi 1 0 10)) (Some (qi 1 0 100)) true
       = Ok (vals, vecs) /\
     raised true (Some (qi 1 0 10)) ex_w atol' /\
     eigh_result ex_H ex_w w atol' (Some (qi 1 0 100)) vals vecs).
Proof.
  split; [vm_compute; reflexivity|].
  split; [vm_compute; reflexivity|].
  apply (C16_truncated_eigh _ _ ex_H ex_W ex_w); auto.
  - apply ex_eigh.
  - apply ex_argsort.
  - apply keqb_true. vm_compute. reflexivity.
  - apply keqb_true. vm_compute. reflexivity.
  - right. simpl. lia.
  - discriminate.
Qed.
Example C16_example_none :
  eigh (fun _ => Ok (ex_w, ex_W)) ex_sort ex_H None (Some (qi 1 0 10)) true = Raise TypeError.
Proof.
  apply (C16_no_tolerance_negative _ _ ex_H ex_W ex_w); auto.
  - apply (eigh_real _ _ _ ex_eigh).
  - apply ex_argsort.
  - constructor. vm_compute. reflexivity.
Qed.

(** The negative eigenvalue raises the tolerance to 1/4, so only 3 is kept. *)
Example C16_positive_example : exists vals vecs,
  eigh (fun _ => Ok (ex_w, ex_W)) ex_sort ex_H (Some (qi 1 0 10)) None true = Ok (vals, vecs) /\
  Forall (klt_p 0) vals.
Proof.
  destruct (C16_truncated_eigh (fun _ => Ok (ex_w, ex_W)) ex_sort ex_H ex_W ex_w
    (Some (qi 1 0 10)) None true) as (atol' & w & vals & vecs & E & Hr & Hres); auto.
  - apply ex_eigh.
  - apply ex_argsort.
  - apply keqb_true. vm_compute. reflexivity.
  - exact I.
  - right. simpl. lia.
  - discriminate.
  - exists vals, vecs. split; [exact E|].
    apply (C16_positive ex_H ex_w w (qi 1 0 10) atol' None vals vecs Hr Hres).
    + apply (eigh_real _ _ _ ex_eigh).
    + apply keqb_true. vm_compute. reflexivity.
    + left. vm_compute. reflexivity.
Qed.

Example C16_empty_example : let A := zeros 0 0 : arr QI in
  eigh (fun _ => Ok ([], zeros 0 0)) (fun _ => []) A None (Some (qi 1 0 10)) true = Raise ValueError /\
  eigh (fun _ => Ok ([], zeros 0 0)) (fun _ => []) A None (Some (qi 1 0 10)) false = Raise IndexError.
Proof.
  intros A. split.
  - apply (C16_empty (fun _ => Ok ([], zeros 0 0)) (fun _ => []) A (zeros 0 0) None (qi 1 0 10) true);
      reflexivity.
  - apply (C16_empty (fun _ => Ok ([], zeros 0 0)) (fun _ => []) A (zeros 0 0) None (qi 1 0 10) false);
      reflexivity.
Qed.

(** Without tolerances nothing is dropped, the negative eigenvalue included. *)
Example C16_zero_kept_example : exists vals vecs,
  eigh (fun _ => Ok (ex_w, ex_W)) ex_sort ex_H None None false = Ok (vals, vecs) /\
  Permutation vals [qi (-1) 0 4; qi 1 0 5; q 3].
Proof.
  destruct (C16_truncated_eigh (fun _ => Ok (ex_w, ex_W)) ex_sort ex_H ex_W ex_w None None false)
    as (atol' & w & vals & vecs & E & Hr & Hres); auto.
  - apply ex_eigh.
  - apply ex_argsort.
  - exact I.
  - exact I.
  - discriminate.
  - assert (atol' = None) as -> by (destruct Hr as [[_ H]|[H _]]; [exact H|discriminate]).
    exists vals, vecs. split; [exact E|]. apply (C16_zero_kept ex_H ex_w w vals vecs Hres).
Qed.

(** * C17 *)

(** Every eigenvalue pairing factor (diagonal of [L^H R]) non-zero. *)
Definition pairing {F : sfield} (n : nat) (L R : arr F) : mat F := mmul n (madj (ent L)) (ent R).

Record biorthog_result {F : sfield} (A : arr F) (w : list F) (R L : arr F) : Prop := {
  br_Rr : nr R = nr A; br_Rc : nc R = nr A; br_Lr : nr L = nr A; br_Lc : nc L = nr A;
  br_R : meq (nr A) (nr A) (mmul (nr A) (ent A) (ent R)) (mmul (nr A) (ent R) (mdiag (at1 w)));
  br_L : meq (nr A) (nr A) (mmul (nr A) (madj (ent L)) (ent A))
             (mmul (nr A) (mdiag (at1 w)) (madj (ent L)));
  br_diag : forall i, i < nr A -> pairing (nr A) L R i i = 1;
  br_off : forall i j, i < nr A -> j < nr A -> at1 w i <> at1 w j -> pairing (nr A) L R i j = 0
}.

Section C17.
Context {F : sfield} (A L0 R0 : arr F) (w0 : list F).
Context (HC : eig_contract A w0 L0 R0).
Add Field C17field : (k_field F).
Notation n := (nr A).
Notation X := (pairing n L0 R0).

Lemma scales_at i : i < n ->
  at1 (diag_of (Arr n n (mmul n (madj (ent L0)) (ent R0)))) i = X i i.
Proof.
  intros Hi. unfold at1, diag_of. simpl. rewrite Nat.min_id.
  rewrite (nth_indep _ 0 (mmul n (madj (ent L0)) (ent R0) O O)) by (rewrite map_length, seq_length; lia).
  rewrite (map_nth (fun i => mmul n (madj (ent L0)) (ent R0) i i)), seq_nth by lia. reflexivity.
Qed.

Lemma dot_LR : dot (conj_T L0) R0 = Ok (Arr n n (mmul n (madj (ent L0)) (ent R0))).
Proof.
  unfold dot. simpl. rewrite (eig_Lr _ _ _ _ HC), (eig_Lc _ _ _ _ HC), (eig_Rr _ _ _ _ HC),
    (eig_Rc _ _ _ _ HC), Nat.eqb_refl. reflexivity.
Qed.

Lemma pairing_off (HX : forall i, i < n -> X i i <> 0) i j :
  i < n -> j < n -> at1 w0 i <> at1 w0 j -> X i j = 0.
Proof. apply (eig_off _ _ _ _ HC). Qed.
End C17.

Section C17'.
Context {F : sfield}.
Add Field C17field' : (k_field F).
(** The returned families are eigenvectors for the returned eigenvalues, one of
    them is LAPACK's own, paired vectors have product one and vectors of different
    eigenvalues are orthogonal. *)
Theorem C17_biorthogonal lapack (A L0 R0 : arr F) w0 :
  lapack A = Ok (w0, L0, R0) -> eig_contract A w0 L0 R0 ->
  (forall i, i < nr A -> pairing (nr A) L0 R0 i i <> 0) ->
  (exists L, eig_biorthog lapack A SLeft = Ok (w0, R0, L) /\ biorthog_result A w0 R0 L) /\
  (exists R, eig_biorthog lapack A SRight = Ok (w0, R, L0) /\ biorthog_result A w0 R L0).
Proof.
  intros HL HC HX. pose proof (pairing_off A L0 R0 w0 HC HX) as HO.
  pose proof (dot_LR A L0 R0 w0 HC) as HD.
  assert (HS := scales_at A L0 R0).
  pose proof (eig_R _ _ _ _ HC) as ER. pose proof (eig_L _ _ _ _ HC) as EL.
  rewrite mmul_diag_r in ER. rewrite mmul_diag_l in EL.
  set (s := diag_of (Arr (nr A) (nr A) (mmul (nr A) (madj (ent L0)) (ent R0)))) in *.
  assert (Ls : length s = nr A).
  { unfold s, diag_of. rewrite map_length, seq_length. simpl. lia. }
  assert (HSc : forall j, j < nr A -> at1 (map (kconj F) s) j = kconj F (pairing (nr A) L0 R0 j j)).
  { intros j Hj. rewrite at1_map by lia. rewrite HS by auto. reflexivity. }
  split.
  - exists (div_cols L0 (map (kconj F) s)). split.
    { unfold eig_biorthog. rewrite HL. cbn [rbind fst snd]. rewrite HD. reflexivity. }
    assert (EM : meq (nr A) (nr A) (madj (ent (div_cols L0 (map (kconj F) s))))
                  (fun i j => madj (ent L0) i j / pairing (nr A) L0 R0 i i)).
    { split. intros i j Hi Hj. unfold madj. simpl. rewrite HSc by auto.
      rewrite conj_div by (apply conj_neq_0; auto). rewrite conj_conj. reflexivity. }
    assert (EQ : forall (B : mat F) i j, i < nr A ->
      mmul (nr A) (madj (ent (div_cols L0 (map (kconj F) s)))) B i j
      = kinv F (pairing (nr A) L0 R0 i i) * mmul (nr A) (madj (ent L0)) B i j).
    { intros B i j Hi. unfold mmul at 1 2. rewrite <- sum_mul_l. apply sum_ext. intros k Hk.
      rewrite (meq_at _ _ _ _ EM i k Hi Hk). field. auto. }
    split; try apply HC.
    + rewrite mmul_diag_l. split. intros i j Hi Hj.
      rewrite EQ, (meq_at _ _ _ _ EL i j Hi Hj), (meq_at _ _ _ _ EM i j Hi Hj) by auto.
      field. auto.
    + intros i Hi. unfold pairing at 1. rewrite EQ by auto. apply inv_l, (HX i Hi).
    + intros i j Hi Hj Hw. unfold pairing at 1. rewrite EQ by auto.
      change (mmul (nr A) (madj (ent L0)) (ent R0) i j) with (pairing (nr A) L0 R0 i j).
      rewrite (HO i j Hi Hj Hw). ring.
  - exists (div_cols R0 s). split.
    { unfold eig_biorthog. rewrite HL. cbn [rbind fst snd]. rewrite HD. reflexivity. }
    assert (EM : meq (nr A) (nr A) (ent (div_cols R0 s))
                  (fun i j => ent R0 i j / pairing (nr A) L0 R0 j j)).
    { split. intros i j Hi Hj. simpl. rewrite HS by auto. reflexivity. }
    assert (EQ : forall (B : mat F) i j, j < nr A ->
      mmul (nr A) B (ent (div_cols R0 s)) i j
      = mmul (nr A) B (ent R0) i j * kinv F (pairing (nr A) L0 R0 j j)).
    { intros B i j Hj. unfold mmul at 1 2. rewrite <- sum_mul_r. apply sum_ext. intros k Hk.
      rewrite (meq_at _ _ _ _ EM k j Hk Hj). field. auto. }
    split; try apply HC.
    + rewrite mmul_diag_r. split. intros i j Hi Hj.
      rewrite EQ, (meq_at _ _ _ _ ER i j Hi Hj), (meq_at _ _ _ _ EM i j Hi Hj) by auto.
      field. auto.
    + intros i Hi. unfold pairing at 1. rewrite EQ by auto.
      change (mmul (nr A) (madj (ent L0)) (ent R0) i i) with (pairing (nr A) L0 R0 i i).
      field. auto.
    + intros i j Hi Hj Hw. unfold pairing at 1. rewrite EQ by auto.
      change (mmul (nr A) (madj (ent L0)) (ent R0) i j) with (pairing (nr A) L0 R0 i j).
      rewrite (HO i j Hi Hj Hw). ring.
Qed.
End C17'.

(** With pairwise distinct eigenvalues the hypothesis on the factors holds and
    the families are biorthonormal. *)
Theorem C17_distinct {F : sfield} lapack (A L0 R0 : arr F) w0 choice :
  lapack A = Ok (w0, L0, R0) -> eig_contract A w0 L0 R0 -> NoDup w0 -> choice <> SOther ->
  exists L R, eig_biorthog lapack A choice = Ok (w0, R, L) /\ biorthog_result A w0 R L /\
    meq (nr A) (nr A) (mmul (nr A) (madj (ent L)) (ent R)) mid.
Proof.
  intros HL HC ND Hc.
  assert (HD : distinct A w0).
  { intros i j Hi Hj Hij E. apply Hij.
    rewrite <- (eig_len _ _ _ _ HC) in Hi, Hj. apply (proj1 (NoDup_nth w0 0) ND); auto. }
  destruct (C17_biorthogonal lapack A L0 R0 w0 HL HC (eig_scale_nonzero _ _ _ _ HC HD))
    as [(L & E1 & B1) (R & E2 & B2)].
  assert (G : forall R L, biorthog_result A w0 R L ->
    meq (nr A) (nr A) (mmul (nr A) (madj (ent L)) (ent R)) mid).
  { intros R' L' B. split. intros i j Hi Hj. unfold mid. destruct (Nat.eqb_spec i j) as [<-|N].
    - apply (br_diag _ _ _ _ B); auto.
    - apply (br_off _ _ _ _ B); auto. }
  destruct choice; [exists L, R0|exists L0, R|contradiction]; auto.
Qed.

(** Any other scale choice: ValueError. *)
Theorem C17_bad_choice {F : sfield} lapack (A L0 R0 : arr F) w0 :
  lapack A = Ok (w0, L0, R0) -> eig_contract A w0 L0 R0 ->
  eig_biorthog lapack A SOther = Raise ValueError.
Proof.
  intros HL HC. unfold eig_biorthog. rewrite HL. cbn [rbind fst snd].
  rewrite (dot_LR _ _ _ _ HC). reflexivity.
Qed.

(** ** Instance: [[1, 3i], [0, 2]], eigenvectors of several lengths. *)
Definition ex_G : arr QI := of_rows 2 [[q 1; qi 0 3 1]; [q 0; q 2]].
Definition ex_gw : list QI := [q 1; q 2].
Definition ex_gR : arr QI := of_rows 2 [[q 1; qi 0 3 1]; [q 0; q 1]].
Definition ex_gL : arr QI := of_rows 2 [[q 2; q 0]; [qi 0 6 1; qi 0 5 1]].
Lemma ex_eig : eig_contract ex_G ex_gw ex_gL ex_gR.
Proof.
  split; try reflexivity.
  - apply meqb_true. vm_compute. reflexivity.
  - apply meqb_true. vm_compute. reflexivity.
  - intros j Hj. exists j. split; auto. simpl in Hj.
    destruct j as [|[|j]]; try lia; apply keqb_false; vm_compute; reflexivity.
  - intros j Hj. exists j. split; auto. simpl in Hj.
    destruct j as [|[|j]]; try lia; apply keqb_false; vm_compute; reflexivity.
Qed.
Example C17_example : exists L R,
  eig_biorthog (fun _ => Ok (ex_gw, ex_gL, ex_gR)) ex_G SLeft = Ok (ex_gw, R, L) /\
  biorthog_result ex_G ex_gw R L /\
  meq 2 2 (mmul 2 (madj (ent L)) (ent R)) mid.
Proof.
  apply (C17_distinct _ ex_G ex_gL ex_gR ex_gw); auto.
  - apply ex_eig.
  - constructor; [|constructor; [intros []|constructor]].
    intros [E|[]]. revert E. apply keqb_false. vm_compute. reflexivity.
  - discriminate.
Qed.

Example C17_biorthogonal_example :
  (exists L, eig_biorthog (fun _ => Ok (ex_gw, ex_gL, ex_gR)) ex_G SLeft = Ok (ex_gw, ex_gR, L) /\
     biorthog_result ex_G ex_gw ex_gR L) /\
  (exists R, eig_biorthog (fun _ => Ok (ex_gw, ex_gL, ex_gR)) ex_G SRight = Ok (ex_gw, R, ex_gL) /\
     biorthog_result ex_G ex_gw R ex_gL).
Proof.
  apply C17_biorthogonal; auto.
  - apply ex_eig.
  - intros i Hi. simpl in Hi.
    destruct i as [|[|i]]; try lia; apply keqb_false; vm_compute; reflexivity.
Qed.

Example C17_bad_choice_example :
  eig_biorthog (fun _ => Ok (ex_gw, ex_gL, ex_gR)) ex_G SOther = Raise ValueError.
Proof. apply (C17_bad_choice _ ex_G ex_gL ex_gR ex_gw); auto. apply ex_eig. Qed.

(** With a repeated eigenvalue the families need not be biorthogonal: LAPACK may
    return any basis of the eigenspace for either family (all scale factors being
    non-zero). *)
Theorem C17_repeated_refuted :
  ~ (forall (F : sfield) lapack (A L0 R0 : arr F) w0, lapack A = Ok (w0, L0, R0) ->
       eig_contract A w0 L0 R0 ->
       (forall i, i < nr A -> pairing (nr A) L0 R0 i i <> 0) ->
       exists L R, eig_biorthog lapack A SLeft = Ok (w0, R, L) /\
         meq (nr A) (nr A) (mmul (nr A) (madj (ent L)) (ent R)) mid).
Proof.
  intros H.
  set (L0 := of_rows 2 [[q 1; qi 3 0 5]; [q 0; qi 4 0 5]] : arr QI).
  specialize (H QI (fun _ => Ok ([q 1; q 1], L0, eye 2)) (eye 2) L0 (eye 2) [q 1; q 1] eq_refl).
  destruct H as (L & R & E & G).
  - split; try reflexivity; try (apply meqb_true; vm_compute; reflexivity).
    + intros j Hj. exists j. split; auto. simpl in Hj.
      destruct j as [|[|j]]; try lia; apply keqb_false; vm_compute; reflexivity.
    + intros j Hj. exists j. split; auto. simpl in Hj.
      destruct j as [|[|j]]; try lia; apply keqb_false; vm_compute; reflexivity.
  - intros i Hi. simpl in Hi.
    destruct i as [|[|i]]; try lia; apply keqb_false; vm_compute; reflexivity.
  - pose proof (meq_at _ _ _ _ G 1%nat 0%nat ltac:(simpl; lia) ltac:(simpl; lia)) as G'.
    injection E as <- <-. revert G'. apply keqb_false. vm_compute. reflexivity.
Qed.

Print Assumptions C15_truncated_svd.
Print Assumptions C15_empty.
Print Assumptions C15_lapack_error.
Print Assumptions C16_truncated_eigh.
Print Assumptions C16_positive.
Print Assumptions C16_no_tolerance_negative.
Print Assumptions C16_empty.
Print Assumptions C16_zero_kept.
Print Assumptions C17_biorthogonal.
Print Assumptions C17_distinct.
Print Assumptions C17_bad_choice.
Print Assumptions C17_repeated_refuted.
