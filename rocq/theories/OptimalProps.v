(** Property C47: the leading POD modes approximate the data best. *)
From Coq Require Import List Arith Lia Bool ZArith Field Ring Setoid Morphisms Permutation.
Import ListNotations.
From Verif Require Import Prelude Field FieldInst Matrix NdArray DecompModel DecompProofs
  DecompProps VSArraysModel VSArraysProofs VSArraysProps PodModel PodProofs PodProps OptimalProofs.
Open Scope nat_scope.
Open Scope k_scope.

(** Sum of the squared weighted distances of the columns of [A] from those of [X]. *)
Definition error {F : sfield} (n N : nat) (W X A : mat F) : F :=
  sum N (fun j => sum n (fun a => (X a j - A a j)^* * sum n (fun b => W a b * (X b j - A b j)))).

(** The first [r] modes with their coefficients are at least as close to the data as any
    combinations of any [r] vectors, and their error is the sum of the eigenvalues left out;
    [w] are all eigenvalues of the correlation array, largest first. *)
Record best {F : sfield} (X : arr F) (W : mat F) (w : list F) (Phi coeffs : arr F) (r : nat) : Prop := {
  best_error : error (nr X) (nc X) W (ent X) (mmul r (ent Phi) (ent coeffs))
    = sum (length w - r) (fun i => at1 w (r + i));
  best_of_all : forall A B, kle (error (nr X) (nc X) W (ent X) (mmul r (ent Phi) (ent coeffs)))
    (error (nr X) (nc X) W (ent X) (mmul r A B))
}.

(** All eigenvalues of the correlation array, in the order LAPACK gave them and sorted. *)
Record spectrum {F : sfield} (X : arr F) (W : mat F) (V : mat F) (w0 w : list F) : Prop := {
  sp_orth : meq (length w0) (length w0) (mmul (nc X) (madj V) V) mid;
  sp_eq : meq (nc X) (nc X) (wip (nr X) W (ent X) (ent X))
            (mmul (length w0) V (mmul (length w0) (mdiag (at1 w0)) (madj V)));
  sp_perm : Permutation w w0;
  sp_sorted : abs_decreasing w
}.

Section Core.
Context {F : sfield}.
Add Field OptPropField : (k_field F).
Context (sqrt : F -> F) (X : arr F) (W V : mat F) (w0 w vals : list F) (Phi coeffs vecs : arr F).
Context (HW : positive (nr X) W) (HS : spectrum X W V w0 w)
  (HP : pod_spec sqrt X W vals Phi coeffs vecs)
  (Hv : vals = firstn (length vals) w)
  (Hsq : forall i, i < length vals -> sqrt_ok sqrt (at1 vals i)).
Notation n := (nr X).
Notation N := (nc X).
Notation k := (length vals).
Notation ip := (wip n W).

Lemma w0_real i : i < length w0 -> real (at1 w0 i).
Proof.
  apply (data_w_real n W HW N (length w0) (ent X) V (at1 w0)); apply HS.
Qed.
Lemma w0_nonneg i : i < length w0 -> kle 0 (at1 w0 i).
Proof.
  apply (data_w_nonneg n W HW N (length w0) (ent X) V (at1 w0)); apply HS.
Qed.
Lemma w_in i : i < length w -> exists j, j < length w0 /\ at1 w i = at1 w0 j.
Proof.
  intros Hi. assert (G : In (at1 w i) w0).
  { rewrite <- (sp_perm _ _ _ _ _ HS). apply nth_In. auto. }
  destruct (In_nth _ _ 0 G) as (j & Hj & Ej). exists j. split; auto.
Qed.
Lemma w_real i : i < length w -> real (at1 w i).
Proof. intros Hi. destruct (w_in i Hi) as (j & Hj & ->). apply w0_real; auto. Qed.
Lemma w_nonneg i : i < length w -> kle 0 (at1 w i).
Proof. intros Hi. destruct (w_in i Hi) as (j & Hj & ->). apply w0_nonneg; auto. Qed.
Lemma w_sorted i j : i <= j -> j < length w -> kle (at1 w j) (at1 w i).
Proof.
  intros Hij Hj. pose proof (sp_sorted _ _ _ _ _ HS i j Hij Hj) as G.
  rewrite !kabs_pos in G; auto; try (apply w_real; lia); apply w_nonneg; lia.
Qed.
Lemma k_le : k <= length w.
Proof.
  assert (E : k = length (firstn k w)) by congruence. rewrite firstn_length in E. lia.
Qed.
Lemma vals_w i : i < k -> at1 vals i = at1 w i.
Proof. intros Hi. rewrite Hv. apply at1_firstn. auto. Qed.
Lemma vals_real i : i < k -> real (at1 vals i).
Proof. intros Hi. rewrite vals_w by auto. apply w_real. pose proof k_le. lia. Qed.

Lemma mode_energy i : i < k ->
  kle (at1 vals i) (sum N (fun j => (ip (ent Phi) (ent X) i j)^* * ip (ent Phi) (ent X) i j)).
Proof.
  intros Hi. set (P := ip (ent Phi) (ent X)).
  set (e := sum N (fun j => (P i j)^* * P i j)).
  assert (He : kle 0 e) by (apply sum_nonneg; intros; [apply real_norm|apply le_norm]).
  destruct (k_dec F (at1 vals i) 0) as [E0|N0]; [rewrite E0; exact He|]. right.
  set (s := sqrt (at1 vals i)). destruct (Hsq i Hi) as (Rs & _ & Es). fold s in Rs, Es.
  assert (EP : forall j, j < N -> s * P i j = at1 vals i * (ent vecs j i)^*).
  { intros j Hj.
    assert (G : meq k N (mmul k (madj (mdiag (fun i => sqrt (at1 vals i)))) P)
                  (mmul k (madj (mdiag (at1 vals))) (madj (ent vecs)))).
    { unfold P. rewrite <- wip_mul_l, (ps_modes _ _ _ _ _ _ _ HP), wip_mul_l.
      rewrite <- (wip_adj N N n W (ent X) (ent X) (proj1 HW)) at 1.
      rewrite <- madj_mmul, (ps_eig _ _ _ _ _ _ _ HP), madj_mmul. reflexivity. }
    rewrite !madj_diag in G. rewrite !mmul_diag_l in G.
    pose proof (meq_at _ _ _ _ G i j Hi Hj) as G'. cbv beta in G'.
    rewrite (vals_real i Hi) in G'. fold s in G'. rewrite Rs in G'. exact G'. }
  assert (E1 : s * s * e = at1 vals i * at1 vals i).
  { unfold e. rewrite <- sum_mul_l.
    rewrite (sum_ext N _ (fun j => at1 vals i * at1 vals i * ((ent vecs j i)^* * ent vecs j i))).
    - rewrite sum_mul_l. pose proof (meq_at _ _ _ _ (ps_vorth _ _ _ _ _ _ _ HP) i i Hi Hi) as G.
      unfold mmul, madj, mid in G. rewrite Nat.eqb_refl in G. rewrite G. ring.
    - intros j Hj. transitivity ((s * P i j)^* * (s * P i j)).
      + rewrite conj_mul, Rs. ring.
      + rewrite EP by auto. rewrite conj_mul, conj_conj, (vals_real i Hi). ring. }
  rewrite Es in E1. 
  transitivity (kinv F (at1 vals i) * (at1 vals i * at1 vals i)); [field; auto|].
  rewrite <- E1. field. auto.
Qed.

Lemma sum_w_split r : r <= length w ->
  energy n W N (ent X) = sum r (at1 w) + sum (length w - r) (fun i => at1 w (r + i)%nat).
Proof.
  intros Hr. rewrite (energy_data n W N (length w0) (ent X) V (at1 w0)) by apply HS.
  transitivity (sum (length w) (at1 w));
    [symmetry; exact (sum_perm (fun x => x) w w0 (sp_perm _ _ _ _ _ HS))|].
  rewrite <- sum_split. f_equal. lia.
Qed.

Lemma lower_bound r A B : r <= length w ->
  kle (sum (length w - r) (fun i => at1 w (r + i)%nat)) (energy n W N (msub (ent X) (mmul r A B))).
Proof.
  intros Hr. destruct r as [|r].
  - right. assert (E : meq n N (msub (ent X) (mmul 0 A B)) (ent X)).
    { split. intros i j Hi Hj. unfold msub, mmul. simpl. ring. }
    rewrite (energy_ext n W N _ _ E), (sum_w_split 0) by lia. simpl. ring.
  - pose proof (approximation_bound n W HW N (length w0) (ent X) V (at1 w0)
      (sp_orth _ _ _ _ _ HS) (sp_eq _ _ _ _ _ HS) (S r) A B (at1 w r)
      (w_real r Hr) (w_nonneg r Hr)) as G.
    rewrite <- (sum_perm (fun x => pos (x - at1 w r)) w w0 (sp_perm _ _ _ _ _ HS)) in G.
    rewrite (sorted_level (at1 w) (length w) r Hr) in G; [|apply w_real|apply w_sorted].
    rewrite (sum_w_split (S r) Hr) in G.
    match type of G with kle ?x _ => match goal with |- kle ?y _ => replace y with x by ring end end.
    exact G.
Qed.

Lemma pod_error r : r <= k ->
  kle (energy n W N (msub (ent X) (mmul r (ent Phi) (ent coeffs))))
      (sum (length w - r) (fun i => at1 w (r + i)%nat)).
Proof.
  intros Hr. pose proof k_le as Hk.
  assert (HQ : meq r r (ip (ent Phi) (ent Phi)) (mdiag (fun _ => 1))).
  { rewrite (mdiag_1 r) by auto.
    apply (meq_sub k k); auto. apply (ps_orth _ _ _ _ _ _ _ HP). }
  assert (E1 : pinv (1 : F) = 1).
  { rewrite <- (pinv_l 1 one_neq_zero) at 2. ring. }
  assert (E : meq n N (msub (ent X) (mmul r (ent Phi) (ent coeffs)))
                (residual n W r (ent Phi) (fun _ => 1) (ent X))).
  { unfold residual. rewrite (mdiag_1 r) by auto. rewrite mmul_id_l.
    rewrite (meq_sub k N r N _ _ Hr (Nat.le_refl _) (ps_coeffs _ _ _ _ _ _ _ HP)). reflexivity. }
  rewrite (energy_ext n W N _ _ E).
  assert (EE : energy n W N (residual n W r (ent Phi) (fun _ => 1) (ent X))
     = energy n W N (ent X) - sum r (fun i => sum N (fun j =>
         (ip (ent Phi) (ent X) i j)^* * ip (ent Phi) (ent X) i j))).
  { rewrite sum_swap. unfold energy. rewrite <- sum_sub. apply sum_ext. intros j Hj.
    rewrite (residual_at n W HW r (ent Phi) _ HQ). f_equal. unfold captured.
    apply sum_ext. intros i Hi. rewrite E1. ring. }
  rewrite EE, (sum_w_split r) by lia.
  assert (R1 : real (sum r (at1 w))) by (apply sum_real; intros; apply w_real; lia).
  assert (R2 : real (sum (length w - r) (fun i => at1 w (r + i)%nat))).
  { apply sum_real; intros; apply w_real; lia. }
  set (c := sum r (fun i => sum N (fun j => (ip (ent Phi) (ent X) i j)^* * ip (ent Phi) (ent X) i j))).
  assert (R3 : real c).
  { apply sum_real. intros. apply sum_real. intros. apply real_norm. }
  assert (G : kle (sum r (at1 w)) c).
  { apply sum_le.
    - intros. apply w_real; lia.
    - intros. apply sum_real. intros. apply real_norm.
    - intros i Hi. rewrite <- vals_w by lia. apply mode_energy. lia. }
  apply le_sub_2; auto using real_add, real_sub. apply le_sub_1 in G; auto.
  match type of G with kle 0 ?x => match goal with |- kle 0 ?y => replace y with x by ring end end.
  exact G.
Qed.

Theorem pod_best r : r <= k -> best X W w Phi coeffs r.
Proof.
  intros Hr. pose proof k_le as Hk.
  assert (E : error n N W (ent X) (mmul r (ent Phi) (ent coeffs))
     = sum (length w - r) (fun i => at1 w (r + i)%nat)).
  { apply le_antisym.
    - apply energy_real; auto.
    - apply sum_real; intros; apply w_real; lia.
    - apply pod_error; auto.
    - apply lower_bound. lia. }
  split; auto. intros A B. rewrite E. apply lower_bound. lia.
Qed.
End Core.

Lemma eigh_spectrum {F : sfield} (X C V0 : arr F) (W : mat F) (w0 w : list F) :
  nr C = nc X -> meq (nc X) (nc X) (ent C) (wip (nr X) W (ent X) (ent X)) ->
  eigh_contract C w0 V0 -> Permutation w w0 -> abs_decreasing w ->
  spectrum X W (ent V0) w0 w.
Proof.
  intros Cr EC HC HP HS. destruct HC as [Hsq Hl Hr Hc HV HE HR]. rewrite Cr in *.
  split; auto; rewrite Hl; auto.
  rewrite <- EC. rewrite <- mmul_assoc, <- HE, mmul_assoc.
  rewrite (left_inverse_right (nc X) (ent V0) (madj (ent V0)) HV), mmul_id_r. reflexivity.
Qed.

(** * C47: the method of snapshots *)
Theorem C47_POD_snaps {F : sfield} eigh_lapack argsort sqrt (X : arr F) wopt ws idx (t : F) rtol
    C w0 V0 :
  set_weights wopt = Ok ws -> wfits (nr X) ws -> positive (nr X) (wmat ws) ->
  symm_inner_product_array ws X = Ok C ->
  eigh_lapack C = Ok (w0, V0) -> eigh_contract C w0 V0 ->
  argsort_contract (map kabs w0) (argsort (map kabs w0)) ->
  real t -> kle 0 t -> tol_real rtol -> (0 < nc X)%nat ->
  (forall e, In e w0 -> klt_p 0 e -> sqrt_ok sqrt e) ->
  exists Phi vals vecs coeffs w,
    pod_returns (POD_snaps eigh_lapack argsort sqrt false X idx wopt (Some t) rtol) idx
      Phi vals coeffs vecs (Some C) /\
    Permutation w w0 /\ vals = firstn (length vals) w /\
    forall r, r <= length vals -> best X (wmat ws) w Phi coeffs r.
Proof.
  intros Ew Hf HW EC HL HC HS Rt Ht Hr HN Hsq.
  destruct (C19_POD_snaps eigh_lapack argsort sqrt X wopt ws idx t rtol C w0 V0 Ew Hf (proj1 HW)
    EC HL HC HS Rt Ht Hr HN Hsq) as (Phi & vals & vecs & coeffs & atol' & w & H1 & H2 & H3 & H4 & H5 & _).
  destruct (ip_ok ws X X eq_refl Hf) as (C' & EC' & Cr & Cc & CE).
  unfold symm_inner_product_array in EC. rewrite EC' in EC. injection EC as ->.
  exists Phi, vals, vecs, coeffs, w. split; auto.
  split; [apply (er_perm _ _ _ _ _ _ _ H3)|]. split; [apply (er_prefix _ _ _ _ _ _ _ H3)|].
  intros r Hk. apply (pod_best sqrt X (wmat ws) (ent V0) w0 w vals Phi coeffs vecs); auto.
  - apply (eigh_spectrum X C); auto; [apply (er_perm _ _ _ _ _ _ _ H3)|apply (er_sorted _ _ _ _ _ _ _ H3)].
  - apply (er_prefix _ _ _ _ _ _ _ H3).
  - intros i Hi. apply Hsq.
    + rewrite <- (er_perm _ _ _ _ _ _ _ H3). apply prefix_in; auto. apply (er_prefix _ _ _ _ _ _ _ H3).
    + apply (Forall_at (klt_p 0)); auto.
Qed.

Section DirectBest.
Context {F : sfield}.
Add Field OptDirectField : (k_field F).

Lemma positive_root n (R W : mat F) : meq n n (mmul n (madj R) R) W -> positive n W.
Proof.
  intros HR.
  assert (Q : forall v : nat -> F, sum n (fun a => (v a)^* * sum n (fun b => W a b * v b))
    = sum n (fun l => (sum n (fun b => R l b * v b))^* * sum n (fun b => R l b * v b))).
  { intros v. set (vm := (fun a _ => v a) : mat F).
    assert (G : meq 1 1 (wip n W vm vm) (mmul n (madj (mmul n R vm)) (mmul n R vm))).
    { unfold wip. rewrite <- HR, madj_mmul, !mmul_assoc. reflexivity. }
    exact (meq_at _ _ _ _ G 0%nat 0%nat Nat.lt_0_1 Nat.lt_0_1). }
  split.
  - unfold hermitian. rewrite <- HR, madj_mmul, madj_madj. reflexivity.
  - intros v. rewrite Q. apply sum_nonneg; intros; [apply real_norm|apply le_norm].
Qed.

Lemma svd_spectrum (X U0 V0 : arr F) (R W : mat F) S0 :
  meq (nr X) (nr X) (mmul (nr X) (madj R) R) W ->
  svd_contract (Arr (nr X) (nc X) (mmul (nr X) R (ent X))) U0 S0 V0 ->
  spectrum X W (madj (ent V0)) (map (fun s => s * s) S0) (map (fun s => s * s) S0).
Proof.
  intros HR [H1 H2 H3 H4 H5 H6 H7 H8 H9 H10 H11]. cbn [nr nc ent] in *.
  assert (Er : forall i, i < length S0 -> real (at1 S0 i)) by (intros; apply all_real_at; auto).
  split; rewrite ?map_length; auto.
  - assert (EC : meq (nc X) (nc X) (wip (nr X) W (ent X) (ent X))
       (mmul (nr X) (madj (mmul (nr X) R (ent X))) (mmul (nr X) R (ent X)))).
    { unfold wip. rewrite <- HR, madj_mmul, !mmul_assoc. reflexivity. }
    rewrite EC, H8, !madj_mmul, madj_diag_real by auto.
    rewrite !mmul_assoc. rewrite <- (mmul_assoc _ _ (nr X) (length S0) (madj (ent U0)) (ent U0)).
    rewrite H6, mmul_id_l. rewrite <- (mmul_assoc _ _ (length S0) (length S0) (mdiag (at1 S0)) (mdiag (at1 S0))).
    rewrite mmul_diag_diag, madj_madj.
    rewrite (mdiag_ext (length S0) (at1 (map (fun s => s * s) S0)) (fun i => at1 S0 i * at1 S0 i)).
    + reflexivity.
    + intros i Hi. rewrite at1_map; auto.
  - intros i j Hij Hj. rewrite map_length in Hj. rewrite !at1_map by lia.
    assert (Pi : forall a, a < length S0 -> kle 0 (at1 S0 a)) by (intros; apply (Forall_at (kle 0)); auto).
    rewrite !kabs_pos; try (apply real_mul; apply Er; lia); try (apply le_0_mul; (apply Er || apply Pi); lia).
    assert (G : kle (at1 S0 j) (at1 S0 i)) by (apply H11; auto).
    apply le_sub_2; try (apply real_mul; apply Er; lia).
    replace (at1 S0 i * at1 S0 i - at1 S0 j * at1 S0 j)
      with ((at1 S0 i - at1 S0 j) * (at1 S0 i + at1 S0 j)) by ring.
    apply le_0_mul.
    + apply real_sub; apply Er; lia.
    + apply real_add; apply Er; lia.
    + apply le_sub_1; auto; apply Er; lia.
    + apply le_0_add; try (apply Er; lia); apply Pi; lia.
Qed.

Definition direct_best (X : arr F) (W : mat F) (S0 : list F) idx (r : res (pod_results F)) : Prop :=
  exists Phi S coeffs vecs, pod_returns r idx Phi (map (fun s => s * s) S) coeffs vecs None /\
    S = firstn (length S) S0 /\
    forall q, q <= length S -> best X W (map (fun s => s * s) S0) Phi coeffs q.

Lemma direct_best_intro sqrt (X U0 V0 : arr F) (R W : mat F) S0 atol rtol idx r :
  meq (nr X) (nr X) (mmul (nr X) (madj R) R) W ->
  svd_contract (Arr (nr X) (nc X) (mmul (nr X) R (ent X))) U0 S0 V0 ->
  (forall s, In s S0 -> sqrt_ok sqrt (s * s)) ->
  direct_ok sqrt X W S0 atol rtol idx r -> direct_best X W S0 idx r.
Proof.
  intros HR HC Hsq (Phi & S & coeffs & vecs & H1 & H2 & H3 & H4 & _).
  exists Phi, S, coeffs, vecs. split; auto. split; auto. intros q Hq.
  apply (pod_best sqrt X W (madj (ent V0)) (map (fun s => s * s) S0) (map (fun s => s * s) S0)
    (map (fun s => s * s) S) Phi coeffs vecs); auto.
  - apply (positive_root _ R); auto.
  - apply (svd_spectrum X U0 V0 R); auto.
  - rewrite map_length. rewrite H2 at 1. rewrite firstn_map. reflexivity.
  - rewrite map_length. intros i Hi. rewrite at1_map by auto. apply Hsq. apply prefix_in; auto.
  - rewrite map_length. auto.
Qed.
End DirectBest.

(** * C47: the direct method *)
Theorem C47_POD_direct_no_weights {F : sfield} svd_lapack chol inv sqrt (X U0 V0 : arr F) S0 idx atol rtol :
  svd_lapack X = Ok (U0, S0, V0) -> svd_contract X U0 S0 V0 ->
  tol_real atol -> tol_real rtol -> rtol = None \/ S0 <> [] ->
  (forall s, In s S0 -> sqrt_ok sqrt (s * s)) ->
  direct_best X mid S0 idx (POD_direct svd_lapack chol inv sqrt false X idx None atol rtol).
Proof.
  intros HL HC Ha Hr Hne Hsq.
  apply (direct_best_intro sqrt X U0 V0 mid mid S0 atol rtol idx); auto.
  - rewrite madj_mid, mmul_id_l. reflexivity.
  - destruct HC as [H1 H2 H3 H4 H5 H6 H7 H8 H9 H10 H11]. split; cbn [nr nc ent]; auto.
    rewrite mmul_id_l. auto.
  - apply C20_POD_direct_no_weights with (1 := HL) (2 := HC); auto.
Qed.

Theorem C47_POD_direct_1D {F : sfield} svd_lapack chol inv sqrt (X U0 V0 : arr F) S0 w idx atol rtol Xw :
  length w = nr X -> (forall x, In x w -> sqrt_ok sqrt x /\ x <> 0) ->
  dot (diag (map sqrt w)) X = Ok Xw ->
  svd_lapack Xw = Ok (U0, S0, V0) -> svd_contract Xw U0 S0 V0 ->
  tol_real atol -> tol_real rtol -> rtol = None \/ S0 <> [] ->
  (forall s, In s S0 -> sqrt_ok sqrt (s * s)) ->
  direct_best X (mdiag (at1 w)) S0 idx
    (POD_direct svd_lapack chol inv sqrt false X idx (Some (Nd [length w] w)) atol rtol).
Proof.
  intros Lw Hw EX HL HC Ha Hr Hne Hsq.
  assert (Hw' : forall i, i < nr X -> sqrt_ok sqrt (at1 w i) /\ at1 w i <> 0).
  { intros i Hi. apply Hw. apply nth_In. lia. }
  set (R := mdiag (at1 (map sqrt w))).
  apply (direct_best_intro sqrt X U0 V0 R (mdiag (at1 w)) S0 atol rtol idx); auto.
  - unfold R. rewrite madj_diag_real.
    + rewrite mmul_diag_diag. apply mdiag_ext. intros i Hi. rewrite at1_map by lia.
      destruct (Hw' i Hi) as [(_ & _ & H) _]. auto.
    + intros i Hi. rewrite at1_map by lia. destruct (Hw' i Hi) as [(H & _ & _) _]. auto.
  - assert (EX' : dot (diag (map sqrt w)) X = Ok (Arr (nr X) (nc X) (mmul (nr X) R (ent X)))).
    { unfold dot, diag. cbn [nr nc ent]. rewrite map_length, Lw, Nat.eqb_refl. reflexivity. }
    rewrite EX in EX'. injection EX' as EX'. rewrite <- EX'. exact HC.
  - apply C20_POD_direct_1D with (U0 := U0) (V0 := V0) (Xw := Xw); auto.
Qed.

Theorem C47_POD_direct_2D {F : sfield} svd_lapack chol inv sqrt (X U0 V0 : arr F) S0 w idx atol rtol L T Xw :
  chol (as_2d (nr X) (nr X) w) = Ok L -> cholesky_contract (as_2d (nr X) (nr X) w) L ->
  inv (conj_T L) = Ok T -> inv_contract (conj_T L) T ->
  dot (conj_T L) X = Ok Xw ->
  svd_lapack Xw = Ok (U0, S0, V0) -> svd_contract Xw U0 S0 V0 ->
  tol_real atol -> tol_real rtol -> rtol = None \/ S0 <> [] ->
  (forall s, In s S0 -> sqrt_ok sqrt (s * s)) ->
  direct_best X (ent (as_2d (nr X) (nr X) w)) S0 idx
    (POD_direct svd_lapack chol inv sqrt false X idx (Some (Nd [nr X; nr X] w)) atol rtol).
Proof.
  intros EL HCh ET HInv EX HL HC Ha Hr Hne Hsq.
  pose proof HCh as (Lr & Lc & _ & LE). pose proof HInv as (Tr & Tc & _ & TE).
  cbn [nr nc as_2d] in Lr, Lc, LE. cbn [nr nc ent conj_T] in Tr, Tc, TE. rewrite Lc in Tr, Tc, TE.
  apply (direct_best_intro sqrt X U0 V0 (madj (ent L)) _ S0 atol rtol idx); auto.
  - rewrite madj_madj. exact LE.
  - assert (EX' : dot (conj_T L) X = Ok (Arr (nr X) (nc X) (mmul (nr X) (madj (ent L)) (ent X)))).
    { unfold dot, conj_T. cbn [nr nc ent]. rewrite Lr, Lc, Nat.eqb_refl. reflexivity. }
    rewrite EX in EX'. injection EX' as EX'. rewrite <- EX'. exact HC.
  - apply C20_POD_direct_2D with (U0 := U0) (V0 := V0) (Xw := Xw) (L := L) (T := T); auto.
Qed.

(** ** Instances *)
Lemma ex_positive : positive 2 (mdiag (at1 [qi 4 0 1; qi 1 0 1])).
Proof.
  apply (positive_root 2 (mdiag (at1 [qi 2 0 1; qi 1 0 1]))). apply meqb_true; vm_compute; reflexivity.
Qed.
Example C47_example_snaps :
  (exists Phi vals vecs coeffs w,
    pod_returns (POD_snaps (fun _ => Ok (ex_cw, ex_cV)) (fun _ => [0; 1]%nat) ex_sqrt false ex_D
      (Some [1; -2]%Z) ex_dw (Some (qi 1 0 1000)) None) (Some [1; -2]%Z)
      Phi vals coeffs vecs (Some ex_C) /\
    Permutation w ex_cw /\ vals = firstn (length vals) w /\
    forall r, r <= length vals -> best ex_D (wmat (W1 [qi 4 0 1; qi 1 0 1])) w Phi coeffs r).
Proof.
  apply (C47_POD_snaps _ _ ex_sqrt ex_D ex_dw (W1 [qi 4 0 1; qi 1 0 1]) (Some [1; -2]%Z)
    (qi 1 0 1000) None ex_C ex_cw ex_cV); auto.
  - reflexivity.
  - apply ex_positive.
  - apply ex_C_contract.
  - split; try reflexivity.
    + repeat constructor; simpl; lia.
    + repeat constructor; simpl; lia.
    + intros i j Hij Hj. simpl in Hj. destruct i as [|[|i]]; destruct j as [|[|j]]; try lia;
        try (left; vm_compute; reflexivity); right; reflexivity.
  - apply keqb_true. vm_compute. reflexivity.
  - left. vm_compute. reflexivity.
  - exact I.
  - simpl. lia.
  - intros e [<-|[<-|[]]] _; apply sq_ok_dec; vm_compute; reflexivity.
Qed.

(** The same data: one mode leaves the error 1, the eigenvalue left out; the second mode
    alone would leave 4, multiples of the first datum more than 1, nothing 5. *)
Example C47_example_errors :
  let W := mdiag (at1 [qi 4 0 1; qi 1 0 1]) in
  match POD_snaps (fun _ => Ok (ex_cw, ex_cV)) (fun _ => [0; 1]%nat) ex_sqrt false ex_D
      None ex_dw (Some (qi 1 0 1000)) None with
  | Ok r =>
      let err A B := error 2 2 W (ent ex_D) (mmul 1 A B) in
      let m := ent (p_modes r) in let c := ent (p_coeffs r) in
      keqb (err m c) (qi 1 0 1)
      && keqb (err (mcols m S) (fun i j => c (S i) j)) (qi 4 0 1)
      && klt QI (err m c) (err (ent ex_D) (fun _ j => if (j =? 0)%nat then qi 1 0 1 else qi 0 (-36) 52))
      && keqb (error 2 2 W (ent ex_D) (mmul 0 m c)) (qi 5 0 1)
      && keqb (error 2 2 W (ent ex_D) (mmul 2 m c)) (qi 0 0 1)
  | Raise _ => false
  end = true.
Proof. vm_compute. reflexivity. Qed.

Example C47_example_1D : forall chol inv,
  direct_best ex_D (mdiag (at1 [qi 4 0 1; qi 1 0 1])) [qi 2 0 1; qi 1 0 1] None
    (POD_direct (fun _ => Ok (eye 2, [qi 2 0 1; qi 1 0 1], ex_D)) chol inv ex_sqrt false ex_D None ex_dw
       (Some (qi 1 0 10)) None).
Proof.
  intros chol inv. apply (C47_POD_direct_1D _ chol inv ex_sqrt ex_D (eye 2) ex_D
    [qi 2 0 1; qi 1 0 1] [qi 4 0 1; qi 1 0 1]) with (Xw := ex_Xw); auto.
  - intros x [<-|[<-|[]]]; (split; [apply sq_ok_dec|apply keqb_false]); vm_compute; reflexivity.
  - apply ex_Xw_contract.
  - apply keqb_true. vm_compute. reflexivity.
  - exact I.
  - intros s [<-|[<-|[]]]; apply sq_ok_dec; vm_compute; reflexivity.
Qed.
Example C47_example_no_weights : forall chol inv,
  direct_best ex_Xw mid [qi 2 0 1; qi 1 0 1] (Some [-1]%Z)
    (POD_direct (fun _ => Ok (eye 2, [qi 2 0 1; qi 1 0 1], ex_D)) chol inv ex_sqrt false ex_Xw (Some [-1]%Z)
       None None (Some (qi 2 0 3))).
Proof.
  intros chol inv. apply (C47_POD_direct_no_weights _ chol inv ex_sqrt ex_Xw (eye 2) ex_D
    [qi 2 0 1; qi 1 0 1]); auto.
  - apply ex_Xw_contract.
  - exact I.
  - apply keqb_true. vm_compute. reflexivity.
  - right. discriminate.
  - intros s [<-|[<-|[]]]; apply sq_ok_dec; vm_compute; reflexivity.
Qed.
Example C47_example_2D :
  direct_best ex_X2 (ent (as_2d 2 2 ex_W2)) [qi 2 0 1; qi 1 0 1] None
    (POD_direct (fun _ => Ok (eye 2, [qi 2 0 1; qi 1 0 1], ex_D)) (fun _ => Ok ex_L) (fun _ => Ok ex_T)
       ex_sqrt false ex_X2 None (Some (Nd [2; 2]%nat ex_W2)) (Some (qi 1 0 1)) None).
Proof.
  apply (C47_POD_direct_2D _ _ _ ex_sqrt ex_X2 (eye 2) ex_D [qi 2 0 1; qi 1 0 1] ex_W2 None
    (Some (qi 1 0 1)) None ex_L ex_T ex_Xw2); auto.
  - repeat (split; [reflexivity|]). apply meqb_true. vm_compute. reflexivity.
  - repeat (split; [reflexivity|]). apply meqb_true. vm_compute. reflexivity.
  - split; try reflexivity; try (apply meqb_true; vm_compute; reflexivity).
    + repeat constructor; apply keqb_true; vm_compute; reflexivity.
    + repeat constructor; vm_compute; reflexivity.
    + intros i j Hij Hj. simpl in Hj.
      destruct i as [|[|i]]; destruct j as [|[|j]]; try lia;
        try (left; vm_compute; reflexivity); right; reflexivity.
  - apply keqb_true. vm_compute. reflexivity.
  - exact I.
  - intros s [<-|[<-|[]]]; apply sq_ok_dec; vm_compute; reflexivity.
Qed.

Print Assumptions C47_POD_snaps.
Print Assumptions C47_POD_direct_no_weights.
Print Assumptions C47_POD_direct_1D.
Print Assumptions C47_POD_direct_2D.
