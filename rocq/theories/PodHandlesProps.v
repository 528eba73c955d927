(** Property C19 for the class PODHandles, on any number of processes. *)
From stdpp Require Import gmap list.
From Coq Require Import ZArith Lia Field Ring Setoid Morphisms.
From Verif Require Import Prelude Field FieldInst Matrix NdArray DecompModel DecompProofs DecompProps
  VSArraysModel VSArraysProofs PodModel PodProofs PodProps DmdModel DmdProofs DmdCore DmdSnaps Spmd LinCombModel InnerProdProps
  HandlesModel HandlesProofs HandlesSpace HandlesExamples PodHandlesModel TlsExamples DmdExamples.
Open Scope nat_scope.
Open Scope k_scope.

(** Decompose, build modes, project: the documented usage. *)
Definition POD_session {F : sfield} eigh_lapack argsort sqrt (o : pod_obj F) vecs atol rtol idx modes
    : hprog F (pod_obj F * arr F) :=
  (o <== POD_decomp eigh_lapack argsort o vecs atol rtol ;
   o <== POD_compute_modes sqrt o (Some (Cols idx)) modes None ;
   POD_proj_coeffs sqrt o)%h.

Lemma map_nth_seq (l : list nat) : map (fun a => nth a l O) (seq 0 (length l)) = l.
Proof.
  apply list_eq. intros i. rewrite list_lookup_fmap. destruct (decide (i < length l)).
  - rewrite lookup_seq_lt by auto. simpl.
    destruct (lookup_lt_is_Some_2 l i) as [x E]; auto. rewrite (nth_lookup_Some _ _ O _ E), E. reflexivity.
  - rewrite (lookup_ge_None_2 (seq 0 (length l))) by (rewrite seq_length; lia).
    rewrite lookup_ge_None_2 by lia. reflexivity.
Qed.

Section Pod.
Context {F : sfield} {V : Type} (S : space F V) (HS : ip_space S).
Add Field Ff_podh : (k_field F).

(** What the modes of [vs] in [modes] are: [js] numbers the modes asked for, [E] and [U]
    are the eigenvalues and eigenvectors of the correlation array, [pc] the projection
    coefficients. *)
Record pod_modes (sqrt : F -> F) (vs : list V) (E : list F) (U pc : arr F) (js : list nat)
    (ms : list V) : Prop := {
  pm_len : length ms = length js;
  (* combinations of the data *)
  pm_comb : forall a d, a < length js ->
    combination S vs (fun i => NdArray.ent U i (nth a js O) * (1 / sqrt (at1 E (nth a js O)))) (nth a ms d);
  (* orthonormal *)
  pm_orth : forall a b d, a < length js -> b < length js ->
    ip S (nth a ms d) (nth b ms d) = if (nth a js O =? nth b js O)%nat then 1 else 0;
  (* the coefficients are the inner products of modes and data *)
  pm_coeffs : forall a j d, a < length js -> j < length vs ->
    NdArray.ent pc (nth a js O) j = ip S (nth a ms d) (nth j vs d)
}.

(** On one process; the correlation array is that of the inner products. *)
Lemma POD_ok_at el argsort sqrt o vecs vs st (t : F) rtol idx modes :
  holds st vecs vs -> vecs <> [] ->
  length modes = length idx -> NoDup modes -> (forall h, h ∈ vecs -> h ∉ modes) ->
  real t -> kle 0 t -> tol_real rtol ->
  let C := gram S vs vs in
    forall w0 V0, el C = Ok (w0, V0) -> eigh_contract C w0 V0 ->
    argsort_contract (map kabs w0) (argsort (map kabs w0)) ->
    (forall e, In e w0 -> klt_p 0 e -> sqrt_ok sqrt e) ->
    exists E U pc atol' w,
      eigh el argsort C (Some t) rtol true = Ok (E, U) /\
      raised true (Some t) w0 atol' /\ eigh_result C w0 w atol' rtol E U /\ Forall (klt_p 0) E /\
      nr pc = length E /\ nc pc = length vs /\
      ok S st (POD_session el argsort sqrt o vecs (Some t) rtol idx modes)
        (fun st' r => match wrap_all (length E) idx with
         | Raise e => r = Raise e /\ st' = st
         | Ok js => r = Ok (PodObj (Some E) (Some U) (Some vecs) (Some C) (Some pc), pc) /\
             unchanged_but st st' modes /\
             exists ms, holds st' modes ms /\ pod_modes sqrt vs E U pc js ms /\
               (ip_definite S -> (exists d, Permutation w0 (E ++ repeat 0 d)) ->
                Permutation js (seq 0 (length E)) ->
                forall u j d, j < length vs ->
                  ip S u (nth j vs d) =
                  sum (length js) (fun a => ip S u (nth a ms d) * NdArray.ent pc (nth a js O) j))
         end).
Proof.
  intros Hst Nv Lm Hnd Hdis Rt Ht Hr.
  set (T := length vs). set (C := gram S vs vs). set (W := gmat S vs).
  set (X := Arr T T (mid (F := F))).
  assert (HT : (0 < T)%nat).
  { unfold T. rewrite <- (Forall2_length _ _ _ Hst). destruct vecs; simpl; [congruence|lia]. }
  intros C' w0 V0 HL HC HA Hsq. subst C'. fold C in HL, HC |- *.
  destruct (C16_truncated_eigh el argsort C V0 w0 (Some t) rtol true HL HC HA)
    as (atol' & w & E & U & HE & HR & HG); auto.
  { discriminate. }
  assert (HK : Forall (klt_p 0) E /\ dmd_kept sqrt X W E U).
  { apply (snaps_kept sqrt X W C w0 w t atol' rtol E U V0); auto.
    unfold X. cbn [nr nc NdArray.ent]. unfold wip. rewrite madj_mid, mmul_id_l, mmul_id_r. reflexivity. }
  destruct HK as [Pos HK]. set (k := length E).
  set (pc := Arr k T (mmul k (mdiag (at1 (map sqrt E))) (madj (NdArray.ent U)))).
  exists E, U, pc, atol', w. do 6 (split; [auto|]). fold k.
  assert (Uc : nc U = k) by apply (kp_c _ _ _ _ _ HK).
  assert (Ur : nr U = T) by apply (kp_r _ _ _ _ _ HK).
  set (s := fun i => sqrt (at1 E i)).
  assert (Hs : forall i, i < k -> s i * s i = at1 E i) by (intros i Hi; apply (kp_pos _ _ _ _ _ HK i Hi)).
  assert (Rs : forall i, i < k -> real (s i)) by (intros i Hi; apply (kp_pos _ _ _ _ _ HK i Hi)).
  assert (Ns : forall i, i < k -> s i <> 0).
  { intros i Hi. apply (sqrt_ok_neq sqrt (at1 E i)); apply (kp_pos _ _ _ _ _ HK i Hi). }
  set (D := mdiag (fun i => 1 / s i)).
  set (B := Arr T k (mmul k (NdArray.ent U) (mdiag (at1 (map (inv_sqrt sqrt) E))))).
  assert (EB : meq T k (NdArray.ent B) (mmul k (NdArray.ent U) D)).
  { unfold B. cbn [NdArray.ent]. rewrite (mdiag_ext k _ (fun i => 1 / s i)); [reflexivity|].
    intros i Hi. rewrite at1_map by auto. reflexivity. }
  assert (Epc : meq k T (NdArray.ent pc) (mmul k (mdiag s) (madj (NdArray.ent U)))).
  { unfold pc. cbn [NdArray.ent]. rewrite (mdiag_ext k _ s); [reflexivity|].
    intros i Hi. rewrite at1_map by auto. reflexivity. }
  assert (E1 : dot U (diag (map (inv_sqrt sqrt) E)) = Ok B).
  { rewrite dot_eq by (rewrite Uc; unfold diag; cbn [nr]; rewrite map_length; reflexivity).
    unfold diag, B. cbn [nr nc NdArray.ent]. rewrite map_length, Ur, Uc. reflexivity. }
  assert (E2 : dot (diag (map sqrt E)) (conj_T U) = Ok pc).
  { rewrite dot_eq by (unfold diag, conj_T; cbn [nr nc]; rewrite map_length, Uc; reflexivity).
    unfold diag, conj_T, pc. cbn [nr nc NdArray.ent]. rewrite map_length, Ur. reflexivity. }
  assert (OU : meq k k (mmul T (madj (NdArray.ent U)) (NdArray.ent U)) mid) by apply (kp_orth _ _ _ _ _ HK).
  assert (EU : meq T k (mmul T (wip T W (NdArray.ent X) (NdArray.ent X)) (NdArray.ent U))
                 (mmul k (NdArray.ent U) (mdiag (at1 E)))) by apply (kp_eig _ _ _ _ _ HK).
  assert (HW : hermitian T W) by (apply gmat_hermitian; auto).
  assert (EX : meq T k (mmul T (NdArray.ent X) (mmul k (NdArray.ent U) D)) (NdArray.ent B)).
  { unfold X. cbn [NdArray.ent]. rewrite mmul_id_l. symmetry. exact EB. }
  assert (OB : meq k k (wip T W (NdArray.ent B) (NdArray.ent B)) mid).
  { rewrite <- EX. apply (snaps_orthonormal T T k (NdArray.ent X) W (NdArray.ent U) (at1 E) s); auto. }
  assert (CB : meq k T (wip T W (NdArray.ent B) mid) (NdArray.ent pc)).
  { rewrite Epc, <- EX.
    apply (snaps_coeffs T T k (NdArray.ent X) W (NdArray.ent U) (at1 E) s); auto. }
  unfold POD_session, POD_decomp. cbn [hbind symm_inner_products].
  exists vs. split; [auto|]. split; [auto|]. fold C.
  unfold POD_eigendecomp. cbn [ph_corr].
  apply ok_bind, (ok_eigh S _ E U); [exact HE|]. cbn [fst snd ok].
  unfold POD_compute_modes. cbn [ph_eigvals ph_eigvecs ph_vecs need hbind].
  apply ok_bind, (ok_lift S _ B); [exact E1|]. cbn [hbind].
  apply (ok_combine S modes vecs B idx vs); auto.
  { unfold B. cbn [nr]. symmetry. apply (Forall2_length _ _ _ Hst). }
  { intros h Hh Hin. exact (Hdis h Hin Hh). }
  cbn [nc]. change (nc B) with k. destruct (wrap_all k idx) as [js|e]; [|auto].
  intros st' ms Ljs Hjs Hms Lms Hco Hun. cbn [ok]. unfold POD_proj_coeffs. cbn [ph_eigvals ph_eigvecs need hbind].
  apply (ok_lift S _ pc); [exact E2|]. cbn [ok ph_vecs ph_corr]. split; [reflexivity|]. split; [exact Hun|].
  exists ms. split; [auto|].
  pose proof Hco as Hco'.
  assert (Hj : forall a, a < length js -> nth a js O < k) by (intros a Ha; apply nth_js; auto).
  split.
  { split.
    - lia.
    - intros a d Ha. eapply combination_ext; [|apply (Hco' a d); lia].
      intros i Hi. unfold mcols. rewrite (meq_at _ _ _ _ EB i (nth a js O) Hi (Hj a Ha)).
      unfold D. rewrite (meq_at _ _ _ _ (mmul_diag_r T k (fun i => 1 / s i) (NdArray.ent U))) by auto.
      reflexivity.
    - intros a b d Ha Hb. rewrite (coords_ip S HS vs _ _ ms ms a b d Hco' Hco') by lia.
      rewrite mcols_wip. exact (meq_at _ _ _ _ OB _ _ (Hj a Ha) (Hj b Hb)).
    - intros a j d Ha Hlt. rewrite (coords_ip S HS vs _ _ ms vs a j d Hco' (coords_self S vs)) by (auto; lia).
      symmetry. exact (meq_at _ _ _ _ CB _ _ (Hj a Ha) Hlt). }
  intros Hdef [z Hz] Hperm u j d Hlt.
  assert (HCU : meq T T (NdArray.ent C) (mmul k (NdArray.ent U) (mmul k (mdiag (at1 E)) (madj (NdArray.ent U))))).
  { apply (er_exact _ _ _ _ _ _ _ HG). intros i Hi. fold k in Hi.
    assert (Lk : E = firstn k w) by (apply (er_prefix _ _ _ _ _ _ _ HG)).
    assert (Pw : Permutation (E ++ skipn k w) (E ++ repeat 0 z)).
    { rewrite <- Hz, <- (er_perm _ _ _ _ _ _ _ HG). rewrite Lk at 1. rewrite firstn_skipn. reflexivity. }
    apply Permutation_app_inv_l in Pw.
    assert (Iw : In (at1 w i) (skipn k w)).
    { assert (L1 : length (firstn k w) = k) by (rewrite <- Lk; reflexivity).
      assert (Ei : at1 w i = nth (i - k) (skipn k w) 0).
      { unfold at1. rewrite <- (firstn_skipn k w) at 1. rewrite app_nth2 by lia. rewrite L1. reflexivity. }
      rewrite Ei. apply nth_In. rewrite skipn_length. lia. }
    rewrite Pw in Iw. apply repeat_spec in Iw. auto. }
  set (Q := mmul k (NdArray.ent U) (madj (NdArray.ent U))).
  assert (HQ : meq T T (mmul T W (msub mid Q)) mzero).
  { rewrite mmul_sub_r, mmul_id_r.
    assert (HWQ : meq T T (mmul T W Q) W).
    { change W with (NdArray.ent C). rewrite HCU at 1. unfold Q. rewrite !mmul_assoc.
      rewrite <- (mmul_assoc k T T k (madj (NdArray.ent U)) (NdArray.ent U)), OU, mmul_id_l.
      symmetry. exact HCU. }
    rewrite HWQ. split. intros a b _ _. unfold msub, mzero. ring. }
  destruct (combination_exists S HS vs (fun i => msub mid Q i j)) as [x Hx].
  { destruct vs; [simpl in *; lia|discriminate]. }
  assert (Z : ip S u x = 0).
  { apply Hdef. rewrite (combination_ip S HS vs _ _ x x Hx Hx). apply sum_0. intros a Ha.
    pose proof (meq_at _ _ _ _ HQ a j Ha Hlt) as G. unfold mmul in G at 1. unfold W in G. fold T.
    rewrite G. unfold mzero. ring. }
  rewrite Hx in Z. fold T in Z.
  assert (Ev : ip S u (nth j vs d) = sum T (fun i => ip S u (nth i vs d) * Q i j)).
  { rewrite (coords_self S vs j d Hlt u).
    transitivity (sum T (fun i => ip S u (nth i vs d) * mid i j)).
    { apply sum_ext. intros i Hi. rewrite (nth_indep vs (nth j vs d) d) by auto. reflexivity. }
    transitivity (sum T (fun i => ip S u (nth i vs d) * Q i j) + sum T (fun i => ip S u (nth i vs x) * msub mid Q i j)).
    { rewrite <- sum_add. apply sum_ext. intros i Hi. rewrite (nth_indep vs x d) by auto. unfold msub. ring. }
    rewrite Z. ring. }
  rewrite Ev.
  assert (EQ : meq T T Q (mmul k (NdArray.ent B) (NdArray.ent pc))).
  { rewrite EB, Epc. unfold D. rewrite !mmul_assoc. unfold Q.
    rewrite <- (mmul_assoc k T k k (mdiag (fun i => 1 / s i))), mmul_diag_diag.
    rewrite (mdiag_1 k), mmul_id_l; [reflexivity|]. intros i Hi. field. auto. }
  transitivity (sum k (fun b => sum T (fun i => ip S u (nth i vs d) * NdArray.ent B i b) * NdArray.ent pc b j)).
  { transitivity (sum T (fun i => sum k (fun b => ip S u (nth i vs d) * NdArray.ent B i b * NdArray.ent pc b j))).
    - apply sum_ext. intros i Hi. rewrite (meq_at _ _ _ _ EQ i j Hi Hlt). unfold mmul.
      rewrite <- sum_mul_l. apply sum_ext. intros b Hb. ring.
    - rewrite sum_swap. apply sum_ext. intros b Hb. rewrite <- sum_mul_r. reflexivity. }
  set (f := fun b => sum T (fun i => ip S u (nth i vs d) * NdArray.ent B i b) * NdArray.ent pc b j).
  transitivity (sum (length js) (fun a => f (nth a js O))).
  { rewrite <- !lsum_seq, <- (lsum_perm _ _ (Permutation_map f Hperm)).
    rewrite <- (map_map (fun a => nth a js O) f), map_nth_seq. reflexivity. }
  unfold f.
  apply sum_ext. intros a Ha. f_equal.
  rewrite (Hco' a d ltac:(lia) u). apply sum_ext. intros i Hi. rewrite (nth_indep vs (nth a ms d) d) by auto. reflexivity.
Qed.

Lemma POD_ok el argsort sqrt o vecs vs st (t : F) rtol idx modes :
  holds st vecs vs -> vecs <> [] ->
  length modes = length idx -> NoDup modes -> (forall h, h ∈ vecs -> h ∉ modes) ->
  real t -> kle 0 t -> tol_real rtol ->
  exists C : arr F,
    (nr C = length vs /\ nc C = length vs /\
     forall i j d, i < length vs -> j < length vs -> NdArray.ent C i j = ip S (nth i vs d) (nth j vs d)) /\
    forall w0 V0, el C = Ok (w0, V0) -> eigh_contract C w0 V0 ->
    argsort_contract (map kabs w0) (argsort (map kabs w0)) ->
    (forall e, In e w0 -> klt_p 0 e -> sqrt_ok sqrt e) ->
    exists E U pc atol' w,
      eigh el argsort C (Some t) rtol true = Ok (E, U) /\
      raised true (Some t) w0 atol' /\ eigh_result C w0 w atol' rtol E U /\ Forall (klt_p 0) E /\
      nr pc = length E /\ nc pc = length vs /\
      ok S st (POD_session el argsort sqrt o vecs (Some t) rtol idx modes)
        (fun st' r => match wrap_all (length E) idx with
         | Raise e => r = Raise e /\ st' = st
         | Ok js => r = Ok (PodObj (Some E) (Some U) (Some vecs) (Some C) (Some pc), pc) /\
             unchanged_but st st' modes /\
             exists ms, holds st' modes ms /\ pod_modes sqrt vs E U pc js ms /\
               (ip_definite S -> (exists d, Permutation w0 (E ++ repeat 0 d)) ->
                Permutation js (seq 0 (length E)) ->
                forall u j d, j < length vs ->
                  ip S u (nth j vs d) =
                  sum (length js) (fun a => ip S u (nth a ms d) * NdArray.ent pc (nth a js O) j))
         end).
Proof.
  intros Hst Nv Lm Hnd Hdis Rt Ht Hr. exists (gram S vs vs). split.
  { do 2 (split; [reflexivity|]). intros i j d Hi Hj. apply gram_ent; auto. }
  exact (POD_ok_at el argsort sqrt o vecs vs st t rtol idx modes Hst Nv Lm Hnd Hdis Rt Ht Hr).
Qed.

Theorem C19_handles limit P tag_ub eager el argsort sqrt o vecs vs st (t : F) rtol idx modes :
  set_up limit P tag_ub S -> holds st vecs vs -> vecs <> [] ->
  length modes = length idx -> NoDup modes -> (forall h, h ∈ vecs -> h ∉ modes) ->
  real t -> kle 0 t -> tol_real rtol ->
  exists C : arr F,
    (nr C = length vs /\ nc C = length vs /\
     forall i j d, i < length vs -> j < length vs -> NdArray.ent C i j = ip S (nth i vs d) (nth j vs d)) /\
    forall w0 V0, el C = Ok (w0, V0) -> eigh_contract C w0 V0 ->
    argsort_contract (map kabs w0) (argsort (map kabs w0)) ->
    (forall e, In e w0 -> klt_p 0 e -> sqrt_ok sqrt e) ->
    exists E U pc atol' w,
      eigh el argsort C (Some t) rtol true = Ok (E, U) /\
      raised true (Some t) w0 atol' /\ eigh_result C w0 w atol' rtol E U /\ Forall (klt_p 0) E /\
      nr pc = length E /\ nc pc = length vs /\
      runs S P tag_ub eager st (POD_session el argsort sqrt o vecs (Some t) rtol idx modes)
        (fun st' r => match wrap_all (length E) idx with
         | Raise e => r = Raise e /\ st' = st
         | Ok js => r = Ok (PodObj (Some E) (Some U) (Some vecs) (Some C) (Some pc), pc) /\
             unchanged_but st st' modes /\
             exists ms, holds st' modes ms /\ pod_modes sqrt vs E U pc js ms /\
               (ip_definite S -> (exists d, Permutation w0 (E ++ repeat 0 d)) ->
                Permutation js (seq 0 (length E)) ->
                forall u j d, j < length vs ->
                  ip S u (nth j vs d) =
                  sum (length js) (fun a => ip S u (nth a ms d) * NdArray.ent pc (nth a js O) j))
         end).
Proof.
  intros Hup Hst Nv Lm Hnd Hdis Rt Ht Hr.
  destruct (POD_ok el argsort sqrt o vecs vs st t rtol idx modes Hst Nv Lm Hnd Hdis Rt Ht Hr) as (C & HC & H).
  exists C. split; [exact HC|]. intros w0 V0 H1 H2 H3 H4.
  destruct (H w0 V0 H1 H2 H3 H4) as (E & U & pc & atol' & w & G1 & G2 & G3 & G4 & G5 & G6 & G).
  exists E, U, pc, atol', w. do 6 (split; [auto|]). exact (ok_runs S limit P tag_ub eager _ st _ HS Hup G).
Qed.
End Pod.

(** A wrong number of mode handles is reported on every rank, before anything is
    written; so is using a decomposition that was never made. *)
Theorem C19_handles_count {F : sfield} {V} (S : space F V) limit P tag_ub eager sqrt (o : pod_obj F) vecs st
    (E : list F) (U : arr F) idx js modes :
  ip_space S -> set_up limit P tag_ub S -> ph_eigvals o = Some E -> ph_eigvecs o = Some U -> ph_vecs o = Some vecs ->
  nc U = length E -> wrap_all (length E) idx = Ok js ->
  nr U <> length vecs \/ length modes <> length idx ->
  runs S P tag_ub eager st (POD_compute_modes sqrt o (Some (Cols idx)) modes None)
    (fun st' r => r = Raise ValueError /\ st' = st).
Proof.
  intros HS Hup E1 E2 E3 HU Hj Hne. apply (ok_runs S limit); auto.
  unfold POD_compute_modes. rewrite E1, E2, E3. cbn [need hbind].
  apply (ok_lift S _ (Arr (nr U) (length E) (mmul (length E) (NdArray.ent U) (mdiag (at1 (map (inv_sqrt sqrt) E)))))).
  { rewrite dot_eq by (unfold diag; cbn [nr]; rewrite map_length; auto).
    unfold diag. cbn [nc NdArray.ent]. rewrite map_length, HU. reflexivity. }
  cbn [hbind]. eapply ok_combine_mismatch; [exact Hj|exact Hne|split; reflexivity].
Qed.
Theorem C19_handles_undecomposed {F : sfield} {V} (S : space F V) limit P tag_ub eager sqrt st idx modes :
  ip_space S -> set_up limit P tag_ub S ->
  runs S P tag_ub eager st (POD_compute_modes (F := F) sqrt POD_new (Some (Cols idx)) modes None)
    (fun st' r => r = Raise TypeError /\ st' = st).
Proof.
  intros HS Hup. apply (ok_runs S limit); auto. split; reflexivity.
Qed.

(** Two processes, the data of C19_example as two vectors, modes 1 and -2. *)
Definition podh_W : mat QI := mdiag (at1 [qi 4 0 1; qi 1 0 1]).
Definition podh_space := wspace (F := QI) 2 podh_W 6 3 1.
Definition podh_store : gmap loc (nat -> QI) :=
  <[1%nat := fun i => NdArray.ent ex_D i 0%nat]> (<[2%nat := fun i => NdArray.ent ex_D i 1%nat]> ∅).
Example C19_handles_example eager :
  runs podh_space 2 10 eager podh_store
    (POD_session (fun _ => Ok (ex_cw, ex_cV)) (fun _ => [0; 1]%nat) ex_sqrt POD_new [1; 2]%nat
       (Some (qi 1 0 1000)) None [1; -2]%Z [10; 11]%nat)
    (fun st' r => exists ms, holds st' [10; 11]%nat ms /\
       (forall d, ip podh_space (nth 0 ms d) (nth 0 ms d) = 1 /\ ip podh_space (nth 0 ms d) (nth 1 ms d) = 0 /\
                  ip podh_space (nth 1 ms d) (nth 1 ms d) = 1) /\
       forall u j d, (j < 2)%nat -> ip podh_space u (nth j (columns ex_D) d) =
         sum 2 (fun a => ip podh_space u (nth a ms d) *
                         ip podh_space (nth a ms d) (nth j (columns ex_D) d))).
Proof.
  assert (HW : hermitian 2 podh_W) by (apply meqb_true; vm_compute; reflexivity).
  destruct (C19_handles podh_space (wspace_ip 2 podh_W 6 3 1 HW) (Some 1%Z) 2 10 eager
    (fun _ => Ok (ex_cw, ex_cV)) (fun _ => [0; 1]%nat) ex_sqrt POD_new [1; 2]%nat (columns ex_D) podh_store
    (qi 1 0 1000) None [1; -2]%Z [10; 11]%nat) as (C & (Cr & Cc & HC) & H).
  - split; [split; [simpl; lia|]; split; [simpl; lia|reflexivity]|simpl; lia].
  - repeat constructor.
  - discriminate.
  - reflexivity.
  - apply (bool_decide_unpack (NoDup [10; 11]%nat)). reflexivity.
  - intros h Hh. apply (bool_decide_unpack (h ∉ [10; 11]%nat)).
    repeat (apply elem_of_cons in Hh; destruct Hh as [->|Hh]; [reflexivity|]). inversion Hh.
  - apply keqb_true. vm_compute. reflexivity.
  - left. vm_compute. reflexivity.
  - exact I.
  - destruct (H ex_cw ex_cV) as (E & U & pc & atol' & w & HE & _ & _ & _ & _ & _ & G).
    + reflexivity.
    + apply (eigh_contract_aeq ex_C); [|apply ex_C_contract].
      split; [exact (eq_sym Cr)|]. split; [exact (eq_sym Cc)|]. split. intros i j Hi Hj.
      rewrite (HC i j (fun _ => 0)) by auto. unfold podh_space. rewrite columns_ip by auto.
      apply (meq_at 2 2 (NdArray.ent ex_C) (wip 2 podh_W (NdArray.ent ex_D) (NdArray.ent ex_D))); auto.
      apply meqb_true. vm_compute. reflexivity.
    + split; try reflexivity.
      * repeat constructor; simpl; set_solver.
      * repeat constructor; simpl; lia.
      * intros i j Hij Hj. simpl in Hj. destruct i as [|[|i]]; destruct j as [|[|j]]; try lia;
          try (left; vm_compute; reflexivity); right; reflexivity.
    + intros e [<-|[<-|[]]] _; apply sq_ok_dec; vm_compute; reflexivity.
    + assert (EE : E = [qi 4 0 1; qi 1 0 1]).
      { apply (f_equal (rmap fst)) in HE. vm_compute in HE. injection HE as HE. symmetry. exact HE. }
      eapply runs_mono; [exact G|]. cbv beta. intros st' r Q. rewrite EE in Q.
      change (wrap_all (length [qi 4 0 1; qi 1 0 1]) [1; -2]%Z) with (Ok [1; 0]%nat) in Q. cbv iota in Q.
      destruct Q as (_ & _ & ms & Q1 & Q2 & Q3). exists ms. split; [exact Q1|]. split.
      * intros d. split; [|split].
        -- exact (pm_orth _ _ _ _ _ _ _ _ Q2 0 0 d ltac:(simpl; lia) ltac:(simpl; lia)).
        -- exact (pm_orth _ _ _ _ _ _ _ _ Q2 0 1 d ltac:(simpl; lia) ltac:(simpl; lia)).
        -- exact (pm_orth _ _ _ _ _ _ _ _ Q2 1 1 d ltac:(simpl; lia) ltac:(simpl; lia)).
      * intros u j d Hj. rewrite (Q3 (wspace_definite 2 podh_W 6 3 1
          (definite_root 2 podh_W (mdiag (at1 [q 2; q 1])) (mdiag (at1 [qi 1 0 2; q 1]))
             ltac:(apply meqb_true; vm_compute; reflexivity) ltac:(apply meqb_true; vm_compute; reflexivity)))).
        -- apply sum_ext. intros a Ha. f_equal. rewrite (pm_coeffs _ _ _ _ _ _ _ _ Q2 a j d); auto.
        -- exists O. apply perm_swap.
        -- apply perm_swap.
        -- exact Hj.
Qed.

Lemma podh_ip : ip_space podh_space.
Proof. apply (wspace_ip 2 podh_W 6 3 1). apply meqb_true. vm_compute. reflexivity. Qed.
Lemma podh_set_up : set_up (Some 1%Z) 2 10 podh_space.
Proof. split; [split; [simpl; lia|]; split; [simpl; lia|reflexivity]|simpl; lia]. Qed.

(** Eigenvectors of two vectors, but three vectors are given; or one handle for two modes. *)
Example C19_handles_count_example eager st :
  runs podh_space 2 10 eager st
    (POD_compute_modes ex_sqrt (PodObj (Some ex_cw) (Some ex_cV) (Some [1; 2; 3]%nat) None None)
       (Some (Cols [1; -2]%Z)) [10; 11]%nat None)
    (fun st' r => r = Raise ValueError /\ st' = st) /\
  runs podh_space 2 10 eager st
    (POD_compute_modes ex_sqrt (PodObj (Some ex_cw) (Some ex_cV) (Some [1; 2]%nat) None None)
       (Some (Cols [1; -2]%Z)) [10]%nat None)
    (fun st' r => r = Raise ValueError /\ st' = st).
Proof.
  split.
  - eapply (C19_handles_count podh_space (Some 1%Z) 2 10 eager ex_sqrt
      (PodObj (Some ex_cw) (Some ex_cV) (Some [1; 2; 3]%nat) None None) [1; 2; 3]%nat st ex_cw ex_cV
      [1; -2]%Z [1; 0]%nat); auto using podh_ip, podh_set_up; left; discriminate.
  - eapply (C19_handles_count podh_space (Some 1%Z) 2 10 eager ex_sqrt
      (PodObj (Some ex_cw) (Some ex_cV) (Some [1; 2]%nat) None None) [1; 2]%nat st ex_cw ex_cV
      [1; -2]%Z [1; 0]%nat); auto using podh_ip, podh_set_up; right; discriminate.
Qed.

Example C19_handles_undecomposed_example eager :
  runs podh_space 2 10 eager podh_store
    (POD_compute_modes ex_sqrt POD_new (Some (Cols [1; -2]%Z)) [10; 11]%nat None)
    (fun st' r => r = Raise TypeError /\ st' = podh_store).
Proof. apply (C19_handles_undecomposed podh_space (Some 1%Z)); auto using podh_ip, podh_set_up. Qed.

Print Assumptions C19_handles.
Print Assumptions C19_handles_count.
Print Assumptions C19_handles_undecomposed.
