(** Properties C16, C19, C22 and C27 without an absolute tolerance: if LAPACK returns positive
    eigenvalues only, atol = None is the same as atol = 0, so that the theorems for a given
    tolerance apply.  (A negative eigenvalue raises TypeError: C16_no_tolerance_negative.) *)
From stdpp Require Import gmap list.
From Coq Require Import ZArith Lia Field Ring Setoid Morphisms Permutation.
From Verif Require Import Prelude Field FieldInst Matrix NdArray DecompModel DecompProofs DecompProps
  VSArraysModel VSArraysProofs PodModel PodProofs PodProps DmdModel DmdProofs DmdCore DmdSnaps TlsModel TlsProofs TlsProps
  Spmd LinCombModel InnerProdProps HandlesModel HandlesProofs HandlesSpace HandlesExamples PodHandlesModel PodHandlesProps
  GalerkinHandlesProps DmdExamples TlsExamples.
Open Scope nat_scope.
Open Scope k_scope.

Lemma count_positive {F : sfield} (w : list F) : all_real w -> Forall (klt_p 0) w -> count_above 0 w = length w.
Proof.
  intros Rw Hw. unfold count_above. induction Hw as [|x w Hx _ IH]; [reflexivity|].
  inversion Rw as [|? ? Rx Rw']; subst. simpl.
  rewrite (kabs_pos x Rx (lt_le _ _ Hx)). red in Hx. rewrite Hx. simpl. rewrite IH by auto. reflexivity.
Qed.
Lemma kept_positive {F : sfield} rtol (w : list F) : all_real w -> Forall (klt_p 0) w ->
  num_kept None rtol w = num_kept (Some 0) rtol w.
Proof. intros Rw Hw. unfold num_kept. rewrite (count_positive w Rw Hw). reflexivity. Qed.

Theorem C16_no_tolerance_positive {F : sfield} lapack argsort (A V0 : arr F) w0 rtol pd :
  lapack A = Ok (w0, V0) -> all_real w0 ->
  argsort_contract (map kabs w0) (argsort (map kabs w0)) -> Forall (klt_p 0) w0 ->
  eigh lapack argsort A None rtol pd = eigh lapack argsort A (Some 0) rtol pd.
Proof.
  intros HL HR HS HP. unfold eigh. rewrite HL. cbn [rbind fst snd].
  set (w := map (at1 w0) (rev (argsort (map kabs w0)))).
  assert (Pw : Permutation w w0) by (apply sorted_perm; auto).
  assert (Rw : all_real w) by (unfold all_real; rewrite Pw; auto).
  assert (Hw : Forall (klt_p 0) w) by (rewrite Pw; auto).
  unfold raise_atol. destruct pd; simpl.
  - destruct (min1 w) as [m|e] eqn:E; simpl; [|reflexivity].
    destruct (min1_spec w m Rw E) as (Rm & Im & _).
    rewrite (lt_asym 0 m real_0 Rm) by exact (proj1 (List.Forall_forall _ _) Hw m Im). simpl.
    rewrite (kept_positive rtol w Rw Hw). reflexivity.
  - rewrite (kept_positive rtol w Rw Hw). reflexivity.
Qed.

(** compute_POD_arrays_snaps_method. *)
Theorem C19_no_tolerance_positive {F : sfield} el argsort sqrt (X : arr F) wopt ws idx rtol C w0 V0 dist :
  set_weights wopt = Ok ws -> symm_inner_product_array ws X = Ok C ->
  el C = Ok (w0, V0) -> all_real w0 ->
  argsort_contract (map kabs w0) (argsort (map kabs w0)) -> Forall (klt_p 0) w0 ->
  POD_snaps el argsort sqrt dist X idx wopt None rtol = POD_snaps el argsort sqrt dist X idx wopt (Some 0) rtol.
Proof.
  intros Ew EC HL HR HS HP. unfold POD_snaps. destruct dist; [reflexivity|]. rewrite Ew. cbn [rbind]. rewrite EC. cbn [rbind].
  rewrite (C16_no_tolerance_positive el argsort C V0 w0); auto.
Qed.

(** compute_DMD_arrays_snaps_method. *)
Theorem C22_no_tolerance_positive {F : sfield} el argsort eig sqrt (X : arr F) adv wopt ws idx rtol mx C K w0 V0 dist :
  set_weights wopt = Ok ws -> DMD_correlations ws X adv = Ok (C, K) ->
  el C = Ok (w0, V0) -> all_real w0 ->
  argsort_contract (map kabs w0) (argsort (map kabs w0)) -> Forall (klt_p 0) w0 ->
  DMD_snaps el argsort eig sqrt dist X adv idx wopt None rtol mx = DMD_snaps el argsort eig sqrt dist X adv idx wopt (Some 0) rtol mx.
Proof.
  intros Ew EC HL HR HS HP. unfold DMD_snaps. destruct dist; [reflexivity|]. rewrite Ew. cbn [rbind]. rewrite EC. cbn [rbind fst].
  rewrite (C16_no_tolerance_positive el argsort C V0 w0); auto.
Qed.

(** compute_TLSqrDMD_arrays_snaps_method: the tolerance is used twice. *)
Theorem C27_no_tolerance_positive {F : sfield} el argsort eig sqrt (X : arr F) adv wopt ws idx rtol mx C K G sm w0 V0 dist :
  set_weights wopt = Ok ws -> TLS_correlations ws X adv = Ok (C, K, G) -> add_arr C G = Ok sm ->
  el sm = Ok (w0, V0) -> all_real w0 ->
  argsort_contract (map kabs w0) (argsort (map kabs w0)) -> Forall (klt_p 0) w0 ->
  (forall vals vecs PC, eigh el argsort sm None rtol true = Ok (vals, vecs) ->
     TLS_proj_corr (max_cols mx (length vals) vecs) C = Ok PC ->
     exists w1 V1, el PC = Ok (w1, V1) /\ all_real w1 /\
       argsort_contract (map kabs w1) (argsort (map kabs w1)) /\ Forall (klt_p 0) w1) ->
  TLS_snaps el argsort eig sqrt dist X adv idx wopt None rtol mx = TLS_snaps el argsort eig sqrt dist X adv idx wopt (Some 0) rtol mx.
Proof.
  intros Ew EC Es HL HR HS HP H2. unfold TLS_snaps. destruct dist; [reflexivity|]. rewrite Ew. cbn [rbind]. rewrite EC. cbn [rbind fst snd].
  rewrite Es. cbn [rbind].
  rewrite <- (C16_no_tolerance_positive el argsort sm V0 w0) by auto.
  destruct (eigh el argsort sm None rtol true) as [[vals vecs]|e]; [|reflexivity]. cbn [rbind fst snd].
  specialize (H2 vals vecs). destruct (TLS_proj_corr _ C) as [PC|e]; [|reflexivity]. cbn [rbind].
  destruct (H2 PC eq_refl eq_refl) as (w1 & V1 & K1 & K2 & K3 & K4).
  rewrite (C16_no_tolerance_positive el argsort PC V1 w1) by auto. reflexivity.
Qed.

(** PODHandles. *)
Theorem C19_handles_no_tolerance {F : sfield} {V} (S : space F V) limit P tag_ub eager el argsort sqrt o vecs vs st rtol idx modes :
  ip_space S -> set_up limit P tag_ub S -> holds st vecs vs -> vecs <> [] ->
  length modes = length idx -> NoDup modes -> (forall h, h ∈ vecs -> h ∉ modes) -> tol_real rtol ->
  exists C : arr F,
    (nr C = length vs /\ nc C = length vs /\
     forall i j d, i < length vs -> j < length vs -> NdArray.ent C i j = ip S (nth i vs d) (nth j vs d)) /\
    forall w0 V0, el C = Ok (w0, V0) -> eigh_contract C w0 V0 ->
    argsort_contract (map kabs w0) (argsort (map kabs w0)) -> Forall (klt_p 0) w0 ->
    (forall e, In e w0 -> sqrt_ok sqrt e) ->
    exists E U pc,
      eigh el argsort C None rtol true = Ok (E, U) /\ nr pc = length E /\ nc pc = length vs /\
      runs S P tag_ub eager st (POD_session el argsort sqrt o vecs None rtol idx modes)
        (fun st' r => match wrap_all (length E) idx with
         | Raise e => r = Raise e /\ st' = st
         | Ok js => r = Ok (PodObj (Some E) (Some U) (Some vecs) (Some C) (Some pc), pc) /\
             unchanged_but st st' modes /\
             exists ms, holds st' modes ms /\ pod_modes S sqrt vs E U pc js ms
         end).
Proof.
  intros HS Hup Hst Nv Lm Hnd Hdis Hr.
  exists (gram S vs vs). split.
  { do 2 (split; [reflexivity|]). intros i j d Hi Hj. apply gram_ent; auto. }
  set (C := gram S vs vs). intros w0 V0 H1 H2 H3 HP H4.
  destruct (POD_ok_at S HS el argsort sqrt o vecs vs st 0 rtol idx modes Hst Nv Lm Hnd Hdis real_0 (or_intror eq_refl) Hr w0 V0 H1 H2 H3 (fun e He _ => H4 e He)) as (E & U & pc & atol' & w & G1 & _ & _ & _ & G5 & G6 & G).
  assert (EQ : eigh el argsort C None rtol true = eigh el argsort C (Some 0) rtol true).
  { apply (C16_no_tolerance_positive el argsort C V0 w0); auto. apply (eigh_real _ _ _ H2). }
  exists E, U, pc. rewrite EQ. do 3 (split; [auto|]).
  apply (ok_runs S limit); auto.
  apply (ok_mono S) with (Q' := fun st' r => match wrap_all (length E) idx with
         | Raise e => r = Raise e /\ st' = st
         | Ok js => r = Ok (PodObj (Some E) (Some U) (Some vecs) (Some C) (Some pc), pc) /\
             unchanged_but st st' modes /\
             exists ms, holds st' modes ms /\ pod_modes S sqrt vs E U pc js ms
         end) in G.
  2: { intros st' r Q. destruct (wrap_all (length E) idx); [|exact Q].
       destruct Q as (Q1 & Q2 & ms & Q3 & Q4 & _). eauto. }
  revert G. unfold POD_session, POD_decomp. cbn [hbind symm_inner_products ok].
  intros (vs' & Hv & Nv' & G). rewrite <- (holds_same _ _ _ _ Hst Hv) in G.
  exists vs. do 2 (split; [auto|]). revert G. fold C.
  unfold POD_eigendecomp. cbn [ph_corr]. rewrite EQ. auto.
Qed.

(** ** Instances *)
Lemma na_sort : argsort_contract (map kabs ex_cw) [0; 1]%nat.
Proof.
  split; try reflexivity.
  - repeat constructor; simpl; set_solver.
  - repeat constructor; simpl; lia.
  - intros i j Hij Hj. simpl in Hj. destruct i as [|[|i]]; destruct j as [|[|j]]; try lia;
      try (left; vm_compute; reflexivity); right; reflexivity.
Qed.
Lemma na_real : all_real ex_cw.
Proof. repeat constructor; apply keqb_true; vm_compute; reflexivity. Qed.
Lemma na_pos : Forall (klt_p 0) ex_cw.
Proof. repeat constructor; vm_compute; reflexivity. Qed.

Example C16_no_tolerance_positive_example :
  eigh (fun _ => Ok (ex_cw, ex_cV)) (fun _ => [0; 1]%nat) ex_C None (Some (qi 1 0 3)) true =
  eigh (fun _ => Ok (ex_cw, ex_cV)) (fun _ => [0; 1]%nat) ex_C (Some 0) (Some (qi 1 0 3)) true.
Proof. apply (C16_no_tolerance_positive _ _ ex_C ex_cV ex_cw); auto using na_sort, na_real, na_pos. Qed.
Example C19_no_tolerance_positive_example :
  POD_snaps (fun _ => Ok (ex_cw, ex_cV)) (fun _ => [0; 1]%nat) ex_sqrt false ex_D (Some [0]%Z) ex_dw None None =
  POD_snaps (fun _ => Ok (ex_cw, ex_cV)) (fun _ => [0; 1]%nat) ex_sqrt false ex_D (Some [0]%Z) ex_dw (Some 0) None.
Proof.
  eapply (C19_no_tolerance_positive _ _ ex_sqrt ex_D ex_dw); try reflexivity; auto using na_sort, na_real, na_pos.
Qed.
Example C22_no_tolerance_positive_example eig :
  DMD_snaps (fun _ => Ok (ex_cw, ex_cV)) (fun _ => [0; 1]%nat) eig ex_sqrt false ex_seq None None None None None (Some 1%nat) =
  DMD_snaps (fun _ => Ok (ex_cw, ex_cV)) (fun _ => [0; 1]%nat) eig ex_sqrt false ex_seq None None None (Some 0) None (Some 1%nat).
Proof.
  eapply (C22_no_tolerance_positive _ _ eig ex_sqrt ex_seq None None); try reflexivity; auto using na_sort, na_real, na_pos.
Qed.
Example C27_no_tolerance_positive_example eig :
  TLS_snaps (fun _ => Ok (ex_cw, ex_cV)) (fun _ => [0; 1]%nat) eig ex_sqrt false ex_seq None None None None None None =
  TLS_snaps (fun _ => Ok (ex_cw, ex_cV)) (fun _ => [0; 1]%nat) eig ex_sqrt false ex_seq None None None (Some 0) None None.
Proof.
  eapply (C27_no_tolerance_positive _ _ eig ex_sqrt ex_seq None None); try reflexivity; auto using na_sort, na_real, na_pos.
  intros vals vecs PC _ _. exists ex_cw, ex_cV. auto using na_sort, na_real, na_pos.
Qed.
Example C19_handles_no_tolerance_example eager :
  runs podh_space 2 10 eager podh_store
    (POD_session (fun _ => Ok (ex_cw, ex_cV)) (fun _ => [0; 1]%nat) ex_sqrt POD_new [1; 2]%nat None None [1; -2]%Z [10; 11]%nat)
    (fun st' r => exists ms, holds st' [10; 11]%nat ms /\
       forall d, ip podh_space (nth 0 ms d) (nth 0 ms d) = 1 /\ ip podh_space (nth 0 ms d) (nth 1 ms d) = 0).
Proof.
  destruct (C19_handles_no_tolerance podh_space (Some 1%Z) 2 10 eager (fun _ => Ok (ex_cw, ex_cV)) (fun _ => [0; 1]%nat)
    ex_sqrt POD_new [1; 2]%nat (columns ex_D) podh_store None [1; -2]%Z [10; 11]%nat podh_ip podh_set_up)
    as (C & (Cr & Cc & HC) & H).
  - repeat constructor.
  - discriminate.
  - reflexivity.
  - apply (bool_decide_unpack (NoDup [10; 11]%nat)). reflexivity.
  - intros h Hh. apply (bool_decide_unpack (h ∉ [10; 11]%nat)).
    repeat (apply elem_of_cons in Hh; destruct Hh as [->|Hh]; [reflexivity|]). inversion Hh.
  - exact I.
  - destruct (H ex_cw ex_cV) as (E & U & pc & HE & _ & _ & G).
    + reflexivity.
    + apply (eigh_contract_aeq ex_C); [|apply ex_C_contract].
      split; [exact (eq_sym Cr)|]. split; [exact (eq_sym Cc)|]. split. intros i j Hi Hj.
      rewrite (HC i j (fun _ => 0)) by auto. unfold podh_space. rewrite columns_ip by auto.
      apply (meq_at 2 2 (NdArray.ent ex_C) (wip 2 podh_W (NdArray.ent ex_D) (NdArray.ent ex_D))); auto.
      apply meqb_true. vm_compute. reflexivity.
    + apply na_sort.
    + apply na_pos.
    + intros e [<-|[<-|[]]]; apply sq_ok_dec; vm_compute; reflexivity.
    + assert (EE : E = [qi 4 0 1; qi 1 0 1]).
      { apply (f_equal (rmap fst)) in HE. vm_compute in HE. injection HE as HE. symmetry. exact HE. }
      eapply runs_mono; [exact G|]. cbv beta. intros st' r Q. rewrite EE in Q.
      change (wrap_all (length [qi 4 0 1; qi 1 0 1]) [1; -2]%Z) with (Ok [1; 0]%nat) in Q. cbv iota in Q.
      destruct Q as (_ & _ & ms & Q1 & Q2). exists ms. split; [exact Q1|]. intros d. split.
      * exact (pm_orth _ _ _ _ _ _ _ _ Q2 0 0 d ltac:(simpl; lia) ltac:(simpl; lia)).
      * exact (pm_orth _ _ _ _ _ _ _ _ Q2 0 1 d ltac:(simpl; lia) ltac:(simpl; lia)).
Qed.

Print Assumptions C16_no_tolerance_positive.
Print Assumptions C19_no_tolerance_positive.
Print Assumptions C22_no_tolerance_positive.
Print Assumptions C27_no_tolerance_positive.
Print Assumptions C19_handles_no_tolerance.
