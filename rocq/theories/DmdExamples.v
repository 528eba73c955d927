(** Instances for C22, C23, C24 and C26: Gaussian-rational sequences of three vectors. *)
From Coq Require Import List Arith Lia Bool ZArith Field Ring Setoid Morphisms Permutation.
Import ListNotations.
From Verif Require Import Prelude Field FieldInst Matrix NdArray DecompModel DecompProofs DecompProps
  VSArraysModel VSArraysProofs VSArraysProps PodModel PodProofs PodProps BpodModel DmdModel DmdProofs DmdCore
  DmdSnaps DmdProps DmdFit.
Open Scope nat_scope.
Open Scope k_scope.

Lemma eig_contract_aeq {F : sfield} (A B : arr F) w L R : aeq A B -> eig_contract A w L R -> eig_contract B w L R.
Proof.
  intros (H1 & H2 & H3) [c1 c2 c3 c4 c5 c6 c7 c8 c9 c10]. rewrite H1, H2 in *.
  rewrite <- c1 in H3.
  split; auto; rewrite <- H3; auto.
Qed.

(** x0, x1 the columns of [ex_D], x2 = -2 x0 + 3 x1. *)
Definition ex_cmp : arr QI := of_rows 2 [[q 0; qi (-2) 0 1]; [q 1; q 3]].
Definition ex_Y : arr QI := Arr 2 2 (mmul 2 (ent ex_D) (ent ex_cmp)).
Definition ex_seq : arr QI :=
  Arr 2 3 (fun i j => match j with S (S _) => ent ex_Y i 1%nat | _ => ent ex_D i j end).
Definition ex_V : arr QI := of_rows 2 [[qi 3 0 5; qi 0 4 5]; [qi 0 4 5; qi 3 0 5]].
Definition ex_E : list QI := [q 4; q 1].
Definition ex_W1 : mat QI := mdiag (at1 [q 4; q 1]).
Definition ex_low : arr QI := Arr 2 2 (low_map ex_sqrt (but_last_col ex_seq) (but_first_col ex_seq) ex_W1 ex_E (ent ex_V)).
Definition ex_lw : list QI := [q 1; q 2].
Definition ex_lR : arr QI := Arr 2 2 (mmul 2 (mdiag (at1 [q 2; q 1])) (mmul 2 (madj (ent ex_V))
  (ent (of_rows 2 [[qi (-2) 0 1; qi (-2) 0 1]; [q 1; q 2]])))).
Definition ex_lL : arr QI := Arr 2 2 (mmul 2 (mdiag (at1 [qi 1 0 2; q 1])) (mmul 2 (madj (ent ex_V))
  (ent (of_rows 2 [[q 1; q 1]; [q 1; q 2]])))).

Lemma ex_low_contract : eig_contract ex_low ex_lw ex_lL ex_lR.
Proof.
  split; try reflexivity.
  - apply meqb_true. vm_compute. reflexivity.
  - apply meqb_true. vm_compute. reflexivity.
  - intros j Hj. exists j. split; auto. simpl in Hj.
    destruct j as [|[|j]]; try lia; apply keqb_false; vm_compute; reflexivity.
  - intros j Hj. exists j. split; auto. simpl in Hj.
    destruct j as [|[|j]]; try lia; apply keqb_false; vm_compute; reflexivity.
Qed.
Lemma ex_low_pairing i : i < 2 -> pairing 2 ex_lL ex_lR i i <> 0.
Proof. intros Hi. destruct i as [|[|i]]; try lia; apply keqb_false; vm_compute; reflexivity. Qed.
Lemma ex_hermitian : hermitian 2 ex_W1.
Proof. apply meqb_true. vm_compute. reflexivity. Qed.

Definition ex_snaps := DMD_snaps (fun _ => Ok (ex_cw, ex_cV)) (fun _ => [0; 1]%nat)
  (fun _ => Ok (ex_lw, ex_lL, ex_lR)) ex_sqrt false ex_seq None None ex_dw (Some (qi 1 0 8)) None None.
Definition ex_direct := DMD_direct (fun _ => Ok (eye 2, [q 2; q 1], ex_D)) (fun _ => Raise ValueError)
  (fun _ => Ok (ex_lw, ex_lL, ex_lR)) ex_sqrt false ex_seq None None ex_dw (Some (qi 1 0 8)) None None.

(** Both calls satisfy the conclusion of the theorems with (ex_E, ex_V). *)
Lemma ex_snaps_ok : exists V corr, nr V = 2%nat /\ nc V = 2%nat /\ meq 2 2 (ent V) (ent ex_V) /\
  dmd_kept ex_sqrt (but_last_col ex_seq) ex_W1 ex_E V /\
  dmd_ok (fun _ => Ok (ex_lw, ex_lL, ex_lR)) ex_sqrt (but_last_col ex_seq) (but_first_col ex_seq) ex_W1 ex_E V
    None corr ex_snaps.
Proof.
  destruct (C22_DMD_snaps (fun _ => Ok (ex_cw, ex_cV)) (fun _ => [0; 1]%nat) (fun _ => Ok (ex_lw, ex_lL, ex_lR))
    ex_sqrt ex_seq None (but_last_col ex_seq) (but_first_col ex_seq) None ex_dw (W1 [q 4; q 1]))
    as (C & K & EC & Cr & Cc & HC & HK & H).
  - split; [simpl; lia|auto].
  - simpl. lia.
  - reflexivity.
  - reflexivity.
  - exact ex_hermitian.
  - assert (ECC : aeq ex_C C).
    { split; [rewrite Cr; reflexivity|]. split; [rewrite Cc; reflexivity|].
      change (meq 2 2 (ent ex_C) (ent C)). change (nc (but_last_col ex_seq)) with 2%nat in HC. rewrite HC.
      apply meqb_true. vm_compute. reflexivity. }
    destruct (H ex_cw ex_cV (qi 1 0 8) None None) as (a & w1 & E & V & HR & (vals & cv & EE & -> & ->) & H1 & H2 & H3 & H4 & HKp & HO).
    + reflexivity.
    + destruct ex_C_contract as [c1 c2 c3 c4 c5 c6 c7]. destruct ECC as (e1 & e2 & e3).
      change (nr ex_C) with 2%nat in *. change (nc ex_C) with 2%nat in *.
      split; rewrite <- ?e1, <- ?e2; auto. rewrite <- e3. auto.
    + split; try reflexivity.
      * repeat constructor; simpl; lia.
      * repeat constructor; simpl; lia.
      * intros i j Hij Hj. simpl in Hj. destruct i as [|[|i]]; destruct j as [|[|j]]; try lia;
          try (left; vm_compute; reflexivity); right; reflexivity.
    + apply keqb_true. vm_compute. reflexivity.
    + left. vm_compute. reflexivity.
    + exact I.
    + intros e [<-|[<-|[]]] _; apply sq_ok_dec; vm_compute; reflexivity.
    + change (max_list None vals) with vals in *. change (max_cols None (length vals) cv) with cv in *.
      assert (Ev : vals = ex_E).
      { pose proof (f_equal (rmap fst) EE) as G. cbn [rmap fst] in G.
        assert (G' : rmap fst (eigh (fun _ => Ok (ex_cw, ex_cV)) (fun _ => [0; 1]%nat) C (Some (qi 1 0 8)) None true)
                     = Ok ex_E) by (vm_compute; reflexivity).
        rewrite G' in G. injection G as G. auto. }
      assert (Ec : meq 2 2 (ent cv) (ent ex_V)).
      { pose proof (f_equal (rmap (fun p => meqb 2 2 (ent (snd p)) (ent ex_V))) EE) as G. cbn [rmap snd] in G.
        assert (G' : rmap (fun p => meqb 2 2 (ent (snd p)) (ent ex_V))
          (eigh (fun _ => Ok (ex_cw, ex_cV)) (fun _ => [0; 1]%nat) C (Some (qi 1 0 8)) None true)
                     = Ok true) by (vm_compute; reflexivity).
        rewrite G' in G. injection G as G. apply meqb_true. auto. }
      subst vals. exists cv, (Some (C, K)). split; [apply (kp_r _ _ _ _ _ HKp)|].
      split; [apply (kp_c _ _ _ _ _ HKp)|]. split; [exact Ec|]. split; [exact HKp|exact HO].
Qed.

Lemma ex_direct_ok : exists V, nr V = 2%nat /\ nc V = 2%nat /\ meq 2 2 (ent V) (ent ex_V) /\
  dmd_kept ex_sqrt (but_last_col ex_seq) ex_W1 ex_E V /\
  dmd_ok (fun _ => Ok (ex_lw, ex_lL, ex_lR)) ex_sqrt (but_last_col ex_seq) (but_first_col ex_seq) ex_W1 ex_E V
    None None ex_direct.
Proof.
  destruct (C26_DMD_direct (fun _ => Ok (eye 2, [q 2; q 1], ex_D)) (fun _ => Raise ValueError)
    (fun _ => Ok (ex_lw, ex_lL, ex_lR))
    ex_sqrt ex_seq None (but_last_col ex_seq) (but_first_col ex_seq) None ex_dw ex_W1)
    as (Xw & R & EXw & X1 & X2 & _ & _ & H).
  - split; [simpl; lia|auto].
  - simpl. lia.
  - apply RO_1; auto. intros x [<-|[<-|[]]]; apply sq_ok_dec; vm_compute; reflexivity.
  - assert (EX : meq 2 2 (ent Xw) (ent ex_Xw)).
    { pose proof (f_equal (rmap (fun a => meqb 2 2 (ent a) (ent ex_Xw))) EXw) as G. cbn [rmap] in G.
      assert (G' : rmap (fun a => meqb 2 2 (ent a) (ent ex_Xw))
        (weighted_data (fun _ => Raise ValueError) ex_sqrt ex_dw ex_seq None) = Ok true) by (vm_compute; reflexivity).
      rewrite G' in G. injection G as G. apply meqb_true. auto. }
    destruct (H (eye 2) [q 2; q 1] ex_D (Some (qi 1 0 8)) None None)
      as (S & V & (U & S' & V' & EE & -> & ->) & _ & _ & HH); auto.
    + destruct ex_Xw_contract as [c1 c2 c3 c4 c5 c6 c7 c8 c9 c10 c11].
      change (nr ex_Xw) with 2%nat in *. change (nc ex_Xw) with 2%nat in *.
      split; rewrite ?X1, ?X2; auto. change (meq 2 2 (ent Xw) (mmul 2 (ent (eye 2)) (mmul 2 (mdiag (at1 [q 2; q 1])) (ent ex_D)))).
      rewrite EX. auto.
    + apply keqb_true. vm_compute. reflexivity.
    + exact I.
    + intros s [<-|[<-|[]]]; apply sq_ok_dec; vm_compute; reflexivity.
    + change (max_list None S') with S' in *. change (max_cols None (length S') V') with V' in *.
      assert (Ev : S' = [q 2; q 1]).
      { pose proof (f_equal (rmap (fun p => snd (fst p))) EE) as G. cbn [rmap fst snd] in G.
        assert (G' : rmap (fun p => snd (fst p)) (svd (fun _ => Ok (eye 2, [q 2; q 1], ex_D)) Xw (Some (qi 1 0 8)) None)
                     = Ok [q 2; q 1]) by (vm_compute; reflexivity).
        rewrite G' in G. injection G as G. auto. }
      assert (Ec : meq 2 2 (ent V') (ent ex_V)).
      { pose proof (f_equal (rmap (fun p => meqb 2 2 (ent (snd p)) (ent ex_V))) EE) as G. cbn [rmap snd] in G.
        assert (G' : rmap (fun p => meqb 2 2 (ent (snd p)) (ent ex_V))
          (svd (fun _ => Ok (eye 2, [q 2; q 1], ex_D)) Xw (Some (qi 1 0 8)) None) = Ok true) by (vm_compute; reflexivity).
        rewrite G' in G. injection G as G. apply meqb_true. auto. }
      subst S'. destruct HH as [HK HO].
      { intros [|[|i]] Hi; simpl in Hi; try lia; apply keqb_false; vm_compute; reflexivity. }
      assert (EEE : map (fun s : QI => s * s) [q 2; q 1] = ex_E) by (vm_compute; reflexivity).
      rewrite EEE in HK, HO. exists V'. split; [apply (kp_r _ _ _ _ _ HK)|].
      split; [apply (kp_c _ _ _ _ _ HK)|]. split; [exact Ec|]. split; [exact HK|exact HO].
Qed.

(** The eigenvalue routine's answer meets the hypotheses. *)
Lemma ex_low_eq V : meq 2 2 (ent V) (ent ex_V) ->
  meq 2 2 (low_map ex_sqrt (but_last_col ex_seq) (but_first_col ex_seq) ex_W1 ex_E (ent V)) (ent ex_low).
Proof.
  intros HV. unfold ex_low, low_map. cbn [ent]. change (length ex_E) with 2%nat.
  change (nc (but_last_col ex_seq)) with 2%nat. rewrite HV. reflexivity.
Qed.
Lemma ex_run V corr r : meq 2 2 (ent V) (ent ex_V) ->
  dmd_ok (fun _ => Ok (ex_lw, ex_lL, ex_lR)) ex_sqrt (but_last_col ex_seq) (but_first_col ex_seq) ex_W1 ex_E V
    None corr r ->
  exists M L Pe Pp Ps pc apc sp,
    dmd_returns r None Pe Pp Ps ex_lw sp pc apc ex_lR L ex_E V corr /\
    dmd_spec ex_sqrt (but_last_col ex_seq) (but_first_col ex_seq) ex_W1 ex_E V ex_lw M ex_lR L Pe Pp Ps pc apc sp.
Proof.
  intros HV (M & M1 & M2 & M3 & H). change (length ex_E) with 2%nat in *.
  destruct (H ex_lw ex_lL ex_lR) as (L & Pe & Pp & Ps & pc & apc & sp & _ & G1 & G2).
  - reflexivity.
  - apply (eig_contract_aeq ex_low); [|apply ex_low_contract]. split; [auto|]. split; [auto|].
    change (meq 2 2 (ent ex_low) (ent M)). rewrite M3, (ex_low_eq V HV). reflexivity.
  - apply ex_low_pairing.
  - exists M, L, Pe, Pp, Ps, pc, apc, sp. auto.
Qed.

Example C22_example : exists V corr M L Pe Pp Ps pc apc sp,
  dmd_returns ex_snaps None Pe Pp Ps ex_lw sp pc apc ex_lR L ex_E V corr /\
  dmd_spec ex_sqrt (but_last_col ex_seq) (but_first_col ex_seq) ex_W1 ex_E V ex_lw M ex_lR L Pe Pp Ps pc apc sp /\
  meq 2 2 (wip 2 ex_W1 (ent Ps) (ent Pp)) mid /\ meq 2 2 (wip 2 ex_W1 (ent Ps) (ent Pe)) mid.
Proof.
  destruct ex_snaps_ok as (V & corr & V1 & V2 & V3 & HK & HO).
  destruct (ex_run V corr _ V3 HO) as (M & L & Pe & Pp & Ps & pc & apc & sp & G1 & G2).
  exists V, corr, M, L, Pe, Pp, Ps, pc, apc, sp. split; auto. split; auto.
  assert (N : forall a b : QI, keqb a b = false -> a <> b) by (intros; apply keqb_false; auto).
  destruct (C22_identity _ _ _ _ _ _ _ _ _ _ _ _ _ _ _ _ G2) as [A B].
  - repeat constructor; simpl; intros H.
    + destruct H as [H|[]]; revert H; apply N; vm_compute; reflexivity.
    + auto.
  - split; [exact A|]. apply B. intros [H|[H|[]]]; revert H; apply N; vm_compute; reflexivity.
Qed.

Example C22_biorthogonal_example : exists Pe Pp Ps V corr L pc apc sp,
  dmd_returns ex_snaps None Pe Pp Ps ex_lw sp pc apc ex_lR L ex_E V corr /\
  wip 2 ex_W1 (ent Ps) (ent Pp) 0%nat 1%nat = mid 0%nat 1%nat /\
  wip 2 ex_W1 (ent Ps) (ent Pe) 1%nat 1%nat = mid 1%nat 1%nat.
Proof.
  destruct ex_snaps_ok as (V & corr & V1 & V2 & V3 & HK & HO).
  destruct (ex_run V corr _ V3 HO) as (M & L & Pe & Pp & Ps & pc & apc & sp & G1 & G2).
  exists Pe, Pp, Ps, V, corr, L, pc, apc, sp. split; [exact G1|]. split.
  - apply (C22_biorthogonal _ _ _ _ _ _ _ _ _ _ _ _ _ _ _ _ 0 1 G2); [simpl; lia|simpl; lia|].
    right. apply keqb_false. vm_compute. reflexivity.
  - apply (C22_biorthogonal _ _ _ _ _ _ _ _ _ _ _ _ _ _ _ _ 1 1 G2); [simpl; lia|simpl; lia|auto|].
    apply keqb_false. vm_compute. reflexivity.
Qed.

Example C22_distributed_example :
  DMD_snaps (fun _ => Ok (ex_cw, ex_cV)) (fun _ => [0; 1]%nat) (fun _ => Ok (ex_lw, ex_lL, ex_lR))
    ex_sqrt true ex_seq None None ex_dw (Some (qi 1 0 8)) None None = Raise RuntimeError.
Proof. apply C22_distributed. Qed.

(** Two vectors and three advanced ones. *)
Example C22_shapes_example :
  DMD_snaps (fun _ => Ok (ex_cw, ex_cV)) (fun _ => [0; 1]%nat) (fun _ => Ok (ex_lw, ex_lL, ex_lR))
    ex_sqrt false ex_D (Some ex_seq) None ex_dw (Some (qi 1 0 8)) None None = Raise ValueError.
Proof.
  apply (C22_shapes _ _ _ ex_sqrt ex_D ex_seq None ex_dw (W1 [qi 4 0 1; qi 1 0 1])); [reflexivity|].
  right. discriminate.
Qed.
Example C26_example : exists V M L Pe Pp Ps pc apc sp,
  dmd_returns ex_direct None Pe Pp Ps ex_lw sp pc apc ex_lR L ex_E V None /\
  dmd_spec ex_sqrt (but_last_col ex_seq) (but_first_col ex_seq) ex_W1 ex_E V ex_lw M ex_lR L Pe Pp Ps pc apc sp /\
  same_results ex_lw ex_snaps ex_direct.
Proof.
  destruct ex_direct_ok as (V & V1 & V2 & V3 & HK & HO).
  destruct (ex_run V None _ V3 HO) as (M & L & Pe & Pp & Ps & pc & apc & sp & G1 & G2).
  exists V, M, L, Pe, Pp, Ps, pc, apc, sp. split; auto. split; auto.
  destruct ex_snaps_ok as (V' & corr & V1' & V2' & V3' & HK' & HO').
  destruct (C26_agree (fun _ => Ok (ex_lw, ex_lL, ex_lR)) ex_sqrt (but_last_col ex_seq) (but_first_col ex_seq)
    ex_W1 ex_E V' V None corr None ex_snaps ex_direct) as (M' & A1 & A2 & A3 & H); auto.
  - intros A A' _. reflexivity.
  - simpl. lia.
  - split; [congruence|]. split; [congruence|]. rewrite V1', V2', V3', V3. reflexivity.
  - change (length ex_E) with 2%nat in *. apply (H ex_lw ex_lL ex_lR).
    + reflexivity.
    + apply (eig_contract_aeq ex_low); [|apply ex_low_contract]. split; [auto|]. split; [auto|].
      change (meq 2 2 (ent ex_low) (ent M')). rewrite A3, (ex_low_eq V' V3'). reflexivity.
    + apply ex_low_pairing.
Qed.

(** A tolerance of zero drops the singular value zero. *)
Example C26_nonzero_example : forall i, i < 2 -> at1 [q 2; qi 1 0 3] i <> 0.
Proof.
  apply (C26_nonzero [q 2; qi 1 0 3] [q 2; qi 1 0 3; q 0] (q 0) None).
  - repeat constructor; apply keqb_true; vm_compute; reflexivity.
  - apply keqb_true. vm_compute. reflexivity.
  - right. reflexivity.
  - reflexivity.
  - intros i Hi. split; [|exact I]. destruct i as [|[|i]]; [| |simpl in Hi; lia]; vm_compute; reflexivity.
Qed.

Example C26_distributed_example :
  DMD_direct (fun _ => Ok (eye 2, [q 2; q 1], ex_D)) (fun _ => Raise ValueError)
    (fun _ => Ok (ex_lw, ex_lL, ex_lR)) ex_sqrt true ex_seq None None ex_dw (Some (qi 1 0 8)) None None
  = Raise RuntimeError.
Proof. apply C26_distributed. Qed.

Lemma definite_root {F : sfield} n (W R T : mat F) : meq n n (mmul n (madj R) R) W -> meq n n (mmul n T R) mid ->
  definite n W.
Proof.
  intros HW HT v Hv i Hi.
  set (x := fun a (_ : nat) => v a).
  assert (G : meq 1 1 (mmul n (madj (mmul n R x)) (mmul n R x)) mzero).
  { transitivity (mmul n (madj x) (mmul n W x)).
    - rewrite madj_mmul, <- HW, !mmul_assoc. reflexivity.
    - split. intros a b _ _. unfold mzero. rewrite <- Hv. reflexivity. }
  apply gram_zero in G.
  assert (G' : meq n 1 x mzero).
  { rewrite <- (mmul_id_l n 1 x), <- HT, mmul_assoc, G, mmul_zero_r. reflexivity. }
  apply (meq_at _ _ _ _ G' i O Hi). lia.
Qed.
Lemma ex_definite : definite 2 ex_W1.
Proof.
  apply (definite_root 2 ex_W1 (mdiag (at1 [q 2; q 1])) (mdiag (at1 [qi 1 0 2; q 1])));
    apply meqb_true; vm_compute; reflexivity.
Qed.

(** The fitted operator of this sequence: its exact modes are eigenvectors of the
    map x_i -> x_(i+1). *)
Definition ex_A0 : mat QI := mmul 2 (ent ex_Y) (madj (ent ex_D)).
Example C23_example : exists V corr Pe Pp Ps pc apc sp L,
  dmd_returns ex_snaps None Pe Pp Ps ex_lw sp pc apc ex_lR L ex_E V corr /\
  (exists P, wpinv 2 2 ex_W1 (kept_data (but_last_col ex_seq) 2 (ent V)) P) /\
  meq 2 2 (mmul 2 ex_A0 (ent Pp)) (mmul 2 (ent Pp) (mdiag (at1 ex_lw))) /\
  (forall i j, i < 2 -> j < 2 -> ent Pe i j = ent Pp i j).
Proof.
  destruct ex_snaps_ok as (V & corr & V1 & V2 & V3 & HK & HO).
  destruct (ex_run V corr _ V3 HO) as (M & L & Pe & Pp & Ps & pc & apc & sp & G1 & G2).
  exists V, corr, Pe, Pp, Ps, pc, apc, sp, L. split; auto. split.
  { eexists. apply (fit_pinv ex_sqrt (but_last_col ex_seq) ex_W1 ex_E V ex_hermitian HK). }
  destruct (C23_invariant ex_sqrt (but_last_col ex_seq) (but_first_col ex_seq) ex_W1 ex_E V ex_lw M ex_lR L Pe Pp Ps pc apc sp
    ex_hermitian HK G2 eq_refl ex_A0 (ent ex_cmp)) as [A B].
  - apply meqb_true. vm_compute. reflexivity.
  - apply meqb_true. vm_compute. reflexivity.
  - apply (C23_untruncated ex_sqrt (but_last_col ex_seq) ex_W1 ex_E V HK ex_definite).
    change (length ex_E) with 2%nat. change (nc (but_last_col ex_seq)) with 2%nat. rewrite V3.
    apply meqb_true. vm_compute. reflexivity.
  - split; [exact A|]. intros i j Hi Hj. apply B; auto.
    destruct j as [|[|j]]; try lia; apply keqb_false; vm_compute; reflexivity.
Qed.

Example C23_fitted_operator_example : exists V corr Pe Pp Ps pc apc sp L P,
  dmd_returns ex_snaps None Pe Pp Ps ex_lw sp pc apc ex_lR L ex_E V corr /\
  wpinv 2 2 ex_W1 (kept_data (but_last_col ex_seq) 2 (ent V)) P /\
  (forall i j, i < 2 -> j < 2 ->
     mmul 2 (mmul 2 (ent (but_first_col ex_seq)) P) (ent Pe) i j = at1 ex_lw j * ent Pe i j) /\
  meq 2 2 (mmul 2 (mmul 2 (madj (ent Ps)) ex_W1) (mmul 2 (ent (but_first_col ex_seq)) P))
    (mmul 2 (mdiag (at1 ex_lw)) (mmul 2 (madj (ent Ps)) ex_W1)).
Proof.
  destruct ex_snaps_ok as (V & corr & V1 & V2 & V3 & HK & HO).
  destruct (ex_run V corr _ V3 HO) as (M & L & Pe & Pp & Ps & pc & apc & sp & G1 & G2).
  pose proof (fit_pinv ex_sqrt (but_last_col ex_seq) ex_W1 ex_E V ex_hermitian HK) as HP.
  exists V, corr, Pe, Pp, Ps, pc, apc, sp, L. eexists. split; [exact G1|]. split; [exact HP|].
  destruct (C23_fitted_operator ex_sqrt (but_last_col ex_seq) (but_first_col ex_seq) ex_W1 ex_E V ex_lw M
    ex_lR L Pe Pp Ps pc apc sp ex_hermitian HK G2 eq_refl _ ex_definite HP) as [A B].
  split; [|exact B]. intros i j Hi Hj. apply A; auto.
  destruct j as [|[|j]]; try lia; apply keqb_false; vm_compute; reflexivity.
Qed.

Example C23_compression_example : exists V M P, nr V = 2%nat /\ nc V = 2%nat /\
  wpinv 2 2 ex_W1 (kept_data (but_last_col ex_seq) 2 (ent V)) P /\
  let Q := reduced ex_sqrt (but_last_col ex_seq) ex_E (ent V) in
  meq 2 2 (wip 2 ex_W1 Q Q) mid /\
  meq 2 2 (ent M) (wip 2 ex_W1 Q (mmul 2 (mmul 2 (ent (but_first_col ex_seq)) P) Q)).
Proof.
  destruct ex_snaps_ok as (V & corr & V1 & V2 & V3 & HK & HO).
  destruct (ex_run V corr _ V3 HO) as (M & L & Pe & Pp & Ps & pc & apc & sp & G1 & G2).
  pose proof (fit_pinv ex_sqrt (but_last_col ex_seq) ex_W1 ex_E V ex_hermitian HK) as HP.
  exists V, M. eexists. split; [exact V1|]. split; [exact V2|]. split; [exact HP|].
  apply (C23_compression ex_sqrt (but_last_col ex_seq) (but_first_col ex_seq) ex_W1 ex_E V ex_lw M
    ex_lR L Pe Pp Ps pc apc sp ex_hermitian HK G2 _ ex_definite HP).
Qed.

(** Sequential and split calls of the direct method. *)
Example C24_example :
  same_results ex_lw ex_direct
    (DMD_direct (fun _ => Ok (eye 2, [q 2; q 1], ex_D)) (fun _ => Raise ValueError)
      (fun _ => Ok (ex_lw, ex_lL, ex_lR)) ex_sqrt false (but_last_col ex_seq) (Some (but_first_col ex_seq))
      None ex_dw (Some (qi 1 0 8)) None None).
Proof.
  destruct (C24_direct (fun _ => Ok (eye 2, [q 2; q 1], ex_D)) (fun _ => Raise ValueError)
    (fun _ => Ok (ex_lw, ex_lL, ex_lR)) ex_sqrt ex_seq None ex_dw ex_W1) as (Xw & EXw & H).
  - intros A A' _. reflexivity.
  - simpl. lia.
  - apply RO_1; auto. intros x [<-|[<-|[]]]; apply sq_ok_dec; vm_compute; reflexivity.
  - assert (X12 : (nr Xw, nc Xw) = (2, 2)%nat).
    { pose proof (f_equal (rmap (fun a => (nr a, nc a))) EXw) as G. cbn [rmap] in G.
      assert (G' : rmap (fun a => (nr a, nc a))
        (weighted_data (fun _ => Raise ValueError) ex_sqrt ex_dw ex_seq None) = Ok (2, 2)%nat) by (vm_compute; reflexivity).
      rewrite G' in G. injection G as G. congruence. }
    injection X12 as X1 X2.
    assert (EX : meq 2 2 (ent Xw) (ent ex_Xw)).
    { pose proof (f_equal (rmap (fun a => meqb 2 2 (ent a) (ent ex_Xw))) EXw) as G. cbn [rmap] in G.
      assert (G' : rmap (fun a => meqb 2 2 (ent a) (ent ex_Xw))
        (weighted_data (fun _ => Raise ValueError) ex_sqrt ex_dw ex_seq None) = Ok true) by (vm_compute; reflexivity).
      rewrite G' in G. injection G as G. apply meqb_true. auto. }
    destruct (H (eye 2) [q 2; q 1] ex_D (Some (qi 1 0 8)) None None)
      as (S & V & (U & S' & V' & EE & -> & ->) & _ & _ & HH); auto.
    + destruct ex_Xw_contract as [c1 c2 c3 c4 c5 c6 c7 c8 c9 c10 c11].
      change (nr ex_Xw) with 2%nat in *. change (nc ex_Xw) with 2%nat in *.
      split; rewrite ?X1, ?X2; auto. change (meq 2 2 (ent Xw) (mmul 2 (ent (eye 2)) (mmul 2 (mdiag (at1 [q 2; q 1])) (ent ex_D)))).
      rewrite EX. auto.
    + apply keqb_true. vm_compute. reflexivity.
    + exact I.
    + intros s [<-|[<-|[]]]; apply sq_ok_dec; vm_compute; reflexivity.
    + change (max_list None S') with S' in *. change (max_cols None (length S') V') with V' in *.
      assert (Ev : S' = [q 2; q 1]).
      { pose proof (f_equal (rmap (fun p => snd (fst p))) EE) as G. cbn [rmap fst snd] in G.
        assert (G' : rmap (fun p => snd (fst p)) (svd (fun _ => Ok (eye 2, [q 2; q 1], ex_D)) Xw (Some (qi 1 0 8)) None)
                     = Ok [q 2; q 1]) by (vm_compute; reflexivity).
        rewrite G' in G. injection G as G. auto. }
      assert (Ec : meq 2 2 (ent V') (ent ex_V)).
      { pose proof (f_equal (rmap (fun p => meqb 2 2 (ent (snd p)) (ent ex_V))) EE) as G. cbn [rmap snd] in G.
        assert (G' : rmap (fun p => meqb 2 2 (ent (snd p)) (ent ex_V))
          (svd (fun _ => Ok (eye 2, [q 2; q 1], ex_D)) Xw (Some (qi 1 0 8)) None) = Ok true) by (vm_compute; reflexivity).
        rewrite G' in G. injection G as G. apply meqb_true. auto. }
      subst S'. destruct HH as (M & M1 & M2 & M3 & HM).
      { intros [|[|i]] Hi; simpl in Hi; try lia; apply keqb_false; vm_compute; reflexivity. }
      assert (EEE : map (fun s : QI => s * s) [q 2; q 1] = ex_E) by (vm_compute; reflexivity).
      rewrite EEE in M3. change (length [q 2; q 1]) with 2%nat in *.
      apply (HM ex_lw ex_lL ex_lR).
      * reflexivity.
      * apply (eig_contract_aeq ex_low); [|apply ex_low_contract]. split; [auto|]. split; [auto|].
        change (meq 2 2 (ent ex_low) (ent M)). rewrite M3, (ex_low_eq V' Ec). reflexivity.
      * apply ex_low_pairing.
Qed.

Example C24_snaps_example : ex_snaps =
  DMD_snaps (fun _ => Ok (ex_cw, ex_cV)) (fun _ => [0; 1]%nat) (fun _ => Ok (ex_lw, ex_lL, ex_lR)) ex_sqrt false
    (but_last_col ex_seq) (Some (but_first_col ex_seq)) None ex_dw (Some (qi 1 0 8)) None None.
Proof. apply C24_snaps. Qed.

(** Repeated eigenvalues: the eigenvalue routine may return eigenvectors that are not
    biorthogonal, and then the modes are not, although no eigenvalue is zero. Data:
    x0 = y0 = e0, x1 = y1 = e1. *)
Definition ex_shear : arr QI := of_rows 2 [[q 1; q 1]; [q 0; q 1]].
Theorem C22_repeated_refuted : exists (C K M : arr QI) (w0 : list QI) (V0 : arr QI) (w : list QI) (L0 R0 : arr QI) r,
  DMD_correlations WNone (eye 2) (Some (eye 2)) = Ok (C, K) /\ eigh_contract C w0 V0 /\
  meq 2 2 (ent M) (low_map ex_sqrt (eye 2) (eye 2) mid [q 1; q 1] (ent (eye 2))) /\
  eig_contract M w L0 R0 /\ (forall i, i < 2 -> pairing 2 L0 R0 i i <> 0) /\ ~ In 0 w /\
  DMD_snaps (fun _ => Ok (w0, V0)) (fun _ => [0; 1]%nat) (fun _ => Ok (w, L0, R0)) ex_sqrt false
    (eye 2) (Some (eye 2)) None None (Some (qi 1 0 8)) None None = Ok r /\
  ~ meq 2 2 (wip 2 mid (ent (d_adjoint r)) (ent (d_proj r))) mid.
Proof.
  do 2 eexists. exists (eye 2), [q 1; q 1], (eye 2), [q 1; q 1], (eye 2), ex_shear.
  destruct (DMD_snaps (fun _ => Ok ([q 1; q 1], eye 2)) (fun _ => [0; 1]%nat) (fun _ => Ok ([q 1; q 1], eye 2, ex_shear))
    ex_sqrt false (eye 2) (Some (eye 2)) None None (Some (qi 1 0 8)) None None) as [r|e] eqn:ER.
  - exists r. split; [reflexivity|]. split.
    { split; try reflexivity; try (apply meqb_true; vm_compute; reflexivity).
      repeat constructor; apply keqb_true; vm_compute; reflexivity. }
    split. { apply meqb_true. vm_compute. reflexivity. }
    split.
    { split; try reflexivity; try (apply meqb_true; vm_compute; reflexivity);
        intros j Hj; exists j; (split; [auto|]); simpl in Hj;
        destruct j as [|[|j]]; try lia; apply keqb_false; vm_compute; reflexivity. }
    split. { intros [|[|i]] Hi; try lia; apply keqb_false; vm_compute; reflexivity. }
    split. { intros [H|[H|[]]]; revert H; apply keqb_false; vm_compute; reflexivity. }
    split; [reflexivity|]. intros G. pose proof (meq_at _ _ _ _ G 0%nat 1%nat ltac:(lia) ltac:(lia)) as G'.
    assert (Q1 : rmap (fun r => keqb (wip 2 mid (ent (d_adjoint r)) (ent (d_proj r)) 0%nat 1%nat) (q 0))
      (DMD_snaps (fun _ => Ok ([q 1; q 1], eye 2)) (fun _ => [0; 1]%nat) (fun _ => Ok ([q 1; q 1], eye 2, ex_shear))
       ex_sqrt false (eye 2) (Some (eye 2)) None None (Some (qi 1 0 8)) None None) = Ok false) by (vm_compute; reflexivity).
    rewrite ER in Q1. cbv beta iota delta [rmap rbind] in Q1. rewrite G' in Q1. vm_compute in Q1. discriminate.
  - exfalso. pose proof (f_equal (rmap (fun r => d_eigvals r)) ER) as Q. vm_compute in Q. discriminate.
Qed.

(** Tolerances act on eigenvalues in one method and on singular values in the other:
    with the same tolerance the two methods may keep different numbers of modes. *)
Definition ex_eig12 (A : arr QI) : res (list QI * arr QI * arr QI) :=
  if (nr A =? 1)%nat then Ok ([ent A O O], eye 1, eye 1) else Ok (ex_lw, ex_lL, ex_lR).
Theorem C26_same_tolerance_refuted :
  ~ (forall el argsort sl chol eig sqrt vecs adv idx wopt atol rtol m (a b : dmd_results QI),
     (forall A w V, el A = Ok (w, V) -> meq 2 2 (ent A) (ent ex_C) -> eigh_contract ex_C w V) ->
     (forall A U S Vh, sl A = Ok (U, S, Vh) -> meq 2 2 (ent A) (ent ex_Xw) -> svd_contract ex_Xw U S Vh) ->
     (forall x, In x [q 1; q 4] -> sqrt_ok sqrt x) ->
     DMD_snaps el argsort eig sqrt false vecs adv idx wopt atol rtol m = Ok a ->
     DMD_direct sl chol eig sqrt false vecs adv idx wopt atol rtol m = Ok b ->
     length (d_cvals a) = length (d_cvals b)).
Proof.
  intros H.
  destruct (DMD_snaps (fun _ => Ok (ex_cw, ex_cV)) (fun _ => [0; 1]%nat) ex_eig12 ex_sqrt false ex_seq None None
    ex_dw (Some (qi 1 0 8)) (Some (qi 2 0 5)) None) as [a|] eqn:EA.
  2: { pose proof (f_equal (rmap (fun r => length (d_cvals r))) EA) as Q. vm_compute in Q. discriminate. }
  destruct (DMD_direct (fun _ => Ok (eye 2, [q 2; q 1], ex_D)) (fun _ => Raise ValueError) ex_eig12 ex_sqrt false ex_seq
    None None ex_dw (Some (qi 1 0 8)) (Some (qi 2 0 5)) None) as [b|] eqn:EB.
  2: { pose proof (f_equal (rmap (fun r => length (d_cvals r))) EB) as Q. vm_compute in Q. discriminate. }
  assert (G : length (d_cvals a) = length (d_cvals b)).
  { refine (H _ _ _ _ _ _ _ _ _ _ _ _ _ a b _ _ _ EA EB).
    - intros A w V E _. injection E as <- <-. apply ex_C_contract.
    - intros A U S Vh E _. injection E as <- <- <-. apply ex_Xw_contract.
    - intros x [<-|[<-|[]]]; apply sq_ok_dec; vm_compute; reflexivity. }
  assert (QA : rmap (fun r => length (d_cvals r)) (DMD_snaps (fun _ => Ok (ex_cw, ex_cV)) (fun _ => [0; 1]%nat)
    ex_eig12 ex_sqrt false ex_seq None None ex_dw (Some (qi 1 0 8)) (Some (qi 2 0 5)) None) = Ok 1%nat)
    by (vm_compute; reflexivity).
  assert (QB : rmap (fun r => length (d_cvals r)) (DMD_direct (fun _ => Ok (eye 2, [q 2; q 1], ex_D))
    (fun _ => Raise ValueError) ex_eig12 ex_sqrt false ex_seq None None ex_dw (Some (qi 1 0 8)) (Some (qi 2 0 5)) None)
    = Ok 2%nat) by (vm_compute; reflexivity).
  rewrite EA in QA. rewrite EB in QB. unfold rmap, rbind in QA, QB. congruence.
Qed.

Print Assumptions C22_DMD_snaps.
Print Assumptions C22_biorthogonal.
Print Assumptions C22_identity.
Print Assumptions C22_repeated_refuted.
Print Assumptions C22_example.
Print Assumptions C23_fitted_operator.
Print Assumptions C23_compression.
Print Assumptions C23_invariant.
Print Assumptions C23_untruncated.
Print Assumptions C23_example.
Print Assumptions C24_snaps.
Print Assumptions C24_direct.
Print Assumptions C24_example.
Print Assumptions C26_DMD_direct.
Print Assumptions C26_agree.
Print Assumptions C26_nonzero.
Print Assumptions C26_same_tolerance_refuted.
Print Assumptions C26_example.
