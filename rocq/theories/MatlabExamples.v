(** Instances of C58, and what the tolerance of OKID.m changes. *)
From Coq Require Import List Arith Lia Bool ZArith Field Ring Setoid Morphisms.
Import ListNotations.
From Verif Require Import Prelude Field FieldInst Matrix NdArray DecompModel DecompProofs DecompProps VSArraysModel
  EraModel EraProofs Lti OkidModel OkidProofs OkidProps MatlabModel MatlabProofs MatlabProps DmdExamples TlsExamples.
Open Scope nat_scope.
Open Scope k_scope.

Lemma pinv_contract_aeq {F : sfield} (tol : F) A B P U S Vh : aeq A B -> pinv_contract tol A P U S Vh -> pinv_contract tol B P U S Vh.
Proof.
  intros E [H1 H2 H3 H4]. destruct E as (E1 & E2 & E3). split.
  - apply (svd_contract_aeq A); auto. split; auto.
  - congruence.
  - congruence.
  - rewrite <- E1, <- E2. exact H4.
Qed.

(** ** The impulse response 3/4, 0, 25/4 from its first samples *)
Definition mt_in : nd QI := Nd [1; 3]%nat [q 1; q 0; q 0].
Definition mt_out : nd QI := Nd [1; 3]%nat [qi 3 0 4; q 0; qi 25 0 4].
Definition mt_u : arr QI := as_2d 1 3 (flat mt_in).
Definition mt_y : arr QI := as_2d 1 3 (flat mt_out).
Definition mt_V : arr QI := of_rows 3 [[q 1; q 0; q 0]; [q 0; q 1; q 0]; [q 0; qi 3 0 4; q 0];
  [q 0; q 0; q 1]; [q 0; q 0; qi 3 0 4]].
Definition mt_U : arr QI := of_rows 3 [[q 0; q 0; q 1]; [qi 4 0 5; q 0; q 0]; [qi 3 0 5; q 0; q 0];
  [q 0; qi 4 0 5; q 0]; [q 0; qi 3 0 5; q 0]].
Definition mt_S : list QI := [qi 5 0 4; qi 5 0 4; q 1].
Definition mt_Vh : arr QI := of_rows 3 [[q 0; q 1; q 0]; [q 0; q 0; q 1]; [q 1; q 0; q 0]].
Definition mt_P : arr QI := of_rows 5 [[q 1; q 0; q 0; q 0; q 0]; [q 0; qi 16 0 25; qi 12 0 25; q 0; q 0];
  [q 0; q 0; q 0; qi 16 0 25; qi 12 0 25]].
Definition mt_X : arr QI := of_rows 1 [[qi 3 0 4]; [q 0]; [q 0]; [q 4]; [q 3]].

Lemma mt_svd : svd_contract mt_V mt_U mt_S mt_Vh.
Proof.
  split; try reflexivity; try eqb_solve; [repeat constructor; real_solve|repeat constructor; le_solve|].
  intros i j Hij Hj; simpl in Hj; destruct i as [|[|[|i]]]; destruct j as [|[|[|j]]]; try lia; le_solve.
Qed.
Lemma mt_pinv : pinv_contract cutoff mt_V mt_P mt_U mt_S mt_Vh.
Proof. split; [exact mt_svd|reflexivity|reflexivity|eqb_solve]. Qed.
Lemma mt_zeros : only_zeros cutoff mt_S.
Proof. intros i Hi. simpl in Hi. right. destruct i as [|[|[|i]]]; try lia; vm_compute; reflexivity. Qed.
Lemma mt_reg : meq 5 3 (ent mt_V) (regressor 1 1 (signal 3 mt_in) (signal 3 mt_out)).
Proof. eqb_solve. Qed.
Lemma mt_lstsq : lstsq_contract (conj_T mt_V) (transp mt_y) mt_X.
Proof.
  split; [reflexivity|reflexivity|eqb_solve|]. intros _ _ i j Hi Hj. simpl in Hi, Hj. destruct j as [|j]; [|lia].
  do 5 (destruct i as [|i]; [real_solve|]). lia.
Qed.

Example C58_fit_example : exists H, OKID_m (fun _ _ => Ok mt_P) mt_y mt_u 2 = Ok H /\ nr H = 1%nat /\ nc H = 3%nat /\
  exists M, least_fit 1 1 3 2 (channel mt_u) (channel mt_y) M /\
    arx_Markov 1 M (co_a 1 1 2 M) (co_b 1 1 2 M) (block 1 H) 1 3.
Proof.
  destruct (C58_fit (fun _ _ => Ok mt_P) mt_y mt_u 1 1 3 2) as (V & V1 & V2 & V3 & Res); auto.
  destruct (Res mt_P mt_U mt_S mt_Vh) as (H & M & E & H1 & H2 & H3 & H4).
  - reflexivity.
  - apply (pinv_contract_aeq _ mt_V); [|exact mt_pinv]. split; [symmetry; exact V1|]. split; [symmetry; exact V2|].
    rewrite V1 in V3. symmetry. etransitivity; [exact V3|]. symmetry. exact mt_reg.
  - exact mt_zeros.
  - exists H. split; [exact E|]. split; [exact H1|]. split; [exact H2|]. exists M. split; auto.
Qed.
Example C58_agree_example : exists A H, OKID (fun _ _ => Ok mt_X) mt_in mt_out 2 = Ok A /\
  OKID_m (fun _ _ => Ok mt_P) mt_y mt_u 2 = Ok H /\
  (forall k, k < 2 -> meq 1 1 (a3 A k) (a3 (matlab_Markovs 1 2 H) k)) /\
  a3 A 0%nat 0%nat 0%nat = qi 3 0 4 /\ ent H 0%nat 2%nat = qi 25 0 4.
Proof.
  destruct (C58_agree (fun _ _ => Ok mt_X) (fun _ _ => Ok mt_P) mt_in mt_out 1 1 3 2) as (V & V' & V1 & V2 & W1 & W2 & V3 & W3 & Res); auto.
  - intros t j Ht Hj. destruct j as [|j]; [|lia]. do 3 (destruct t as [|t]; [real_solve|]). lia.
  - intros t j Ht Hj. destruct j as [|j]; [|lia]. do 3 (destruct t as [|t]; [real_solve|]). lia.
  - assert (EV : aeq mt_V V).
    { split; [symmetry; exact V1|]. split; [symmetry; exact V2|]. symmetry. etransitivity; [exact V3|]. symmetry. exact mt_reg. }
    assert (EV' : aeq mt_V V').
    { split; [symmetry; exact W1|]. split; [symmetry; exact W2|]. symmetry. etransitivity; [exact W3|]. symmetry. exact mt_reg. }
    destruct (Res mt_X mt_P mt_U mt_S mt_Vh) as (A & H & EA & EH & _ & _ & _ & K).
    + reflexivity.
    + pose proof mt_lstsq as [L1 L2 L3 L4]. change (nr mt_V) with 5%nat in *. split.
      * cbn [conj_T nc]. rewrite V1. reflexivity.
      * exact L2.
      * destruct EV as (_ & _ & EV). change (nr mt_V) with 5%nat in EV. change (nc mt_V) with 3%nat in EV.
        cbn [conj_T transp nr nc ent as_2d] in L3 |- *. rewrite V1, V2. change (1 + (1 + 1) * 2)%nat with 5%nat.
        rewrite <- EV. exact L3.
      * intros _ _ i j Hi Hj. apply L4; auto; intros a b Ha Hb; simpl in Ha, Hb.
        -- do 3 (destruct a as [|a]; [do 5 (destruct b as [|b]; [real_solve|]); lia|]). lia.
        -- destruct b as [|b]; [|lia]. do 3 (destruct a as [|a]; [real_solve|]). lia.
    + left. exists (ent (of_rows 1 [[qi 3 0 4]; [q 0]; [q 4]])). change (1 + (1 + 1) * 2)%nat with 5%nat.
      rewrite V3. eqb_solve.
    + reflexivity.
    + apply (pinv_contract_aeq _ mt_V); [exact EV'|exact mt_pinv].
    + exact mt_zeros.
    + exists A, H. split; [exact EA|]. split; [exact EH|]. split; [exact K|].
      change (OKID (fun _ _ => Ok mt_X) mt_in mt_out 2 = Ok A) in EA.
      split.
      * injection EA as <-. apply keqb_true. vm_compute. reflexivity.
      * injection EH as <-. apply keqb_true. vm_compute. reflexivity.
Qed.

(** The system x' = u, y = x + 3 u / 4, deadbeat: N + 1 = 2 parameters from two samples. *)
Definition m2_u : arr QI := of_rows 2 [[q 1; q 0]].
Definition m2_y : arr QI := of_rows 2 [[qi 3 0 4; q 1]].
Definition m2_V : arr QI := of_rows 2 [[q 1; q 0]; [q 0; q 1]; [q 0; qi 3 0 4]].
Definition m2_U : arr QI := of_rows 2 [[q 0; q 1]; [qi 4 0 5; q 0]; [qi 3 0 5; q 0]].
Definition m2_S : list QI := [qi 5 0 4; q 1].
Definition m2_Vh : arr QI := of_rows 2 [[q 0; q 1]; [q 1; q 0]].
Definition m2_P : arr QI := of_rows 3 [[q 1; q 0; q 0]; [q 0; qi 16 0 25; qi 12 0 25]].
Lemma m2_pinv : pinv_contract cutoff m2_V m2_P m2_U m2_S m2_Vh.
Proof. split; [svd_solve|reflexivity|reflexivity|eqb_solve]. Qed.
Example C58_recovered_example : exists H, OKID_m (fun _ _ => Ok m2_P) m2_y m2_u 1 = Ok H /\
  (forall k, k <= 1 -> meq 1 1 (block 1 H k) (Markov 1 mzero mid mid (fun _ _ => qi 3 0 4) k)) /\
  nc H = 2%nat /\ ent H 0%nat 1%nat = q 1.
Proof.
  destruct (C58_recovered (fun _ _ => Ok m2_P) m2_y m2_u 1 1 2 1 1 mzero mid mid (fun _ _ => qi 3 0 4) mzero) as (V & V1 & V2 & V3 & Res); auto.
  - exists (fun t _ => nth t [q 0; q 1] 0). split; [|split].
    + intros l Hl. reflexivity.
    + intros t l Ht Hl. destruct l as [|l]; [|lia]. destruct t as [|t]; [|lia]. real_solve.
    + intros t l Ht Hl. destruct l as [|l]; [|lia]. destruct t as [|[|t]]; try lia; real_solve.
  - eqb_solve.
  - left. intros d Hd. apply (informative_single 2 2 (channel m2_u)); auto. neq_solve.
  - destruct (Res m2_P m2_U m2_S m2_Vh) as (H & EH & H1 & H2 & H3).
    + reflexivity.
    + apply (pinv_contract_aeq _ m2_V); [|exact m2_pinv]. split; [symmetry; exact V1|]. split; [symmetry; exact V2|].
      rewrite V1 in V3. symmetry. etransitivity; [exact V3|]. change (nr m2_V) with 3%nat. eqb_solve.
    + intros i Hi. simpl in Hi. right. destruct i as [|[|i]]; try lia; vm_compute; reflexivity.
    + exists H. split; [exact EH|]. split; [exact H3|]. split; [exact H2|]. injection EH as <-. real_solve.
Qed.
Example C58_mismatch_example : OKID_m (fun _ _ => Ok m2_P) m2_y mt_u 1 = Raise RuntimeError.
Proof. apply C58_mismatch. discriminate. Qed.
Example C58_none_example : OKID_m (fun _ (V : arr QI) => Ok (zeros (nc V) (nr V))) m2_y m2_u 0 = Raise IndexError.
Proof. apply C58_none; auto. intros V. eexists. split; [reflexivity|]. split; reflexivity. Qed.
Example C58_too_many_example :
  OKID (fun _ _ => Ok mt_X) mt_in mt_out 4 = Raise ValueError /\
  exists H, OKID_m (fun _ (V : arr QI) => Ok (zeros (nc V) (nr V))) mt_y mt_u 4 = Ok H.
Proof. apply (C58_too_many (fun _ _ => Ok mt_X) (fun _ (V : arr QI) => Ok (zeros (nc V) (nr V))) mt_in mt_out 1 1 3 4 (zeros 3 9)); auto; lia. Qed.

(** ** Small data: OKID.m takes it for zero, OKID does not *)
Definition millionth : QI := cutoff / ten.
Definition sm_in : nd QI := Nd [1; 1]%nat [millionth].
Definition sm_out : nd QI := Nd [1; 1]%nat [q 1].
Definition sm_V : arr QI := of_rows 1 [[millionth]; [q 0]; [q 0]].
Definition sm_U : arr QI := of_rows 1 [[q 1]; [q 0]; [q 0]].
Definition sm_X : arr QI := of_rows 1 [[1 / millionth]; [q 0]; [q 0]].
Lemma sm_pinv : pinv_contract cutoff sm_V (zeros 1 3) sm_U [millionth] (eye 1).
Proof.
  split; [|reflexivity|reflexivity|eqb_solve]. split; try reflexivity; try eqb_solve.
  - repeat constructor; real_solve.
  - repeat constructor; le_solve.
  - intros i j Hij Hj. simpl in Hj. destruct i, j; try lia. le_solve.
Qed.
Lemma sm_lstsq : lstsq_contract (conj_T sm_V) (transp (as_2d 1 1 (flat sm_out))) sm_X.
Proof.
  split; [reflexivity|reflexivity|eqb_solve|]. intros _ _ i j Hi Hj. simpl in Hi, Hj. destruct j as [|j]; [|lia].
  do 3 (destruct i as [|i]; [real_solve|]). lia.
Qed.
Theorem C58_cutoff_refuted : exists (inputs outputs : nd QI) X P U S Vh (V : arr QI) A H,
  shape inputs = [1; 1]%nat /\ shape outputs = [1; 1]%nat /\
  meq 3 1 (ent V) (regressor 1 1 (signal 1 inputs) (signal 1 outputs)) /\
  lstsq_contract (conj_T V) (transp (as_2d 1 1 (flat outputs))) X /\
  (exists W, meq 3 1 (ent X) (mmul 1 (ent V) W)) /\ pinv_contract cutoff V P U S Vh /\
  OKID (fun _ _ => Ok X) inputs outputs 1 = Ok A /\
  OKID_m (fun _ _ => Ok P) (as_2d 1 1 (flat outputs)) (as_2d 1 1 (flat inputs)) 1 = Ok H /\
  a3 A 0%nat 0%nat 0%nat * at1 (flat inputs) 0 = at1 (flat outputs) 0 /\ ent H 0%nat 0%nat = 0 /\ at1 (flat outputs) 0 <> 0.
Proof.
  exists sm_in, sm_out, sm_X, (zeros 1 3), sm_U, [millionth], (eye 1), sm_V. eexists. eexists.
  split; [reflexivity|]. split; [reflexivity|]. split; [eqb_solve|]. split; [exact sm_lstsq|].
  split; [exists (fun _ _ => 1 / (millionth * millionth)); eqb_solve|]. split; [exact sm_pinv|].
  split; [reflexivity|]. split; [reflexivity|]. split; [real_solve|]. split; [real_solve|neq_solve].
Qed.

Print Assumptions C58_fit.
Print Assumptions C58_agree.
Print Assumptions C58_recovered.
Print Assumptions C58_mismatch.
Print Assumptions C58_none.
Print Assumptions C58_too_many.
Print Assumptions C58_cutoff_refuted.
Print Assumptions C58_fit_example.
Print Assumptions C58_agree_example.
Print Assumptions C58_recovered_example.
