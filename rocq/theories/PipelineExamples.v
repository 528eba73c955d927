(** Instances of C52. *)
From Coq Require Import List Arith Lia Bool ZArith Setoid Morphisms.
Import ListNotations.
From Verif Require Import Prelude Field FieldInst Matrix NdArray DecompModel DecompProofs DecompProps VSArraysModel
  PodModel BpodModel EraModel EraProofs EraProps EraExamples Lti LtiModel LtiProps OkidModel OkidProofs OkidProps
  DmdExamples TlsExamples PipelineProps.
Open Scope nat_scope.
Open Scope k_scope.

(** The system x' = 3/4 x + u, y = x, sampled six times. *)
Definition p_A : arr QI := Arr 1 1 e_A.
Definition p_B : arr QI := Arr 1 1 e_B.
Lemma p_system : real_system 1 1 1 p_A p_B p_B.
Proof. do 6 (split; [reflexivity|]). split; [|split]; intros i j Hi Hj; real_solve. Qed.
Lemma e_times_real : all_real e_times.
Proof. repeat constructor; real_solve. Qed.
Lemma e_times_spaced : equally_spaced e_times (q 0).
Proof. intros k Hk. simpl in Hk. right. apply keqb_true. do 5 (destruct k as [|k]; [vm_compute; reflexivity|]). lia. Qed.

(** The Hankel matrix is the one in the table. *)
Lemma p_Hankel (H : arr QI) : nr H = 2%nat -> nc H = 2%nat ->
  (forall r r' i j, r < 2 -> r' < 2 -> i < 1 -> j < 1 ->
     ent H (r * 1 + i)%nat (r' * 1 + j)%nat = mmul 1 (ent p_B) (mmul 1 (mpow 1 (ent p_A) (r + r')) (ent p_B)) i j) ->
  e_svd H = Ok (e_U, e_S, conj_T e_U) /\ svd_contract H e_U e_S (conj_T e_U).
Proof.
  intros h1 h2 h3.
  assert (E : aeq H e_H /\ aeq e_H H).
  { apply (mk_aeq 2 2); auto; try reflexivity.
    constructor. intros x y Hx Hy. pose proof (h3 x y O O Hx Hy ltac:(lia) ltac:(lia)) as E.
    rewrite !Nat.mul_1_r, !Nat.add_0_r in E. rewrite E.
    destruct x as [|[|x]]; try lia; destruct y as [|[|y]]; try lia; apply keqb_true; vm_compute; reflexivity. }
  destruct E as [E1 E2]. split.
  - unfold e_svd. rewrite (table_extensional _ _ _ E1). apply table_hit. vm_compute. reflexivity.
  - apply (svd_contract_aeq _ _ _ _ _ E2 e_contract).
Qed.
Lemma p_use round M0 Q :
  identifies e_svd e_eigvals e_sqrt round e_times (q 0) 6 1 1 1 M0
    (fun k => mmul 1 (ent p_B) (mmul 1 (mpow 1 (ent p_A) k) (ent p_B))) Q ->
  exists steps M Ar Br Cr, make_sampled_format round e_times (of_3d M0) (q 0) = Ok (steps, M) /\
    compute_ERA_model e_svd e_eigvals e_sqrt (of_3d M) 1 = Ok (Ar, Br, Cr) /\ real_system 1 1 1 Ar Br Cr /\ Q Ar Br Cr.
Proof.
  intros (steps & M & M' & H & H2 & E1 & E2 & E3 & E4 & E5 & E6 & Res).
  change ((6 - 2) / 2)%nat with 2%nat in *. change (1 * 2)%nat with 2%nat in *.
  destruct (p_Hankel H E4 E5 E6) as [EL HC].
  destruct (Res _ _ _ EL HC) as (Ar & Br & Cr & EC & Hs & HQ).
  - intros i j Hi Hj. simpl in Hi, Hj. do 2 (destruct i as [|i]; [do 2 (destruct j as [|j]; [real_solve|]); lia|]). lia.
  - intros i j Hi Hj. simpl in Hi, Hj. do 2 (destruct i as [|i]; [do 2 (destruct j as [|j]; [real_solve|]); lia|]). lia.
  - intros x Hx Nx. destruct Hx as [<-|[<-|[]]].
    + apply sqrt_ok_dec. vm_compute. reflexivity.
    + exfalso. apply Nx. apply keqb_true. vm_compute. reflexivity.
  - intros X. eexists. reflexivity.
  - exists steps, M, Ar, Br, Cr. auto.
Qed.

Example C52_impulse_era_instance (round : QI -> Z) :
  exists M0 steps M Ar Br Cr, impulse p_A p_B p_B (Some 6%nat) = Ok M0 /\
    make_sampled_format round e_times (of_3d M0) (q 0) = Ok (steps, M) /\
    compute_ERA_model e_svd e_eigvals e_sqrt (of_3d M) 1 = Ok (Ar, Br, Cr) /\
    same_responses 1 1 p_A p_B p_B Ar Br Cr.
Proof.
  destruct (C52_impulse_era e_svd e_eigvals e_sqrt round e_times (q 0) 6 1 1 1 p_A p_B p_B e_Lo e_Rc) as (M0 & E0 & I);
    try lia; try reflexivity.
  - exact p_system.
  - exact e_times_real.
  - exact e_times_spaced.
  - eqb_solve.
  - eqb_solve.
  - destruct (p_use _ _ _ I) as (steps & M & Ar & Br & Cr & E1 & E2 & _ & HQ). exists M0, steps, M, Ar, Br, Cr. auto.
Qed.

(** Seven samples of the impulse; the gain - 3/4 is deadbeat. *)
Definition p_u : arr QI := of_rows 1 [[q 1]; [q 0]; [q 0]; [q 0]; [q 0]; [q 0]; [q 0]].
Definition p_G : mat QI := fun _ _ => qi (-3) 0 4.
(** The coefficients: y(t) = u(t-1) + 3/4 y(t-1). *)
Definition p_X : arr QI := of_rows 1 ([[q 0]; [q 1]; [qi 3 0 4]] ++ repeat [q 0] 12).
Lemma p_fit (Y V out : arr QI) : lsim p_A p_B p_B p_u None = Ok Y -> nr V = 15%nat -> nc V = 7%nat ->
  meq 15 7 (ent V) (regressor 1 1 (ent p_u) (ent Y)) -> nr out = 7%nat -> nc out = 1%nat ->
  meq 7 1 (ent out) (ent Y) -> lstsq_contract (conj_T V) out p_X.
Proof.
  intros EY V1 V2 V3 o1 o2 o3. apply exact_contract; cbn [conj_T nr nc ent].
  - rewrite V1. reflexivity.
  - rewrite o2. reflexivity.
  - rewrite V1, V2, o2, o3, V3.
    assert (G : rmap (fun Y => meqb 7 1 (mmul 15 (madj (regressor 1 1 (ent p_u) (ent Y))) (ent p_X)) (ent Y))
      (lsim p_A p_B p_B p_u None) = Ok true) by (vm_compute; reflexivity).
    rewrite EY in G. injection G as G. apply meqb_true. exact G.
  - intros i j Hi Hj. simpl in Hi, Hj. destruct j as [|j]; [|lia]. do 15 (destruct i as [|i]; [real_solve|]). lia.
Qed.
Lemma p_u_real : real_mat (nr p_u) 1 (ent p_u).
Proof. intros i j Hi Hj. simpl in Hi. destruct j as [|j]; [|lia]. do 7 (destruct i as [|i]; [real_solve|]). lia. Qed.
Lemma p_u_informative : informative 1 7 7 (ent p_u).
Proof. apply informative_single; [lia|]. neq_solve. Qed.

Example C52_lsim_okid_instance :
  exists Y M M0, lsim p_A p_B p_B p_u None = Ok Y /\ OKID (fun _ _ => Ok p_X) (as_rows p_u) (as_rows Y) 7 = Ok M /\
    impulse p_A p_B p_B (Some 6%nat) = Ok M0 /\ a3_t (drop_first M) = 6%nat /\
    forall k, k < 6 -> meq 1 1 (a3 (drop_first M) k) (a3 M0 k).
Proof.
  destruct (C52_lsim_okid (fun _ _ => Ok p_X) 1 1 1 7 p_A p_B p_B p_u p_G) as (Y & EY & Y1 & Y2 & Rest);
    try (simpl; lia); try reflexivity.
  - exact p_system.
  - exact p_u_real.
  - destruct (Rest (or_introl p_u_informative)) as (V & V1 & V2 & V3 & V4 & Res). rewrite V1 in V3.
    destruct (Res p_X eq_refl) as (M & M0 & EM & M1 & _ & _ & E0 & _ & HM).
    + apply (p_fit Y); auto.
    + exists Y, M, M0. do 3 (split; [auto|]). split; [cbn; lia|exact HM].
Qed.

Example C52_identification_instance (round : QI -> Z) :
  exists Y M steps Ms Ar Br Cr, lsim p_A p_B p_B p_u None = Ok Y /\
    OKID (fun _ _ => Ok p_X) (as_rows p_u) (as_rows Y) 7 = Ok M /\
    make_sampled_format round e_times (of_3d (drop_first M)) (q 0) = Ok (steps, Ms) /\
    compute_ERA_model e_svd e_eigvals e_sqrt (of_3d Ms) 1 = Ok (Ar, Br, Cr) /\
    same_responses 1 1 p_A p_B p_B Ar Br Cr.
Proof.
  destruct (C52_identification (fun _ _ => Ok p_X) e_svd e_eigvals e_sqrt round e_times (q 0) 6 1 1 1 p_A p_B p_B p_u p_G e_Lo e_Rc)
    as (Y & EY & Y1 & Y2 & Rest); try (simpl; lia); try reflexivity.
  - exact p_system.
  - exact p_u_real.
  - exact e_times_real.
  - exact e_times_spaced.
  - eqb_solve.
  - eqb_solve.
  - destruct (Rest (or_introl p_u_informative)) as (V & V1 & V2 & V3 & V4 & Res). rewrite V1 in V3.
    destruct (Res p_X eq_refl) as (M & EM & I).
    + apply (p_fit Y); auto.
    + destruct (p_use _ _ _ I) as (steps & Ms & Ar & Br & Cr & E1 & E2 & _ & HQ).
      exists Y, M, steps, Ms, Ar, Br, Cr. auto.
Qed.

(** The unit delay y(t) = u(t-1): OKID's array is 0, 1, 0, ...; given whole, it is
    taken for a delay of two steps. *)
Definition z_A : arr QI := Arr 1 1 mzero.
Definition z_M : arr3 QI := Arr3 6 1 1 (fun k _ _ => if (k =? 1)%nat then q 1 else q 0).
Definition z_A' : mat QI := ent (of_rows 2 [[q 0; q 1]; [q 0; q 0]]).
Definition z_B' : mat QI := ent (of_rows 1 [[q 0]; [q 1]]).
Definition z_C' : mat QI := ent (of_rows 2 [[q 1; q 0]]).
Definition z_H : arr QI := of_rows 2 [[q 0; q 1]; [q 1; q 0]].
Definition z_I : arr QI := of_rows 2 [[q 1; q 0]; [q 0; q 1]].
Definition z_svd := table [(z_H, (z_H, [q 1; q 1], z_I))].
Lemma z_contract : svd_contract z_H z_H [q 1; q 1] z_I.
Proof. svd_solve. Qed.
Lemma z_system : real_system 1 1 1 z_A p_B p_B.
Proof. do 6 (split; [reflexivity|]). split; [|split]; intros i j Hi Hj; real_solve. Qed.
Lemma z_pow k : meq 2 2 (mpow 2 z_A' (S (S k))) mzero.
Proof.
  induction k as [|k IH]; [eqb_solve|]. change (meq 2 2 (mmul 2 z_A' (mpow 2 z_A' (S (S k)))) mzero).
  rewrite IH. apply mmul_zero_r.
Qed.
Lemma z_pow1 k : meq 1 1 (mpow 1 (ent z_A) (S k)) mzero.
Proof. cbn [mpow]. apply mmul_zero_l. Qed.
Lemma z_Markov k : meq 1 1 (mmul 2 z_C' (mmul 2 (mpow 2 z_A' k) z_B')) (Markov 1 (ent z_A) (ent p_B) (ent p_B) mzero k).
Proof.
  destruct k as [|[|k]]; [eqb_solve|eqb_solve|]. cbn [Markov].
  rewrite z_pow, z_pow1, !mmul_zero_l, !mmul_zero_r. reflexivity.
Qed.
Example C52_undropped_instance (round : QI -> Z) :
  exists steps Ms Ar Br Cr, make_sampled_format round e_times (of_3d z_M) (q 0) = Ok (steps, Ms) /\
    compute_ERA_model z_svd e_eigvals (fun x => x) (of_3d Ms) 2 = Ok (Ar, Br, Cr) /\
    exists Y Y', lsim z_A p_B p_B p_u None = Ok Y /\ lsim Ar Br Cr p_u None = Ok Y' /\
      ent Y 1%nat 0%nat = q 1 /\ ent Y' 1%nat 0%nat = q 0 /\ ent Y' 2%nat 0%nat = q 1.
Proof.
  destruct (C52_undropped z_svd e_eigvals (fun x => x) round e_times (q 0) 6 1 2 1 1 z_A p_B p_B z_A' z_B' z_C' (ent z_I) (ent z_H) z_M)
    as (steps & M & M' & H & H2 & E1 & E2 & E3 & E4 & E5 & E6 & Res); try lia; try reflexivity.
  - exact z_system.
  - exact e_times_real.
  - exact e_times_spaced.
  - intros k Hk. do 6 (destruct k as [|k]; [eqb_solve|]). lia.
  - exact z_Markov.
  - eqb_solve.
  - eqb_solve.
  - change ((6 - 2) / 2)%nat with 2%nat in *. change (1 * 2)%nat with 2%nat in *.
    assert (E : aeq H z_H /\ aeq z_H H).
    { apply (mk_aeq 2 2); auto; try reflexivity.
      constructor. intros x y Hx Hy. pose proof (E6 x y O O Hx Hy ltac:(lia) ltac:(lia)) as E.
      rewrite !Nat.mul_1_r, !Nat.add_0_r in E. rewrite E.
      destruct x as [|[|x]]; try lia; destruct y as [|[|y]]; try lia; apply keqb_true; vm_compute; reflexivity. }
    destruct E as [A1 A2].
    assert (EL : z_svd H = Ok (z_H, [q 1; q 1], z_I)).
    { unfold z_svd. rewrite (table_extensional _ _ _ A1). apply table_hit. vm_compute. reflexivity. }
    destruct (Res _ _ _ EL (svd_contract_aeq _ _ _ _ _ A2 z_contract)) as (Ar & Br & Cr & EC & Hs & HQ).
    + intros i j Hi Hj. simpl in Hi, Hj. do 2 (destruct i as [|i]; [do 2 (destruct j as [|j]; [real_solve|]); lia|]). lia.
    + intros i j Hi Hj. simpl in Hi, Hj. do 2 (destruct i as [|i]; [do 2 (destruct j as [|j]; [real_solve|]); lia|]). lia.
    + intros x Hx Nx. destruct Hx as [<-|[<-|[]]]; apply sqrt_ok_dec; vm_compute; reflexivity.
    + intros X. eexists. reflexivity.
    + exists steps, M, Ar, Br, Cr. split; [exact E1|]. split; [exact EC|].
      destruct (HQ p_u) as (Y & Y' & EY & EY' & Y0 & YS); [simpl; lia|reflexivity|exact p_u_real|].
      exists Y, Y'. split; [exact EY|]. split; [exact EY'|].
      assert (G : rmap (fun Y => (keqb (ent Y 1%nat O) (q 1), keqb (ent Y O O) (q 0))) (lsim z_A p_B p_B p_u None) = Ok (true, true))
        by (vm_compute; reflexivity).
      rewrite EY in G. injection G as G1 G2. apply keqb_true in G1. apply keqb_true in G2.
      split; [exact G1|]. rewrite !YS by (simpl; lia). auto.
Qed.

Print Assumptions C52_impulse_era.
Print Assumptions C52_lsim_okid.
Print Assumptions C52_identification.
Print Assumptions C52_undropped.
