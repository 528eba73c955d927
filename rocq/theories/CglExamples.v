(** An instance of C54: three states, of which two are controllable and observable. *)
From Coq Require Import List Arith Lia Bool ZArith Field Ring Setoid Morphisms.
Import ListNotations.
From Verif Require Import Prelude Field FieldInst Matrix NdArray DecompModel DecompProofs DecompProps
  VSArraysModel VSArraysProofs VSArraysProps PodModel PodProofs PodProps BpodModel BpodProofs BpodProps
  GalerkinModel GalerkinProps TrapzModel TrapzProps CglModel CglProofs CglProps.
Open Scope nat_scope.
Open Scope k_scope.

(** Cramer's rule meets the contract of numpy.linalg.solve, for two and three equations. *)
Section Cramer.
Context {F : sfield}.
Add Field Ff_cramer : (k_field F).
Implicit Types L T : mat F.
Definition det2 L : F := L 0%nat 0%nat * L 1%nat 1%nat - L 0%nat 1%nat * L 1%nat 0%nat.
Definition adj2 L : mat F := fun i j => if (i =? j)%nat then L (1 - i)%nat (1 - i)%nat else - L i j.
Definition cof L i j : F :=
  L ((j + 1) mod 3)%nat ((i + 1) mod 3)%nat * L ((j + 2) mod 3)%nat ((i + 2) mod 3)%nat -
  L ((j + 1) mod 3)%nat ((i + 2) mod 3)%nat * L ((j + 2) mod 3)%nat ((i + 1) mod 3)%nat.
Definition det3 L : F := L 0%nat 0%nat * cof L 0 0 + L 0%nat 1%nat * cof L 1 0 + L 0%nat 2%nat * cof L 2 0.
Definition cramer (L b : arr F) : res (arr F) :=
  let go n (d : F) (ad : mat F) := if k_dec F d 0 then Raise LinAlgError else Ok (Arr n (nc b) (mmul n (mscale (1 / d) ad) (ent b))) in
  if (nr L =? 2)%nat then go 2%nat (det2 (ent L)) (adj2 (ent L)) else go 3%nat (det3 (ent L)) (cof (ent L)).

Lemma adj2_ok L : meq 2 2 (mmul 2 L (adj2 L)) (mscale (det2 L) mid).
Proof. split. intros i j Hi Hj. destruct i as [|[|i]]; [| |lia]; destruct j as [|[|j]]; try lia; unfold mmul, mscale, mid, adj2, det2; simpl; ring. Qed.
Lemma cof_ok L : meq 3 3 (mmul 3 L (cof L)) (mscale (det3 L) mid).
Proof.
  split. intros i j Hi Hj. destruct i as [|[|[|i]]]; [| | |lia]; destruct j as [|[|[|j]]]; try lia; unfold mmul, mscale, mid, det3, cof; simpl; ring.
Qed.
Lemma det2_mul T L : det2 (mmul 2 T L) = det2 T * det2 L.
Proof. unfold det2, mmul. simpl. ring. Qed.
Lemma det3_mul T L : det3 (mmul 3 T L) = det3 T * det3 L.
Proof. unfold det3, cof, mmul. simpl. ring. Qed.
Lemma det2_ext L T : meq 2 2 L T -> det2 L = det2 T.
Proof. intros [H]. unfold det2. rewrite !H by lia. reflexivity. Qed.
Lemma det3_ext L T : meq 3 3 L T -> det3 L = det3 T.
Proof. intros [H]. unfold det3, cof. simpl. rewrite !H by lia. reflexivity. Qed.
Lemma cramer_ok (L : arr F) : nc L = nr L -> nr L = 3%nat \/ nr L = 2%nat -> solve_contract cramer L.
Proof.
  intros _ HL (T & HT) b Hb. unfold cramer. destruct HL as [E|E]; rewrite E in *; simpl Nat.eqb; cbv iota zeta.
  - assert (D : det3 (ent L) <> 0).
    { intros D. pose proof (det3_mul T (ent L)) as M. rewrite (det3_ext _ _ HT), D in M. apply (one_neq_zero (F := F)).
      transitivity (det3 (mid (F := F))); [unfold det3, cof, mid; simpl; ring|rewrite M; ring]. }
    destruct (k_dec F (det3 (ent L)) 0); [contradiction|]. eexists. split; [reflexivity|]. cbn [nr nc ent]. do 2 (split; [auto|]).
    rewrite <- mmul_assoc, mmul_scale_r, cof_ok.
    assert (G : meq 3 3 (mscale (1 / det3 (ent L)) (mscale (det3 (ent L)) mid)) mid) by (split; intros; unfold mscale; field; auto).
    rewrite G. apply mmul_id_l.
  - assert (D : det2 (ent L) <> 0).
    { intros D. pose proof (det2_mul T (ent L)) as M. rewrite (det2_ext _ _ HT), D in M. apply (one_neq_zero (F := F)).
      transitivity (det2 (mid (F := F))); [unfold det2, mid; simpl; ring|rewrite M; ring]. }
    destruct (k_dec F (det2 (ent L)) 0); [contradiction|]. eexists. split; [reflexivity|]. cbn [nr nc ent]. do 2 (split; [auto|]).
    rewrite <- mmul_assoc, mmul_scale_r, adj2_ok.
    assert (G : meq 2 2 (mscale (1 / det2 (ent L)) (mscale (det2 (ent L)) mid)) mid) by (split; intros; unfold mscale; field; auto).
    rewrite G. apply mmul_id_l.
Qed.
(** numpy.linalg.inv of three by three arrays. *)
Definition cramer_inv (G : arr F) : res (arr F) := cramer G (Arr (nr G) (nr G) mid).
Lemma cramer_inv_ok G : nr G = 3%nat -> nc G = 3%nat -> regular 3 (ent G) -> exists T : arr F, cramer_inv G = Ok T /\ inv_contract G T.
Proof.
  intros Hr Hc HG. destruct (cramer_ok G ltac:(congruence) (or_introl Hr)) with (b := Arr (nr G) (nr G) (mid (F := F))) as (T & E & Tr & Tc & HT); auto.
  { rewrite Hr. exact HG. }
  exists T. split; [exact E|]. cbn [nc ent] in Tc, HT. split; [auto|]. split; [auto|]. split; [congruence|]. apply left_inverse_right. auto.
Qed.
End Cramer.

(** x with weights 1, 3/2, 1/2; dt = 2; steps by i, 1 and 0. *)
Definition cx_x : list QI := [qi 0 0 1; qi 2 0 1; qi 3 0 1].
Definition cx_A : arr QI := of_rows 3 [[qi 0 1 1; qi 0 0 1; qi 0 0 1]; [qi 0 0 1; qi 0 0 1; qi 0 0 1]; [qi 1 0 1; qi 0 0 1; qi (-1) 0 1]].
Definition cx_B : arr QI := of_rows 1 [[qi 2 0 1]; [qi 1 0 1]; [qi 5 0 1]].
Definition cx_C : arr QI := of_rows 3 [[qi 2 0 1; qi 1 0 1; qi 0 0 1]].
Definition cx_S : mat QI := ent (of_rows 3 [[qi 0 1 1; qi 0 0 1; qi 0 0 1]; [qi 0 0 1; qi 1 0 1; qi 0 0 1]; [qi 1 1 2; qi 0 0 1; qi 0 0 1]]).
Definition cx_U : arr QI := of_rows 4
  [[qi 1 0 2; qi 1 0 2; qi 1 0 2; qi 1 0 2]; [qi 0 1 2; qi 1 0 2; qi 0 (-1) 2; qi (-1) 0 2];
   [qi (-1) 0 2; qi 1 0 2; qi (-1) 0 2; qi 1 0 2]; [qi 0 (-1) 2; qi 1 0 2; qi 0 1 2; qi (-1) 0 2]].
Definition cx_Vh : arr QI := Arr 4 4 (mtr (ent cx_U)).
Definition cx_sing : list QI := [qi 16 0 1; qi 4 0 1; qi 0 0 1; qi 0 0 1].
Definition cx_svd (_ : arr QI) : res (arr QI * list QI * arr QI) := Ok (cx_U, cx_sing, cx_Vh).
Definition cx_response (j : nat) : QI := nth j [qi 5 0 1; qi 1 4 1; qi (-3) 0 1; qi 1 (-4) 1; qi 5 0 1; qi 1 4 1; qi (-3) 0 1] (qi 0 0 1).
Definition cx_sqrt (x : QI) : QI := if k_dec QI x (qi 16 0 1) then qi 4 0 1 else if k_dec QI x (qi 4 0 1) then qi 2 0 1 else qi 0 0 1.
Definition cx_run r := main_CGL cramer_inv cramer cx_svd cx_sqrt cx_x cx_A cx_B cx_C (qi 2 0 1) 4 r (Some (qi 1 0 10)) None.

Lemma cx_contract H : nr H = 4%nat -> nc H = 4%nat -> meq 4 4 (ent H) (fun i j => cx_response (i + j)) -> svd_contract H cx_U cx_sing cx_Vh.
Proof.
  intros Hr Hc HH. split; rewrite ?Hr, ?Hc.
  1-5: reflexivity.
  1-2: apply meqb_true; vm_compute; reflexivity.
  - rewrite HH. apply meqb_true. vm_compute. reflexivity.
  - repeat constructor; apply keqb_true; vm_compute; reflexivity.
  - repeat constructor; first [left; vm_compute; reflexivity|right; reflexivity].
  - intros i j Hij Hj. simpl in Hj.
    destruct i as [|[|[|[|i]]]]; destruct j as [|[|[|[|j]]]]; try lia;
      first [left; vm_compute; reflexivity|right; reflexivity].
Qed.

Lemma cx_real i : real (at1 cx_x i).
Proof. do 3 (destruct i as [|i]; [apply keqb_true; vm_compute; reflexivity|]). unfold at1. rewrite nth_overflow by (simpl; lia). apply real_0. Qed.
Lemma cx_increasing : strictly_increasing cx_x.
Proof. split; [simpl; lia|]. intros i Hi. simpl in Hi. do 2 (destruct i as [|i]; [vm_compute; reflexivity|]). lia. Qed.
Lemma cx_step : cn_step_of 3 (qi 2 0 1) (ent cx_A) cx_S.
Proof. unfold cn_step_of. apply meqb_true. vm_compute. reflexivity. Qed.
Lemma cx_powers j : (j < 7)%nat ->
  mmul 3 (ent cx_C) (mmul 3 (mpow 3 cx_S j) (ent cx_B)) 0%nat 0%nat = cx_response j.
Proof. intros Hj. do 7 (destruct j as [|j]; [apply keqb_true; vm_compute; reflexivity|]). lia. Qed.
Lemma cx_sqrt_ok i : (i < length cx_sing)%nat -> above (Some (qi 1 0 10)) None cx_sing i -> sqrt_ok cx_sqrt (at1 cx_sing i).
Proof.
  intros Hi Ha. simpl in Hi.
  do 2 (destruct i as [|i]; [split; [apply keqb_true; vm_compute; reflexivity|split; [left; vm_compute; reflexivity|apply keqb_true; vm_compute; reflexivity]]|]).
  exfalso. destruct Ha as [Ha _]. do 2 (destruct i as [|i]; [vm_compute in Ha; discriminate|]). lia.
Qed.
Lemma cx_kept k : (forall i, (i < length cx_sing)%nat -> ((i < k)%nat <-> above (Some (qi 1 0 10)) None cx_sing i)) -> k = 2%nat.
Proof.
  intros K.
  assert (K1 : (1 < k)%nat) by (apply K; [simpl; lia|]; split; [vm_compute; reflexivity|exact Logic.I]).
  assert (K2 : ~ (2 < k)%nat).
  { intros K2. apply K in K2; [|simpl; lia]. destruct K2 as [K2 _]. vm_compute in K2. discriminate. }
  lia.
Qed.

(** The reduced model with two states has the responses of the full one; a model with three
    states is more than there are modes. *)
Example C54_example :
  (exists res abc y yr, cx_run 2 = Ok (res, abc, (y, yr)) /\ length (b_sing_vals res) = 2%nat /\
    nr (fst (fst abc)) = 2%nat /\ nc (fst (fst abc)) = 2%nat /\
    forall j, (j < 4)%nat -> ent y 0%nat j = cx_response j /\ ent yr 0%nat j = cx_response j) /\
  cx_run 3 = Raise IndexError.
Proof.
  assert (HT : real (qi 1 0 10)) by (apply keqb_true; vm_compute; reflexivity).
  assert (HD : real (qi 2 0 1)) by (apply keqb_true; vm_compute; reflexivity).
  assert (HP : kle 0 (qi 1 0 10)) by (left; vm_compute; reflexivity).
  split.
  - destruct (C54_main_CGL cramer_inv cramer cx_svd cx_sqrt cx_x cx_A cx_B cx_C (qi 2 0 1) 4 2 (qi 1 0 10) None cx_S
      cx_real cx_increasing HD eq_refl eq_refl eq_refl eq_refl eq_refl eq_refl ltac:(lia) HT HP Logic.I cx_step
      cramer_inv_ok cramer_ok) as (H & Hr & Hc & HH & K).
    assert (HH' : meq 4 4 (ent H) (fun i j => cx_response (i + j))).
    { split. intros i j Hi Hj. rewrite HH by auto. apply cx_powers. lia. }
    destruct (K cx_U cx_sing cx_Vh eq_refl (cx_contract H Hr Hc HH') cx_sqrt_ok) as (k & _ & Hk & _ & G). clear K.
    apply cx_kept in Hk. subst k.
    destruct (G (le_n 2)) as (res & Ar & Br & Cr & _ & Es & _ & _ & _ & _ & _ & a1 & a2 & _ & _ & _ & _ & _ & _ & _ & G1 & G2). clear G.
    destruct (G2 eq_refl) as (Sr & HSr & G3).
    { intros i Hi. simpl in Hi. destruct i as [|[|i]]; [lia|lia|]. do 2 (destruct i as [|i]; [reflexivity|]). lia. }
    { simpl. lia. }
    destruct (G1 Sr HSr) as (y & yr & E & _ & _ & _ & _ & Hy). exists res, (Ar, Br, Cr), y, yr. split; [exact E|].
    split; [rewrite Es; reflexivity|]. split; [exact a1|]. split; [exact a2|].
    intros j Hj. destruct (Hy j Hj) as [Y1 Y2]. rewrite Y1, Y2, G3.
    split; apply cx_powers; lia.
  - destruct (C54_main_CGL cramer_inv cramer cx_svd cx_sqrt cx_x cx_A cx_B cx_C (qi 2 0 1) 4 3 (qi 1 0 10) None cx_S
      cx_real cx_increasing HD eq_refl eq_refl eq_refl eq_refl eq_refl eq_refl ltac:(lia) HT HP Logic.I cx_step
      cramer_inv_ok) as (H & Hr & Hc & HH & K).
    { intros L E1 [E2|E2]; apply cramer_ok; auto. }
    assert (HH' : meq 4 4 (ent H) (fun i j => cx_response (i + j))).
    { split. intros i j Hi Hj. rewrite HH by auto. apply cx_powers. lia. }
    destruct (K cx_U cx_sing cx_Vh eq_refl (cx_contract H Hr Hc HH') cx_sqrt_ok) as (k & _ & Hk & G & _). clear K.
    apply cx_kept in Hk. subst k. apply G. lia.
Qed.

(** The weights. *)
Example C54_weights_example : cgl_weights cx_x = Ok [qi 1 0 1; qi 3 0 2; qi 1 0 2] /\ ex2_weights cx_x = Ok [qi 1 0 1; qi 3 0 2; qi 1 0 2] /\
  ex2_weights [qi 4 0 1] = Raise IndexError.
Proof.
  split; [|split]; [..|reflexivity].
  - unfold cgl_weights. cbn [length cx_x Nat.ltb Nat.leb]. f_equal. apply at1_ext; [reflexivity|]. intros i Hi. simpl in Hi.
    do 3 (destruct i as [|i]; [apply keqb_true; vm_compute; reflexivity|]). lia.
  - unfold ex2_weights. cbn [diff length cx_x Nat.sub seq map]. f_equal. apply at1_ext; [reflexivity|]. intros i Hi. simpl in Hi.
    do 3 (destruct i as [|i]; [apply keqb_true; vm_compute; reflexivity|]). lia.
Qed.

(** tutorial_ex2 with the weights 9, 25, 16 and one vector. *)
Definition ce_x : list QI := [qi 0 0 1; qi 18 0 1; qi 50 0 1].
Definition ce_vecs : arr QI := of_rows 1 [[qi 0 1 1]; [qi 0 0 1]; [qi 1 0 1]].
Definition ce_U : arr QI := of_rows 1 [[qi 0 3 5]; [qi 0 0 1]; [qi 4 0 5]].
Definition ce_V : arr QI := of_rows 1 [[qi 1 0 1]].
Definition ce_sqrt (x : QI) : QI := if k_dec QI x (qi 9 0 1) then qi 3 0 1 else if k_dec QI x (qi 16 0 1) then qi 4 0 1 else qi 5 0 1.
Definition ce_run := tutorial_ex2 (fun _ => Ok (ce_U, [qi 5 0 1], ce_V)) Ok Ok ce_sqrt ce_vecs ce_x 1 (Some (qi 1 0 10)) None.
Lemma ce_increasing : strictly_increasing ce_x.
Proof. split; [simpl; lia|]. intros i Hi. simpl in Hi. do 2 (destruct i as [|i]; [vm_compute; reflexivity|]). lia. Qed.
Lemma ce_real i : real (at1 ce_x i).
Proof. do 3 (destruct i as [|i]; [apply keqb_true; vm_compute; reflexivity|]). unfold at1. rewrite nth_overflow by (simpl; lia). apply real_0. Qed.
Lemma ce_sqrt_ok i : (i < 3)%nat -> sqrt_ok ce_sqrt (weight ce_x i).
Proof.
  intros Hi. do 3 (destruct i as [|i]; [split; [apply keqb_true; vm_compute; reflexivity|
    split; [left; vm_compute; reflexivity|apply keqb_true; vm_compute; reflexivity]]|]). lia.
Qed.
Example C54_tutorial_ex2_example :
  direct_ok ce_sqrt ce_vecs (mdiag (weight ce_x)) [qi 5 0 1] (Some (qi 1 0 10)) None (Some [0%Z]) ce_run /\
  match ce_run with Ok r => keqb (ent (p_modes r) 0%nat 0%nat) (qi 0 1 5) && keqb (ent (p_modes r) 2%nat 0%nat) (qi 1 0 5) | Raise _ => false end = true.
Proof.
  split; [|vm_compute; reflexivity].
  destruct (C54_tutorial_ex2 (fun _ => Ok (ce_U, [qi 5 0 1], ce_V)) Ok Ok ce_sqrt ce_vecs ce_x 1 (Some (qi 1 0 10)) None
    eq_refl ce_real ce_increasing ce_sqrt_ok) as (Xw & X1 & X2 & X3 & K).
  - apply keqb_true. vm_compute. reflexivity.
  - exact Logic.I.
  - apply (K ce_U [qi 5 0 1] ce_V eq_refl); auto.
    + change (nr ce_vecs) with 3%nat in *. change (nc ce_vecs) with 1%nat in *. split; rewrite ?X1, ?X2.
      1-5: reflexivity.
      1-2: apply meqb_true; vm_compute; reflexivity.
      * rewrite X3. apply meqb_true. vm_compute. reflexivity.
      * repeat constructor; apply keqb_true; vm_compute; reflexivity.
      * repeat constructor; left; vm_compute; reflexivity.
      * intros i j Hij Hj. simpl in Hj. replace i with 0%nat by lia. replace j with 0%nat by lia. right. reflexivity.
    + intros s [<-|[]]. split; [apply keqb_true; vm_compute; reflexivity|split; [left; vm_compute; reflexivity|apply keqb_true; vm_compute; reflexivity]].
Qed.

Print Assumptions C54_weights.
Print Assumptions C54_inner_products.
Print Assumptions C54_tutorial_ex2.
Print Assumptions C54_main_CGL.
