(** Property C70 for LTIGalerkinProjectionArrays: a change of coordinates of the bases, the
    data and the weights changes no reduced array, for any history of calls. *)
From stdpp Require Import gmap list.
From Coq Require Import ZArith Lia Field Ring Setoid Morphisms.
From Verif Require Import Prelude Field FieldInst Matrix NdArray DecompModel DecompProofs DecompProps
  VSArraysModel VSArraysProofs PodModel PodProofs PodProps DmdModel DmdProofs DmdProps
  GalerkinModel GalerkinProps TlsModel TlsProofs TlsProps DmdExamples TlsExamples MoveProps.
Open Scope nat_scope.
Open Scope k_scope.

Section Galerkin.
Context {F : sfield}.

Definition aeq_opt (A A' : option (arr F)) : Prop :=
  match A, A' with Some A, Some A' => aeq A A' | None, None => True | _, _ => False end.
(** Two calls with the same vectors in the two coordinates. *)
Definition call_moved (n n' : nat) (T : mat F) (c c' : gcall F) : Prop :=
  match c, c' with
  | CallA X, CallA X' | CallB X, CallB X' => nr X' = n' /\ moved n T X X'
  | CallC C, CallC C' => C = C'
  | CallModel X Y C, CallModel X' Y' C' => nr X' = n' /\ nr Y' = n' /\ moved n T X X' /\ moved n T Y Y' /\ C = C'
  | _, _ => False
  end.
Record gal_moved (n n' : nat) (T : mat F) (o o' : gal F) : Prop := {
  gv_basis : moved n T (ga_basis o) (ga_basis o'); gv_nr : nr (ga_basis o') = n';
  gv_adjoint : moved n T (ga_adjoint o) (ga_adjoint o'); gv_anr : nr (ga_adjoint o') = n';
  gv_symm : ga_symmetric o' = ga_symmetric o; gv_orth : ga_orthonormal o' = ga_orthonormal o;
  gv_keeps : keeps n n' (ga_weights o) (ga_weights o') T;
  gv_proj : ga_proj o' = ga_proj o;
  gv_A : aeq_opt (ga_A o) (ga_A o'); gv_B : aeq_opt (ga_B o) (ga_B o'); gv_C : aeq_opt (ga_C o) (ga_C o')
}.
(** The objects left behind and the values, or the exceptions. *)
Definition step_moved {B} (n n' : nat) (T : mat F) (Q : B -> B -> Prop) (p p' : gal F * res B) : Prop :=
  gal_moved n n' T (fst p) (fst p') /\ both Q (snd p) (snd p').

Lemma aeq_refl' (A : arr F) : aeq A A.
Proof. split; [reflexivity|]. split; reflexivity. Qed.

Section Calls.
Context (inv : arr F -> res (arr F)) (Hinv : extensional inv) (n n' : nat) (T : mat F).

Lemma get_proj_moved o o' : gal_moved n n' T o o' -> step_moved n n' T eq (get_proj inv o) (get_proj inv o').
Proof.
  intros G. pose proof G as [b1 b2 a1 a2 s r k p A B C]. unfold get_proj. rewrite p.
  destruct (ga_proj o) as [P|] eqn:EP; [split; [exact G|reflexivity]|]. rewrite s.
  assert (H : both eq
    (rbind (if ga_symmetric o then symm_inner_product_array (ga_weights o) (ga_basis o)
            else inner_product_array (ga_weights o) (ga_adjoint o) (ga_basis o)) inv)
    (rbind (if ga_symmetric o then symm_inner_product_array (ga_weights o') (ga_basis o')
            else inner_product_array (ga_weights o') (ga_adjoint o') (ga_basis o')) inv)).
  { eapply (bind_both aeq).
    - destruct (ga_symmetric o); apply (ip_moved n n' (ga_weights o) (ga_weights o') T); auto.
    - intros D D' HD. rewrite (Hinv D D' HD). destruct (inv D'); reflexivity. }
  destruct (rbind _ inv) as [P|e], (rbind _ inv) as [P'|e']; cbn [both] in H; try contradiction; subst.
  - split; [split; auto|reflexivity].
  - split; [exact G|reflexivity].
Qed.
Lemma reduce_moved put o o' X X' :
  (forall o o' A A', gal_moved n n' T o o' -> aeq A A' -> gal_moved n n' T (put o A) (put o' A')) ->
  gal_moved n n' T o o' -> nr X' = n' -> moved n T X X' -> step_moved n n' T aeq (reduce inv put o X) (reduce inv put o' X').
Proof.
  intros HP G R HX. pose proof G as [b1 b2 a1 a2 s r k p A B C]. unfold reduce.
  pose proof (ip_moved n n' _ _ T _ _ X X' k a2 R a1 HX) as H.
  destruct (inner_product_array (ga_weights o) _ X) as [D|e], (inner_product_array (ga_weights o') _ X') as [D'|e'];
    cbn [both] in H; try contradiction; [|split; [exact G|exact H]].
  pose proof (HP _ _ _ _ G H) as G1. cbv zeta. rewrite (gv_orth _ _ _ _ _ G1).
  destruct (ga_orthonormal (put o D)); [split; [exact G1|exact H]|].
  destruct (get_proj_moved _ _ G1) as [G2 K].
  destruct (get_proj inv (put o D)) as [o1 [P|e]], (get_proj inv (put o' D')) as [o1' [P'|e']];
    cbn [both fst snd] in *; try contradiction; [|split; auto]. subst P'.
  pose proof (dot_l P D D' H) as J. destruct (dot P D) as [E|e], (dot P D') as [E'|e']; cbn [both] in J; try contradiction.
  - split; [apply HP; [exact G2|exact J]|exact J].
  - split; [exact G2|exact J].
Qed.
Lemma put_A_moved o o' A A' : gal_moved n n' T o o' -> aeq A A' -> gal_moved n n' T (put_A o A) (put_A o' A').
Proof. intros [] H. split; auto. Qed.
Lemma put_B_moved o o' A A' : gal_moved n n' T o o' -> aeq A A' -> gal_moved n n' T (put_B o A) (put_B o' A').
Proof. intros [] H. split; auto. Qed.
Lemma put_C_moved o o' A : gal_moved n n' T o o' -> gal_moved n n' T (put_C o A) (put_C o' A).
Proof. intros []. split; auto. apply aeq_refl'. Qed.

Lemma one_moved p p' : step_moved n n' T aeq p p' -> step_moved n n' T (Forall2 aeq) (one p) (one p').
Proof.
  intros [G H]. split; [exact G|]. unfold one. destruct (snd p), (snd p'); cbn in *; try contradiction; auto.
Qed.
Lemma do_gcall_moved o o' c c' : gal_moved n n' T o o' -> call_moved n n' T c c' ->
  step_moved n n' T (Forall2 aeq) (do_gcall inv o c) (do_gcall inv o' c').
Proof.
  intros G H. destruct c, c'; cbn [call_moved] in H; try contradiction; cbn [do_gcall].
  - apply one_moved, reduce_moved; try tauto. apply put_A_moved.
  - apply one_moved, reduce_moved; try tauto. apply put_B_moved.
  - subst. apply one_moved. split; [apply put_C_moved; auto|apply aeq_refl'].
  - destruct H as (R1 & R2 & H1 & H2 & ->).
    enough (Q : step_moved n n' T (fun t t' => aeq (fst (fst t)) (fst (fst t')) /\ aeq (snd (fst t)) (snd (fst t')) /\ aeq (snd t) (snd t'))
      (compute_model inv o X Y C0) (compute_model inv o' X0 Y0 C0)).
    { destruct Q as [Q1 Q2]. cbv zeta. split; [exact Q1|]. cbn [snd].
      destruct (snd (compute_model inv o X Y C0)), (snd (compute_model inv o' X0 Y0 C0)); cbn in *; try contradiction; auto.
      destruct Q2 as (? & ? & ?). auto. }
    unfold compute_model.
    destruct (reduce_moved put_A o o' X X0 put_A_moved G R1 H1) as [G1 K1]. unfold reduce_A.
    destruct (reduce inv put_A o X) as [o1 [P|e]], (reduce inv put_A o' X0) as [o1' [P'|e']]; cbn [both fst snd] in *;
      try contradiction; [|split; auto].
    destruct (reduce_moved put_B o1 o1' Y Y0 put_B_moved G1 R2 H2) as [G2 K2]. unfold reduce_B.
    destruct (reduce inv put_B o1 Y) as [o2 [S|e]], (reduce inv put_B o1' Y0) as [o2' [S'|e']]; cbn [both fst snd] in *;
      try contradiction; [|split; auto].
    unfold reduce_C. pose proof (put_C_moved o2 o2' (ndmin2 C0) G2) as G3. split; [exact G3|]. cbn [snd].
    pose proof G3 as [_ _ _ _ _ _ _ _ A B C]. unfold attr.
    destruct (ga_A (put_C o2 _)), (ga_A (put_C o2' _)); cbn in A; try contradiction; cbn [rbind both]; [|reflexivity].
    destruct (ga_B (put_C o2 _)), (ga_B (put_C o2' _)); cbn in B; try contradiction; cbn [rbind both]; [|reflexivity].
    destruct (ga_C (put_C o2 _)), (ga_C (put_C o2' _)); cbn in C; try contradiction; cbn [rbind both]; [|reflexivity]. auto.
Qed.
Lemma do_gcalls_moved cs cs' : Forall2 (call_moved n n' T) cs cs' -> forall o o', gal_moved n n' T o o' ->
  Forall2 (both (Forall2 aeq)) (snd (do_gcalls inv o cs)) (snd (do_gcalls inv o' cs')).
Proof.
  induction 1 as [|c c' cs cs' Hc H IH]; intros o o' G; [constructor|].
  destruct (do_gcall_moved o o' c c' G Hc) as [G1 K]. cbn. constructor; auto.
Qed.
End Calls.

(** The constructor fails on both or on neither; afterwards every call of any history
    returns the same reduced arrays or raises the same exception. *)
Theorem C70_Galerkin_arrays inv dist (Phi Phi' : arr F) adj adj' orth wopt wopt' ws ws' T :
  extensional inv -> set_weights wopt = Ok ws -> set_weights wopt' = Ok ws' ->
  keeps (nr Phi) (nr Phi') ws ws' T -> moved (nr Phi) T Phi Phi' -> moved_opt (nr Phi) T adj adj' ->
  (forall Psi', adj' = Some Psi' -> nr Psi' = nr Phi') ->
  both (fun o o' => forall cs cs', Forall2 (call_moved (nr Phi) (nr Phi') T) cs cs' ->
      Forall2 (both (Forall2 aeq)) (snd (do_gcalls inv o cs)) (snd (do_gcalls inv o' cs')))
    (ga_new dist Phi adj orth wopt) (ga_new dist Phi' adj' orth wopt').
Proof.
  intros He E1 E2 HK HM HA HR. unfold ga_new. destruct dist; [reflexivity|]. rewrite E1, E2.
  destruct adj as [Psi|], adj' as [Psi'|]; cbn [moved_opt] in HA; try contradiction.
  - pose proof HM as (_ & M2 & _). pose proof HA as (A1 & A2 & _). rewrite A1, A2, M2, (HR _ eq_refl), !Nat.eqb_refl.
    cbn [andb]. destruct (nc Psi =? nc Phi)%nat; [|reflexivity]. cbn [rbind both]. intros cs cs' H.
    apply (do_gcalls_moved inv He _ _ T cs cs' H). split; cbn; auto.
  - cbn [rbind both]. intros cs cs' H. apply (do_gcalls_moved inv He _ _ T cs cs' H). split; cbn; auto.
Qed.
End Galerkin.

(** Three entries with the weights 2, 1, 3, moved into four entries with the weights 1, 1, 1, 3. *)
Definition mg_T : mat QI := NdArray.ent (of_rows 3 [[q 1; q 0; q 0]; [q 1; q 0; q 0]; [q 0; qi 0 1 1; q 0]; [q 0; q 0; q 1]]).
Definition mg (X : arr QI) : arr QI := Arr 4 (nc X) (mmul 3 mg_T (NdArray.ent X)).
Definition mg_w : option (nd QI) := Some (Nd [4]%nat [q 1; q 1; q 1; q 3]).
(** [g_inv] for 2 by 2 arrays; other shapes raise. *)
Definition mg_inv (A : arr QI) : res (arr QI) := if ((nr A =? 2) && (nc A =? 2))%nat then g_inv A else Raise LinAlgError.
Lemma mg_inv_ext : extensional mg_inv.
Proof.
  intros A A' (H1 & H2 & H3). unfold mg_inv. rewrite <- H1, <- H2.
  destruct (Nat.eqb_spec (nr A) 2) as [E1|]; [|reflexivity]. destruct (Nat.eqb_spec (nc A) 2) as [E2|]; [|reflexivity].
  cbn [andb]. unfold g_inv.
  rewrite !(fun i j a b => meq_at _ _ _ _ H3 i j a b) by lia. reflexivity.
Qed.
Definition mg_cs (f : arr QI -> arr QI) : list (gcall QI) := [CallA (f g_X); CallC (D1 [q 1; q 2]); CallModel (f g_X) (f g_Psi) (D1 [q 1])].
Example C70_Galerkin_arrays_example :
  both (fun o o' => Forall2 (both (Forall2 aeq)) (snd (do_gcalls mg_inv o (mg_cs id))) (snd (do_gcalls mg_inv o' (mg_cs mg))))
    (ga_new false g_Phi (Some g_Psi) false g_w) (ga_new false (mg g_Phi) (Some (mg g_Psi)) false mg_w) /\
  match ga_new false (mg g_Phi) (Some (mg g_Psi)) false mg_w with
  | Ok o => match snd (do_gcall mg_inv o (CallA (mg g_X))) with Ok [R] => meqb 2 2 (NdArray.ent R) g_M = true | _ => False end
  | Raise _ => False end.
Proof.
  assert (HM : forall X : arr QI, nr X = 3%nat -> moved 3 mg_T X (mg X)).
  { intros X H. split; [exact H|]. split; reflexivity. }
  split; [|vm_compute; reflexivity].
  pose proof (C70_Galerkin_arrays mg_inv false g_Phi (mg g_Phi) (Some g_Psi) (Some (mg g_Psi)) false g_w mg_w
    (W1 [q 2; q 1; q 3]) (W1 [q 1; q 1; q 1; q 3]) mg_T mg_inv_ext eq_refl eq_refl) as H.
  assert (K : both (fun o o' => forall cs cs', Forall2 (call_moved 3 4 mg_T) cs cs' ->
      Forall2 (both (Forall2 aeq)) (snd (do_gcalls mg_inv o cs)) (snd (do_gcalls mg_inv o' cs')))
    (ga_new false g_Phi (Some g_Psi) false g_w) (ga_new false (mg g_Phi) (Some (mg g_Psi)) false mg_w)).
  { apply H.
    - split; [reflexivity|]. split; [reflexivity|]. eqb_solve.
    - apply HM. reflexivity.
    - apply HM. reflexivity.
    - intros P [= <-]. reflexivity. }
  destruct (ga_new false g_Phi _ false g_w) as [o|e], (ga_new false (mg g_Phi) _ false mg_w) as [o'|e']; cbn [both] in *; auto.
  apply K. repeat constructor; auto; apply HM; reflexivity.
Qed.

Print Assumptions C70_Galerkin_arrays.
