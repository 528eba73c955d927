(** C36: simulation and impulse responses. *)
From Coq Require Import List Arith Lia Bool ZArith Field Ring Setoid Morphisms.
Import ListNotations.
From Verif Require Import Prelude Field FieldInst Matrix NdArray DecompModel DecompProofs DecompProps VSArraysModel
  EraModel EraProofs Lti LtiModel DmdExamples TlsExamples.
Open Scope nat_scope.
Open Scope k_scope.

Section C36.
Context {F : sfield}.
Add Field C36_F : (k_field F).

Definition real_mat (m n : nat) (A : mat F) : Prop := forall i j, i < m -> j < n -> real (A i j).
(** A real system with n states, m inputs, p outputs. *)
Definition real_system (n m p : nat) (A B C : arr F) : Prop :=
  nr A = n /\ nc A = n /\ nr B = n /\ nc B = m /\ nr C = p /\ nc C = n /\
  real_mat n n (ent A) /\ real_mat n m (ent B) /\ real_mat p n (ent C).

Lemma mv_real n (A : mat F) x i : (forall j, j < n -> real (A i j)) -> (forall j, j < n -> real (x j)) -> real (mv n A x i).
Proof. intros H G. apply sum_real. intros j Hj. apply real_mul; auto. Qed.
Lemma dlsim_states n m (A B u : mat F) x0 T : real_mat n n A -> real_mat n m B -> real_mat T m u ->
  (forall l, l < n -> real (x0 l)) -> forall t l, t <= T -> l < n ->
  dlsim_x n m A B u x0 t l = states n m A B u x0 t l /\ real (states n m A B u x0 t l).
Proof.
  intros HA HB Hu H0 t. induction t as [|t IH]; intros l Ht Hl; cbn [dlsim_x states].
  - rewrite kre_real by auto. auto.
  - assert (E : mv n A (dlsim_x n m A B u x0 t) l = mv n A (states n m A B u x0 t) l).
    { apply mv_ext; auto. intros j Hj. apply IH; auto. lia. }
    assert (R : real (mv n A (states n m A B u x0 t) l + mv m B (u t) l)).
    { apply real_add; apply mv_real; intros j Hj; auto; try (apply IH; auto; lia). }
    rewrite E, kre_real by exact R. auto.
Qed.
Lemma space_ok n m p A B C : real_system n m p A B C -> state_space A B C = Ok tt.
Proof.
  intros (h1 & h2 & h3 & h4 & h5 & h6 & _). unfold state_space. rewrite h1, h2, h3, h6, Nat.eqb_refl. reflexivity.
Qed.
Lemma dlsim_ok n m p (A B C : arr F) (inputs : arr F) x0 x : real_system n m p A B C ->
  0 < nr inputs -> nc inputs = m -> real_mat (nr inputs) m (ent inputs) ->
  dlsim_x0 n x0 = Ok x -> (forall l, l < n -> real (x l)) ->
  exists Y, dlsim A B C inputs x0 = Ok Y /\ nr Y = nr inputs /\ nc Y = p /\
    forall t i, t < nr inputs -> i < p ->
      ent Y t i = mv n (ent C) (states n m (ent A) (ent B) (ent inputs) x t) i.
Proof.
  intros (h1 & h2 & h3 & h4 & h5 & h6 & HA & HB & HC) HT Hm Hu Ex Hx.
  eexists. split.
  { unfold dlsim. rewrite (proj2 (Nat.eqb_neq (nr inputs) 0)) by lia. rewrite h1, Ex. cbn [rbind].
    rewrite Hm, h4, Nat.eqb_refl. reflexivity. }
  cbn [nr nc ent]. split; [auto|]. split; [auto|]. intros t i Ht Hi.
  assert (S : forall l, l < n -> dlsim_x n m (ent A) (ent B) (ent inputs) x t l = states n m (ent A) (ent B) (ent inputs) x t l
    /\ real (states n m (ent A) (ent B) (ent inputs) x t l)).
  { intros l Hl. apply (dlsim_states n m (ent A) (ent B) (ent inputs) x (nr inputs)); auto. lia. }
  rewrite (mv_ext n (ent C) (ent C) (dlsim_x n m (ent A) (ent B) (ent inputs) x t) (states n m (ent A) (ent B) (ent inputs) x t)).
  - apply kre_real. apply mv_real; intros j Hj; auto. apply S. auto.
  - auto.
  - intros j Hj. apply S. auto.
Qed.

(** lsim returns the outputs of the recursion; the initial condition is zero when not
    given. *)
Theorem C36_lsim n m p A B C inputs x0 x : real_system n m p A B C ->
  0 < nr inputs -> nc inputs = m -> real_mat (nr inputs) m (ent inputs) ->
  match x0 with None => x = fun _ => 0 | Some l => length l = n /\ x = at1 l end ->
  (forall l, l < n -> real (x l)) ->
  exists Y (X : nat -> nat -> F), lsim A B C inputs x0 = Ok Y /\ nr Y = nr inputs /\ nc Y = p /\
    (forall l, l < n -> X O l = x l) /\
    (forall t l, S t < nr inputs -> l < n ->
       X (S t) l = sum n (fun j => ent A l j * X t j) + sum m (fun j => ent B l j * ent inputs t j)) /\
    (forall t i, t < nr inputs -> i < p -> ent Y t i = sum n (fun j => ent C i j * X t j)).
Proof.
  intros Hs HT Hm Hu Hx0 Hx.
  destruct (dlsim_x0 n x0) as [x'|e] eqn:E0.
  2: { exfalso. destruct x0 as [l|]; [|discriminate]. destruct Hx0 as [L _]. unfold dlsim_x0 in E0.
       destruct l as [|a [|b l]]; try discriminate; rewrite (proj2 (Nat.eqb_eq _ _) L) in E0; discriminate. }
  assert (Ex : forall l, l < n -> x' l = x l).
  { intros l Hl. destruct x0 as [v|]; [|injection E0 as <-; subst x; reflexivity].
    destruct Hx0 as [L ->]. unfold dlsim_x0 in E0. destruct v as [|a [|b v]].
    - simpl in L. lia.
    - injection E0 as <-. simpl in L. assert (l = O) by lia. subst l. reflexivity.
    - rewrite (proj2 (Nat.eqb_eq _ _) L) in E0. injection E0 as <-. reflexivity. }
  destruct (dlsim_ok n m p A B C inputs x0 x' Hs HT Hm Hu E0) as (Y & EY & Y1 & Y2 & Y3).
  { intros l Hl. rewrite Ex by auto. auto. }
  exists Y, (states n m (ent A) (ent B) (ent inputs) x'). split.
  { unfold lsim. rewrite (space_ok n m p A B C Hs). exact EY. }
  split; [auto|]. split; [auto|]. split; [exact Ex|]. split; [reflexivity|]. exact Y3.
Qed.
(** From rest the outputs are the convolution with C A^k B. *)
Theorem C36_convolution n m p A B C inputs : real_system n m p A B C ->
  0 < nr inputs -> nc inputs = m -> real_mat (nr inputs) m (ent inputs) ->
  exists Y, lsim A B C inputs None = Ok Y /\ nr Y = nr inputs /\ nc Y = p /\
    forall t i, t < nr inputs -> i < p -> ent Y t i =
      sum t (fun k => sum m (fun j => mmul n (ent C) (mmul n (mpow n (ent A) k) (ent B)) i j * ent inputs (t - 1 - k)%nat j)).
Proof.
  intros Hs HT Hm Hu.
  destruct (dlsim_ok n m p A B C inputs None (fun _ => 0) Hs HT Hm Hu eq_refl) as (Y & EY & Y1 & Y2 & Y3).
  { intros. apply real_0. }
  exists Y. split; [unfold lsim; rewrite (space_ok n m p A B C Hs); exact EY|]. split; [auto|]. split; [auto|].
  intros t i Ht Hi. rewrite Y3 by auto.
  rewrite (mv_ext n (ent C) (ent C) _ (fun l => sum t (fun k => mv m (mmul n (mpow n (ent A) k) (ent B)) (ent inputs (t - 1 - k)%nat) l))); auto.
  - rewrite mv_sum. apply sum_ext. intros k Hk.
    change (mv n (ent C) (mv m (mmul n (mpow n (ent A) k) (ent B)) (ent inputs (t - 1 - k)%nat)) i =
      mv m (mmul n (ent C) (mmul n (mpow n (ent A) k) (ent B))) (ent inputs (t - 1 - k)%nat) i).
    rewrite <- mv_mul. reflexivity.
  - intros l Hl. rewrite states_conv by auto. rewrite mv_0 by auto. ring.
Qed.

(** The response to the unit impulse. *)
Lemma conv_impulse m (M : nat -> mat F) n j t i : j < m ->
  sum t (fun k => sum m (fun j' => M k i j' * ent (unit_impulse n m j) (t - 1 - k)%nat j')) =
  match t with O => 0 | S t => M t i j end.
Proof.
  intros Hj. destruct t as [|t]; [reflexivity|]. cbn [sum]. replace (S t - 1 - t)%nat with O by lia.
  rewrite sum_0.
  - rewrite (sum_delta m j) by (auto; intros j' Hj' N; cbn; rewrite (proj2 (Nat.eqb_neq j' j)) by auto; ring).
    cbn. rewrite Nat.eqb_refl. ring.
  - intros k Hk. apply sum_0. intros j' Hj'. cbn [ent unit_impulse].
    rewrite (proj2 (Nat.eqb_neq (S t - 1 - k) 0)) by lia. cbn [andb]. ring.
Qed.
Lemma mapM_ok {A B} (f : A -> res B) (P : A -> B -> Prop) l : (forall a, In a l -> exists b, f a = Ok b /\ P a b) ->
  exists bs, mapM f l = Ok bs /\ Forall2 P l bs.
Proof.
  induction l as [|a l IH]; intros H; cbn [mapM]; [eexists; split; [reflexivity|constructor]|].
  destruct (H a (or_introl eq_refl)) as (b & E & Pb). rewrite E. cbn [rbind].
  destruct IH as (bs & E2 & F2); [intros; apply H; right; auto|]. rewrite E2. cbn [rbind].
  eexists. split; [reflexivity|]. constructor; auto.
Qed.
Lemma Forall2_len {A B} (P : A -> B -> Prop) l l' : Forall2 P l l' -> length l = length l'.
Proof. induction 1; simpl; auto. Qed.
Lemma Forall2_nth_k {A B} (P : A -> B -> Prop) l l' : Forall2 P l l' -> forall a b k, k < length l -> P (nth k l a) (nth k l' b).
Proof. induction 1; intros a b k Hk; simpl in Hk; [lia|]. destruct k; simpl; auto. apply IHForall2. lia. Qed.
Lemma dimpulse_ok n m p A B C T : real_system n m p A B C -> 0 < T ->
  exists ys, dimpulse A B C (Some T) = Ok ys /\ length ys = m /\
    forall j, j < m -> let y := nth j ys (zeros 0 0) in nr y = T /\ nc y = p /\
      forall t i, t < T -> i < p -> ent y t i =
        match t with O => 0 | S k => mmul n (ent C) (mmul n (mpow n (ent A) k) (ent B)) i j end.
Proof.
  intros Hs HT. assert (Hm : nc B = m) by apply Hs.
  destruct (mapM_ok (fun i => dlsim A B C (unit_impulse T (nc B) i) None)
    (fun j y => nr y = T /\ nc y = p /\ forall t i, t < T -> i < p -> ent y t i =
        match t with O => 0 | S k => mmul n (ent C) (mmul n (mpow n (ent A) k) (ent B)) i j end) (seq 0 m)) as (ys & E & H).
  - intros j Hj. apply in_seq in Hj. rewrite Hm.
    destruct (C36_convolution n m p A B C (unit_impulse T m j) Hs) as (Y & EY & Y1 & Y2 & Y3); auto.
    + intros t i _ _. cbn. destruct ((t =? 0)%nat && (i =? j)%nat); [apply real_1|apply real_0].
    + exists Y. unfold lsim in EY. rewrite (space_ok n m p A B C Hs) in EY. split; [exact EY|]. split; [auto|]. split; [auto|].
      intros t i Ht Hi. rewrite Y3 by auto. apply (conv_impulse m (fun k => mmul n (ent C) (mmul n (mpow n (ent A) k) (ent B)))). lia.
  - exists ys. unfold dimpulse. rewrite Hm in *. split; [exact E|].
    assert (L : length ys = m) by (pose proof (Forall2_len _ _ _ H) as L; rewrite seq_length in L; auto).
    split; [exact L|]. intros j Hj; cbv zeta.
    pose proof (Forall2_nth_k _ _ _ H O (zeros 0 0) j) as P. rewrite seq_length in P. specialize (P Hj).
    rewrite seq_nth in P by auto. exact P.
Qed.
Theorem C36_impulse n m p A B C N : real_system n m p A B C -> 0 < m ->
  exists M, impulse A B C (Some N) = Ok M /\ a3_t M = N /\ a3_p M = p /\ a3_m M = m /\
    forall k, k < N -> meq p m (a3 M k) (mmul n (ent C) (mmul n (mpow n (ent A) k) (ent B))).
Proof.
  intros Hs Pm. destruct (dimpulse_ok n m p A B C (N + 1) Hs ltac:(lia)) as (ys & E & L & H).
  unfold impulse. rewrite (space_ok n m p A B C Hs). cbn [rbind]. rewrite E. cbn [rbind].
  destruct ys as [|y ys]; [simpl in L; lia|]. eexists. split; [reflexivity|]. cbn [a3_t a3_p a3_m a3].
  pose proof (H O Pm) as H0. cbv zeta in H0. destruct H0 as (h1 & h2 & _). cbn [nth] in h1, h2. rewrite h1, h2. split; [lia|]. split; [auto|]. split; [auto|].
  intros k Hk. split. intros i j Hi Hj. pose proof (H j Hj) as H0. cbv zeta in H0. destruct H0 as (_ & _ & h3). rewrite h3 by lia.
  replace (k + 1)%nat with (S k) by lia. reflexivity.
Qed.
(** Without a number of time steps: the last 99 of dimpulse's 100 samples. *)
Theorem C36_impulse_default n m p A B C : real_system n m p A B C ->
  impulse A B C None = impulse A B C (Some (11 * 9)%nat).
Proof. intros Hs. reflexivity. Qed.
(** lsim is the convolution with impulse's array. *)
Theorem C36_lsim_impulse n m p A B C inputs N : real_system n m p A B C -> 0 < m ->
  0 < nr inputs -> nc inputs = m -> real_mat (nr inputs) m (ent inputs) -> nr inputs <= N + 1 ->
  exists M Y, impulse A B C (Some N) = Ok M /\ lsim A B C inputs None = Ok Y /\ nr Y = nr inputs /\
    forall t i, t < nr inputs -> i < p -> ent Y t i =
      sum t (fun k => sum m (fun j => a3 M k i j * ent inputs (t - 1 - k)%nat j)).
Proof.
  intros Hs Pm HT Hm Hu HN. destruct (C36_impulse n m p A B C N Hs Pm) as (M & EM & _ & _ & _ & HM).
  destruct (C36_convolution n m p A B C inputs Hs HT Hm Hu) as (Y & EY & Y1 & _ & HY).
  exists M, Y. do 3 (split; [auto|]). intros t i Ht Hi. rewrite HY by auto. apply sum_ext. intros k Hk.
  apply sum_ext. intros j Hj. f_equal. symmetry. apply HM; auto. lia.
Qed.
(** The failures. *)
Theorem C36_bad_system (A B C : arr F) inputs x0 N : ~ (nr A = nc A /\ nr B = nr A /\ nc C = nr A) ->
  lsim A B C inputs x0 = Raise ValueError /\ impulse A B C N = Raise ValueError.
Proof.
  intros H. assert (E : state_space A B C = Raise ValueError).
  { unfold state_space. destruct (Nat.eqb_spec (nr A) (nc A)); auto. destruct (Nat.eqb_spec (nr B) (nr A)); auto.
    destruct (Nat.eqb_spec (nc C) (nr A)); auto. exfalso. auto. }
  unfold lsim, impulse. rewrite E. auto.
Qed.
Theorem C36_bad_inputs n m p A B C inputs : real_system n m p A B C ->
  (nr inputs = O -> lsim A B C inputs None = Raise IndexError) /\
  (0 < nr inputs -> nc inputs <> m -> lsim A B C inputs None = Raise ValueError) /\
  (m = O -> forall N, impulse A B C N = Raise ValueError) /\
  (forall l, 0 < nr inputs -> length l <> n -> length l <> 1%nat -> lsim A B C inputs (Some l) = Raise ValueError).
Proof.
  intros Hs. pose proof Hs as (h1 & _ & _ & h4 & _). split; [|split; [|split]].
  - intros H. unfold lsim. rewrite (space_ok n m p A B C Hs). cbn [rbind]. unfold dlsim. rewrite H. reflexivity.
  - intros H N. unfold lsim. rewrite (space_ok n m p A B C Hs). cbn [rbind]. unfold dlsim.
    rewrite (proj2 (Nat.eqb_neq (nr inputs) 0)) by lia. cbn [dlsim_x0 rbind]. rewrite h4.
    rewrite (proj2 (Nat.eqb_neq (nc inputs) m)) by auto. reflexivity.
  - intros -> N. unfold impulse. rewrite (space_ok n _ p A B C Hs). cbn [rbind]. unfold dimpulse. rewrite h4.
    destruct N; reflexivity.
  - intros l H Hn H1. unfold lsim. rewrite (space_ok n m p A B C Hs). cbn [rbind]. unfold dlsim.
    rewrite (proj2 (Nat.eqb_neq (nr inputs) 0)), h1 by lia. unfold dlsim_x0.
    destruct l as [|a [|b l]]; [|simpl in H1; lia|]; rewrite (proj2 (Nat.eqb_neq _ _) Hn); reflexivity.
Qed.
End C36.

(** Complex systems lose their imaginary parts in SciPy's float arrays. *)
Definition x_i : arr QI := Arr 1 1 (fun _ _ => qi 0 1 1).
Definition x_1 : arr QI := Arr 1 1 (fun _ _ => q 1).
Theorem C36_complex_refuted :
  ~ (forall (A B C : arr QI) n m p, nr A = n -> nc A = n -> nr B = n -> nc B = m -> nr C = p -> nc C = n -> 0 < m ->
       exists M, impulse A B C (Some 2%nat) = Ok M /\
         forall k, k < 2 -> meq p m (a3 M k) (mmul n (ent C) (mmul n (mpow n (ent A) k) (ent B)))).
Proof.
  intros H. destruct (H x_i x_1 x_1 1 1 1)%nat as (M & E & G); auto.
  assert (X : rmap (fun M => keqb (a3 M 1%nat O O) (q 0)) (impulse x_i x_1 x_1 (Some 2%nat)) = Ok true) by (vm_compute; reflexivity).
  rewrite E in X. unfold rmap, rbind in X. injection X as X. apply keqb_true in X.
  pose proof (meq_at _ _ _ _ (G 1%nat ltac:(lia)) O O ltac:(lia) ltac:(lia)) as Y. rewrite X in Y.
  assert (Z : keqb (q 0) (mmul 1 (ent x_1) (mmul 1 (mpow 1 (ent x_i) 1) (ent x_1)) O O) = false) by (vm_compute; reflexivity).
  apply keqb_false in Z. auto.
Qed.

(** ** Instance: two states, one input, two outputs *)
Definition l_A : arr QI := of_rows 2 [[qi 1 0 2; q 1]; [q 0; q (-1)]].
Definition l_B : arr QI := of_rows 1 [[q 1]; [q 2]].
Definition l_C : arr QI := of_rows 2 [[q 1; q 0]; [q 1; q 1]].
Definition l_u : arr QI := of_rows 1 [[q 1]; [q 3]; [q 0]].
Lemma l_system : real_system 2 1 2 l_A l_B l_C.
Proof.
  do 6 (split; [reflexivity|]). split; [|split]; intros i j Hi Hj;
    (destruct i as [|[|i]]; [| |lia]; (destruct j as [|[|j]]; [| |lia])); try lia; real_solve.
Qed.
Example C36_lsim_instance : exists Y, lsim l_A l_B l_C l_u (Some [q 0; q 1]) = Ok Y /\
  meq 3 2 (ent Y) (ent (of_rows 2 [[q 0; q 1]; [q 2; q 3]; [q 5; q 10]])).
Proof.
  destruct (C36_lsim 2 1 2 l_A l_B l_C l_u (Some [q 0; q 1]) (at1 [q 0; q 1]) l_system) as (Y & X & EY & _).
  - simpl. lia.
  - reflexivity.
  - intros i j Hi Hj. simpl in Hi. destruct j as [|j]; [|lia]. do 3 (destruct i as [|i]; [real_solve|]). lia.
  - auto.
  - intros l Hl. do 2 (destruct l as [|l]; [real_solve|]). lia.
  - exists Y. split; [exact EY|].
    assert (G : rmap (fun Y => meqb 3 2 (ent Y) (ent (of_rows 2 [[q 0; q 1]; [q 2; q 3]; [q 5; q 10]])))
      (lsim l_A l_B l_C l_u (Some [q 0; q 1])) = Ok true) by (vm_compute; reflexivity).
    rewrite EY in G. injection G as G. apply meqb_true. exact G.
Qed.
Example C36_impulse_instance : exists M, impulse l_A l_B l_C (Some 3%nat) = Ok M /\ a3_t M = 3%nat /\
  forall k, k < 3 -> meq 2 1 (a3 M k) (mmul 2 (ent l_C) (mmul 2 (mpow 2 (ent l_A) k) (ent l_B))).
Proof.
  destruct (C36_impulse 2 1 2 l_A l_B l_C 3 l_system ltac:(lia)) as (M & EM & M1 & _ & _ & HM).
  exists M. split; [exact EM|]. split; [exact M1|exact HM].
Qed.

Add Field C36_QI : (k_field QI).
Lemma l_u_real : real_mat 3 1 (ent l_u).
Proof. intros i j Hi Hj. destruct j as [|j]; [|lia]. do 3 (destruct i as [|i]; [real_solve|]). lia. Qed.
Example C36_convolution_example : exists Y, lsim l_A l_B l_C l_u None = Ok Y /\ nr Y = 3%nat /\ ent Y 2%nat 1%nat = qi 19 0 2.
Proof.
  destruct (C36_convolution 2 1 2 l_A l_B l_C l_u l_system) as (Y & EY & N & _ & HY);
    [simpl; lia|reflexivity|exact l_u_real|].
  exists Y. split; [exact EY|]. split; [exact N|].
  rewrite HY by (simpl; lia). apply keqb_true. vm_compute. reflexivity.
Qed.
Example C36_lsim_impulse_example : exists M Y, impulse l_A l_B l_C (Some 2%nat) = Ok M /\ lsim l_A l_B l_C l_u None = Ok Y /\
  ent Y 2%nat 1%nat = a3 M 0%nat 1%nat 0%nat * q 3 + a3 M 1%nat 1%nat 0%nat * q 1.
Proof.
  destruct (C36_lsim_impulse 2 1 2 l_A l_B l_C l_u 2 l_system) as (M & Y & EM & EY & _ & HY);
    [lia|simpl; lia|reflexivity|exact l_u_real|simpl; lia|].
  exists M, Y. split; [exact EM|]. split; [exact EY|].
  rewrite HY by (simpl; lia). cbn [sum Nat.sub].
  change (ent l_u 1%nat 0%nat) with (q 3). change (ent l_u 0%nat 0%nat) with (q 1). ring.
Qed.
Example C36_impulse_default_example : impulse l_A l_B l_C None = impulse l_A l_B l_C (Some (11 * 9)%nat).
Proof. apply (C36_impulse_default 2 1 2). exact l_system. Qed.
Example C36_bad_system_example x0 N :
  lsim l_A (of_rows 1 [[q 1]]) l_C l_u x0 = Raise ValueError /\ impulse l_A (of_rows 1 [[q 1]]) l_C N = Raise ValueError.
Proof. apply C36_bad_system. intros (_ & H & _). discriminate H. Qed.
Example C36_bad_inputs_example :
  lsim l_A l_B l_C (of_rows 1 []) None = Raise IndexError /\
  lsim l_A l_B l_C (of_rows 2 [[q 1; q 2]]) None = Raise ValueError /\
  lsim l_A l_B l_C l_u (Some [q 1; q 2; q 3]) = Raise ValueError /\
  impulse l_A (of_rows 0 [[]; []]) l_C (Some 3%nat) = Raise ValueError.
Proof.
  split; [apply (proj1 (C36_bad_inputs 2 1 2 l_A l_B l_C (of_rows 1 []) l_system)); reflexivity|].
  split; [apply (proj2 (C36_bad_inputs 2 1 2 l_A l_B l_C (of_rows 2 [[q 1; q 2]]) l_system)); simpl; lia|].
  split; [apply (proj2 (C36_bad_inputs 2 1 2 l_A l_B l_C l_u l_system)); simpl; lia|].
  assert (S0 : real_system 2 0 2 l_A (of_rows 0 [[]; []]) l_C).
  { destruct l_system as (a & b & c & d & e & f & g & h & i).
    do 6 (split; [reflexivity|]). split; [exact g|]. split; [intros x y Hx Hy; lia|exact i]. }
  apply (proj2 (C36_bad_inputs 2 0 2 _ _ _ l_u S0)). reflexivity.
Qed.

Print Assumptions C36_lsim.
Print Assumptions C36_convolution.
Print Assumptions C36_impulse.
Print Assumptions C36_impulse_default.
Print Assumptions C36_lsim_impulse.
Print Assumptions C36_bad_system.
Print Assumptions C36_bad_inputs.
Print Assumptions C36_complex_refuted.
