(** Instances of C56. *)
From Coq Require Import List Arith Lia Bool ZArith Field Ring Setoid Morphisms Reals Lra.
Import ListNotations.
From Verif Require Import Prelude Field FieldInst Matrix NdArray DecompModel DecompProofs VSArraysModel PodModel OptimalProofs
  TrapzModel TrapzProps Poly HermiteModel HermiteRoots HermiteProps HermiteExamples CglModel CglProps CglInputModel CglInputProofs CglInputProps.
Close Scope R_scope.
Open Scope nat_scope.
Open Scope k_scope.

(** Two states with weights 1 and 4; one step takes each state into the other, magnified by 4
    or by 1/8, so two steps halve both. *)
Add Field Ff_qr_grow : (k_field QR).
Definition g_w : list QR := [1; 1 + 1 + 1 + 1].
Definition g_A : arr QR := of_rows 2 [[0; 1 + 1 + 1 + 1]; [1 / ((1 + 1) * (1 + 1) * (1 + 1)); 0]].
Definition g_sqrt (x : QR) : QR := if k_dec QR x (1 + 1 + 1 + 1) then 1 + 1 else x.
(** Decomposes [[0, a], [b, 0]] with a >= b >= 0 and multiples of the identity. *)
Definition g_svd (G : arr QR) : res (arr QR * list QR * arr QR) :=
  if k_dec QR (ent G 0%nat 1%nat) 0
  then Ok (eye 2, [ent G 0%nat 0%nat; ent G 1%nat 1%nat], eye 2)
  else Ok (eye 2, [ent G 0%nat 1%nat; ent G 1%nat 0%nat], Arr 2 2 (fun i j => if (i =? j)%nat then 0 else 1)).
Lemma g_weights i : i < 2 -> real (at1 g_w i) /\ klt_p 0 (at1 g_w i) /\ sqrt_ok g_sqrt (at1 g_w i).
Proof.
  intros Hi. destruct i as [|[|i]]; [| |lia].
  all: split; [reflexivity|]; split; [vm_compute; reflexivity|]; split; [reflexivity|]; split; [left; vm_compute; reflexivity|].
  all: apply keqb_true; vm_compute; reflexivity.
Qed.

(** The entries of the arrays decomposed. *)
Lemma g_contract (G : arr QR) (a b c d : QR) : nr G = 2%nat -> nc G = 2%nat ->
  ent G 0%nat 0%nat = a -> ent G 0%nat 1%nat = b -> ent G 1%nat 0%nat = c -> ent G 1%nat 1%nat = d ->
  (b = 0 /\ c = 0 /\ kle d a /\ kle 0 d) \/ (b <> 0 /\ a = 0 /\ d = 0 /\ kle c b /\ kle 0 c) ->
  exists U S Vh, g_svd G = Ok (U, S, Vh) /\ svd_contract G U S Vh.
Proof.
  intros Gr Gc E00 E01 E10 E11 H.
  assert (T : forall x y z : QR, kle x y -> kle y z -> kle x z) by (intros x y z; apply le_trans; reflexivity).
  unfold g_svd. destruct H as [(Hb & Hc & L1 & L2)|(Hb & Ha & Hd & L1 & L2)].
  - destruct (k_dec QR (ent G 0%nat 1%nat) 0) as [_|N]; [|congruence]. eexists _, _, _. split; [reflexivity|].
    split; rewrite ?Gr, ?Gc; [reflexivity|reflexivity|reflexivity|reflexivity|reflexivity| | | | | |].
    + apply (meqb_true 2 2). vm_compute. reflexivity.
    + apply (meqb_true 2 2). vm_compute. reflexivity.
    + split. intros i j Hi Hj. destruct i as [|[|i]]; [| |lia]; (destruct j as [|[|j]]; [| |lia]);
        unfold mmul, mdiag, mid, at1; cbn [sum eye ent length nth Nat.eqb]; unfold mid; cbn [Nat.eqb]; rewrite ?E00, ?E01, ?E10, ?E11, ?Hb, ?Hc; ring.
    + apply Forall_forall. intros z _. reflexivity.
    + rewrite E00, E11. constructor; [eauto|]. constructor; [auto|constructor].
    + intros i j Hi Hj. simpl in Hj. destruct i as [|[|i]], j as [|[|j]]; try lia; unfold at1; cbn [nth]; rewrite ?E00, ?E11; auto using le_refl.
  - destruct (k_dec QR (ent G 0%nat 1%nat) 0) as [N|_]; [congruence|]. eexists _, _, _. split; [reflexivity|].
    split; rewrite ?Gr, ?Gc; [reflexivity|reflexivity|reflexivity|reflexivity|reflexivity| | | | | |].
    + apply (meqb_true 2 2). vm_compute. reflexivity.
    + apply (meqb_true 2 2). vm_compute. reflexivity.
    + split. intros i j Hi Hj. destruct i as [|[|i]]; [| |lia]; (destruct j as [|[|j]]; [| |lia]);
        unfold mmul, mdiag, mid, at1; cbn [sum eye ent length nth Nat.eqb]; unfold mid; cbn [Nat.eqb]; rewrite ?E00, ?E01, ?E10, ?E11, ?Ha, ?Hd; ring.
    + apply Forall_forall. intros z _. reflexivity.
    + rewrite E01, E10. constructor; [eauto|]. constructor; [auto|constructor].
    + intros i j Hi Hj. simpl in Hj. destruct i as [|[|i]], j as [|[|j]]; try lia; unfold at1; cbn [nth]; rewrite ?E01, ?E10; auto using le_refl.
Qed.

Lemma g_works : svd_works g_svd g_sqrt 2 (at1 g_w) (ent g_A) 3.
Proof.
  intros i G Hi Gr Gc HG.
  assert (V : forall k l v, k < 2 -> l < 2 -> keqb (g_sqrt (at1 g_w k) * mpow 2 (ent g_A) i k l / g_sqrt (at1 g_w l)) v = true -> ent G k l = v).
  { intros k l v Hk Hl E. rewrite HG by auto. apply keqb_true. exact E. }
  assert (C : i = 1%nat \/ i = 2%nat \/ i = 3%nat) by lia. destruct C as [-> |[-> | ->]].
  - apply (g_contract G 0 (1 + 1) (1 / ((1 + 1) * (1 + 1))) 0); auto; try (apply V; [lia|lia|vm_compute; reflexivity]).
    right. split; [apply keqb_false; vm_compute; reflexivity|]. do 2 (split; [reflexivity|]). split; left; vm_compute; reflexivity.
  - apply (g_contract G (1 / (1 + 1)) 0 0 (1 / (1 + 1))); auto; try (apply V; [lia|lia|vm_compute; reflexivity]).
    left. do 2 (split; [reflexivity|]). split; [apply le_refl|left; vm_compute; reflexivity].
  - apply (g_contract G 0 1 (1 / ((1 + 1) * (1 + 1) * (1 + 1))) 0); auto; try (apply V; [lia|lia|vm_compute; reflexivity]).
    right. split; [apply keqb_false; vm_compute; reflexivity|]. do 2 (split; [reflexivity|]). split; left; vm_compute; reflexivity.
Qed.

(** The second state grows most, four times its energy at the first of three times. *)
Example C56_optimal_example :
  (forall i, i < length g_w -> real (at1 g_w i) /\ klt_p 0 (at1 g_w i) /\ sqrt_ok g_sqrt (at1 g_w i)) /\
  svd_works g_svd g_sqrt (length g_w) (at1 g_w) (ent g_A) 3 /\
  (exists i j, i < length g_w /\ j < length g_w /\ ent g_A i j <> 0) /\
  exists B, optimal_disturbance g_svd g_sqrt g_w g_A 3 = Ok (Some B) /\
    ent B 0%nat 0%nat = 0 /\ ent B 1%nat 0%nat = - (1 / (1 + 1)) /\
    energy 2 (at1 g_w) (evolve 2 (ent g_A) 1 (fun l => ent B l 0%nat)) = (1 + 1) * (1 + 1).
Proof.
  split; [exact g_weights|]. split; [exact g_works|]. split.
  { exists 0%nat, 1%nat. split; [simpl; lia|]. split; [simpl; lia|]. apply keqb_false. vm_compute. reflexivity. }
  destruct (C56_optimal g_svd g_sqrt g_w g_A 3 g_weights eq_refl eq_refl g_works ltac:(lia)) as (B & k & E & _).
  { exists 0%nat, 1%nat. split; [simpl; lia|]. split; [simpl; lia|]. apply keqb_false. vm_compute. reflexivity. }
  exists B. split; [exact E|].
  assert (K : match optimal_disturbance g_svd g_sqrt g_w g_A 3 with
    | Ok (Some B) => keqb (ent B 0%nat 0%nat) 0 && keqb (ent B 1%nat 0%nat) (- (1 / (1 + 1))) &&
        keqb (energy 2 (at1 g_w) (evolve 2 (ent g_A) 1 (fun l => ent B l 0%nat))) ((1 + 1) * (1 + 1))
    | _ => false end = true) by (vm_compute; reflexivity).
  rewrite E in K. apply andb_prop in K. destruct K as [K K3]. apply andb_prop in K. destruct K as [K1 K2].
  split; [apply keqb_true; exact K1|]. split; apply keqb_true; assumption.
Qed.
(** Nothing grows when one step erases everything. *)
Example C56_undefined_example :
  svd_works g_svd g_sqrt 2 (at1 g_w) (ent (zeros 2 2)) 2 /\ optimal_disturbance g_svd g_sqrt g_w (zeros 2 2) 2 = Ok None.
Proof.
  assert (W : svd_works g_svd g_sqrt 2 (at1 g_w) (ent (zeros 2 2)) 2).
  { intros i G Hi Gr Gc HG.
    assert (V : forall k l, k < 2 -> l < 2 -> ent G k l = 0).
    { intros k l Hk Hl. rewrite HG by auto. apply keqb_true.
      assert (C : i = 1%nat \/ i = 2%nat) by lia. destruct k as [|[|k]]; [| |lia]; (destruct l as [|[|l]]; [| |lia]); destruct C as [-> | ->]; vm_compute; reflexivity. }
    apply (g_contract G 0 0 0 0); auto. left. do 2 (split; [reflexivity|]). split; apply le_refl. }
  split; [exact W|]. apply (C56_undefined g_svd g_sqrt g_w (zeros 2 2) 2 g_weights ltac:(simpl; lia) eq_refl eq_refl W). right. reflexivity.
Qed.

(** Two grid points over the reals, with the identity for exp(A dt). *)
Add Field Ff_rr_grow : (k_field RR).
Definition r2_expm (M : arr RR) : res (arr RR) := Ok (eye 2).
Definition r2_svd (G : arr RR) : res (arr RR * list RR * arr RR) := Ok (eye 2, [1; 1], eye 2).
Lemma r_sqrt_ok (t : RR) : kle 0 t -> sqrt_ok r2_sqrt t.
Proof.
  intros Ht. assert (H : (0 <= t)%R) by (destruct Ht as [H| <-]; [apply Rlt_le, rlt_spec; exact H|apply Rle_refl]).
  split; [reflexivity|]. split.
  - destruct (Rle_lt_or_eq_dec 0 (R_sqrt.sqrt t) (R_sqrt.sqrt_pos _)) as [L|E]; [left; apply rlt_spec; exact L|right; exact E].
  - apply R_sqrt.sqrt_sqrt. exact H.
Qed.
Example C56_setup_example :
  exists x A B C, cgl_setup r2_svd r2_sqrt r2_exp r2_eigvalsh r2_expm 2 1 2%R 3%R (1 / 5)%R (-1 / 100)%R (1 / 2)%R (-1)%R 1%R = Ok (x, A, Some B, C) /\
    length x = 2%nat /\ nr B = 2%nat /\ nc C = 2%nat.
Proof.
  destruct C55_herdif_example as (H1 & H2 & H3 & H4 & _).
  destruct (C56_setup r2_svd r2_sqrt r2_exp r2_eigvalsh r2_expm 2 1 2%R 3%R (1 / 5)%R (-1 / 100)%R (1 / 2)%R (-1)%R 1%R r2_w r2_V) as (x & A & E & Lx & Rx & Ix & _ & HA & EE & K); auto.
  - intros t _ Ht. apply r_sqrt_ok. exact Ht.
  - apply lt_0_1.
  - intros M _ _. exists (eye 2). split; [reflexivity|]. do 2 (split; [reflexivity|]). exists mid. apply mmul_id_l.
  - injection EE as <-. destruct K as (B & C & k & ES & Br & Bc & Cr & Cc & _).
    + intros i G Hi Gr Gc HG.
      assert (Q : meq 2 2 (ent G) mid).
      { split. intros k l Hk Hl. rewrite HG by auto. cbn [ent eye]. rewrite (meq_at _ _ _ _ (mpow_id 2 i) k l Hk Hl).
        assert (P : forall m, m < 2 -> r2_sqrt (weight x m) <> 0).
        { intros m Hm Z. apply (weight_pos x m); auto; [lia|].
          destruct (r_sqrt_ok (weight x m)) as (_ & _ & S).
          - apply weight_nonneg; auto; [lia|]. intros j Hj. left. apply Ix. auto.
          - rewrite <- S, Z. ring. }
        unfold mid. destruct (Nat.eqb_spec k l) as [->|]; field; auto. }
      eexists _, _, _. split; [reflexivity|]. split; rewrite ?Gr, ?Gc; [reflexivity|reflexivity|reflexivity|reflexivity|reflexivity| | | | | |].
      * unfold orthonormal. cbn [ent eye]. rewrite madj_mid. apply mmul_id_l.
      * unfold orthonormal. cbn [ent eye]. rewrite !madj_mid. apply mmul_id_l.
      * cbn [length ent eye]. rewrite Q, mmul_id_l, mmul_id_r. split. intros k l Hk Hl. unfold mid, mdiag, at1.
        destruct (Nat.eqb_spec k l) as [->|]; auto. destruct l as [|[|l]]; [reflexivity|reflexivity|lia].
      * apply Forall_forall. intros z _. reflexivity.
      * constructor; [left; apply lt_0_1|]. constructor; [left; apply lt_0_1|constructor].
      * intros k l Hk Hl. simpl in Hl. destruct k as [|[|k]], l as [|[|l]]; try lia; right; reflexivity.
    + exists x, A, B, C. auto.
Qed.
Print Assumptions C56_optimal.
Print Assumptions C56_undefined.
Print Assumptions C56_setup.
Print Assumptions C56_small.
Print Assumptions C56_optimal_example.
Print Assumptions C56_undefined_example.
Print Assumptions C56_setup_example.

(** One point: the weights need two. *)
Example C56_small_example :
  let eigvalsh (_ : arr RR) := Ok [0 : RR] in
  eigh_contract (jacobi r2_sqrt 1) [0] (eye 1) /\
  cgl_setup r2_svd r2_sqrt r2_exp eigvalsh r2_expm 1 1 2%R 3%R (1 / 5)%R (-1 / 100)%R (1 / 2)%R (-1)%R 1%R = Raise IndexError.
Proof.
  intros eigvalsh.
  assert (C : eigh_contract (jacobi r2_sqrt 1) [0] (eye 1)).
  { split; [reflexivity|reflexivity|reflexivity|reflexivity| | |].
    - unfold orthonormal. cbn [ent eye nr jacobi]. rewrite madj_mid. apply mmul_id_l.
    - split. intros i j Hi Hj. simpl in Hi, Hj. destruct i; [|lia]. destruct j; [|lia]. unfold mmul, mdiag, mid, at1, jacobi. cbn. ring.
    - constructor; [reflexivity|constructor]. }
  split; [exact C|].
  destruct C55_herdif_example as (H1 & H2 & _).
  apply (C56_small r2_svd r2_sqrt r2_exp eigvalsh r2_expm 1 1 2%R 3%R (1 / 5)%R (-1 / 100)%R (1 / 2)%R (-1)%R 1%R [0] (eye 1)); auto. apply one_neq_zero.
Qed.
Print Assumptions C56_small_example.
