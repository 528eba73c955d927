(** Property C51, the equality of array vector spaces. *)
From Coq Require Import List Arith Lia Bool Field Ring Setoid Morphisms.
Import ListNotations.
From Verif Require Import Prelude Field FieldInst Matrix NdArray VSArraysModel VSArraysProofs
  VSArraysProps EqualModel.
Open Scope nat_scope.

Section C51.
Context {F : sfield}.
Open Scope k_scope.
Add Field C51field : (k_field F).

(** The same weights: of the same number of dimensions, shape and entries. *)
Definition same_weights (a b : weights F) : Prop :=
  match a, b with
  | WNone, WNone => True
  | W1 w, W1 w' => w = w'
  | W2 W, W2 W' => aeq W W'
  | _, _ => False
  end.
(** The same outcome: equal arrays, or the same exception. *)
Definition same_outcome (r r' : res (arr F)) : Prop :=
  match r, r' with
  | Ok C, Ok D => aeq C D
  | Raise e, Raise e' => e = e'
  | _, _ => False
  end.
Definition same_kind (a b : weights F) : Prop :=
  match a, b with
  | WNone, WNone | W1 _, W1 _ | W2 _, W2 _ => True
  | _, _ => False
  end.

Lemma forallb_seq f n : forallb f (seq 0 n) = true <-> forall i, (i < n)%nat -> f i = true.
Proof.
  rewrite forallb_forall. split; intros H i Hi; apply H.
  - apply in_seq. lia.
  - apply in_seq in Hi. lia.
Qed.
Lemma dec_true (x y : F) : (if k_dec F x y then true else false) = true <-> x = y.
Proof. destruct (k_dec F x y); split; intros; auto; congruence. Qed.

Lemma list_equal_true (l l' : list F) : list_equal l l' = true <-> l = l'.
Proof.
  unfold list_equal. rewrite andb_true_iff, Nat.eqb_eq, forallb_seq. split.
  - intros [E H]. apply (nth_ext _ _ 0 0 E). intros i Hi. apply dec_true, H, Hi.
  - intros ->. split; auto. intros i _. apply dec_true. reflexivity.
Qed.
Lemma arr_equal_true (A B : arr F) : arr_equal A B = true <-> aeq A B.
Proof.
  unfold arr_equal, aeq. rewrite !andb_true_iff, !Nat.eqb_eq, forallb_seq. split.
  - intros [[E1 E2] H]. split; [auto|]. split; [auto|]. constructor. intros i j Hi Hj.
    specialize (H i Hi). rewrite forallb_seq in H. apply dec_true, H, Hj.
  - intros (E1 & E2 & H). repeat (split; auto). intros i Hi. rewrite forallb_seq.
    intros j Hj. apply dec_true, H; auto.
Qed.

(** Two spaces are equal exactly if they have the same weights. *)
Theorem C51_space_eq (a b : weights F) : space_eq a (Space b) = true <-> same_weights a b.
Proof.
  destruct a as [|w|W], b as [|w'|W']; simpl; try tauto;
    try (split; [discriminate|contradiction]).
  - apply list_equal_true.
  - apply arr_equal_true.
Qed.

(** [==] is an equivalence relation, [!=] its negation, and no other object equals
    a space. *)
Theorem C51_space_equivalence (a b c : weights F) :
  space_eq a (Space a) = true /\
  space_eq a (Space b) = space_eq b (Space a) /\
  (space_eq a (Space b) = true -> space_eq b (Space c) = true -> space_eq a (Space c) = true) /\
  space_ne a (Space b) = negb (space_eq a (Space b)) /\
  space_eq a Anything_else = false.
Proof.
  assert (Sy : forall a b : weights F, same_weights a b -> same_weights b a).
  { intros [|w|W] [|w'|W']; simpl; auto. intros (E1 & E2 & E3). split; [auto|]. split; [auto|].
    rewrite <- E1, <- E2. symmetry. exact E3. }
  split; [|split; [|split; [|split; reflexivity]]].
  - apply C51_space_eq. destruct a; simpl; auto. split; [|split]; reflexivity.
  - apply eq_true_iff_eq. rewrite !C51_space_eq. split; apply Sy.
  - rewrite !C51_space_eq. destruct a as [|w|W], b as [|w'|W'], c as [|w''|W'']; simpl;
      try tauto; try congruence.
    intros (E1 & E2 & E3) (E1' & E2' & E3'). split; [congruence|]. split; [congruence|].
    rewrite E3. rewrite E1, E2. exact E3'.
Qed.

Lemma dot_same (A A' B B' : arr F) : aeq A A' -> aeq B B' ->
  same_outcome (dot A B) (dot A' B').
Proof.
  intros (E1 & E2 & E3) (E4 & E5 & E6). unfold dot. rewrite <- E2, <- E4.
  destruct (nc A =? nr B)%nat eqn:E; simpl; auto.
  split; [auto|]. split; [auto|]. apply mmul_proper; auto.
  apply Nat.eqb_eq in E. rewrite E. exact E6.
Qed.

(** Equal spaces compute the same inner products (or raise the same exception). *)
Theorem C51_space_products (a b : weights F) (X Y : arr F) :
  space_eq a (Space b) = true ->
  same_outcome (inner_product_array a X Y) (inner_product_array b X Y).
Proof.
  rewrite C51_space_eq. assert (R : forall A : arr F, aeq A A).
  { intros A. split; [|split]; reflexivity. }
  assert (RR : forall r, same_outcome r r) by (intros [A|e]; simpl; auto).
  destruct a as [|w|W], b as [|w'|W']; simpl; try tauto.
  - intros _. apply RR.
  - intros ->. apply RR.
  - intros E. pose proof (dot_same W W' Y Y E (R Y)) as H.
    destruct (dot W Y) as [C|e], (dot W' Y) as [D|e']; simpl in *; try tauto; try congruence.
    apply dot_same; auto.
Qed.

Lemma products_eye (ws : weights F) n : wfits n ws ->
  exists C, inner_product_array ws (eye n) (eye n) = Ok C /\ nr C = n /\ nc C = n /\
    meq n n (ent C) (wmat ws).
Proof.
  intros Hw. destruct (ip_ok ws (eye n) (eye n) eq_refl Hw) as (C & E1 & E2 & E3 & E4).
  exists C. split; [exact E1|]. split; [exact E2|]. split; [exact E3|].
  eapply transitivity; [exact E4|]. unfold wip.
  change (ent (eye n)) with (@mid F). change (nr (eye n)) with n. change (nc (eye n)) with n.
  rewrite mmul_id_r, madj_mid, mmul_id_l. reflexivity.
Qed.

(** Conversely, among spaces with weights of the same number of dimensions, the
    inner products of the unit vectors decide. *)
Theorem C51_products_space (a b : weights F) n : wfits n a -> wfits n b -> same_kind a b ->
  same_outcome (inner_product_array a (eye n) (eye n)) (inner_product_array b (eye n) (eye n)) ->
  space_eq a (Space b) = true.
Proof.
  intros Ha Hb Hk H. apply C51_space_eq.
  destruct (products_eye a n Ha) as (C & EC & C1 & C2 & C3).
  destruct (products_eye b n Hb) as (D & ED & D1 & D2 & D3).
  rewrite EC, ED in H. destruct H as (_ & _ & H). rewrite C1, C2 in H.
  assert (W : meq n n (wmat a) (wmat b)) by (rewrite <- C3, <- D3; exact H).
  destruct a as [|w|W'], b as [|w'|W'']; simpl in *; try tauto.
  - apply (nth_ext _ _ 0 0); [congruence|]. intros i Hi.
    assert (Hi' : (i < n)%nat) by lia. pose proof (meq_at _ _ _ _ W i i Hi' Hi') as E.
    unfold mdiag in E. rewrite Nat.eqb_refl in E. exact E.
  - destruct Ha as [A1 A2], Hb as [B1 B2]. split; [congruence|]. split; [congruence|].
    rewrite A1, A2. exact W.
Qed.

Lemma repeat_ones n i : (i < n)%nat -> nth i (repeat (1 : F) n) 0 = 1.
Proof.
  revert i. induction n; intros [|i] H; simpl; auto; try lia. apply IHn. lia.
Qed.

(** Across kinds it does not: no weights and weights all one are different spaces
    with the same inner products, and so are one-dimensional weights and their
    diagonal array. *)
Theorem C51_products_space_refuted n (w : list F) : length w = n ->
  space_eq (F := F) WNone (Space (W1 (repeat 1 n))) = false /\
  space_eq (W1 w) (Space (W2 (diag w))) = false /\
  forall X Y : arr F, nr X = n -> nr Y = n ->
    same_outcome (inner_product_array WNone X Y) (inner_product_array (W1 (repeat 1 n)) X Y) /\
    same_outcome (inner_product_array (W1 w) X Y) (inner_product_array (W2 (diag w)) X Y).
Proof.
  intros Hw. repeat split; auto; subst n.
  - intros. assert (E : nr X = nr Y) by lia.
    destruct (ip_ok WNone X Y E Logic.I) as (C & E1 & E2 & E3 & E4).
    destruct (ip_ok (W1 (repeat 1 (length w))) X Y E) as (D & D1 & D2 & D3 & D4).
    { simpl. rewrite repeat_length. lia. }
    rewrite E1, D1. simpl. split; [congruence|]. split; [congruence|].
    rewrite E2, E3. rewrite E4, D4. unfold wip. apply mmul_proper; [reflexivity|].
    apply mmul_proper; [|reflexivity]. constructor. intros i j Hi Hj. simpl. unfold mid, mdiag, at1.
    destruct (i =? j)%nat eqn:Eij; auto. symmetry. apply repeat_ones. lia.
  - destruct (C18_diagonal X Y w) as (C & D & E1 & E2 & E3); [congruence|congruence|].
    rewrite E1, E2. exact E3.
Qed.
End C51.

(** Instance: weights [2, 3] over the rational complex numbers, once more as an
    array with one column, other weights, and the diagonal array. *)
Example C51_example_spaces :
  let q (n : nat) : QI := Nat.iter n (fun x => kadd QI x (k1 QI)) (k0 QI) in
  let w := W1 [q 2; q 3] in
  set_weights (Some (Nd [2; 1] [q 2; q 3])) = Ok w /\
  space_eq w (Space w) = true /\
  space_ne w (Space (W1 [q 2; q 4])) = true /\
  space_ne w (Space (W2 (diag [q 2; q 3]))) = true /\
  wfits 2 w /\ same_kind w (W1 [q 2; q 4]).
Proof.
  intros q w. split; [reflexivity|]. split; [vm_compute; reflexivity|].
  split; [vm_compute; reflexivity|]. split; [vm_compute; reflexivity|].
  split; [reflexivity|exact Logic.I].
Qed.

Print Assumptions C51_space_eq.
Print Assumptions C51_space_equivalence.
Print Assumptions C51_space_products.
Print Assumptions C51_products_space.
Print Assumptions C51_products_space_refuted.
