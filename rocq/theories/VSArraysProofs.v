(** Inner products of arrays as matrix products, and facts about weights. *)
From Coq Require Import List Arith Lia Bool ZArith Field Ring Setoid Morphisms.
Import ListNotations.
From Verif Require Import Prelude Field Matrix NdArray VSArraysModel.
Open Scope nat_scope.
Open Scope k_scope.

Section Proofs.
Context {F : sfield}.
Add Field VSfield : (k_field F).

(** The weight matrix meant by the weights. *)
Definition wmat (ws : weights F) : mat F :=
  match ws with WNone => mid | W1 w => mdiag (at1 w) | W2 W => ent W end.
(** The weights are for vectors of [n] entries. *)
Definition wfits (n : nat) (ws : weights F) : Prop :=
  match ws with WNone => True | W1 w => length w = n | W2 W => nr W = n /\ nc W = n end.
Definition hermitian (n : nat) (W : mat F) : Prop := meq n n (madj W) W.
(** Definite: only the zero vector has zero weighted norm. *)
Definition definite (n : nat) (W : mat F) : Prop :=
  forall v : nat -> F, sum n (fun a => (v a)^* * sum n (fun b => W a b * v b)) = 0 ->
    forall i, i < n -> v i = 0.

Definition wip (n : nat) (W A B : mat F) : mat F := mmul n (madj A) (mmul n W B).

Lemma ip_ok ws (X Y : arr F) : nr X = nr Y -> wfits (nr X) ws ->
  exists C, inner_product_array ws X Y = Ok C /\ nr C = nc X /\ nc C = nc Y /\
    meq (nc X) (nc Y) (ent C) (wip (nr X) (wmat ws) (ent X) (ent Y)).
Proof.
  intros E Hw. unfold inner_product_array, wip. destruct ws as [|w|W]; simpl in Hw.
  - unfold dot. simpl. rewrite E, Nat.eqb_refl. eexists. split; [reflexivity|].
    simpl. split; auto. split; auto. rewrite mmul_id_l. reflexivity.
  - unfold mul_row. simpl. rewrite Hw, Nat.eqb_refl. cbn [rbind]. unfold dot. simpl.
    rewrite E, Nat.eqb_refl. eexists. split; [reflexivity|]. simpl. split; auto. split; auto.
    split. intros i j Hi Hj. unfold mmul at 1 2. apply sum_ext. intros l Hl.
    rewrite (meq_at _ _ _ _ (mmul_diag_l (nr Y) (nc Y) (at1 w) (ent Y)) l j) by auto.
    unfold madj. ring.
  - destruct Hw as [Hr Hc]. unfold dot. rewrite Hc, E, Nat.eqb_refl. cbn [rbind]. simpl.
    rewrite Hr, E, Nat.eqb_refl. eexists. split; [reflexivity|]. simpl.
    split; auto. split; auto. reflexivity.
Qed.

Lemma wip_adj m n k (W A B : mat F) : hermitian k W ->
  meq m n (madj (wip k W A B)) (wip k W B A).
Proof.
  intros H. unfold wip. rewrite madj_mmul, madj_madj, madj_mmul, H, mmul_assoc. reflexivity.
Qed.

Lemma wip_mul_r m n k j (W A B C : mat F) :
  meq m n (mmul j (wip k W A B) C) (wip k W A (mmul j B C)).
Proof. unfold wip. rewrite !mmul_assoc. reflexivity. Qed.
Lemma wip_mul_l m n k j (W A B C : mat F) :
  meq m n (wip k W (mmul j A C) B) (mmul j (madj C) (wip k W A B)).
Proof. unfold wip. rewrite madj_mmul, mmul_assoc. reflexivity. Qed.
Global Instance wip_proper m n k : Proper (meq k k ==> meq k m ==> meq k n ==> meq m n) (wip k).
Proof.
  intros W W' HW A A' HA B B' HB. unfold wip. rewrite HW, HA, HB. reflexivity.
Qed.

Lemma wgram_zero n k (W Y : mat F) : definite k W ->
  meq n n (wip k W Y Y) mzero -> meq k n Y mzero.
Proof.
  intros HD [H]. split. intros i j Hi Hj.
  apply (HD (fun a => Y a j)); auto. apply (H j j Hj Hj).
Qed.

End Proofs.
