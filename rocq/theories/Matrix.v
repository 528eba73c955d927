(** Matrices as entry functions, compared inside given bounds. *)
From Coq Require Import List Arith Lia Bool Field Ring Setoid Morphisms.
Import ListNotations.
From Verif Require Import Field.

Section Mat.
Context {F : sfield}.
Open Scope k_scope.
Add Field Ffield2 : (k_field F).

Definition mat := nat -> nat -> F.
Implicit Types A B C D : mat.

(** Equality of the m x n parts. *)
Record meq (m n : nat) A B : Prop := Meq {
  meq_at : forall i j, i < m -> j < n -> A i j = B i j
}.

Global Instance meq_equiv m n : Equivalence (meq m n).
Proof.
  split.
  - intros A. split. reflexivity.
  - intros A B [H]. split. intros i j Hi Hj. symmetry. auto.
  - intros A B C [H] [G]. split. intros i j Hi Hj. rewrite H, G; auto.
Qed.

Definition mmul (k : nat) A B : mat := fun i j => sum k (fun l => A i l * B l j).
Definition madj A : mat := fun i j => (A j i)^*.
Definition mtr A : mat := fun i j => A j i.
Definition mconj A : mat := fun i j => (A i j)^*.
Definition mid : mat := fun i j => if i =? j then 1 else 0.
Definition mzero : mat := fun _ _ => 0.
Definition mdiag (d : nat -> F) : mat := fun i j => if i =? j then d i else 0.
Definition madd A B : mat := fun i j => A i j + B i j.
Definition msub A B : mat := fun i j => A i j - B i j.
Definition mscale (c : F) A : mat := fun i j => c * A i j.
Definition mcols A (f : nat -> nat) : mat := fun i j => A i (f j).
Fixpoint mpow (n : nat) A (k : nat) : mat :=
  match k with O => mid | S k => mmul n A (mpow n A k) end.

Lemma meq_sub m n m' n' A B : m' <= m -> n' <= n -> meq m n A B -> meq m' n' A B.
Proof. intros Hm Hn [H]. split; intros i j Hi Hj. apply H; lia. Qed.

Global Instance mmul_proper m k n : Proper (meq m k ==> meq k n ==> meq m n) (mmul k).
Proof.
  intros A A' [HA] B B' [HB]. split; intros i j Hi Hj. unfold mmul. apply sum_ext. intros l Hl.
  rewrite HA, HB; auto.
Qed.
Global Instance madj_proper m n : Proper (meq m n ==> meq n m) madj.
Proof. intros A A' [HA]. split; intros i j Hi Hj. unfold madj. rewrite HA; auto. Qed.
Global Instance mtr_proper m n : Proper (meq m n ==> meq n m) mtr.
Proof. intros A A' [HA]. split; intros i j Hi Hj. unfold mtr. rewrite HA; auto. Qed.
Global Instance mconj_proper m n : Proper (meq m n ==> meq m n) mconj.
Proof. intros A A' [HA]. split; intros i j Hi Hj. unfold mconj. rewrite HA; auto. Qed.
Global Instance madd_proper m n : Proper (meq m n ==> meq m n ==> meq m n) madd.
Proof. intros A A' [HA] B B' [HB]. split; intros i j Hi Hj. unfold madd. rewrite HA, HB; auto. Qed.
Global Instance msub_proper m n : Proper (meq m n ==> meq m n ==> meq m n) msub.
Proof. intros A A' [HA] B B' [HB]. split; intros i j Hi Hj. unfold msub. rewrite HA, HB; auto. Qed.
Global Instance mscale_proper m n : Proper (eq ==> meq m n ==> meq m n) mscale.
Proof. intros c c' -> B B' [HB]. split; intros i j Hi Hj. unfold mscale. rewrite HB; auto. Qed.
Lemma mdiag_ext n (d d' : nat -> F) : (forall i, i < n -> d i = d' i) ->
  meq n n (mdiag d) (mdiag d').
Proof. intros H. split; intros i j Hi Hj. unfold mdiag. destruct (i =? j); auto. Qed.

Lemma mmul_assoc m n k l A B C :
  meq m n (mmul l (mmul k A B) C) (mmul k A (mmul l B C)).
Proof.
  split; intros i j _ _. unfold mmul.
  rewrite (sum_ext l _ (fun x => sum k (fun y => A i y * B y x * C x j))).
  - rewrite sum_swap. apply sum_ext. intros y _.
    rewrite <- sum_mul_l. apply sum_ext. intros x _. ring.
  - intros x _. rewrite <- sum_mul_r. reflexivity.
Qed.

Lemma mmul_id_l m n A : meq m n (mmul m mid A) A.
Proof.
  split; intros i j Hi Hj. unfold mmul. rewrite (sum_delta m i); auto.
  - unfold mid. rewrite Nat.eqb_refl. ring.
  - intros l Hl Hne. unfold mid. rewrite (proj2 (Nat.eqb_neq i l)) by auto. ring.
Qed.
Lemma mmul_id_r m n A : meq m n (mmul n A mid) A.
Proof.
  split; intros i j Hi Hj. unfold mmul. rewrite (sum_delta n j); auto.
  - unfold mid. rewrite Nat.eqb_refl. ring.
  - intros l Hl Hne. unfold mid. rewrite (proj2 (Nat.eqb_neq l j)) by auto. ring.
Qed.
Lemma mmul_diag_l m n d A : meq m n (mmul m (mdiag d) A) (fun i j => d i * A i j).
Proof.
  split; intros i j Hi Hj. unfold mmul. rewrite (sum_delta m i); auto.
  - unfold mdiag. rewrite Nat.eqb_refl. ring.
  - intros l Hl Hne. unfold mdiag. rewrite (proj2 (Nat.eqb_neq i l)) by auto. ring.
Qed.
Lemma mmul_diag_r m n d A : meq m n (mmul n A (mdiag d)) (fun i j => A i j * d j).
Proof.
  split; intros i j Hi Hj. unfold mmul. rewrite (sum_delta n j); auto.
  - unfold mdiag. rewrite Nat.eqb_refl. ring.
  - intros l Hl Hne. unfold mdiag. rewrite (proj2 (Nat.eqb_neq l j)) by auto. ring.
Qed.
Lemma mmul_diag_diag n d e : meq n n (mmul n (mdiag d) (mdiag e)) (mdiag (fun i => d i * e i)).
Proof.
  split; intros i j Hi Hj. rewrite (meq_at _ _ _ _ (mmul_diag_l n n d (mdiag e)) i j Hi Hj). unfold mdiag.
  destruct (i =? j); ring.
Qed.
Lemma mdiag_1 n d : (forall i, i < n -> d i = 1) -> meq n n (mdiag d) mid.
Proof.
  intros H. split; intros i j Hi Hj. unfold mdiag, mid. destruct (i =? j) eqn:E; auto.
Qed.

Lemma madj_mmul m n k A B : meq m n (madj (mmul k A B)) (mmul k (madj B) (madj A)).
Proof.
  split; intros i j _ _. unfold madj, mmul. rewrite sum_conj. apply sum_ext. intros l _.
  rewrite conj_mul. ring.
Qed.
Lemma mtr_mmul m n k A B : meq m n (mtr (mmul k A B)) (mmul k (mtr B) (mtr A)).
Proof. split; intros i j _ _. unfold mtr, mmul. apply sum_ext. intros l _. ring. Qed.
Lemma mconj_mmul m n k A B : meq m n (mconj (mmul k A B)) (mmul k (mconj A) (mconj B)).
Proof.
  split; intros i j _ _. unfold mconj, mmul. rewrite sum_conj. apply sum_ext. intros l _.
  apply conj_mul.
Qed.
Lemma madj_madj m n A : meq m n (madj (madj A)) A.
Proof. split; intros i j _ _. unfold madj. apply conj_conj. Qed.
Lemma madj_mid m n : meq m n (madj mid) mid.
Proof.
  split; intros i j _ _. unfold madj, mid. rewrite Nat.eqb_sym.
  destruct (i =? j); [apply conj_1|apply conj_0].
Qed.
Lemma madj_diag m n d : meq m n (madj (mdiag d)) (mdiag (fun i => (d i)^*)).
Proof.
  split; intros i j _ _. unfold madj, mdiag. rewrite Nat.eqb_sym.
  destruct (Nat.eqb_spec i j) as [-> |_]; [reflexivity|apply conj_0].
Qed.
Lemma madj_diag_real n d : (forall i, i < n -> real (d i)) -> meq n n (madj (mdiag d)) (mdiag d).
Proof. intros H. rewrite madj_diag. apply mdiag_ext. auto. Qed.
Lemma madj_msub m n A B : meq m n (madj (msub A B)) (msub (madj A) (madj B)).
Proof. split; intros i j _ _. unfold madj, msub. apply conj_sub. Qed.
Lemma madj_madd m n A B : meq m n (madj (madd A B)) (madd (madj A) (madj B)).
Proof. split; intros i j _ _. unfold madj, madd. apply conj_add. Qed.

Lemma mmul_add_l m n k A B C : meq m n (mmul k (madd A B) C) (madd (mmul k A C) (mmul k B C)).
Proof.
  split; intros i j _ _. unfold mmul, madd. rewrite <- sum_add. apply sum_ext. intros. ring.
Qed.
Lemma mmul_add_r m n k A B C : meq m n (mmul k A (madd B C)) (madd (mmul k A B) (mmul k A C)).
Proof.
  split; intros i j _ _. unfold mmul, madd. rewrite <- sum_add. apply sum_ext. intros. ring.
Qed.
Lemma mmul_sub_l m n k A B C : meq m n (mmul k (msub A B) C) (msub (mmul k A C) (mmul k B C)).
Proof.
  split; intros i j _ _. unfold mmul, msub. rewrite <- sum_sub. apply sum_ext. intros. ring.
Qed.
Lemma mmul_sub_r m n k A B C : meq m n (mmul k A (msub B C)) (msub (mmul k A B) (mmul k A C)).
Proof.
  split; intros i j _ _. unfold mmul, msub. rewrite <- sum_sub. apply sum_ext. intros. ring.
Qed.
Lemma mmul_scale_l m n k c A B : meq m n (mmul k (mscale c A) B) (mscale c (mmul k A B)).
Proof.
  split; intros i j _ _. unfold mmul, mscale. rewrite <- sum_mul_l. apply sum_ext. intros. ring.
Qed.
Lemma mmul_scale_r m n k c A B : meq m n (mmul k A (mscale c B)) (mscale c (mmul k A B)).
Proof.
  split; intros i j _ _. unfold mmul, mscale. rewrite <- sum_mul_l. apply sum_ext. intros. ring.
Qed.
Lemma mmul_zero_l m n k A : meq m n (mmul k mzero A) mzero.
Proof. split; intros i j _ _. unfold mmul, mzero. apply sum_0. intros. ring. Qed.
Lemma mmul_zero_r m n k A : meq m n (mmul k A mzero) mzero.
Proof. split; intros i j _ _. unfold mmul, mzero. apply sum_0. intros. ring. Qed.
Lemma msub_zero m n A B : meq m n (msub A B) mzero <-> meq m n A B.
Proof.
  unfold msub, mzero. split; intros [H]; split; intros i j Hi Hj.
  - transitivity (A i j - B i j + B i j); [ring|]. rewrite (H i j Hi Hj). ring.
  - rewrite (H i j Hi Hj). ring.
Qed.

(** A gram matrix vanishes only for the zero matrix. *)
Lemma gram_zero m n A : meq n n (mmul m (madj A) A) mzero -> meq m n A mzero.
Proof.
  intros [H]. split; intros i j Hi Hj. unfold mzero. apply (sum_norm_0 m (fun l => A l j)); auto.
  apply (H j j Hj Hj).
Qed.

(** ** Powers *)
Lemma mpow_S_r m n A k : m <= n -> meq m n (mpow n A (S k)) (mmul n (mpow n A k) A).
Proof.
  intros Hm. apply (meq_sub n n); auto.
  induction k as [|k IH].
  - simpl. rewrite mmul_id_l, mmul_id_r. reflexivity.
  - change (meq n n (mmul n A (mpow n A (S k))) (mmul n (mmul n A (mpow n A k)) A)).
    rewrite mmul_assoc, <- IH. reflexivity.
Qed.
Lemma mpow_add n A k l :
  meq n n (mpow n A (k + l)) (mmul n (mpow n A k) (mpow n A l)).
Proof.
  induction k as [|k IH]; simpl.
  - rewrite mmul_id_l. reflexivity.
  - rewrite IH, mmul_assoc. reflexivity.
Qed.
Global Instance mpow_proper n : Proper (meq n n ==> eq ==> meq n n) (mpow n).
Proof.
  intros A B H k k' <-. induction k as [|k IH]; simpl; [reflexivity|]. rewrite IH, H. reflexivity.
Qed.
(** Intertwining extends to powers. *)
Lemma mpow_intertwine m n A B T : meq m n (mmul m A T) (mmul n T B) ->
  forall k, meq m n (mmul m (mpow m A k) T) (mmul n T (mpow n B k)).
Proof.
  intros H. induction k as [|k IH]; simpl.
  - rewrite mmul_id_l, mmul_id_r. reflexivity.
  - rewrite mmul_assoc, IH, <- mmul_assoc, H, mmul_assoc. reflexivity.
Qed.
Lemma mpow_id n k : meq n n (mpow n mid k) mid.
Proof. induction k as [|k IH]; simpl; [reflexivity|]. rewrite IH, mmul_id_l. reflexivity. Qed.

(** ** Linear dependence *)

(** More unknowns than equations: a non-trivial solution. *)
Lemma dependent n : forall (A : mat),
  exists x : nat -> F, (exists j, j <= n /\ x j <> 0) /\
    forall i, i < n -> sum (S n) (fun j => A i j * x j) = 0.
Proof.
  induction n as [|n IH]; intros A.
  - exists (fun _ => 1). split; [exists O; split; auto; apply one_neq_zero|]. intros; lia.
  - (* a pivot in row n, or a zero row *)
    assert (D : (exists p, p <= S n /\ A n p <> 0) \/ forall p, p <= S n -> A n p = 0).
    { generalize (S n) at 1 2. intros q. induction q as [|q IHq].
      - destruct (k_dec F (A n O) 0) as [E|E]; [right|left; eauto].
        intros p Hp. replace p with O by lia. auto.
      - destruct IHq as [(p & Hp & Ep)|H]; [left; exists p; auto|].
        destruct (k_dec F (A n (S q)) 0) as [E|E]; [right|left; eauto].
        intros p Hp. destruct (Nat.eq_dec p (S q)) as [-> |Hne]; auto. apply H. lia. }
    destruct D as [(p & Hp & Ep)|Hz].
    + (* eliminate unknown p *)
      set (sk := fun j => if j <? p then j else S j).
      set (A' := (fun i j => A i (sk j) - A i p * kinv F (A n p) * A n (sk j)) : mat).
      destruct (IH A') as (y & (j0 & Hj0 & Ey) & Hy).
      set (xp := - kinv F (A n p) * sum (S n) (fun j => A n (sk j) * y j)).
      set (x := fun j => if j =? p then xp else if j <? p then y j else y (j - 1)%nat).
      assert (Hx : forall f : nat -> F, sum (S (S n)) (fun j => f j * x j) =
        f p * xp + sum (S n) (fun j => f (sk j) * y j)).
      { intros f. replace (S (S n)) with (p + S (S n - p))%nat by lia.
        rewrite (sum_split p (S (S n - p))), sum_S_l.
        replace (sum (S n)) with (@sum F (p + (S n - p))) by (f_equal; lia). rewrite sum_split.
        rewrite (sum_ext p (fun j => f j * x j) (fun j => f (sk j) * y j)).
        2:{ intros j Hj. unfold x, sk.
            rewrite (proj2 (Nat.eqb_neq j p)) by lia. rewrite (proj2 (Nat.ltb_lt j p)) by lia.
            reflexivity. }
        rewrite (sum_ext (S n - p) (fun i => f (p + S i)%nat * x (p + S i)%nat)
          (fun i => f (sk (p + i)%nat) * y (p + i)%nat)).
        2:{ intros j Hj. unfold x, sk.
            rewrite (proj2 (Nat.eqb_neq (p + S j) p)) by lia.
            rewrite (proj2 (Nat.ltb_ge (p + S j) p)) by lia.
            rewrite (proj2 (Nat.ltb_ge (p + j) p)) by lia.
            replace (p + S j - 1)%nat with (p + j)%nat by lia.
            replace (p + S j)%nat with (S (p + j)) by lia. reflexivity. }
        rewrite Nat.add_0_r. replace (x p) with xp; [|unfold x; rewrite Nat.eqb_refl; auto].
        ring. }
      exists x. split.
      * exists (sk j0). unfold sk, x. destruct (Nat.ltb_spec j0 p).
        -- split; [lia|]. rewrite (proj2 (Nat.eqb_neq j0 p)) by lia.
           rewrite (proj2 (Nat.ltb_lt j0 p)) by lia. auto.
        -- split; [lia|]. rewrite (proj2 (Nat.eqb_neq (S j0) p)) by lia.
           rewrite (proj2 (Nat.ltb_ge (S j0) p)) by lia. simpl. rewrite Nat.sub_0_r. auto.
      * intros i Hi. rewrite (Hx (A i)). destruct (Nat.eq_dec i n) as [-> |Hne].
        -- unfold xp. field. auto.
        -- specialize (Hy i ltac:(lia)). unfold A' in Hy.
           rewrite (sum_ext (S n) _ (fun j => A i (sk j) * y j -
             A i p * kinv F (A n p) * (A n (sk j) * y j))) in Hy by (intros; ring).
           rewrite sum_sub, sum_mul_l in Hy. unfold xp.
           rewrite <- Hy. ring.
    + destruct (IH A) as (y & (j0 & Hj0 & Ey) & Hy).
      exists (fun j => if j =? S n then 0 else y j). split.
      * exists j0. split; [lia|]. rewrite (proj2 (Nat.eqb_neq j0 (S n))) by lia. auto.
      * intros i Hi. destruct (Nat.eq_dec i n) as [-> |Hne].
        -- apply sum_0. intros j Hj. rewrite Hz by lia. ring.
        -- change (sum (S (S n)) ?f) with (sum (S n) f + f (S n)). cbv beta.
           rewrite Nat.eqb_refl.
           rewrite (sum_ext (S n) _ (fun j => A i j * y j)).
           ++ rewrite Hy by lia. ring.
           ++ intros j Hj. rewrite (proj2 (Nat.eqb_neq j (S n))) by lia. reflexivity.
Qed.

(** A left inverse of a square matrix is a right inverse. *)
Theorem left_inverse_right n A B : meq n n (mmul n B A) mid -> meq n n (mmul n A B) mid.
Proof.
  intros HBA. pose proof (meq_at _ _ _ _ HBA) as H.
  (* every y is in the range of A *)
  assert (R : forall y : nat -> F, exists x : nat -> F,
    forall i, i < n -> y i = sum n (fun l => A i l * x l)).
  { intros y.
    destruct (dependent n (fun i j => if j =? n then y i else A i j)) as (c & (j0 & Hj0 & Ec) & Hc).
    assert (Hc' : forall i, i < n -> sum n (fun j => A i j * c j) + y i * c n = 0).
    { intros i Hi. specialize (Hc i Hi). simpl in Hc. rewrite Nat.eqb_refl in Hc.
      rewrite (sum_ext n _ (fun j => A i j * c j)) in Hc; auto.
      intros j Hj. rewrite (proj2 (Nat.eqb_neq j n)) by lia. reflexivity. }
    destruct (k_dec F (c n) 0) as [E|E].
    - exfalso. apply Ec.
      assert (Z : forall i, i < n -> sum n (fun j => A i j * c j) = 0).
      { intros i Hi. rewrite <- (Hc' i Hi), E. ring. }
      assert (Zc : forall i, i < n -> c i = 0).
      { intros i Hi.
        transitivity (sum n (fun j => mmul n B A i j * c j)).
        - rewrite (sum_ext n _ (fun j => mid i j * c j)) by (intros; rewrite H; auto).
          rewrite (sum_delta n i); auto.
          + unfold mid. rewrite Nat.eqb_refl. ring.
          + intros j Hj Hne. unfold mid. rewrite (proj2 (Nat.eqb_neq i j)) by auto. ring.
        - unfold mmul.
          rewrite (sum_ext n _ (fun j => sum n (fun l => B i l * (A l j * c j)))).
          + rewrite sum_swap. apply sum_0. intros l Hl. rewrite sum_mul_l, Z by auto. ring.
          + intros j _. rewrite <- sum_mul_r. apply sum_ext. intros; ring. }
      destruct (Nat.eq_dec j0 n) as [-> |Hne]; auto. apply Zc. lia.
    - exists (fun l => - c l * kinv F (c n)). intros i Hi.
      rewrite (sum_ext n _ (fun l => (A i l * c l) * (- kinv F (c n)))) by (intros; ring).
      rewrite sum_mul_r.
      transitivity ((sum n (fun j => A i j * c j) + y i * c n - sum n (fun j => A i j * c j))
        * kinv F (c n)); [field; auto|].
      rewrite Hc' by auto. ring. }
  split; intros i j Hi Hj. unfold mid.
  destruct (R (fun i => if i =? j then 1 else 0)) as [x Hx].
  (* A B e_j = A B A x = A x = e_j *)
  transitivity (sum n (fun l => mmul n A B i l * (if l =? j then 1 else 0))).
  { symmetry. rewrite (sum_delta n j); auto.
    - rewrite Nat.eqb_refl. ring.
    - intros l Hl Hne. rewrite (proj2 (Nat.eqb_neq l j)) by auto. ring. }
  rewrite (Hx i Hi).
  rewrite (sum_ext n _ (fun l => mmul n A B i l * sum n (fun p => A l p * x p)))
    by (intros l Hl; rewrite <- (Hx l Hl); reflexivity).
  assert (E : meq n 1 (mmul n (mmul n A B) (mmul n A (fun p _ => x p)))
                      (mmul n A (fun p _ => x p))).
  { rewrite mmul_assoc. rewrite <- (mmul_assoc n 1 n n B A). rewrite HBA, mmul_id_l. reflexivity. }
  apply (meq_at _ _ _ _ E i O Hi). lia.
Qed.

(** Inverses are unique. *)
Lemma inverse_unique n A B C : meq n n (mmul n B A) mid -> meq n n (mmul n A C) mid ->
  meq n n B C.
Proof.
  intros H G. rewrite <- (mmul_id_r n n B). rewrite <- G, <- mmul_assoc, H, mmul_id_l. reflexivity.
Qed.

End Mat.
Arguments mat : clear implicits.
