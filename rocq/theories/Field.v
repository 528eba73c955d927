(** Scalars: fields with a conjugation and an order on their real elements.
    The rational and the ordinary complex numbers are instances (FieldInst.v);
    the models of the numerical code take the field as a parameter. *)
From Coq Require Import List Arith Lia Bool Field Ring Setoid Morphisms.
Import ListNotations.

Record sfield := SField {
  K :> Type;
  k0 : K; k1 : K;
  kadd : K -> K -> K; kmul : K -> K -> K; ksub : K -> K -> K; kdiv : K -> K -> K;
  kopp : K -> K; kinv : K -> K; kconj : K -> K;
  (** comparison, meaningful on real elements only *)
  klt : K -> K -> bool;
  k_field : field_theory k0 k1 kadd kmul ksub kopp kdiv kinv eq;
  k_dec : forall x y : K, {x = y} + {x <> y};
  conj_add : forall x y, kconj (kadd x y) = kadd (kconj x) (kconj y);
  conj_mul : forall x y, kconj (kmul x y) = kmul (kconj x) (kconj y);
  conj_conj : forall x, kconj (kconj x) = x;
  lt_irrefl : forall x, kconj x = x -> klt x x = false;
  lt_trans : forall x y z, kconj x = x -> kconj y = y -> kconj z = z ->
    klt x y = true -> klt y z = true -> klt x z = true;
  lt_total : forall x y, kconj x = x -> kconj y = y -> x <> y ->
    klt x y = true \/ klt y x = true;
  lt_add : forall x y z, kconj x = x -> kconj y = y -> kconj z = z ->
    klt x y = true -> klt (kadd x z) (kadd y z) = true;
  lt_mul : forall x y, kconj x = x -> kconj y = y ->
    klt k0 x = true -> klt k0 y = true -> klt k0 (kmul x y) = true;
  lt_norm : forall x, x <> k0 -> klt k0 (kmul (kconj x) x) = true
}.

Declare Scope k_scope.
Delimit Scope k_scope with K.
Notation "0" := (k0 _) : k_scope.
Notation "1" := (k1 _) : k_scope.
Infix "+" := (kadd _) : k_scope.
Infix "*" := (kmul _) : k_scope.
Infix "-" := (ksub _) : k_scope.
Infix "/" := (kdiv _) : k_scope.
Notation "- x" := (kopp _ x) : k_scope.
Notation "x ^*" := (kconj _ x) (at level 1, left associativity, format "x ^*") : k_scope.

Notation real x := (kconj _ x = x).

Section Facts.
Context {F : sfield}.
Implicit Types x y z : F.
Open Scope k_scope.

Add Field Ffield : (k_field F).

Definition klt_p x y : Prop := klt F x y = true.
Definition kle x y : Prop := klt F x y = true \/ x = y.

Lemma one_neq_zero : (1 : F) <> 0.
Proof. apply (F_1_neq_0 (k_field F)). Qed.
Lemma inv_l x : x <> 0 -> kinv F x * x = 1.
Proof. apply (Finv_l (k_field F)). Qed.
Lemma div_def x y : x / y = x * kinv F y.
Proof. apply (Fdiv_def (k_field F)). Qed.

Lemma div_mul_1 x : x <> 0 -> 1 / x * x = 1. Proof. intros H. field. auto. Qed.
Lemma mul_0_l x : 0 * x = 0. Proof. ring. Qed.
Lemma mul_0_r x : x * 0 = 0. Proof. ring. Qed.
Lemma mul_eq_0 x y : x * y = 0 -> x = 0 \/ y = 0.
Proof.
  intros H. destruct (k_dec F x 0) as [E|E]; [auto|]. right.
  transitivity (kinv F x * (x * y)); [field; auto|]. rewrite H. ring.
Qed.
Lemma mul_neq_0 x y : x <> 0 -> y <> 0 -> x * y <> 0.
Proof. intros Hx Hy H. destruct (mul_eq_0 _ _ H); contradiction. Qed.
Lemma inv_neq_0 x : x <> 0 -> kinv F x <> 0.
Proof.
  intros H E. apply one_neq_zero. rewrite <- (inv_l x H), E. ring.
Qed.

Lemma conj_0 : (0 : F)^* = 0.
Proof.
  assert (E : (0 : F)^* + 0^* = 0^* + 0).
  { rewrite <- conj_add. transitivity ((0 : F)^*); [f_equal; ring|ring]. }
  transitivity ((0 : F)^* + 0^* - 0^*); [ring|]. rewrite E. ring.
Qed.
Lemma conj_1 : (1 : F)^* = 1.
Proof.
  assert (E : (1 : F)^* * 1^* = 1^*).
  { rewrite <- conj_mul. f_equal. ring. }
  assert (N : (1 : F)^* <> 0).
  { intros H. apply one_neq_zero. rewrite <- (conj_conj F 1), H. apply conj_0. }
  transitivity (kinv F (1^*) * ((1 : F)^* * 1^*)); [field; auto|].
  rewrite E. apply inv_l. auto.
Qed.
Lemma conj_opp x : (- x)^* = - x^*.
Proof.
  assert (E : (- x)^* + x^* = 0).
  { rewrite <- conj_add. transitivity ((0 : F)^*); [f_equal; ring|apply conj_0]. }
  transitivity ((- x)^* + x^* - x^*); [ring|]. rewrite E. ring.
Qed.
Lemma conj_sub x y : (x - y)^* = x^* - y^*.
Proof.
  replace (x - y) with (x + - y) by ring. rewrite conj_add, conj_opp. ring.
Qed.
Lemma conj_neq_0 x : x <> 0 -> x^* <> 0.
Proof. intros H E. apply H. rewrite <- (conj_conj F x), E. apply conj_0. Qed.
Lemma conj_inv x : x <> 0 -> (kinv F x)^* = kinv F (x^*).
Proof.
  intros H. pose proof (conj_neq_0 x H) as Hc.
  assert (E : (kinv F x)^* * x^* = 1).
  { rewrite <- conj_mul, inv_l by auto. apply conj_1. }
  transitivity ((kinv F x)^* * x^* * kinv F (x^*)); [field; auto|]. rewrite E. ring.
Qed.
Lemma conj_div x y : y <> 0 -> (x / y)^* = x^* / y^*.
Proof. intros H. rewrite !div_def, conj_mul, conj_inv by auto. reflexivity. Qed.

Lemma real_0 : real (0 : F). Proof. apply conj_0. Qed.
Lemma real_1 : real (1 : F). Proof. apply conj_1. Qed.
Lemma real_add x y : real x -> real y -> real (x + y).
Proof. intros Hx Hy. rewrite conj_add, Hx, Hy. reflexivity. Qed.
Lemma real_mul x y : real x -> real y -> real (x * y).
Proof. intros Hx Hy. rewrite conj_mul, Hx, Hy. reflexivity. Qed.
Lemma real_opp x : real x -> real (- x).
Proof. intros Hx. rewrite conj_opp, Hx. reflexivity. Qed.
Lemma real_sub x y : real x -> real y -> real (x - y).
Proof. intros Hx Hy. rewrite conj_sub, Hx, Hy. reflexivity. Qed.
Lemma real_inv x : x <> 0 -> real x -> real (kinv F x).
Proof. intros H Hx. rewrite conj_inv, Hx by auto. reflexivity. Qed.
Lemma real_div x y : y <> 0 -> real x -> real y -> real (x / y).
Proof. intros H Hx Hy. rewrite div_def. apply real_mul; auto. apply real_inv; auto. Qed.
Lemma real_norm x : real (x^* * x).
Proof. rewrite conj_mul, conj_conj. ring. Qed.

Lemma lt_neq x y : real x -> klt_p x y -> x <> y.
Proof. intros Hx H ->. red in H. rewrite (lt_irrefl F y Hx) in H. discriminate. Qed.
Lemma lt_asym x y : real x -> real y -> klt_p x y -> klt F y x = false.
Proof.
  intros Hx Hy H. destruct (klt F y x) eqn:E; auto.
  rewrite <- (lt_irrefl F x Hx). symmetry. apply (lt_trans F x y x); auto.
Qed.
Lemma not_lt x y : real x -> real y -> (klt F x y = false <-> kle y x).
Proof.
  intros Hx Hy. split.
  - intros H. destruct (k_dec F y x) as [E|E]; [right; auto|].
    destruct (lt_total F x y Hx Hy) as [G|G]; auto; [congruence|left; auto].
  - intros [H| ->]; [apply lt_asym; auto|apply lt_irrefl; auto].
Qed.
Lemma le_refl x : kle x x. Proof. right. auto. Qed.
Lemma lt_le x y : klt_p x y -> kle x y. Proof. left. auto. Qed.
Lemma le_trans x y z : real x -> real y -> real z -> kle x y -> kle y z -> kle x z.
Proof.
  intros Hx Hy Hz [H| ->] [G| <-]; [left|left|left|right]; auto. apply (lt_trans F x y z); auto.
Qed.
Lemma lt_le_trans x y z : real x -> real y -> real z -> klt_p x y -> kle y z -> klt_p x z.
Proof. intros Hx Hy Hz H [G| <-]; auto. apply (lt_trans F x y z); auto. Qed.
Lemma le_lt_trans x y z : real x -> real y -> real z -> kle x y -> klt_p y z -> klt_p x z.
Proof. intros Hx Hy Hz [H| ->] G; auto. apply (lt_trans F x y z); auto. Qed.
Lemma le_antisym x y : real x -> real y -> kle x y -> kle y x -> x = y.
Proof.
  intros Hx Hy [H|H] G; auto. destruct G as [G|G]; auto.
  rewrite (lt_asym x y Hx Hy H) in G. discriminate.
Qed.
Lemma lt_0_1 : klt_p 0 1.
Proof.
  pose proof (lt_norm F 1 one_neq_zero) as H. rewrite conj_1 in H.
  replace ((1 : F) * 1) with (1 : F) in H by ring. exact H.
Qed.
Lemma lt_opp x : real x -> (klt_p x 0 <-> klt_p 0 (- x)).
Proof.
  intros Hx. unfold klt_p. split; intros H.
  - pose proof (lt_add F x 0 (- x) Hx real_0 (real_opp x Hx) H) as G.
    replace (x + - x) with (0 : F) in G by ring. replace (0 + - x) with (- x) in G by ring. auto.
  - pose proof (lt_add F 0 (- x) x real_0 (real_opp x Hx) Hx H) as G.
    replace (0 + x) with x in G by ring. replace (- x + x) with (0 : F) in G by ring. auto.
Qed.
Lemma lt_sub x y : real x -> real y -> (klt_p x y <-> klt_p 0 (y - x)).
Proof.
  intros Hx Hy. unfold klt_p. split; intros H.
  - pose proof (lt_add F x y (- x) Hx Hy (real_opp x Hx) H) as G.
    replace (x + - x) with (0 : F) in G by ring. replace (y + - x) with (y - x) in G by ring. auto.
  - pose proof (lt_add F 0 (y - x) x real_0 (real_sub y x Hy Hx) Hx H) as G.
    replace (0 + x) with x in G by ring. replace (y - x + x) with y in G by ring. auto.
Qed.
Lemma le_opp x y : real x -> real y -> kle x y -> kle (- y) (- x).
Proof.
  intros Hx Hy [H| ->]; [left|right; auto].
  apply (proj2 (lt_sub (- y) (- x) (real_opp y Hy) (real_opp x Hx))).
  replace (- x - - y) with (y - x) by ring.
  apply (proj1 (lt_sub x y Hx Hy)). auto.
Qed.
Lemma lt_le_cases x y : real x -> real y -> klt_p x y \/ kle y x.
Proof.
  intros Hx Hy. destruct (klt F x y) eqn:E; [left; auto|right]. apply not_lt; auto.
Qed.
Lemma lt_not_le x y : real x -> real y -> klt_p x y -> ~ kle y x.
Proof. intros Hx Hy H G. apply not_lt in G; auto. red in H. congruence. Qed.
Lemma opp_opp x : - - x = x. Proof. ring. Qed.
Lemma opp_0 : - 0 = (0 : F). Proof. ring. Qed.

Lemma le_0_add x y : real x -> real y -> kle 0 x -> kle 0 y -> kle 0 (x + y).
Proof.
  intros Hx Hy H1 [H2| <-].
  - left. destruct H1 as [H1| <-].
    + apply (lt_trans F 0 y (x + y)); auto using real_0, real_add. 
      pose proof (lt_add F 0 x y real_0 Hx Hy H1) as G.
      replace (0 + y) with y in G by ring. auto.
    + replace (0 + y) with y by ring. auto.
  - replace (x + 0) with x by ring. auto.
Qed.
Lemma add_eq_0 x y : real x -> real y -> kle 0 x -> kle 0 y -> x + y = 0 -> x = 0.
Proof.
  intros Hx Hy H1 H2 E. destruct H1 as [H1|H1]; [|auto]. exfalso.
  assert (Ey : y = - x) by (transitivity (x + y - x); [ring|rewrite E; ring]).
  assert (H3 : klt F y 0 = true).
  { apply lt_opp; auto. subst y. replace (- - x) with x by ring. auto. }
  destruct H2 as [H2| <-].
  - rewrite (lt_asym 0 y real_0 Hy H2) in H3. discriminate.
  - rewrite (lt_irrefl F 0 real_0) in H3. discriminate.
Qed.
Lemma le_norm x : kle 0 (x^* * x).
Proof.
  destruct (k_dec F x 0) as [-> |E]; [right; ring|left; apply lt_norm; auto].
Qed.
Lemma norm_eq_0 x : x^* * x = 0 -> x = 0.
Proof.
  intros H. destruct (mul_eq_0 _ _ H) as [E|E]; auto.
  rewrite <- (conj_conj F x), E. apply conj_0.
Qed.
Lemma lt_inv x : real x -> klt_p 0 x -> klt_p 0 (kinv F x).
Proof.
  intros Hx H.
  assert (N : x <> 0) by (intros ->; red in H; rewrite (lt_irrefl F 0 real_0) in H; discriminate).
  pose proof (real_inv x N Hx) as Hi.
  replace (kinv F x) with ((kinv F x)^* * kinv F x * x).
  - apply lt_mul; auto using real_norm. apply lt_norm, inv_neq_0; auto.
  - rewrite Hi. field. auto.
Qed.
(** Multiplying by a positive number preserves the order. *)
Lemma lt_mul_r x y z : real x -> real y -> real z -> klt_p 0 z ->
  (klt_p x y <-> klt_p (x * z) (y * z)).
Proof.
  intros Hx Hy Hz H.
  assert (N : z <> 0) by (intros ->; red in H; rewrite (lt_irrefl F 0 real_0) in H; discriminate).
  rewrite (lt_sub x y), (lt_sub (x * z) (y * z)) by auto using real_mul.
  replace (y * z - x * z) with ((y - x) * z) by ring. split; intros G.
  - apply lt_mul; auto using real_sub.
  - replace (y - x) with ((y - x) * z * kinv F z) by (field; auto).
    apply lt_mul; auto using real_mul, real_sub, real_inv. apply lt_inv; auto.
Qed.
Lemma lt_div x y z : real x -> real y -> real z -> klt_p 0 z ->
  (klt_p x (y / z) <-> klt_p (x * z) y).
Proof.
  intros Hx Hy Hz H.
  assert (N : z <> 0) by (intros ->; red in H; rewrite (lt_irrefl F 0 real_0) in H; discriminate).
  rewrite (lt_mul_r x (y / z) z) by (auto; apply real_div; auto).
  replace (y / z * z) with y by (field; auto). reflexivity.
Qed.

(** Absolute value of a real element. *)
Definition kabs x : F := if klt F x 0 then - x else x.
Lemma kabs_real x : real x -> real (kabs x).
Proof. intros H. unfold kabs. destruct (klt F x 0); auto using real_opp. Qed.
Lemma kabs_nonneg x : real x -> kle 0 (kabs x).
Proof.
  intros H. unfold kabs. destruct (klt F x 0) eqn:E.
  - left. apply lt_opp; auto.
  - apply not_lt; auto using real_0.
Qed.
Lemma kabs_pos x : real x -> kle 0 x -> kabs x = x.
Proof.
  intros H G. unfold kabs. apply not_lt in G; auto using real_0. rewrite G. reflexivity.
Qed.
Lemma kabs_eq_0 x : kabs x = 0 -> x = 0.
Proof.
  unfold kabs. destruct (klt F x 0); auto. intros E.
  transitivity (- - x); [ring|]. rewrite E. ring.
Qed.

(** ** Finite sums *)

Fixpoint sum (n : nat) (f : nat -> F) : F :=
  match n with O => 0 | S n => sum n f + f n end.

Lemma sum_ext n f g : (forall i, i < n -> f i = g i) -> sum n f = sum n g.
Proof.
  induction n as [|n IH]; intros H; simpl; auto. rewrite IH, H; auto.
Qed.
Lemma sum_0 n f : (forall i, i < n -> f i = 0) -> sum n f = 0.
Proof.
  induction n as [|n IH]; intros H; simpl; auto. rewrite IH, H; auto. ring.
Qed.
Lemma sum_add n f g : sum n (fun i => f i + g i) = sum n f + sum n g.
Proof. induction n as [|n IH]; simpl; [ring|]. rewrite IH. ring. Qed.
Lemma sum_sub n f g : sum n (fun i => f i - g i) = sum n f - sum n g.
Proof. induction n as [|n IH]; simpl; [ring|]. rewrite IH. ring. Qed.
Lemma sum_opp n f : sum n (fun i => - f i) = - sum n f.
Proof. induction n as [|n IH]; simpl; [ring|]. rewrite IH. ring. Qed.
Lemma sum_mul_l n c f : sum n (fun i => c * f i) = c * sum n f.
Proof. induction n as [|n IH]; simpl; [ring|]. rewrite IH. ring. Qed.
Lemma sum_mul_r n c f : sum n (fun i => f i * c) = sum n f * c.
Proof. induction n as [|n IH]; simpl; [ring|]. rewrite IH. ring. Qed.
Lemma sum_conj n f : (sum n f)^* = sum n (fun i => (f i)^*).
Proof. induction n as [|n IH]; simpl; [apply conj_0|]. rewrite conj_add, IH. reflexivity. Qed.
Lemma sum_swap m n (f : nat -> nat -> F) :
  sum m (fun i => sum n (fun j => f i j)) = sum n (fun j => sum m (fun i => f i j)).
Proof.
  induction m as [|m IH]; simpl.
  - symmetry. apply sum_0. auto.
  - rewrite IH, <- sum_add. reflexivity.
Qed.
Lemma sum_delta n j (f : nat -> F) : j < n ->
  (forall i, i < n -> i <> j -> f i = 0) -> sum n f = f j.
Proof.
  induction n as [|n IH]; intros Hj H; [lia|]. simpl.
  destruct (Nat.eq_dec n j) as [-> |Hne].
  - rewrite sum_0; [ring|]. intros i Hi. apply H; lia.
  - rewrite IH by (auto; lia). rewrite (H n) by lia. ring.
Qed.
Lemma sum_split m n f : sum (m + n) f = sum m f + sum n (fun i => f (m + i)%nat).
Proof.
  induction n as [|n IH]; simpl.
  - rewrite Nat.add_0_r. ring.
  - rewrite Nat.add_succ_r. simpl. rewrite IH. ring.
Qed.
Lemma sum_S_l n f : sum (S n) f = f O + sum n (fun i => f (S i)).
Proof. change (S n) with (1 + n)%nat. rewrite (sum_split 1 n f). simpl. ring. Qed.
Lemma sum_pad m n f : m <= n -> (forall i, m <= i < n -> f i = 0) -> sum n f = sum m f.
Proof.
  intros Hmn H. replace n with (m + (n - m))%nat by lia. rewrite sum_split.
  rewrite (sum_0 (n - m)); [ring|]. intros i Hi. apply H. lia.
Qed.
Lemma sum_real n f : (forall i, i < n -> real (f i)) -> real (sum n f).
Proof.
  induction n as [|n IH]; intros H; simpl; [apply real_0|]. apply real_add; auto.
Qed.
Lemma sum_nonneg n f : (forall i, i < n -> real (f i)) -> (forall i, i < n -> kle 0 (f i)) ->
  kle 0 (sum n f).
Proof.
  induction n as [|n IH]; intros Hr H; simpl; [apply le_refl|].
  apply le_0_add; auto. apply sum_real; auto.
Qed.
Lemma sum_norm_0 n f : sum n (fun i => (f i)^* * f i) = 0 -> forall i, i < n -> f i = 0.
Proof.
  induction n as [|n IH]; intros H i Hi; [lia|]. simpl in H.
  assert (R : real (sum n (fun i => (f i)^* * f i))) by (apply sum_real; intros; apply real_norm).
  assert (N : kle 0 (sum n (fun i => (f i)^* * f i))).
  { apply sum_nonneg; intros; [apply real_norm|apply le_norm]. }
  assert (E1 : sum n (fun i => (f i)^* * f i) = 0).
  { apply (add_eq_0 _ ((f n)^* * f n)); auto using real_norm, le_norm. }
  assert (E2 : (f n)^* * f n = 0).
  { rewrite E1 in H. rewrite <- H. ring. }
  destruct (Nat.eq_dec i n) as [-> |Hne]; [apply norm_eq_0; auto|]. apply IH; auto. lia.
Qed.
End Facts.
