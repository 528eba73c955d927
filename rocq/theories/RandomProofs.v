(** Arrays similar to a diagonal: spectrum, powers, decay. *)
From Coq Require Import List Arith Lia Bool Field Ring Setoid Morphisms.
Import ListNotations.
From Verif Require Import Prelude Field Matrix NdArray EraModel EraProofs Lti OptimalProofs RandomModel.
Open Scope nat_scope.
Open Scope k_scope.

Section Numbers.
Context {F : sfield}.
Add Field RandField : (k_field F).
Notation k_nat := (@k_nat F).

Lemma k_nat_real n : real (k_nat n).
Proof. induction n; simpl; auto using real_0, real_1, real_add. Qed.
Lemma k_nat_nonneg n : kle 0 (k_nat n).
Proof.
  induction n; simpl; [apply le_refl|]. apply le_0_add; auto using k_nat_real, real_1. left. apply lt_0_1.
Qed.
Lemma k_nat_pos n : 0 < n -> klt_p 0 (k_nat n).
Proof.
  destruct n as [|n]; [lia|]. intros _. simpl. 
  apply (lt_le_trans 0 1 (k_nat n + 1)); auto using real_0, real_1, real_add, k_nat_real, lt_0_1.
  apply le_sub_2; auto using real_1, real_add, k_nat_real.
  replace (k_nat n + 1 - 1) with (k_nat n) by ring. apply k_nat_nonneg.
Qed.
Lemma k_nat_neq n : 0 < n -> k_nat n <> 0.
Proof. intros H E. apply (lt_neq 0 (k_nat n)); auto using real_0, k_nat_pos. Qed.
Lemma k_nat_add m n : k_nat (m + n) = k_nat m + k_nat n.
Proof. induction m; simpl; [ring|]. rewrite IHm. ring. Qed.
Lemma k_nat_sub m n : n <= m -> k_nat (m - n) = k_nat m - k_nat n.
Proof. intros H. replace m with ((m - n) + n)%nat at 2 by lia. rewrite k_nat_add. ring. Qed.
Lemma k_nat_mul m n : k_nat (m * n) = k_nat m * k_nat n.
Proof. induction m; simpl; [ring|]. rewrite k_nat_add, IHm. ring. Qed.
(** Comparing fractions. *)
Lemma frac_lt a b c d : 0 < b -> 0 < d -> a * d < c * b -> klt_p (k_nat a / k_nat b) (k_nat c / k_nat d).
Proof.
  intros Hb Hd H. pose proof (k_nat_neq b Hb). pose proof (k_nat_neq d Hd).
  apply lt_sub; [apply real_div; auto using k_nat_real|apply real_div; auto using k_nat_real|].
  replace (k_nat c / k_nat d - k_nat a / k_nat b) with (k_nat (c * b - a * d) * kinv F (k_nat (b * d))).
  - apply lt_mul; auto using k_nat_real; [apply real_inv; auto using k_nat_real|apply k_nat_pos; lia|apply lt_inv; auto using k_nat_real].
    + apply k_nat_neq. nia.
    + apply k_nat_pos. nia.
  - rewrite k_nat_sub, !k_nat_mul by lia. field. auto.
Qed.
Lemma frac_real a b : 0 < b -> real (k_nat a / k_nat b).
Proof. intros. apply real_div; auto using k_nat_real, k_nat_neq. Qed.

Lemma linspace_at (a b : F) n j : j < n -> at1 (linspace a b n) j = a + k_nat j * ((b - a) / k_nat (n - 1)).
Proof.
  intros H. unfold at1, linspace.
  rewrite (nth_indep _ _ ((fun j => a + k_nat j * ((b - a) / k_nat (n - 1))) O)) by (rewrite map_length, seq_length; auto).
  rewrite (map_nth (fun j => a + k_nat j * ((b - a) / k_nat (n - 1)))), seq_nth by auto. reflexivity.
Qed.
Lemma linspace_len (a b : F) n : length (linspace a b n) = n.
Proof. unfold linspace. rewrite map_length, seq_length. reflexivity. Qed.
Lemma linspace_first (a b : F) n : 0 < n -> at1 (linspace a b n) 0 = a.
Proof. intros H. rewrite linspace_at by auto. simpl. ring. Qed.
Lemma linspace_last (a b : F) n : 2 <= n -> at1 (linspace a b n) (n - 1) = b.
Proof. intros H. rewrite linspace_at by lia. field. apply k_nat_neq. lia. Qed.
Lemma linspace_real (a b : F) n j : real a -> real b -> j < n -> real (at1 (linspace a b n) j).
Proof.
  intros Ra Rb H. rewrite linspace_at by auto. destruct j as [|j]; [simpl; rewrite mul_0_l; replace (a + 0) with a by ring; auto|].
  apply real_add; auto. apply real_mul; auto using k_nat_real. apply real_div; auto using k_nat_real, real_sub.
  apply k_nat_neq. lia.
Qed.
Lemma linspace_mono (a b : F) n i j : real a -> real b -> klt_p a b -> i < j < n ->
  klt_p (at1 (linspace a b n) i) (at1 (linspace a b n) j).
Proof.
  intros Ra Rb H Hj. apply lt_sub; [apply linspace_real; auto; lia|apply linspace_real; auto; lia|].
  rewrite !linspace_at by lia.
  assert (N : k_nat (n - 1) <> 0) by (apply k_nat_neq; lia).
  replace (a + k_nat j * ((b - a) / k_nat (n - 1)) - (a + k_nat i * ((b - a) / k_nat (n - 1))))
    with (k_nat (j - i) * ((b - a) * kinv F (k_nat (n - 1)))).
  - assert (Ri : real (kinv F (k_nat (n - 1)))) by (apply real_inv; auto using k_nat_real).
    apply lt_mul; [apply k_nat_real|apply real_mul; auto using real_sub|apply k_nat_pos; lia|].
    apply lt_mul; [auto using real_sub|exact Ri|exact (proj1 (lt_sub a b Ra Rb) H)|apply lt_inv; [apply k_nat_real|apply k_nat_pos; lia]].
  - rewrite k_nat_sub by lia. field. auto.
Qed.
Lemma linspace_range (a b : F) n j : real a -> real b -> klt_p a b -> j < n ->
  kle a (at1 (linspace a b n) j) /\ kle (at1 (linspace a b n) j) b.
Proof.
  intros Ra Rb H Hj. split.
  - destruct j as [|j]; [right; symmetry; apply linspace_first; auto|].
    rewrite <- (linspace_first a b n) at 1 by lia. left. apply linspace_mono; auto. lia.
  - destruct (Nat.eq_dec n 1) as [->|]; [assert (j = O) as -> by lia; rewrite linspace_first by auto; left; auto|].
    destruct (Nat.eq_dec j (n - 1)) as [->|]; [right; apply linspace_last; lia|].
    rewrite <- (linspace_last a b n) at 2 by lia. left. apply linspace_mono; auto. lia.
Qed.

(** Powers of numbers. *)
Fixpoint pw (x : F) (k : nat) : F := match k with O => 1 | S k => x * pw x k end.
Lemma pw_real x k : real x -> real (pw x k).
Proof. intros H. induction k; simpl; auto using real_1, real_mul. Qed.
Lemma pw_nonneg x k : real x -> kle 0 x -> kle 0 (pw x k).
Proof. intros H G. induction k; simpl; [left; apply lt_0_1|]. apply le_0_mul; auto using pw_real. Qed.
Lemma le_mul_l (x y z : F) : real x -> real y -> real z -> kle 0 z -> kle x y -> kle (z * x) (z * y).
Proof.
  intros Rx Ry Rz Hz H. apply le_sub_2; auto using real_mul.
  replace (z * y - z * x) with (z * (y - x)) by ring. apply le_0_mul; auto using real_sub. apply le_sub_1; auto.
Qed.
Lemma pw_le x y k : real x -> real y -> kle 0 x -> kle x y -> kle (pw x k) (pw y k).
Proof.
  intros Rx Ry Hx H. assert (Hy : kle 0 y) by (apply (le_trans 0 x y); auto using real_0).
  induction k; simpl; [apply le_refl|].
  apply (le_trans _ (x * pw y k)); auto using real_mul, pw_real.
  - apply le_mul_l; auto using pw_real.
  - replace (x * pw y k) with (pw y k * x) by ring. replace (y * pw y k) with (pw y k * y) by ring.
    apply le_mul_l; auto using pw_real, pw_nonneg.
Qed.

(** Absolute values. *)
Lemma kabs_le (x b : F) : real x -> real b -> kle x b -> kle (- x) b -> kle (kabs x) b.
Proof. intros Rx Rb H1 H2. unfold kabs. destruct (klt F x 0); auto. Qed.
Lemma le_kabs (x : F) : real x -> kle x (kabs x) /\ kle (- x) (kabs x).
Proof.
  intros Rx. destruct (lt_le_cases x 0 Rx real_0) as [H|H].
  - unfold kabs. red in H. rewrite H. split; [|apply le_refl].
    apply (le_trans x 0 (- x)); auto using real_0, real_opp; left; auto. apply lt_opp; auto.
  - rewrite (kabs_pos x Rx H). split; [apply le_refl|].
    apply (le_trans (- x) 0 x); auto using real_0, real_opp.
    rewrite <- opp_0. apply le_opp; auto using real_0.
Qed.
Lemma kabs_add (x y : F) : real x -> real y -> kle (kabs (x + y)) (kabs x + kabs y).
Proof.
  intros Rx Ry. destruct (le_kabs x Rx). destruct (le_kabs y Ry).
  apply kabs_le; auto using real_add, kabs_real.
  - apply le_add; auto using kabs_real.
  - replace (- (x + y)) with (- x + - y) by ring. apply le_add; auto using kabs_real, real_opp.
Qed.
Lemma kabs_mul_nonneg (x y : F) : real x -> real y -> kle 0 y -> kle (kabs (x * y)) (kabs x * y).
Proof.
  intros Rx Ry Hy. destruct (le_kabs x Rx) as [H1 H2]. apply kabs_le; auto using real_mul, kabs_real.
  - replace (x * y) with (y * x) by ring. replace (kabs x * y) with (y * kabs x) by ring. apply le_mul_l; auto using kabs_real.
  - replace (- (x * y)) with (y * - x) by ring. replace (kabs x * y) with (y * kabs x) by ring.
    apply le_mul_l; auto using kabs_real, real_opp.
Qed.
Lemma kmul_comm (x y : F) : x * y = y * x. Proof. ring. Qed.
Lemma kmul_assoc (x y z : F) : x * (y * z) = x * y * z. Proof. ring. Qed.
Lemma kabs_opp (x : F) : real x -> kabs (- x) = kabs x.
Proof.
  intros R. destruct (lt_le_cases x 0 R real_0) as [H|H].
  - unfold kabs at 2. red in H. rewrite H. apply kabs_pos; auto using real_opp. left. apply lt_opp; auto.
  - rewrite (kabs_pos x) by auto. destruct H as [H|H].
    + unfold kabs. replace (klt F (- x) 0) with true; [ring|]. symmetry. apply lt_opp; auto using real_opp. rewrite opp_opp. exact H.
    + rewrite <- H, opp_0. apply kabs_pos; auto using real_0. apply le_refl.
Qed.
Lemma kabs_mul (x y : F) : real x -> real y -> kabs (x * y) = kabs x * kabs y.
Proof.
  intros Rx Ry. 
  assert (P : forall x y : F, real x -> real y -> kle 0 x -> kle 0 y -> kabs (x * y) = kabs x * kabs y).
  { intros a b Ra Rb Ha Hb. rewrite !kabs_pos; auto using real_mul, le_0_mul. }
  assert (O : forall a : F, real a -> klt_p a 0 -> kle 0 (- a)) by (intros a Ra Ha; left; apply lt_opp; auto).
  destruct (lt_le_cases x 0 Rx real_0) as [H|H]; destruct (lt_le_cases y 0 Ry real_0) as [G|G].
  - rewrite <- (kabs_opp x), <- (kabs_opp y), <- P; auto using real_opp. f_equal. ring.
  - rewrite <- (kabs_opp x), <- (kabs_opp (x * y)), <- P; auto using real_opp, real_mul. f_equal. ring.
  - rewrite <- (kabs_opp y), <- (kabs_opp (x * y)), <- P; auto using real_opp, real_mul. f_equal. ring.
  - apply P; auto.
Qed.
Lemma kabs_0 : kabs (0 : F) = 0.
Proof. apply kabs_pos; auto using real_0. apply le_refl. Qed.
Lemma kabs_sum n (f : nat -> F) : (forall i, i < n -> real (f i)) -> kle (kabs (sum n f)) (sum n (fun i => kabs (f i))).
Proof.
  intros R. induction n as [|n IH]; simpl; [rewrite kabs_0; apply le_refl|].
  assert (Rs : real (sum n f)) by (apply sum_real; auto).
  assert (Rk : real (sum n (fun i => kabs (f i)))) by (apply sum_real; intros; apply kabs_real; auto).
  apply (le_trans _ (kabs (sum n f) + kabs (f n))); auto using kabs_real, real_add.
  - apply kabs_add; auto.
  - apply le_add; auto using kabs_real. apply le_refl.
Qed.
End Numbers.

Section Similar.
Context {F : sfield}.
Add Field SimField : (k_field F).
Context (n : nat) (d : nat -> F) (V Vi A : mat F).
Context (HV : meq n n (mmul n Vi V) mid) (HA : meq n n A (mmul n Vi (mmul n (mdiag d) V))).

(** [x] is a non-zero vector of length [n] with [A x = lam x]. *)
Definition eigenvector (n : nat) (A : mat F) (lam : F) (x : nat -> F) : Prop :=
  (exists i, i < n /\ x i <> 0) /\ forall i, i < n -> mv n A x i = lam * x i.
Definition eigenvalue (n : nat) (A : mat F) (lam : F) : Prop := exists x, eigenvector n A lam x.

Lemma VVi : meq n n (mmul n V Vi) mid.
Proof. apply left_inverse_right. exact HV. Qed.
Lemma mv_meq k m (B B' : mat F) x i : meq m k B B' -> i < m -> mv k B x i = mv k B' x i.
Proof. intros [H] Hi. apply mv_ext; auto. Qed.
Lemma mv_diag x i : i < n -> mv n (mdiag d) x i = d i * x i.
Proof.
  intros Hi. unfold mv, mdiag. rewrite (sum_delta n i); auto.
  - rewrite Nat.eqb_refl. reflexivity.
  - intros j Hj Hn. rewrite (proj2 (Nat.eqb_neq i j)) by auto. ring.
Qed.
Lemma VA x i : i < n -> mv n V (mv n A x) i = d i * mv n V x i.
Proof.
  intros Hi. rewrite <- mv_mul. rewrite (mv_meq n n _ (mmul n (mdiag d) V)); auto.
  - rewrite mv_mul. apply mv_diag; auto.
  - rewrite HA, <- mmul_assoc, VVi, mmul_id_l. reflexivity.
Qed.
Lemma finite_search (x : nat -> F) m : (exists i, i < m /\ x i <> 0) \/ forall i, i < m -> x i = 0.
Proof.
  induction m as [|m IH]; [right; intros; lia|]. destruct IH as [(i & Hi & E)|H]; [left; exists i; split; auto|].
  destruct (k_dec F (x m) 0) as [E|E]; [right|left; exists m; split; auto].
  intros i Hi. destruct (Nat.eq_dec i m) as [->|]; auto. apply H. lia.
Qed.
Lemma spectrum lam : eigenvalue n A lam <-> exists j, j < n /\ lam = d j.
Proof.
  split.
  - intros (x & (i0 & Hi0 & Ex) & Hx).
    destruct (finite_search (mv n V x) n) as [(j & Hj & Ej)|Z].
    + exists j. split; auto. pose proof (VA x j Hj) as E.
      assert (E' : mv n V (mv n A x) j = lam * mv n V x j).
      { rewrite (mv_ext n V V (mv n A x) (fun i => lam * x i)) by auto. unfold mv.
        rewrite <- sum_mul_l. apply sum_ext. intros; ring. }
      rewrite E in E'.
      assert (Z : (d j - lam) * mv n V x j = 0) by (transitivity (d j * mv n V x j - lam * mv n V x j); [ring|rewrite E'; ring]).
      destruct (mul_eq_0 _ _ Z) as [Z'|]; [|contradiction].
      transitivity (lam + (d j - lam)); [rewrite Z'; ring|ring].
    + exfalso. apply Ex. rewrite <- (mv_id n x i0 Hi0). rewrite <- (mv_meq n n _ _ x i0 HV Hi0), mv_mul.
      apply mv_0. auto.
  - intros (j & Hj & ->). exists (fun i => Vi i j). split.
    + destruct (finite_search (fun i => Vi i j) n) as [|Z]; auto. exfalso. apply (one_neq_zero (F := F)).
      transitivity (mmul n V Vi j j).
      * rewrite (meq_at _ _ _ _ VVi j j Hj Hj). unfold mid. rewrite Nat.eqb_refl. reflexivity.
      * unfold mmul. apply sum_0. intros l Hl. rewrite Z by auto. ring.
    + intros i Hi. change (mmul n A Vi i j = d j * Vi i j).
      assert (E : meq n n (mmul n A Vi) (mmul n Vi (mdiag d))).
      { rewrite HA, !mmul_assoc, VVi, mmul_id_r. reflexivity. }
      rewrite (meq_at _ _ _ _ E i j Hi Hj), (meq_at _ _ _ _ (mmul_diag_r n n d Vi) i j Hi Hj). ring.
Qed.
Lemma pow_diag k : meq n n (mpow n (mdiag d) k) (mdiag (fun i => pw (d i) k)).
Proof.
  induction k as [|k IH]; simpl; [symmetry; apply mdiag_1; reflexivity|].
  rewrite IH, mmul_diag_diag. reflexivity.
Qed.
Lemma powers k : meq n n (mpow n A k) (mmul n Vi (mmul n (mdiag (fun i => pw (d i) k)) V)).
Proof.
  assert (E : meq n n (mmul n A Vi) (mmul n Vi (mdiag d))).
  { rewrite HA, !mmul_assoc, VVi, mmul_id_r. reflexivity. }
  pose proof (mpow_intertwine n n A (mdiag d) Vi E k) as H.
  rewrite <- (mmul_id_r n n (mpow n A k)). rewrite <- HV, <- mmul_assoc, H, pow_diag, mmul_assoc. reflexivity.
Qed.
Lemma power_at k i j : i < n -> j < n -> mpow n A k i j = sum n (fun l => Vi i l * V l j * pw (d l) k).
Proof.
  intros Hi Hj. rewrite (meq_at _ _ _ _ (powers k) i j Hi Hj). unfold mmul at 1. apply sum_ext. intros l Hl.
  rewrite (meq_at _ _ _ _ (mmul_diag_l n n _ V) l j Hl Hj). ring.
Qed.
Lemma decay q : real q -> (forall l, l < n -> real (d l) /\ kle 0 (d l) /\ kle (d l) q) ->
  (forall i j, i < n -> j < n -> real (V i j)) -> (forall i j, i < n -> j < n -> real (Vi i j)) ->
  forall k i j, i < n -> j < n ->
  kle (kabs (mpow n A k i j)) (sum n (fun l => kabs (Vi i l * V l j)) * pw q k).
Proof.
  intros Rq Hd RV RVi k i j Hi Hj. rewrite power_at by auto.
  assert (Rt : forall l, l < n -> real (Vi i l * V l j)) by (intros; apply real_mul; auto).
  assert (Rp : forall l, l < n -> real (pw (d l) k)) by (intros l Hl; apply pw_real; apply (Hd l Hl)).
  eapply (le_trans _ (sum n (fun l => kabs (Vi i l * V l j * pw (d l) k)))).
  - apply kabs_real, sum_real. intros; apply real_mul; auto.
  - apply sum_real. intros. apply kabs_real, real_mul; auto.
  - apply real_mul; [apply sum_real; intros; apply kabs_real; auto|apply pw_real; auto].
  - apply kabs_sum. intros; apply real_mul; auto.
  - rewrite <- sum_mul_r. apply sum_le.
    + intros; apply kabs_real, real_mul; auto.
    + intros; apply real_mul; auto using kabs_real, pw_real.
    + intros l Hl. destruct (Hd l Hl) as (R1 & H1 & H2).
      apply (le_trans _ (kabs (Vi i l * V l j) * pw (d l) k)).
      * apply kabs_real, real_mul; auto.
      * apply real_mul; auto using kabs_real.
      * apply real_mul; auto using kabs_real, pw_real.
      * apply kabs_mul_nonneg; auto using pw_nonneg.
      * apply le_mul_l; auto using pw_real, kabs_real, kabs_nonneg. apply pw_le; auto.
Qed.
(** The inverse of a real array is real. *)
Lemma inverse_real : (forall i j, i < n -> j < n -> real (V i j)) -> forall i j, i < n -> j < n -> real (Vi i j).
Proof.
  intros R i j Hi Hj.
  assert (E : meq n n (mconj Vi) Vi).
  { apply (inverse_unique n V); [|apply VVi]. 
    assert (EV : meq n n V (mconj V)) by (split; intros a b Ha Hb; unfold mconj; symmetry; auto).
    rewrite EV at 1. rewrite <- mconj_mmul. split. intros a b Ha Hb. unfold mconj. rewrite (meq_at _ _ _ _ HV a b Ha Hb).
    unfold mid. destruct (a =? b)%nat; [apply conj_1|apply conj_0]. }
  exact (meq_at _ _ _ _ E i j Hi Hj).
Qed.
End Similar.
