(** Polynomials as lists of coefficients (lowest degree first), their derivatives and
    the derivatives of products. *)
From Coq Require Import List Arith Lia Bool ZArith Field Ring.
Import ListNotations.
From Verif Require Import Prelude Field NdArray HermiteModel.
Open Scope nat_scope.

(** Binomial coefficients. *)
Fixpoint binom (n k : nat) : nat :=
  match n, k with
  | _, O => 1
  | O, S _ => 0
  | S n, S k => binom n k + binom n (S k)
  end.

Lemma binom_0 n : binom n 0 = 1. Proof. destruct n; reflexivity. Qed.
Lemma binom_gt n : forall k, n < k -> binom n k = 0.
Proof.
  induction n as [|n IH]; intros [|k] H; simpl; try lia. rewrite !IH by lia. reflexivity.
Qed.
(** (k + 1) C(n+1, k+1) = (n + 1) C(n, k). *)
Lemma binom_absorb n : forall k, S k * binom (S n) (S k) = S n * binom n k.
Proof.
  induction n as [|n IH]; intros k.
  - simpl. destruct k; simpl; lia.
  - change (binom (S (S n)) (S k)) with (binom (S n) k + binom (S n) (S k)).
    pose proof (IH k) as H1. destruct k as [|k].
    + rewrite !binom_0 in *. nia.
    + pose proof (IH k) as H2. change (binom (S n) (S k)) with (binom n k + binom n (S k)) in *. nia.
Qed.
(** (n + 1 - k) C(n+1, k) = (n + 1) C(n, k). *)
Lemma binom_absorb' n k : k <= n -> (S n - k) * binom (S n) k = S n * binom n k.
Proof.
  intros H. destruct k as [|k]; [rewrite !binom_0; lia|].
  pose proof (binom_absorb n k) as E. change (binom (S n) (S k)) with (binom n k + binom n (S k)) in *.
  nia.
Qed.

Section Poly.
Context {F : sfield}.
Add Field Ff_poly : (k_field F).
Open Scope k_scope.
Implicit Types p q : list F.

(** Value at x. *)
Fixpoint ev p (x : F) : F := match p with [] => 0 | a :: q => a + x * ev q x end.
Fixpoint padd p q : list F :=
  match p, q with
  | [], q => q
  | p, [] => p
  | a :: p, b :: q => (a + b) :: padd p q
  end.
Definition pscale (c : F) p : list F := map (kmul F c) p.
(** Derivative: (a + X q)' = q + X q'. *)
Fixpoint deriv p : list F := match p with [] => [] | _ :: q => padd q (0 :: deriv q) end.
(** (X - r) p. *)
Definition plin (r : F) p : list F := padd (0 :: p) (pscale (- r) p).
(** l-th derivative at x. *)
Definition dv (l : nat) p (x : F) : F := ev (Nat.iter l deriv p) x.
(** General Leibniz formula: l-th derivative of a product from the derivatives of both
    factors. *)
Definition leibniz (f g : nat -> F) (l : nat) : F :=
  sum (S l) (fun i => num (binom l i) * f i * g (l - i)%nat).

Lemma num_add m n : num (m + n) = num m + num n :> F.
Proof. induction m as [|m IH]; simpl; [ring|]. rewrite IH. ring. Qed.
Lemma num_mul m n : num (m * n) = num m * num n :> F.
Proof. induction m as [|m IH]; simpl; [ring|]. rewrite num_add, IH. ring. Qed.
Lemma num_real n : real (num n : F).
Proof. induction n; simpl; [apply real_0|apply real_add; auto; apply real_1]. Qed.
Lemma num_nonneg n : kle (0 : F) (num n).
Proof.
  induction n; simpl; [right; auto|]. apply le_0_add; auto using real_1, num_real. left. apply lt_0_1.
Qed.
Lemma num_neq_0 n : n <> O -> num n <> (0 : F).
Proof.
  destruct n as [|n]; [contradiction|]. intros _ E. simpl in E.
  apply (@one_neq_zero F). apply (add_eq_0 1 (num n)); auto using real_1, num_real, num_nonneg.
  - left. apply lt_0_1.
  - rewrite <- E. ring.
Qed.
Lemma two_neq_0 : (1 : F) + 1 <> 0.
Proof. pose proof (num_neq_0 2 ltac:(lia)) as H. simpl in H. intros E. apply H. transitivity ((1 : F) + 1); [ring|exact E]. Qed.

Lemma padd_nil_r p : padd p [] = p. Proof. destruct p; reflexivity. Qed.
Lemma padd_comm p : forall q, padd p q = padd q p.
Proof. induction p as [|a p IH]; intros [|b q]; simpl; auto. rewrite IH. f_equal. ring. Qed.
Lemma padd_assoc p : forall q s, padd p (padd q s) = padd (padd p q) s.
Proof.
  induction p as [|a p IH]; intros [|b q] [|c s]; simpl; auto. rewrite IH. f_equal. ring.
Qed.
Lemma padd_shuffle p q s t : padd (padd p q) (padd s t) = padd (padd p s) (padd q t).
Proof. rewrite !padd_assoc, <- !(padd_assoc p). rewrite (padd_comm q s). reflexivity. Qed.
Lemma pscale_padd c p : forall q, pscale c (padd p q) = padd (pscale c p) (pscale c q).
Proof. induction p as [|a p IH]; intros [|b q]; simpl; auto. f_equal; [ring|apply IH]. Qed.
Lemma pscale_pscale c d p : pscale c (pscale d p) = pscale (c * d) p.
Proof. unfold pscale. rewrite map_map. apply map_ext. intros; ring. Qed.
Lemma pscale_length c p : length (pscale c p) = length p. Proof. apply map_length. Qed.
Lemma padd_length p : forall q, length (padd p q) = Nat.max (length p) (length q).
Proof. induction p as [|a p IH]; intros [|b q]; simpl; auto. Qed.
Lemma plin_length r p : length (plin r p) = S (length p).
Proof. unfold plin. rewrite padd_length, pscale_length. apply Nat.max_l. simpl. auto. Qed.

Lemma ev_padd p : forall q x, ev (padd p q) x = ev p x + ev q x.
Proof. induction p as [|a p IH]; intros [|b q] x; simpl; try ring. rewrite IH. ring. Qed.
Lemma ev_pscale c p x : ev (pscale c p) x = c * ev p x.
Proof. induction p as [|a p IH]; simpl; [ring|]. fold (pscale c p). rewrite IH. ring. Qed.
Lemma ev_plin r p x : ev (plin r p) x = (x - r) * ev p x.
Proof. unfold plin. rewrite ev_padd, ev_pscale. simpl. ring. Qed.

Lemma deriv_padd p : forall q, deriv (padd p q) = padd (deriv p) (deriv q).
Proof.
  induction p as [|a p IH]; intros [|b q]; simpl; auto.
  - rewrite padd_nil_r. reflexivity.
  - rewrite IH. rewrite padd_shuffle. simpl. f_equal. f_equal. ring.
Qed.
Lemma deriv_pscale c p : deriv (pscale c p) = pscale c (deriv p).
Proof.
  induction p as [|a p IH]; simpl; auto. fold (pscale c p). rewrite IH, pscale_padd. simpl.
  f_equal. f_equal. ring.
Qed.
Lemma iter_shift {T} (f : T -> T) l x : Nat.iter l f (f x) = f (Nat.iter l f x).
Proof. induction l; simpl; auto. rewrite IHl. reflexivity. Qed.
Lemma dv_padd l p q x : dv l (padd p q) x = dv l p x + dv l q x.
Proof.
  unfold dv. revert p q. induction l as [|l IH]; intros p q; [apply ev_padd|].
  change (Nat.iter (S l) deriv ?r) with (deriv (Nat.iter l deriv r)). rewrite <- !iter_shift, deriv_padd. apply IH.
Qed.
Lemma dv_pscale l c p x : dv l (pscale c p) x = c * dv l p x.
Proof.
  unfold dv. revert p. induction l as [|l IH]; intros p; [apply ev_pscale|].
  change (Nat.iter (S l) deriv ?r) with (deriv (Nat.iter l deriv r)). rewrite <- !iter_shift, deriv_pscale. apply IH.
Qed.
Lemma dv_S l p x : dv (S l) p x = dv l (deriv p) x.
Proof. unfold dv. change (Nat.iter (S l) deriv p) with (deriv (Nat.iter l deriv p)). rewrite <- iter_shift. reflexivity. Qed.

(** Derivatives of X q. *)
Lemma dv_shift l : forall q x, dv l (0 :: q) x = x * dv l q x + num l * dv (l - 1) q x.
Proof.
  induction l as [|l IH]; intros q x; [unfold dv; simpl; ring|].
  rewrite dv_S. simpl deriv. rewrite dv_padd, IH, dv_S. replace (S l - 1)%nat with l by lia.
  destruct l as [|l]; [simpl; ring|]. replace (S l - 1)%nat with l by lia. rewrite <- (dv_S l). simpl. ring.
Qed.
Lemma dv_plin l r p x : dv l (plin r p) x = (x - r) * dv l p x + num l * dv (l - 1) p x.
Proof. unfold plin. rewrite dv_padd, dv_shift, dv_pscale. ring. Qed.
Lemma dv_cons l a q x : dv (S l) (a :: q) x = dv (S l) (0 :: q) x.
Proof. rewrite !dv_S. reflexivity. Qed.
Lemma dv_const l a x : dv l [a] x = if (l =? 0)%nat then a else 0.
Proof.
  destruct l as [|l]; [unfold dv; simpl; ring|]. rewrite dv_S. simpl deriv. simpl Nat.eqb.
  assert (E : forall l, dv l ([0] : list F) x = 0). { induction l0 as [|l0 IH]; [unfold dv; simpl; ring|]. rewrite dv_S. exact IH. }
  apply E.
Qed.
Lemma dv_zero l p x : Forall (fun a => a = 0) p -> dv l p x = 0.
Proof.
  intros H. revert l. induction H as [|a p -> H IH]; intros l.
  - induction l as [|l IH]; [reflexivity|]. rewrite dv_S. exact IH.
  - rewrite dv_shift, !IH. ring.
Qed.

(** The factors may be multiplied in any order. *)
Lemma plin_comm r s p : plin r (plin s p) = plin s (plin r p).
Proof.
  unfold plin. rewrite !pscale_padd, !pscale_pscale.
  assert (E : forall p q, (0 : F) :: padd p q = padd (0 :: p) (0 :: q)).
  { intros p0 q0. simpl. f_equal. ring. }
  rewrite !E. assert (Z : forall c p, pscale c (0 :: p) = 0 :: pscale c p).
  { intros c p0. simpl. f_equal. ring. }
  rewrite !Z. replace (- r * - s) with (- s * - r) by ring.
  rewrite padd_shuffle, (padd_shuffle (0 :: 0 :: p)). reflexivity.
Qed.

(** Leibniz formula: derivatives of f (X - r) p. *)
Lemma leibniz_add f g h l : leibniz f (fun i => g i + h i) l = leibniz f g l + leibniz f h l.
Proof. unfold leibniz. rewrite <- sum_add. apply sum_ext. intros; ring. Qed.
Lemma leibniz_scale f c g l : leibniz f (fun i => c * g i) l = c * leibniz f g l.
Proof. unfold leibniz. rewrite <- sum_mul_l. apply sum_ext. intros; ring. Qed.
Lemma leibniz_ext f g f' g' l : (forall i, i <= l -> f i = f' i) -> (forall i, i <= l -> g i = g' i) -> leibniz f g l = leibniz f' g' l.
Proof. intros H G. apply sum_ext. intros i Hi. rewrite H, G by lia. reflexivity. Qed.
Lemma leibniz_shift f g l : leibniz f (fun i => num i * g (i - 1)%nat) l = num l * leibniz f g (l - 1).
Proof.
  unfold leibniz. destruct l as [|l]; [simpl; ring|]. replace (S l - 1)%nat with l by lia.
  change (sum (S (S l)) ?h) with (sum (S l) h + h (S l)). cbv beta. rewrite Nat.sub_diag.
  rewrite <- sum_mul_l. simpl (num 0).
  transitivity (sum (S l) (fun i => num (binom (S l) i) * f i * (num (S l - i) * g (S l - i - 1)%nat))); [ring|].
  apply sum_ext. intros i Hi. replace (S l - i - 1)%nat with (l - i)%nat by lia.
  transitivity (num ((S l - i) * binom (S l) i) * f i * g (l - i)%nat); [rewrite num_mul; ring|].
  rewrite binom_absorb' by lia. rewrite num_mul. ring.
Qed.

(** A polynomial of degree < n with n distinct roots vanishes. *)
Fixpoint pquo (r : F) p : list F :=
  match p with [] => [] | _ :: q => match q with [] => [] | _ => ev q r :: pquo r q end end.
Lemma pquo_length r p : length (pquo r p) = (length p - 1)%nat.
Proof. induction p as [|a [|b q] IH]; simpl in *; auto. rewrite IH. lia. Qed.
Lemma pquo_ev r p x : ev p x = (x - r) * ev (pquo r p) x + ev p r.
Proof.
  induction p as [|a q IH]; [simpl; ring|]. destruct q as [|b q]; [simpl; ring|].
  change (pquo r (a :: b :: q)) with (ev (b :: q) r :: pquo r (b :: q)).
  change (ev (a :: b :: q) ?y) with (a + y * ev (b :: q) y). rewrite IH. cbn [ev]. ring.
Qed.
Lemma pquo_zero r p : Forall (fun a => a = 0) (pquo r p) -> ev p r = 0 -> Forall (fun a => a = 0) p.
Proof.
  induction p as [|a q IH]; intros H E; [constructor|]. destruct q as [|b q].
  - constructor; [|constructor]. simpl in E. rewrite <- E. ring.
  - change (pquo r (a :: b :: q)) with (ev (b :: q) r :: pquo r (b :: q)) in H.
    inversion H as [|? ? H1 H2]; subst. constructor; [|apply IH; auto].
    cbn [ev] in E, H1. rewrite H1 in E. transitivity (a + r * 0); [ring|exact E].
Qed.
Lemma roots_zero n : forall (x : nat -> F) p, (forall i j, i < j -> j < n -> x i <> x j) ->
  length p <= n -> (forall i, i < n -> ev p (x i) = 0) -> Forall (fun a => a = 0) p.
Proof.
  induction n as [|n IH]; intros x p Hd Hl H; [destruct p; [constructor|simpl in Hl; lia]|].
  apply (pquo_zero (x n)); [|apply H; lia]. apply (IH x); [intros; apply Hd; lia|rewrite pquo_length; lia|].
  intros i Hi. pose proof (pquo_ev (x n) p (x i)) as E. rewrite !H in E by lia.
  destruct (mul_eq_0 (x i - x n) (ev (pquo (x n) p) (x i))) as [E0|E0]; auto.
  - rewrite <- (H n) in E by lia. rewrite H in E by lia. transitivity ((x i - x n) * ev (pquo (x n) p) (x i) + 0); [ring|auto].
  - exfalso. apply (Hd i n); [lia|lia|]. transitivity (x i - x n + x n); [ring|rewrite E0; ring].
Qed.

(** Products of X - f t, t < n. *)
Fixpoint pprod (f : nat -> F) (n : nat) : list F := match n with O => [1] | S n => plin (f n) (pprod f n) end.
Lemma pprod_length f n : length (pprod f n) = S n.
Proof. induction n; simpl; auto. rewrite plin_length, IHn. reflexivity. Qed.
Lemma pprod_ext f g n : (forall i, i < n -> f i = g i) -> pprod f n = pprod g n.
Proof. induction n; simpl; intros H; auto. rewrite IHn, H; auto. Qed.
Lemma pprod_ev f n x : ev (pprod f n) x = prod n (fun t => x - f t).
Proof. induction n; simpl; [ring|]. rewrite ev_plin, IHn. ring. Qed.
Lemma pprod_skip (x : nat -> F) n j : j <= n -> plin (x j) (pprod (fun t => x (skip j t)) n) = pprod x (S n).
Proof.
  induction n as [|n IH]; intros Hj; [assert (j = O) as -> by lia; reflexivity|].
  destruct (Nat.eq_dec j (S n)) as [->|Hn].
  - change (pprod x (S (S n))) with (plin (x (S n)) (pprod x (S n))). f_equal. apply pprod_ext.
    intros i Hi. unfold skip. destruct (Nat.ltb_spec i (S n)); [reflexivity|lia].
  - change (pprod (fun t => x (skip j t)) (S n)) with (plin (x (skip j n)) (pprod (fun t => x (skip j t)) n)).
    assert (Es : skip j n = S n) by (unfold skip; destruct (Nat.ltb_spec n j); lia). rewrite Es.
    rewrite plin_comm, IH by lia. reflexivity.
Qed.

Lemma prod_ext n (f g : nat -> F) : (forall i, i < n -> f i = g i) -> prod n f = prod n g.
Proof. induction n; simpl; intros H; auto. rewrite IHn, H; auto. Qed.
Lemma prod_neq_0 n (f : nat -> F) : (forall i, i < n -> f i <> 0) -> prod n f <> 0.
Proof. induction n; simpl; intros H; [apply one_neq_zero|]. apply mul_neq_0; auto. Qed.
Lemma prod_0 n (f : nat -> F) i : i < n -> f i = 0 -> prod n f = 0.
Proof.
  induction n; simpl; intros Hi E; [lia|]. destruct (Nat.eq_dec i n) as [->|]; [rewrite E; ring|].
  rewrite IHn by (auto; lia). ring.
Qed.
Lemma prod_skip (f : nat -> F) n j : j <= n -> f j = 1 -> prod n (fun t => f (skip j t)) = prod (S n) f.
Proof.
  induction n as [|n IH]; intros Hj E; [assert (j = O) as -> by lia; simpl; rewrite E; ring|].
  destruct (Nat.eq_dec j (S n)) as [->|Hn].
  - change (prod (S (S n)) f) with (prod (S n) f * f (S n)). rewrite E.
    transitivity (prod (S n) f); [|ring]. apply prod_ext.
    intros i Hi. unfold skip. destruct (Nat.ltb_spec i (S n)); [reflexivity|lia].
  - change (prod (S n) (fun t => f (skip j t))) with (prod n (fun t => f (skip j t)) * f (skip j n)).
    assert (Es : skip j n = S n) by (unfold skip; destruct (Nat.ltb_spec n j); lia). rewrite Es, IH by (auto; lia). reflexivity.
Qed.
End Poly.
