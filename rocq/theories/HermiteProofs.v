(** Proofs for C55: the recursions of poldif compute derivatives of Lagrange polynomials. *)
From Coq Require Import List Arith Lia Bool ZArith Field Ring.
Import ListNotations.
From Verif Require Import Prelude Field Matrix NdArray HermiteModel Poly.
Open Scope nat_scope.
Open Scope k_scope.

Section Diff.
Context {F : sfield}.
Add Field Ff_diff : (k_field F).
Implicit Types p q : list F.

Variables (x alpha : list F) (B : mat F) (m : nat).
(** [a k i]: i-th derivative of the weight at node k. *)
Variable a : nat -> nat -> F.
Let n := length x.
Hypothesis n_pos : 0 < n.
Hypothesis distinct : forall i j, i < j -> j < n -> at1 x i <> at1 x j.
Hypothesis w_neq : forall k, k < n -> wt alpha k <> 0.
Hypothesis a_0 : forall k, k < n -> a k O = wt alpha k.
Hypothesis a_B : forall i k, i < m -> k < n -> B i k = a k (S i) / a k O.

Lemma diff_neq i j : i < n -> j < n -> i <> j -> at1 x i - at1 x j <> 0.
Proof.
  intros Hi Hj Hn E. assert (E' : at1 x i = at1 x j) by (transitivity (at1 x i - at1 x j + at1 x j); [ring|rewrite E; ring]).
  destruct (Nat.lt_ge_cases i j); [apply (distinct i j)|apply (distinct j i)]; auto; lia.
Qed.

(** l-th derivative of weight times polynomial at node k. *)
Definition Jd (k l : nat) p : F := leibniz (a k) (fun i => dv i p (at1 x k)) l.
Lemma Jd_padd k l p q : Jd k l (padd p q) = Jd k l p + Jd k l q.
Proof. unfold Jd. rewrite <- leibniz_add. apply leibniz_ext; auto. intros. apply dv_padd. Qed.
Lemma Jd_pscale k l c p : Jd k l (pscale c p) = c * Jd k l p.
Proof. unfold Jd. rewrite <- leibniz_scale. apply leibniz_ext; auto. intros. apply dv_pscale. Qed.
Lemma Jd_plin k l r p : Jd k l (plin r p) = (at1 x k - r) * Jd k l p + num l * Jd k (l - 1) p.
Proof.
  unfold Jd. rewrite <- leibniz_shift, <- leibniz_scale, <- leibniz_add. apply leibniz_ext; auto.
  intros. apply dv_plin.
Qed.
Lemma Jd_0 k p : Jd k 0 p = a k O * ev p (at1 x k).
Proof. unfold Jd, leibniz, dv. simpl. ring. Qed.
Lemma Jd_const k l c : Jd k l [c] = c * a k l.
Proof.
  unfold Jd, leibniz. rewrite (sum_delta (S l) l); [|lia|].
  - rewrite Nat.sub_diag, dv_const. simpl Nat.eqb. cbv iota.
    assert (E : binom l l = 1%nat). { clear. induction l; simpl; auto. rewrite IHl, binom_gt by lia. reflexivity. }
    rewrite E. simpl. ring.
  - intros i Hi Hn. rewrite dv_const. destruct (Nat.eqb_spec (l - i) 0); [lia|]. ring.
Qed.
Lemma Jd_zero k l p : Forall (fun c => c = 0) p -> Jd k l p = 0.
Proof. intros H. apply sum_0. intros i Hi. rewrite dv_zero by auto. ring. Qed.

(** Partial products of the Lagrange polynomial at node k, over the weight. *)
Definition other (k t : nat) : F := at1 x (skip k t).
Definition part (k r : nat) : list F :=
  pscale (1 / (wt alpha k * prod r (fun t => at1 x k - other k t))) (pprod (other k) r).
Definition lag (k : nat) : list F := part k (n - 1).

Lemma skip_spec k t : k < n -> t < n - 1 -> skip k t < n /\ skip k t <> k.
Proof. intros Hk Ht. unfold skip. destruct (Nat.ltb_spec t k); lia. Qed.
Lemma other_neq k t : k < n -> t < n - 1 -> at1 x k - other k t <> 0.
Proof. intros Hk Ht. destruct (skip_spec k t Hk Ht). apply diff_neq; auto. Qed.
Lemma others_neq k r : k < n -> r <= n - 1 -> prod r (fun t => at1 x k - other k t) <> 0.
Proof. intros Hk Hr. apply prod_neq_0. intros i Hi. apply other_neq; auto; lia. Qed.

Lemma cs_eq k : k < n -> cs x alpha k = wt alpha k * prod (n - 1) (fun t => at1 x k - other k t).
Proof.
  intros Hk. unfold cs. f_equal. fold n. replace n with (S (n - 1)) at 1 by lia.
  rewrite <- (prod_skip (DX x k) (n - 1) k); [|lia|unfold DX; rewrite Nat.eqb_refl; reflexivity].
  apply prod_ext. intros i Hi. destruct (skip_spec k i Hk Hi) as [_ Hs]. unfold DX, other.
  destruct (Nat.eqb_spec k (skip k i)); [congruence|reflexivity].
Qed.
Lemma cs_neq k : k < n -> cs x alpha k <> 0.
Proof. intros Hk. rewrite cs_eq by auto. apply mul_neq_0; auto. apply others_neq; auto. Qed.
Lemma lag_eq k : k < n -> lag k = pscale (1 / cs x alpha k) (pprod (other k) (n - 1)).
Proof. intros Hk. unfold lag, part. rewrite cs_eq by auto. reflexivity. Qed.
Lemma lag_length k : length (lag k) = n.
Proof. unfold lag, part. rewrite pscale_length, pprod_length. lia. Qed.

(** Weighted Lagrange polynomials are 1 at their node and 0 at the others. *)
Lemma lag_ev k j : k < n -> j < n -> wt alpha k * ev (lag j) (at1 x k) = if (k =? j)%nat then 1 else 0.
Proof.
  intros Hk Hj. rewrite lag_eq, ev_pscale, pprod_ev by auto. destruct (Nat.eqb_spec k j) as [->|Hn].
  - rewrite cs_eq by auto. field. split; [apply others_neq; auto|auto].
  - rewrite (prod_0 (n - 1) _ (if (k <? j)%nat then k else k - 1)%nat); [ring| |].
    + destruct (Nat.ltb_spec k j); lia.
    + unfold other, skip. destruct (Nat.ltb_spec k j) as [H|H].
      * destruct (Nat.ltb_spec k j); [ring|lia].
      * destruct (Nat.ltb_spec (k - 1) j); [lia|]. replace (S (k - 1)) with k by lia. ring.
Qed.
(** All are multiples of the product over all nodes, divided by X - x_k. *)
Lemma lag_lin k : k < n -> plin (at1 x k) (pscale (cs x alpha k) (lag k)) = pprod (at1 x) n.
Proof.
  intros Hk. rewrite lag_eq by auto. rewrite pscale_pscale.
  assert (E : cs x alpha k * (1 / cs x alpha k) = 1) by (field; apply cs_neq; auto). rewrite E.
  assert (E1 : forall p, pscale 1 p = p) by (intros p; unfold pscale; rewrite <- (map_id p) at 2; apply map_ext; intros; ring).
  rewrite E1. replace n with (S (n - 1)) at 2 by lia. apply pprod_skip. lia.
Qed.
Lemma off_diag k j l : k < n -> j < n -> k <> j -> l <> O ->
  Jd k l (lag j) = num l * Zq x k j * (Cq x alpha k j * Jd k (l - 1) (lag k) - Jd k (l - 1) (lag j)).
Proof.
  intros Hk Hj Hn Hl. pose proof (f_equal (Jd k l) (eq_trans (lag_lin j Hj) (eq_sym (lag_lin k Hk)))) as E.
  rewrite !Jd_plin, !Jd_pscale in E. unfold Zq, Cq, DX. destruct (Nat.eqb_spec k j); [contradiction|].
  pose proof (diff_neq k j Hk Hj Hn) as N1. pose proof (cs_neq j Hj) as N2.
  set (ck := cs x alpha k) in *. set (cj := cs x alpha j) in *. set (d := at1 x k - at1 x j) in *.
  set (u := Jd k l (lag j)) in *. set (v := Jd k (l - 1) (lag j)) in *. set (w := Jd k (l - 1) (lag k)) in *.
  assert (E2 : d * (cj * u) = num l * (ck * w) - num l * (cj * v)).
  { transitivity (d * (cj * u) + num l * (cj * v) - num l * (cj * v)); [ring|]. rewrite E. ring. }
  transitivity (d * (cj * u) / (d * cj)); [field; auto|]. rewrite E2. field. auto.
Qed.

(** The cumulative sums. *)
Lemma part_S k r l : k < n -> S r <= n - 1 -> Jd k l (part k (S r)) = Jd k l (part k r) + num l * Jd k (l - 1) (part k r) * Xq x r k.
Proof.
  intros Hk Hr. unfold part. rewrite !Jd_pscale. simpl pprod. rewrite Jd_plin. simpl prod.
  assert (EX : Xq x r k = 1 / (at1 x k - other k r)).
  { destruct (skip_spec k r Hk ltac:(lia)) as [_ Hs]. unfold Xq, Zq, DX. destruct (Nat.eqb_spec k (skip k r)); [congruence|reflexivity]. }
  rewrite EX. pose proof (other_neq k r Hk ltac:(lia)). pose proof (others_neq k r Hk ltac:(lia)). pose proof (w_neq k Hk).
  field. auto.
Qed.
Lemma part_0 k l : k < n -> Jd k l (part k 0) = a k l / a k O.
Proof. intros Hk. unfold part. rewrite Jd_pscale. simpl. rewrite Jd_const, a_0 by auto. field. apply w_neq; auto. Qed.
Lemma part_init k r : k < n -> r <= n - 1 -> Jd k 0 (part k r) = 1.
Proof.
  intros Hk Hr. rewrite Jd_0, a_0 by auto. unfold part. rewrite ev_pscale, pprod_ev. field.
  split; [apply others_neq; auto|apply w_neq; auto].
Qed.
Lemma next_Y_ok Y i : i <> O -> i <= m -> (forall r k, k < n -> r <= n - 1 -> Y r k = Jd k (i - 1) (part k r)) ->
  forall r k, k < n -> r <= n - 1 -> next_Y x B Y i r k = Jd k i (part k r).
Proof.
  intros Hi Hm HY r k Hk. unfold next_Y. induction r as [|r IH]; intros Hr.
  - simpl. rewrite a_B, part_0 by (auto; lia). replace (S (i - 1)) with i by lia. ring.
  - change (sum (S (S r)) ?f) with (sum (S r) f + f (S r)). rewrite IH by lia. cbv beta iota.
    rewrite HY by lia. rewrite part_S by lia. reflexivity.
Qed.
Lemma derivs_ok steps : forall i Y D, i <> O -> (i + steps = S m)%nat ->
  (forall r k, k < n -> r <= n - 1 -> Y r k = Jd k (i - 1) (part k r)) ->
  (forall k j, k < n -> j < n -> D k j = Jd k (i - 1) (lag j)) ->
  length (derivs x alpha B Y D i steps) = steps /\
  forall s, s < steps -> let A := nth s (derivs x alpha B Y D i steps) (eye 0) in
    nr A = n /\ nc A = n /\ forall k j, k < n -> j < n -> ent A k j = Jd k (i + s) (lag j).
Proof.
  induction steps as [|steps IH]; intros i Y D Hi Hm HY HD; [split; [reflexivity|intros; lia]|].
  pose proof (next_Y_ok Y i Hi ltac:(lia) HY) as HY'.
  assert (HD' : forall k j, k < n -> j < n -> next_D x alpha (next_Y x B Y i) D i k j = Jd k i (lag j)).
  { intros k j Hk Hj. unfold next_D. fold n. destruct (Nat.eqb_spec k j) as [<-|Hn]; [apply HY'; auto|].
    rewrite !HD by auto. symmetry. apply off_diag; auto. }
  destruct (IH (S i) (next_Y x B Y i) (next_D x alpha (next_Y x B Y i) D i)) as (El & Es); try lia.
  - replace (S i - 1)%nat with i by lia. auto.
  - replace (S i - 1)%nat with i by lia. auto.
  - simpl. split; [rewrite El; reflexivity|]. intros [|s] Hs.
    + rewrite Nat.add_0_r. repeat split; auto.
    + replace (i + S s)%nat with (S i + s)%nat by lia. apply Es. lia.
Qed.

(** Interpolation. *)
Lemma interpolate p k l : length p <= n -> k < n ->
  Jd k l p = sum n (fun j => Jd k l (lag j) * (wt alpha j * ev p (at1 x j))).
Proof.
  intros Hp Hk.
  set (comb := fix comb (r : nat) : list F := match r with O => [] | S r => padd (comb r) (pscale (- (wt alpha r * ev p (at1 x r))) (lag r)) end).
  assert (CJ : forall r, Jd k l (comb r) = - sum r (fun j => Jd k l (lag j) * (wt alpha j * ev p (at1 x j)))).
  { induction r as [|r IH]; simpl; [rewrite Jd_zero by constructor; ring|]. rewrite Jd_padd, Jd_pscale, IH. ring. }
  assert (CE : forall y r, ev (comb r) y = - sum r (fun j => ev (lag j) y * (wt alpha j * ev p (at1 x j)))).
  { intros y. induction r as [|r IH]; simpl; [ring|]. rewrite ev_padd, ev_pscale, IH. ring. }
  assert (CL : forall r, length (comb r) <= n).
  { induction r as [|r IH]; simpl; [lia|]. rewrite padd_length, pscale_length, lag_length. lia. }
  assert (Z : Forall (fun c => c = 0) (padd p (comb n))).
  { apply (roots_zero n (at1 x)); auto.
    - rewrite padd_length. specialize (CL n). lia.
    - intros i Hi. rewrite ev_padd, CE.
      assert (E : wt alpha i * (ev p (at1 x i) + - sum n (fun j => ev (lag j) (at1 x i) * (wt alpha j * ev p (at1 x j)))) = 0).
      { assert (E1 : wt alpha i * sum n (fun j => ev (lag j) (at1 x i) * (wt alpha j * ev p (at1 x j))) = wt alpha i * ev p (at1 x i)).
        { rewrite <- sum_mul_l. rewrite (sum_delta n i); auto.
          - transitivity (wt alpha i * ev (lag i) (at1 x i) * (wt alpha i * ev p (at1 x i))); [ring|].
            rewrite lag_ev, Nat.eqb_refl by auto. ring.
          - intros j Hj Hn. transitivity (wt alpha i * ev (lag j) (at1 x i) * (wt alpha j * ev p (at1 x j))); [ring|].
            rewrite lag_ev by auto. destruct (Nat.eqb_spec i j); [congruence|ring]. }
        transitivity (wt alpha i * ev p (at1 x i) - wt alpha i * sum n (fun j => ev (lag j) (at1 x i) * (wt alpha j * ev p (at1 x j)))); [ring|].
        rewrite E1. ring. }
      destruct (mul_eq_0 _ _ E) as [E0|E0]; [exfalso; apply (w_neq i Hi); auto|exact E0]. }
  pose proof (Jd_zero k l _ Z) as E. rewrite Jd_padd, CJ in E.
  transitivity (Jd k l p + - sum n (fun j => Jd k l (lag j) * (wt alpha j * ev p (at1 x j))) + sum n (fun j => Jd k l (lag j) * (wt alpha j * ev p (at1 x j)))); [ring|].
  rewrite E. ring.
Qed.

Lemma poldif_core : let Dm := derivs x alpha B (fun _ _ => 1) mid 1 m in
  length Dm = m /\ forall l, 1 <= l <= m -> let A := nth (l - 1) Dm (eye 0) in
    nr A = n /\ nc A = n /\
    (forall p k, length p <= n -> k < n -> sum n (fun j => ent A k j * (wt alpha j * ev p (at1 x j))) = Jd k l p) /\
    (forall E : mat F, (forall p k, length p <= n -> k < n -> sum n (fun j => E k j * (wt alpha j * ev p (at1 x j))) = Jd k l p) ->
      meq n n E (ent A)).
Proof.
  cbv zeta. destruct (derivs_ok m 1 (fun _ _ => 1) mid) as (El & Es); try lia.
  - intros r k Hk Hr. simpl. symmetry. apply part_init; auto.
  - intros k j Hk Hj. simpl. rewrite Jd_0, a_0, lag_ev by auto. reflexivity.
  - split; [exact El|]. intros l Hl. destruct (Es (l - 1)%nat ltac:(lia)) as (E1 & E2 & E3). clear Es.
    replace (1 + (l - 1))%nat with l in E3 by lia.
    split; [auto|]. split; [auto|].
    split.
    + intros p k Hp Hk. rewrite (interpolate p k l) by auto. apply sum_ext. intros j Hj. rewrite E3 by auto. reflexivity.
    + intros E HE. split. intros k j Hk Hj. rewrite E3 by auto. rewrite <- (HE (lag j) k) by (rewrite ?lag_length; auto).
      rewrite (sum_delta n j); auto.
      * rewrite lag_ev, Nat.eqb_refl by auto. ring.
      * intros i Hi Hn. rewrite lag_ev by auto. destruct (Nat.eqb_spec i j); [contradiction|ring].
Qed.
End Diff.
