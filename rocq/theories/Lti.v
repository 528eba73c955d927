(** Discrete-time linear systems: states as functions of time, impulse responses and
    convolution. *)
From Coq Require Import List Arith Lia Bool Field Ring Setoid Morphisms.
Import ListNotations.
From Verif Require Import Prelude Field Matrix.
Open Scope nat_scope.

Section Lti.
Context {F : sfield}.
Add Field Lti_F : (k_field F).
Open Scope k_scope.

(** A x. *)
Definition mv (n : nat) (A : mat F) (x : nat -> F) : nat -> F := fun i => sum n (fun j => A i j * x j).
Lemma mv_ext n A A' x x' i : (forall j, j < n -> A i j = A' i j) -> (forall j, j < n -> x j = x' j) ->
  mv n A x i = mv n A' x' i.
Proof. intros H G. apply sum_ext. intros j Hj. rewrite H, G by auto. reflexivity. Qed.
Lemma mv_add n A x y i : mv n A (fun j => x j + y j) i = mv n A x i + mv n A y i.
Proof. unfold mv. rewrite <- sum_add. apply sum_ext. intros. ring. Qed.
Lemma mv_madd n A B x i : mv n (madd A B) x i = mv n A x i + mv n B x i.
Proof. unfold mv, madd. rewrite <- sum_add. apply sum_ext. intros. ring. Qed.
Lemma mv_sum n A k (f : nat -> nat -> F) i : mv n A (fun j => sum k (fun s => f s j)) i = sum k (fun s => mv n A (f s) i).
Proof.
  unfold mv. rewrite sum_swap. apply sum_ext. intros j Hj. rewrite <- sum_mul_l. reflexivity.
Qed.
Lemma mv_mul n k A B x i : mv k (mmul n A B) x i = mv n A (mv k B x) i.
Proof.
  unfold mv, mmul. rewrite (sum_ext k _ (fun j => sum n (fun l => A i l * B l j * x j))).
  2: { intros j Hj. rewrite <- sum_mul_r. reflexivity. }
  rewrite sum_swap. apply sum_ext. intros l Hl. rewrite <- sum_mul_l. apply sum_ext. intros. ring.
Qed.
Lemma mv_id n x i : i < n -> mv n mid x i = x i.
Proof.
  intros Hi. unfold mv. rewrite (sum_delta n i) by (auto; intros j Hj N; unfold mid;
    rewrite (proj2 (Nat.eqb_neq i j)) by auto; ring).
  unfold mid. rewrite Nat.eqb_refl. ring.
Qed.
Definition mopp (A : mat F) : mat F := fun i j => - A i j.
Lemma mv_0 n A i x : (forall j, j < n -> x j = 0) -> mv n A x i = 0.
Proof. intros H. apply sum_0. intros j Hj. rewrite H by auto. ring. Qed.
Lemma mv_mzero n x i : mv n mzero x i = 0.
Proof. apply sum_0. intros j Hj. unfold mzero. ring. Qed.

Lemma mv_opp n A x i : mv n A (fun j => - x j) i = - mv n A x i.
Proof. unfold mv. rewrite <- sum_opp. apply sum_ext. intros. ring. Qed.
Lemma mv_msub n A B x i : mv n (msub A B) x i = mv n A x i - mv n B x i.
Proof. unfold mv, msub. rewrite <- sum_sub. apply sum_ext. intros. ring. Qed.
Lemma mv_msum n k (f : nat -> mat F) x i :
  mv n (fun i j => sum k (fun s => f s i j)) x i = sum k (fun s => mv n (f s) x i).
Proof. unfold mv. rewrite sum_swap. apply sum_ext. intros. rewrite <- sum_mul_r. reflexivity. Qed.

(** Summation over a triangle by diagonals. *)
Lemma sum_tri t (f : nat -> nat -> F) :
  sum t (fun k => sum (t - k) (fun l => f k l)) = sum t (fun s => sum (S s) (fun k => f k (s - k)%nat)).
Proof.
  induction t as [|t IH]; [reflexivity|]. cbn [sum].
  replace (S t - t)%nat with 1%nat by lia. cbn [sum].
  rewrite (sum_ext t _ (fun k => sum (t - k) (fun l => f k l) + f k (t - k)%nat)).
  2: { intros k Hk. replace (S t - k)%nat with (S (t - k)) by lia. reflexivity. }
  rewrite sum_add, IH. cbn [sum]. replace (t - t)%nat with O by lia. ring.
Qed.
(** Summation over blocks. *)
Lemma sum_blocks N b (f : nat -> F) : sum (b * N) f = sum N (fun k => sum b (fun j => f (k * b + j)%nat)).
Proof.
  induction N as [|N IH]; [rewrite Nat.mul_0_r; reflexivity|].
  rewrite Nat.mul_succ_r, sum_split, IH. cbn [sum]. f_equal. apply sum_ext. intros. f_equal. lia.
Qed.

(** The states: x(0) = x0, x(t+1) = A x(t) + B u(t). *)
Fixpoint states (n m : nat) (A B : mat F) (u : nat -> nat -> F) (x0 : nat -> F) (t : nat) : nat -> F :=
  match t with
  | O => x0
  | S t => fun l => mv n A (states n m A B u x0 t) l + mv m B (u t) l
  end.

(** The variation of constants formula. *)
Lemma states_conv n m A B u x0 t l : l < n ->
  states n m A B u x0 t l =
  mv n (mpow n A t) x0 l + sum t (fun k => mv m (mmul n (mpow n A k) B) (u (t - 1 - k)%nat) l).
Proof.
  revert l. induction t as [|t IH]; intros l Hl.
  - cbn [states mpow sum]. rewrite mv_id by auto. ring.
  - cbn [states].
    rewrite (mv_ext n A A _ (fun j => mv n (mpow n A t) x0 j + sum t (fun k => mv m (mmul n (mpow n A k) B) (u (t - 1 - k)%nat) j))) by (auto).
    rewrite mv_add, mv_sum. rewrite sum_S_l.
    assert (E1 : mv n (mpow n A (S t)) x0 l = mv n A (mv n (mpow n A t) x0) l) by (cbn [mpow]; apply mv_mul).
    rewrite E1.
    assert (E2 : mv m (mmul n (mpow n A 0) B) (u (S t - 1 - 0)%nat) l = mv m B (u t) l).
    { cbn [mpow]. rewrite mv_mul, mv_id by auto. f_equal. f_equal. lia. }
    rewrite E2.
    assert (E3 : sum t (fun s => mv n A (fun j => mv m (mmul n (mpow n A s) B) (u (t - 1 - s)%nat) j) l) =
                 sum t (fun i => mv m (mmul n (mpow n A (S i)) B) (u (S t - 1 - S i)%nat) l)).
    { apply sum_ext. intros s Hs. replace (S t - 1 - S s)%nat with (t - 1 - s)%nat by lia.
      rewrite (mv_mul n m (mpow n A (S s)) B). cbn [mpow]. rewrite (mv_mul n n A).
      apply mv_ext; auto. intros j Hj. apply mv_mul. }
    rewrite E3. ring.
Qed.

(** The response of the model with coefficients [a], [b] (an ARX model):
    y(t) = D u(t) + sum over k < t of a_k u(t-1-k) + b_k y(t-1-k). Its impulse response
    satisfies: *)
Definition arx_Markov (p : nat) (D : mat F) (a b Y : nat -> mat F) (m L : nat) : Prop :=
  meq p m (Y O) D /\
  forall k, S k < L -> meq p m (Y (S k)) (madd (a k) (fun i j => sum (S k) (fun l => mmul p (b l) (Y (k - l)%nat) i j))).

Lemma arx_conv p m D a b Y (u y : nat -> nat -> F) L :
  arx_Markov p D a b Y m L ->
  (forall t i, t < L -> i < p ->
     y t i = mv m D (u t) i + sum t (fun k => mv m (a k) (u (t - 1 - k)%nat) i + mv p (b k) (y (t - 1 - k)%nat) i)) ->
  forall t i, t < L -> i < p -> y t i = sum (S t) (fun k => mv m (Y k) (u (t - k)%nat) i).
Proof.
  intros [HD HY] Hy t. induction t as [t IH] using (well_founded_induction lt_wf). intros i Ht Hi.
  rewrite Hy by auto. rewrite sum_S_l. rewrite Nat.sub_0_r.
  rewrite (mv_ext m (Y O) D (u t) (u t)) by (auto; intros; apply HD; auto).
  f_equal.
  rewrite (sum_ext t _ (fun k => mv m (a k) (u (t - 1 - k)%nat) i +
     sum (t - k) (fun l => mv p (b k) (mv m (Y l) (u (t - 1 - k - l)%nat)) i))).
  2: { intros k Hk. f_equal. rewrite (mv_ext p (b k) (b k) _ (fun j => sum (t - k) (fun l => mv m (Y l) (u (t - 1 - k - l)%nat) j))); auto.
       - rewrite mv_sum. reflexivity.
       - intros j Hj. rewrite IH by (auto; lia). replace (S (t - 1 - k)) with (t - k)%nat by lia. reflexivity. }
  rewrite sum_add, (sum_tri t (fun k l => mv p (b k) (mv m (Y l) (u (t - 1 - k - l)%nat)) i)), <- sum_add.
  apply sum_ext. intros s Hs. replace (t - S s)%nat with (t - 1 - s)%nat by lia.
  rewrite (mv_ext m (Y (S s)) (madd (a s) (fun i j => sum (S s) (fun l => mmul p (b l) (Y (s - l)%nat) i j)))
    (u (t - 1 - s)%nat) (u (t - 1 - s)%nat)); auto.
  2: { intros j Hj. apply HY; auto. lia. }
  rewrite mv_madd. f_equal.
  rewrite (sum_ext (S s) _ (fun k => mv m (mmul p (b k) (Y (s - k)%nat)) (u (t - 1 - s)%nat) i)).
  2: { intros k Hk. rewrite mv_mul. apply mv_ext; auto. intros j Hj. apply mv_ext; auto. intros j' Hj'. f_equal. lia. }
  unfold mv. rewrite sum_swap. apply sum_ext. intros j Hj. rewrite <- sum_mul_r. reflexivity.
Qed.

(** A system with direct term: x(t+1) = A x(t) + B u(t), y(t) = C x(t) + D u(t), from
    rest, for t < L. *)
Definition responds (n m p : nat) (A B C D : mat F) (u y : nat -> nat -> F) (L : nat) : Prop :=
  exists x : nat -> nat -> F,
    (forall l, l < n -> x O l = 0) /\
    (forall t l, S t < L -> l < n -> x (S t) l = mv n A (x t) l + mv m B (u t) l) /\
    (forall t i, t < L -> i < p -> y t i = mv n C (x t) i + mv m D (u t) i).
(** Its Markov parameters D, CB, CAB, ... *)
Definition Markov (n : nat) (A B C D : mat F) (k : nat) : mat F :=
  match k with O => D | S k => mmul n C (mmul n (mpow n A k) B) end.

Lemma states_unique n m A B u x0 (x : nat -> nat -> F) L :
  (forall l, l < n -> x O l = x0 l) ->
  (forall t l, S t < L -> l < n -> x (S t) l = mv n A (x t) l + mv m B (u t) l) ->
  forall t l, t < L -> l < n -> x t l = states n m A B u x0 t l.
Proof.
  intros H0 HS t. induction t as [|t IH]; intros l Ht Hl; [apply H0; auto|].
  rewrite HS by auto. cbn [states]. f_equal. apply mv_ext; auto. intros j Hj. apply IH; auto. lia.
Qed.
Lemma responds_conv n m p A B C D u y L : responds n m p A B C D u y L ->
  forall t i, t < L -> i < p -> y t i = sum (S t) (fun k => mv m (Markov n A B C D k) (u (t - k)%nat) i).
Proof.
  intros (x & X0 & XS & Hy) t i Ht Hi. rewrite Hy by auto. rewrite sum_S_l, Nat.sub_0_r. cbn [Markov].
  rewrite (mv_ext n C C _ (fun l => sum t (fun k => mv m (mmul n (mpow n A k) B) (u (t - 1 - k)%nat) l))); auto.
  - rewrite mv_sum. rewrite (sum_ext t _ (fun k => mv m (mmul n C (mmul n (mpow n A k) B)) (u (t - S k)%nat) i)).
    + ring.
    + intros k Hk. rewrite (mv_mul n m C). replace (t - S k)%nat with (t - 1 - k)%nat by lia. reflexivity.
  - intros l Hl. rewrite (states_unique n m A B u (fun _ => 0) x L) by auto. rewrite states_conv by auto.
    rewrite mv_0 by auto. ring.
Qed.

(** ** Observers *)
Section Observer.
Variables (n m p : nat) (A B C D G : mat F).
Let Ab := madd A (mmul p G C).
(** The coefficients: C (A + GC)^k (B + GD) and - C (A + GC)^k G. *)
Definition obs_a (k : nat) : mat F := mmul n C (mmul n (mpow n Ab k) (madd B (mmul p G D))).
Definition obs_b (k : nat) : mat F := mmul n C (mmul n (mpow n Ab k) (mopp G)).

Lemma mv_mopp q M x i : mv q (mopp M) x i = - mv q M x i.
Proof. unfold mv, mopp. rewrite <- sum_opp. apply sum_ext. intros. ring. Qed.

Lemma observer_arx u y L : responds n m p A B C D u y L ->
  forall t i, t < L -> i < p ->
    y t i = mv m D (u t) i + sum t (fun k => mv m (obs_a k) (u (t - 1 - k)%nat) i + mv p (obs_b k) (y (t - 1 - k)%nat) i).
Proof.
  intros (x & X0 & XS & Hy) t i Ht Hi.
  (* the state as driven by inputs and outputs *)
  assert (X : forall t l, t < L -> l < n -> x t l =
    sum t (fun k => mv m (mmul n (mpow n Ab k) (madd B (mmul p G D))) (u (t - 1 - k)%nat) l
                  + mv p (mmul n (mpow n Ab k) (mopp G)) (y (t - 1 - k)%nat) l)).
  { clear t i Ht Hi. intros t. induction t as [|t IH]; intros l Ht Hl; [apply X0; auto|].
    rewrite XS by auto. rewrite sum_S_l.
    assert (E : mv n A (x t) l + mv m B (u t) l =
      mv n Ab (x t) l + (mv m (madd B (mmul p G D)) (u t) l + mv p (mopp G) (y t) l)).
    { unfold Ab. rewrite !mv_madd, !mv_mul, mv_mopp.
      rewrite (mv_ext p G G (y t) (fun i => mv n C (x t) i + mv m D (u t) i)); auto.
      - rewrite mv_add. ring.
      - intros j Hj. apply Hy; auto. lia. }
    rewrite E. cbn [mpow]. rewrite !mv_mul, !mv_id by auto.
    replace (S t - 1 - 0)%nat with t by lia.
    rewrite (mv_ext n Ab Ab (x t) _ l (fun _ _ => eq_refl) (fun j Hj => IH j ltac:(lia) Hj)).
    rewrite mv_sum.
    rewrite (sum_ext t (fun i => _ + _) (fun s => mv n Ab (fun j =>
       mv m (mmul n (mpow n Ab s) (madd B (mmul p G D))) (u (t - 1 - s)%nat) j +
       mv p (mmul n (mpow n Ab s) (mopp G)) (y (t - 1 - s)%nat) j) l)).
    - ring.
    - intros s Hs. replace (S t - 1 - S s)%nat with (t - 1 - s)%nat by lia. rewrite mv_add.
      rewrite !(mv_mul n _ (mmul n Ab (mpow n Ab s))), !(mv_mul n n Ab). f_equal; apply mv_ext; auto; intros; (apply mv_mul || symmetry; apply mv_mul). }
  rewrite Hy by auto. rewrite (mv_ext n C C (x t) _ i (fun _ _ => eq_refl) (fun j Hj => X t j Ht Hj)).
  rewrite mv_sum.
  rewrite (sum_ext t _ (fun k => mv m (obs_a k) (u (t - 1 - k)%nat) i + mv p (obs_b k) (y (t - 1 - k)%nat) i)).
  - ring.
  - intros k Hk. rewrite mv_add. unfold obs_a, obs_b. rewrite !(mv_mul n _ C). reflexivity.
Qed.

Lemma Ab_pow k : meq n n (mpow n A k)
  (msub (mpow n Ab k) (fun i j => sum k (fun l => mmul n (mpow n Ab l) (mmul p G (mmul n C (mpow n A (k - 1 - l)))) i j))).
Proof.
  induction k as [|k IH].
  - split. intros i j Hi Hj. unfold msub. cbn [mpow sum]. ring.
  - split. intros i j Hi Hj. cbn [mpow].
    assert (E : meq n n (mmul n A (mpow n A k)) (msub (mmul n Ab (mpow n A k)) (mmul p G (mmul n C (mpow n A k))))).
    { unfold Ab. rewrite mmul_add_l, mmul_assoc. split. intros a b Ha Hb. unfold msub, madd. ring. }
    rewrite (meq_at _ _ _ _ E) by auto. unfold msub at 1.
    assert (E2 : meq n n (mmul n Ab (mpow n A k)) (msub (mmul n Ab (mpow n Ab k))
      (fun i j => sum k (fun l => mmul n (mpow n Ab (S l)) (mmul p G (mmul n C (mpow n A (k - 1 - l)))) i j)))).
    { rewrite IH at 1. rewrite mmul_sub_r. split. intros a b Ha Hb. unfold msub. f_equal.
      change (mv n Ab (fun l => sum k (fun s => mmul n (mpow n Ab s) (mmul p G (mmul n C (mpow n A (k - 1 - s)))) l b)) a =
        sum k (fun l => mmul n (mpow n Ab (S l)) (mmul p G (mmul n C (mpow n A (k - 1 - l)))) a b)).
      rewrite mv_sum. apply sum_ext. intros s Hs. cbn [mpow].
      rewrite (meq_at _ _ _ _ (mmul_assoc n n n n Ab (mpow n Ab s) _) a b) by auto. reflexivity. }
    rewrite (meq_at _ _ _ _ E2) by auto. unfold msub. rewrite sum_S_l. replace (S k - 1 - 0)%nat with k by lia. change (mpow n Ab 0) with (@mid F).
    rewrite (meq_at _ _ _ _ (mmul_id_l n n (mmul p G (mmul n C (mpow n A k)))) i j) by auto.
    rewrite (sum_ext k (fun l => mmul n (mpow n Ab (S l)) (mmul p G (mmul n C (mpow n A (S k - 1 - S l)))) i j)
      (fun l => mmul n (mpow n Ab (S l)) (mmul p G (mmul n C (mpow n A (k - 1 - l)))) i j)).
    2: { intros l Hl. replace (S k - 1 - S l)%nat with (k - 1 - l)%nat by lia. reflexivity. }
    ring.
Qed.

(** The Markov parameters of the system are those of the observer model. *)
Lemma observer_Markov L : arx_Markov p D obs_a obs_b (Markov n A B C D) m L.
Proof.
  split; [reflexivity|]. intros k _. split. intros i j Hi Hj. cbn [Markov].
  set (Bj := fun l => B l j). set (Dj := fun l => D l j).
  set (T := fun s => mv n C (mv n (mpow n Ab s) (mv p G (mv n C (mv n (mpow n A (k - 1 - s)) Bj)))) i).
  assert (E1 : mmul n C (mmul n (mpow n A k) B) i j = mv n C (mv n (mpow n Ab k) Bj) i - sum k T).
  { change (mv n C (mv n (mpow n A k) Bj) i = mv n C (mv n (mpow n Ab k) Bj) i - sum k T).
    rewrite (mv_ext n C C _ (fun l => mv n (mpow n Ab k) Bj l + - sum k (fun s =>
      mv n (mpow n Ab s) (mv p G (mv n C (mv n (mpow n A (k - 1 - s)) Bj))) l))); auto.
    - rewrite mv_add, mv_opp, mv_sum.
      transitivity (mv n C (mv n (mpow n Ab k) Bj) i + - sum k T); [reflexivity|ring].
    - intros l Hl. rewrite (mv_ext n (mpow n A k) _ Bj Bj l (fun j' Hj' => meq_at _ _ _ _ (Ab_pow k) l j' Hl Hj')) by auto.
      rewrite mv_msub. replace (mv n (mpow n Ab k) Bj l) with (mv n (mpow n Ab k) Bj l + 0) at 1 by ring.
      transitivity (mv n (mpow n Ab k) Bj l - sum k (fun s => mv n (mpow n Ab s) (mv p G (mv n C (mv n (mpow n A (k - 1 - s)) Bj))) l)); [|ring].
      replace (mv n (mpow n Ab k) Bj l + 0) with (mv n (mpow n Ab k) Bj l) by ring. f_equal.
      rewrite mv_msum. apply sum_ext. intros s Hs. rewrite mv_mul. apply mv_ext; auto. intros a Ha.
      rewrite mv_mul. apply mv_ext; auto. intros b Hb. rewrite mv_mul. reflexivity. }
  rewrite E1. unfold madd. cbn [sum]. replace (k - k)%nat with O by lia.
  assert (E2 : obs_a k i j = mv n C (mv n (mpow n Ab k) Bj) i + mv n C (mv n (mpow n Ab k) (mv p G Dj)) i).
  { change (mv n C (mv n (mpow n Ab k) (fun l => Bj l + mv p G Dj l)) i =
      mv n C (mv n (mpow n Ab k) Bj) i + mv n C (mv n (mpow n Ab k) (mv p G Dj)) i).
    rewrite <- mv_add. apply mv_ext; auto. intros l Hl. apply mv_add. }
  assert (E3 : forall l (Y : mat F), mmul p (obs_b l) Y i j = - mv n C (mv n (mpow n Ab l) (mv p G (fun l => Y l j))) i).
  { intros l Y. change (mv p (obs_b l) (fun l => Y l j) i = - mv n C (mv n (mpow n Ab l) (mv p G (fun l => Y l j))) i).
    unfold obs_b. rewrite mv_mul. rewrite <- mv_opp. apply mv_ext; auto. intros a Ha. rewrite mv_mul.
    rewrite <- mv_opp. apply mv_ext; auto. intros b Hb. apply mv_mopp. }
  rewrite E2, E3. cbn [Markov]. fold Dj.
  rewrite (sum_ext k (fun l => mmul p (obs_b l) _ i j) (fun l => - T l)).
  - rewrite sum_opp. ring.
  - intros l Hl. rewrite E3. unfold T. replace (k - l)%nat with (S (k - 1 - l)) by lia. reflexivity.
Qed.
(** Nothing remains of the coefficients past the window of a deadbeat observer. *)
Lemma deadbeat_pow N k : meq n n (mpow n Ab N) mzero -> N <= k -> meq n n (mpow n Ab k) mzero.
Proof.
  intros H Hk. replace k with (N + (k - N))%nat by lia. rewrite mpow_add, H, mmul_zero_l. reflexivity.
Qed.
Lemma deadbeat_a N k : meq n n (mpow n Ab N) mzero -> N <= k -> meq p m (obs_a k) mzero.
Proof. intros H Hk. unfold obs_a. rewrite (deadbeat_pow N k) by auto. rewrite mmul_zero_l, mmul_zero_r. reflexivity. Qed.
Lemma deadbeat_b N k : meq n n (mpow n Ab N) mzero -> N <= k -> meq p p (obs_b k) mzero.
Proof. intros H Hk. unfold obs_b. rewrite (deadbeat_pow N k) by auto. rewrite mmul_zero_l, mmul_zero_r. reflexivity. Qed.
End Observer.
End Lti.
