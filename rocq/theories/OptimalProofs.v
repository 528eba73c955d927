(** Best approximation of weighted data by few vectors: orthogonal families,
    projection errors, and the bound by the largest eigenvalues. *)
From Coq Require Import List Arith Lia Bool ZArith Field Ring Setoid Morphisms Permutation.
Import ListNotations.
From Verif Require Import Prelude Field Matrix NdArray DecompModel DecompProofs VSArraysProofs.
Open Scope nat_scope.
Open Scope k_scope.

Section Order.
Context {F : sfield}.
Implicit Types x y z : F.
Add Field OptField : (k_field F).

Lemma le_sub_1 x y : real x -> real y -> kle x y -> kle 0 (y - x).
Proof.
  intros Hx Hy [H|H]; [left; apply (lt_sub x y Hx Hy); exact H|right]. rewrite H. ring.
Qed.
Lemma le_sub_2 x y : real x -> real y -> kle 0 (y - x) -> kle x y.
Proof.
  intros Hx Hy [H|H]; [left; apply (lt_sub x y Hx Hy); exact H|right].
  transitivity (x + 0); [ring|]. rewrite H. ring.
Qed.
Lemma le_0_mul x y : real x -> real y -> kle 0 x -> kle 0 y -> kle 0 (x * y).
Proof.
  intros Hx Hy [H1| <-] [H2| <-].
  - left. apply lt_mul; auto.
  - right. ring.
  - right. ring.
  - right. ring.
Qed.
Lemma le_add a b c d : real a -> real b -> real c -> real d -> @kle F a b -> kle c d -> kle (a + c) (b + d).
Proof.
  intros Ra Rb Rc Rd H1 H2. apply le_sub_2; auto using real_add.
  replace (b + d - (a + c)) with ((b - a) + (d - c)) by ring.
  apply le_0_add; auto using real_sub; apply le_sub_1; auto.
Qed.
Lemma sum_le n (f g : nat -> F) : (forall i, i < n -> real (f i)) -> (forall i, i < n -> real (g i)) ->
  (forall i, i < n -> kle (f i) (g i)) -> kle (sum n f) (sum n g).
Proof.
  intros Rf Rg H. apply le_sub_2; auto using sum_real. rewrite <- sum_sub.
  apply sum_nonneg; intros i Hi; [apply real_sub; auto|]. apply le_sub_1; auto.
Qed.

(** Inverse, with zero for zero. *)
Definition pinv x : F := if k_dec F x 0 then 0 else kinv F x.
Lemma pinv_0 : pinv 0 = 0.
Proof. unfold pinv. destruct (k_dec F 0 0); congruence. Qed.
Lemma pinv_l x : x <> 0 -> pinv x * x = 1.
Proof. intros H. unfold pinv. destruct (k_dec F x 0); [contradiction|]. apply inv_l. auto. Qed.
Lemma pinv_real x : real x -> real (pinv x).
Proof. intros H. unfold pinv. destruct (k_dec F x 0); [apply real_0|apply real_inv; auto]. Qed.
Lemma pinv_nonneg x : real x -> kle 0 x -> kle 0 (pinv x).
Proof.
  intros Hx [H| <-]; [|rewrite pinv_0; apply le_refl].
  unfold pinv. destruct (k_dec F x 0); [apply le_refl|]. left. apply lt_inv; auto.
Qed.
Lemma pinv_mid x : pinv x * x * pinv x = pinv x.
Proof.
  destruct (k_dec F x 0) as [-> |H]; [rewrite pinv_0; ring|]. rewrite pinv_l by auto. ring.
Qed.
Lemma pinv_mul_le x : kle (pinv x * x) 1.
Proof.
  destruct (k_dec F x 0) as [-> |H].
  - left. replace (pinv 0 * 0) with (0 : F) by ring. apply lt_0_1.
  - right. apply pinv_l. auto.
Qed.

(** Positive part. *)
Definition pos x : F := if klt F x 0 then 0 else x.
Lemma pos_real x : real x -> real (pos x).
Proof. intros H. unfold pos. destruct (klt F x 0); auto using real_0. Qed.
Lemma pos_0_le x : real x -> kle 0 x -> pos x = x.
Proof. intros H G. unfold pos. apply not_lt in G; auto using real_0. rewrite G. reflexivity. Qed.
Lemma pos_le_0 x : real x -> kle x 0 -> pos x = 0.
Proof.
  intros H [G| ->].
  - unfold pos. rewrite G. reflexivity.
  - unfold pos. destruct (klt F 0 0); auto.
Qed.

(** Weights [c] between 0 and 1 adding up to at most [m] cannot do better than the
    part of [w] above any level [mu]. *)
Lemma level_bound q (w c : nat -> F) (m mu : F) : real m -> real mu -> kle 0 mu ->
  (forall a, a < q -> real (w a)) -> (forall a, a < q -> real (c a)) ->
  (forall a, a < q -> kle 0 (c a)) -> (forall a, a < q -> kle (c a) 1) ->
  kle (sum q c) m ->
  kle (sum q (fun a => w a * c a)) (sum q (fun a => pos (w a - mu)) + m * mu).
Proof.
  intros Rm Rmu Hmu Rw Rc C0 C1 Hs.
  assert (Rs : real (sum q c)) by (apply sum_real; auto).
  assert (Rp : forall a, a < q -> real (pos (w a - mu))) by (intros; apply pos_real, real_sub; auto).
  assert (E : sum q (fun a => w a * c a) = sum q (fun a => (w a - mu) * c a) + sum q c * mu).
  { rewrite <- sum_mul_r, <- sum_add. apply sum_ext. intros. ring. }
  rewrite E. apply le_add; auto using real_mul.
  - apply sum_real. intros. apply real_mul; auto using real_sub.
  - apply sum_real. auto.
  - apply sum_le; auto.
    + intros. apply real_mul; auto using real_sub.
    + intros a Ha. destruct (lt_le_cases (w a - mu) 0) as [G|G]; auto using real_sub, real_0.
      * rewrite pos_le_0 by (try (left; exact G); auto using real_sub).
        apply le_sub_2; auto using real_mul, real_sub, real_0.
        replace (0 - (w a - mu) * c a) with ((- (w a - mu)) * c a) by ring.
        apply le_0_mul; auto using real_opp, real_sub. left. apply lt_opp; auto using real_sub.
      * rewrite pos_0_le by auto using real_sub.
        apply le_sub_2; auto using real_mul, real_sub.
        replace (w a - mu - (w a - mu) * c a) with ((w a - mu) * (1 - c a)) by ring.
        apply le_0_mul; auto using real_sub, real_1. apply le_sub_1; auto using real_1.
  - apply le_sub_2; auto using real_mul.
    replace (m * mu - sum q c * mu) with ((m - sum q c) * mu) by ring.
    apply le_0_mul; auto using real_sub. apply le_sub_1; auto.
Qed.

(** Sums over the entries of a list do not depend on their order. *)
Lemma sum_perm (f : F -> F) (l l' : list F) : Permutation l l' ->
  sum (length l) (fun a => f (at1 l a)) = sum (length l') (fun a => f (at1 l' a)).
Proof.
  induction 1 as [|x l l' P IH|x y l|l l' l'' P1 IH1 P2 IH2]; auto.
  - cbn [length]. rewrite !sum_S_l. f_equal. exact IH.
  - cbn [length]. rewrite !sum_S_l. unfold at1. cbn [nth]. ring.
  - congruence.
Qed.

Fixpoint kofnat (n : nat) : F := match n with O => 0 | S n => kofnat n + 1 end.
Lemma kofnat_real n : real (kofnat n).
Proof. induction n; simpl; auto using real_0, real_add, real_1. Qed.
Lemma sum_const n x : sum n (fun _ => x) = kofnat n * x.
Proof. induction n as [|n IH]; simpl; [ring|]. rewrite IH. ring. Qed.

(** With [w] in decreasing order and the level at entry [r-1], the bound is the sum of
    the first [r] entries. *)
Lemma sorted_level (w : nat -> F) q r : S r <= q -> (forall a, a < q -> real (w a)) ->
  (forall i j, i <= j -> j < q -> kle (w j) (w i)) ->
  sum q (fun a => pos (w a - w r)) + kofnat (S r) * w r = sum (S r) w.
Proof.
  intros Hr Rw Hs.
  assert (Rd : forall i, i < q -> real (w i - w r)) by (intros i Hi; apply real_sub; apply Rw; lia).
  rewrite (sum_pad (S r) q); auto.
  2:{ intros i Hi. apply pos_le_0; [apply Rd; lia|].
      apply le_sub_2; [apply Rd; lia|apply real_0|].
      replace (0 - (w i - w r)) with (w r - w i) by ring.
      apply le_sub_1; [apply Rw; lia|apply Rw; lia|apply Hs; lia]. }
  rewrite <- sum_const, <- sum_add. apply sum_ext. intros i Hi.
  rewrite pos_0_le; [ring| |].
  - apply real_sub; apply Rw; lia.
  - apply le_sub_1; try (apply Rw; lia). apply Hs; lia.
Qed.
End Order.

Section Space.
Context {F : sfield} (n : nat) (W : mat F).
Add Field OptField2 : (k_field F).

Definition psd : Prop :=
  forall v : nat -> F, kle 0 (sum n (fun a => (v a)^* * sum n (fun b => W a b * v b))).
Definition positive : Prop := hermitian n W /\ psd.

Context (HW : positive).
Notation ip := (wip n W).

(** Sum of the squared weighted norms of the first [N] columns. *)
Definition energy (N : nat) (A : mat F) : F := sum N (fun j => ip A A j j).

Lemma ip_sub_l m k A B C : meq m k (ip (msub A B) C) (msub (ip A C) (ip B C)).
Proof. unfold wip. rewrite madj_msub, mmul_sub_l. reflexivity. Qed.
Lemma ip_sub_r m k A B C : meq m k (ip A (msub B C)) (msub (ip A B) (ip A C)).
Proof. unfold wip. rewrite (mmul_sub_r n k), mmul_sub_r. reflexivity. Qed.

Lemma norm_real A j : real (ip A A j j).
Proof. apply (meq_at (S j) (S j) _ _ (wip_adj (S j) (S j) n W A A (proj1 HW)) j j); lia. Qed.
Lemma norm_nonneg A j : kle 0 (ip A A j j).
Proof. exact (proj2 HW (fun a => A a j)). Qed.
(** A vector of norm zero is orthogonal to all vectors. *)
Lemma norm_0 A Y i j : ip A A i i = 0 -> ip A Y i j = 0.
Proof.
  intros H0. destruct (k_dec F (ip A Y i j) 0) as [E|N]; auto. exfalso.
  set (p := ip A Y i j) in *. set (y := ip Y Y j j).
  assert (Ry : real y) by apply norm_real. assert (Py : kle 0 y) by apply norm_nonneg.
  pose proof (lt_norm F p N) as Pc. set (c := p^* * p) in *.
  assert (Rc : real c) by apply real_norm.
  assert (Nc : c <> 0).
  { intros E. rewrite E, (lt_irrefl F 0 real_0) in Pc. discriminate. }
  set (l := (y + 1) / c).
  assert (Rl : real l) by (apply real_div; auto using real_add, real_1).
  set (u := (fun a _ => Y a j) : mat F). set (v := (fun a _ => A a i) : mat F).
  set (z := msub u (mscale (l * p) v)).
  assert (Evv : ip v v 0%nat 0%nat = 0) by exact H0.
  assert (Evu : ip v u 0%nat 0%nat = p) by reflexivity.
  assert (Euu : ip u u 0%nat 0%nat = y) by reflexivity.
  assert (Euv : ip u v 0%nat 0%nat = p^*).
  { rewrite <- Evu. symmetry.
    exact (meq_at 1 1 _ _ (wip_adj 1 1 n W v u (proj1 HW)) 0%nat 0%nat Nat.lt_0_1 Nat.lt_0_1). }
  assert (Es : forall B t, meq 1 1 (ip B (mscale t v)) (mscale t (ip B v))).
  { intros B t. unfold wip. rewrite (mmul_scale_r n 1), mmul_scale_r. reflexivity. }
  assert (Et : forall B t, meq 1 1 (ip (mscale t v) B) (mscale (t^*) (ip v B))).
  { intros B t. unfold wip. rewrite <- mmul_scale_l. apply mmul_proper; [|reflexivity].
    split. intros. unfold madj, mscale. apply conj_mul. }
  assert (Ez : ip z z 0%nat 0%nat = y - (l * c + l * c)).
  { unfold z. rewrite (meq_at 1 1 _ _ (ip_sub_l 1 1 _ _ _)) by lia. unfold msub at 1.
    rewrite !(meq_at 1 1 _ _ (ip_sub_r 1 1 _ _ _)) by lia. unfold msub.
    rewrite (meq_at 1 1 _ _ (Es u _)), (meq_at 1 1 _ _ (Et u _)) by lia.
    assert (E3 : ip (mscale (l * p) v) (mscale (l * p) v) 0%nat 0%nat = 0).
    { rewrite (meq_at 1 1 _ _ (Et _ _)) by lia. unfold mscale at 1.
      rewrite (meq_at 1 1 _ _ (Es _ _)) by lia. unfold mscale. rewrite Evv. ring. }
    rewrite E3. unfold mscale. rewrite Euu, Euv, Evu, conj_mul, Rl. unfold c. ring. }
  pose proof (norm_nonneg z 0) as G. rewrite Ez in G.
  replace (y - (l * c + l * c)) with (- (y + 1 + 1)) in G by (unfold l; field; auto).
  assert (R2 : real (y + 1 + 1)) by auto using real_add, real_1.
  assert (P2 : klt_p 0 (y + 1 + 1)).
  { apply (lt_le_trans 0 1); auto using real_0, real_1, lt_0_1.
    apply le_sub_2; auto using real_1. replace (y + 1 + 1 - 1) with (y + 1) by ring.
    apply le_0_add; auto using real_1. left. apply lt_0_1. }
  assert (P3 : klt_p (- (y + 1 + 1)) 0).
  { apply lt_opp; auto using real_opp. replace (- - (y + 1 + 1)) with (y + 1 + 1) by ring. auto. }
  apply (lt_not_le (- (y + 1 + 1)) 0); auto using real_opp, real_0.
Qed.
Lemma energy_real N A : real (energy N A).
Proof. apply sum_real. intros. apply norm_real. Qed.
Lemma energy_ext N A B : meq n N A B -> energy N A = energy N B.
Proof.
  intros H. apply sum_ext. intros j Hj.
  assert (E : meq N N (ip A A) (ip B B)) by (rewrite H; reflexivity).
  apply E; auto.
Qed.

Section Family.
(** An orthogonal family: the first [r] columns of [Q], with squared norms [d]. *)
Context (r : nat) (Q : mat F) (d : nat -> F) (HQ : meq r r (ip Q Q) (mdiag d)).
Notation E := (mdiag (fun i => pinv (d i))).

Lemma fam_norm i : i < r -> ip Q Q i i = d i.
Proof.
  intros Hi. rewrite (meq_at _ _ _ _ HQ i i) by auto. unfold mdiag. rewrite Nat.eqb_refl. reflexivity.
Qed.
Lemma fam_real i : i < r -> real (d i).
Proof. intros Hi. rewrite <- fam_norm by auto. apply norm_real. Qed.
Lemma fam_nonneg i : i < r -> kle 0 (d i).
Proof. intros Hi. rewrite <- fam_norm by auto. apply norm_nonneg. Qed.

Lemma fam_zero m Y i : i < r -> d i = 0 -> forall j, j < m -> ip Q Y i j = 0.
Proof. intros Hi E0 j Hj. apply norm_0. rewrite fam_norm; auto. Qed.
Lemma fam_DEP m Y : meq r m (mmul r (mdiag d) (mmul r E (ip Q Y))) (ip Q Y).
Proof.
  rewrite mmul_diag_l. split. intros i j Hi Hj.
  rewrite (meq_at _ _ _ _ (mmul_diag_l r m (fun i => pinv (d i)) (ip Q Y)) i j) by auto.
  destruct (k_dec F (d i) 0) as [E0|N0].
  - rewrite (fam_zero m Y i Hi E0 j Hj). ring.
  - replace (d i * (pinv (d i) * ip Q Y i j)) with (pinv (d i) * d i * ip Q Y i j) by ring.
    rewrite pinv_l by auto. ring.
Qed.

Definition residual (Y : mat F) : mat F := msub Y (mmul r Q (mmul r E (ip Q Y))).

Lemma residual_orth m Y : meq r m (ip Q (residual Y)) mzero.
Proof.
  unfold residual. rewrite ip_sub_r. apply msub_zero. rewrite <- wip_mul_r, HQ, fam_DEP. reflexivity.
Qed.

(** Any combination of the family is no closer to [Y] than the projection. *)
Lemma combination_error m Y T :
  meq m m (ip (msub Y (mmul r Q T)) (msub Y (mmul r Q T)))
    (madd (ip (residual Y) (residual Y))
       (mmul r (madj (msub T (mmul r E (ip Q Y)))) (mmul r (mdiag d) (msub T (mmul r E (ip Q Y)))))).
Proof.
  set (G := msub T (mmul r E (ip Q Y))). set (Z := residual Y).
  assert (EZ : meq n m (msub Y (mmul r Q T)) (msub Z (mmul r Q G))).
  { unfold Z, residual, G. rewrite mmul_sub_r. split. intros i j Hi Hj. unfold msub. ring. }
  rewrite EZ, ip_sub_l, ip_sub_r, ip_sub_r.
  assert (O1 : meq r m (ip Q Z) mzero) by apply residual_orth.
  assert (O2 : meq m r (ip Z Q) mzero).
  { rewrite <- (wip_adj m r n W Q Z (proj1 HW)), O1. split. intros. unfold madj, mzero. apply conj_0. }
  rewrite <- (wip_mul_r m m n r W Z Q G), O2, !wip_mul_l, O1, <- wip_mul_r, HQ.
  rewrite mmul_zero_l, mmul_zero_r. split. intros i j Hi Hj. unfold msub, madd, mzero. ring.
Qed.

(** The error of the projection. *)
Lemma residual_norm m Y :
  meq m m (ip (residual Y) (residual Y))
    (msub (ip Y Y) (mmul r (madj (ip Q Y)) (mmul r E (ip Q Y)))).
Proof.
  assert (O1 : meq r m (ip Q (residual Y)) mzero) by apply residual_orth.
  unfold residual at 1. rewrite ip_sub_l, wip_mul_l, O1. unfold residual. rewrite ip_sub_r.
  rewrite <- wip_mul_r, mmul_zero_r, <- (wip_adj m r n W Q Y (proj1 HW)).
  split. intros i j Hi Hj. unfold msub, mzero. ring.
Qed.

(** What the family captures of column [j] of [Y]. *)
Definition captured (Y : mat F) (j : nat) : F :=
  sum r (fun i => pinv (d i) * ((ip Q Y i j)^* * ip Q Y i j)).
Lemma captured_mat m Y j : j < m ->
  mmul r (madj (ip Q Y)) (mmul r E (ip Q Y)) j j = captured Y j.
Proof.
  intros Hj. unfold captured, mmul at 1. apply sum_ext. intros i Hi.
  rewrite (meq_at _ _ _ _ (mmul_diag_l r m (fun i => pinv (d i)) (ip Q Y)) i j) by auto.
  unfold madj. ring.
Qed.
Lemma captured_real Y j : real (captured Y j).
Proof.
  apply sum_real. intros i Hi. apply real_mul; [apply pinv_real, fam_real; auto|apply real_norm].
Qed.
Lemma captured_nonneg Y j : kle 0 (captured Y j).
Proof.
  apply sum_nonneg; intros i Hi.
  - apply real_mul; [apply pinv_real, fam_real; auto|apply real_norm].
  - apply le_0_mul; [apply pinv_real, fam_real; auto|apply real_norm| |apply le_norm].
    apply pinv_nonneg; [apply fam_real|apply fam_nonneg]; auto.
Qed.
Lemma residual_at Y j : ip (residual Y) (residual Y) j j = ip Y Y j j - captured Y j.
Proof.
  rewrite (meq_at _ _ _ _ (residual_norm (S j) Y) j j) by lia. unfold msub.
  rewrite (captured_mat (S j)) by lia. reflexivity.
Qed.
Lemma bessel Y j : kle (captured Y j) (ip Y Y j j).
Proof.
  apply le_sub_2; [apply captured_real|apply norm_real|]. rewrite <- residual_at. apply norm_nonneg.
Qed.

Lemma combination_bound N Y T :
  kle (energy N Y - sum N (captured Y)) (energy N (msub Y (mmul r Q T))).
Proof.
  unfold energy. rewrite <- sum_sub. apply sum_le.
  - intros. apply real_sub; [apply norm_real|apply captured_real].
  - intros. apply norm_real.
  - intros j Hj. rewrite <- residual_at.
    rewrite (meq_at _ _ _ _ (combination_error (S j) Y T) j j) by lia. unfold madd.
    apply le_sub_2; [apply norm_real| |].
    + apply real_add; [apply norm_real|].
      unfold mmul at 1. apply sum_real. intros i Hi.
      rewrite (meq_at _ _ _ _ (mmul_diag_l r (S j) d (msub T (mmul r E (ip Q Y)))) i j) by (auto; lia).
      set (g := msub T (mmul r E (ip Q Y)) i j). unfold madj. fold g.
      replace (g^* * (d i * g)) with (d i * (g^* * g)) by ring.
      apply real_mul; [apply fam_real; auto|apply real_norm].
    + set (u := ip (residual Y) (residual Y) j j).
      match goal with |- kle 0 (u + ?t - u) => replace (u + t - u) with t by ring end.
      unfold mmul at 1. apply sum_nonneg; intros i Hi;
      rewrite (meq_at _ _ _ _ (mmul_diag_l r (S j) d (msub T (mmul r E (ip Q Y)))) i j) by (auto; lia);
      set (g := msub T (mmul r E (ip Q Y)) i j); unfold madj; fold g;
      replace (g^* * (d i * g)) with (d i * (g^* * g)) by ring.
      * apply real_mul; [apply fam_real; auto|apply real_norm].
      * apply le_0_mul; [apply fam_real; auto|apply real_norm|apply fam_nonneg; auto|apply le_norm].
Qed.
End Family.

(** Gram-Schmidt: any vectors are combinations of an orthogonal family. *)
Lemma gram_schmidt r (A : mat F) : exists Q T d,
  meq n r A (mmul r Q T) /\ meq r r (ip Q Q) (mdiag d).
Proof.
  induction r as [|r (Q & T & d & EA & HQ)].
  - exists A, A, (fun _ => 0). split; split; intros; lia.
  - set (P := mmul r (mdiag (fun i => pinv (d i))) (ip Q A)).
    set (Z := residual r Q d A).
    set (Q' := fun i j => if j <? r then Q i j else Z i j).
    set (T' := fun i j => if j <? r then (if i <? r then T i j else 0)
                          else (if i <? r then P i j else 1)).
    set (d' := fun j => if j <? r then d j else ip Z Z j j).
    exists Q', T', d'.
    assert (O1 : meq r (S r) (ip Q Z) mzero) by (apply residual_orth; auto).
    assert (O2 : meq (S r) r (ip Z Q) mzero).
    { rewrite <- (wip_adj (S r) r n W Q Z (proj1 HW)), O1. split. intros. unfold madj, mzero. apply conj_0. }
    split.
    + split. intros i j Hi Hj. unfold mmul. cbn [sum].
      unfold Q' at 2, T' at 2. rewrite Nat.ltb_irrefl.
      destruct (Nat.ltb_spec j r) as [H|H].
      * rewrite (meq_at _ _ _ _ EA i j) by auto. unfold mmul.
        rewrite (sum_ext r _ (fun l => Q' i l * T' l j)); [ring|].
        intros l Hl. unfold Q', T'. rewrite (proj2 (Nat.ltb_lt l r) Hl), (proj2 (Nat.ltb_lt j r) H). reflexivity.
      * assert (j = r) by lia. subst j.
        rewrite (sum_ext r _ (fun l => Q i l * P l r)).
        2:{ intros l Hl. unfold Q', T'. rewrite (proj2 (Nat.ltb_lt l r) Hl), Nat.ltb_irrefl. reflexivity. }
        unfold Z, residual, msub. fold P. unfold mmul at 1. ring.
    + split. intros i j Hi Hj.
      assert (EQ : ip Q' Q' i j = ip (if i <? r then Q else Z) (if j <? r then Q else Z) i j).
      { unfold wip, mmul at 1 3. apply sum_ext. intros l Hl. unfold madj, mmul. f_equal.
        - unfold Q'. destruct (i <? r); reflexivity.
        - apply sum_ext. intros l' Hl'. unfold Q'. destruct (j <? r); reflexivity. }
      rewrite EQ. unfold mdiag, d'. destruct (Nat.ltb_spec i r) as [H1|H1], (Nat.ltb_spec j r) as [H2|H2].
      * apply HQ; auto.
      * rewrite (meq_at _ _ _ _ O1 i j) by auto. rewrite (proj2 (Nat.eqb_neq i j)) by lia. reflexivity.
      * rewrite (meq_at _ _ _ _ O2 i j) by auto. rewrite (proj2 (Nat.eqb_neq i j)) by lia. reflexivity.
      * assert (i = j) by lia. subst j. rewrite Nat.eqb_refl. reflexivity.
Qed.

(** Data whose correlations are diagonalised: [X = Y V^H] with [V^H V = 1] and the
    columns of [Y] orthogonal with squared norms [w]. *)
Section Data.
Context (N q : nat) (X V : mat F) (w : nat -> F).
Context (HV : meq q q (mmul N (madj V) V) mid).
Context (HC : meq N N (ip X X) (mmul q V (mmul q (mdiag w) (madj V)))).
Notation Y := (mmul N X V).

Lemma data_Y : meq q q (ip Y Y) (mdiag w).
Proof.
  rewrite wip_mul_l, <- wip_mul_r, HC.
  rewrite !mmul_assoc. rewrite HV, mmul_id_r, <- mmul_assoc, HV, mmul_id_l. reflexivity.
Qed.
Lemma data_X m Q : meq m N (ip Q X) (ip Q (mmul q Y (madj V))).
Proof.
  set (P := mmul q V (madj V)).
  assert (EP : meq n N (mmul q Y (madj V)) (mmul N X P)) by (unfold P; rewrite mmul_assoc; reflexivity).
  rewrite EP. apply msub_zero. rewrite <- ip_sub_r.
  cut (meq N N (ip (msub X (mmul N X P)) (msub X (mmul N X P))) mzero).
  { intros HZ. rewrite <- (wip_adj m N n W _ Q (proj1 HW)). split. intros i j Hi Hj. unfold madj, mzero.
    rewrite norm_0; [apply conj_0|]. apply HZ; auto. }
  assert (PV : meq N q (mmul N P V) V) by (unfold P; rewrite mmul_assoc, HV, mmul_id_r; reflexivity).
  assert (PA : meq N N (madj P) P) by (unfold P; rewrite madj_mmul, madj_madj; reflexivity).
  assert (VP : meq q N (mmul N (madj V) P) (madj V)).
  { rewrite <- PA, <- madj_mmul, PV. reflexivity. }
  assert (CP : meq N N (mmul N (ip X X) P) (ip X X)).
  { rewrite HC, !mmul_assoc, VP. reflexivity. }
  assert (PC : meq N N (mmul N P (ip X X)) (ip X X)).
  { rewrite HC, <- !mmul_assoc, PV. reflexivity. }
  assert (E1 : meq N N (ip X (mmul N X P)) (ip X X)) by (rewrite <- wip_mul_r; exact CP).
  assert (E2 : meq N N (ip (mmul N X P) X) (ip X X)) by (rewrite wip_mul_l, PA; exact PC).
  assert (E3 : meq N N (ip (mmul N X P) (mmul N X P)) (ip X X)) by (rewrite wip_mul_l, E1, PA; exact PC).
  rewrite ip_sub_l, ip_sub_r, ip_sub_r, E1, E2, E3.
  split. intros i j Hi Hj. unfold msub, mzero. ring.
Qed.

Lemma data_w_real a : a < q -> real (w a).
Proof. apply (fam_real q Y w data_Y). Qed.
Lemma data_w_nonneg a : a < q -> kle 0 (w a).
Proof. apply (fam_nonneg q Y w data_Y). Qed.

(** Trace of [V M V^H]. *)
Lemma trace_conj (M : mat F) :
  sum N (fun j => mmul q V (mmul q M (madj V)) j j) = sum q (fun a => M a a).
Proof.
  transitivity (sum N (fun j => sum q (fun a => sum q (fun b => M a b * ((V j b)^* * V j a))))).
  { apply sum_ext. intros j Hj. unfold mmul. apply sum_ext. intros a Ha.
    rewrite <- sum_mul_l. apply sum_ext. intros b Hb. unfold madj. ring. }
  rewrite sum_swap. apply sum_ext. intros a Ha. rewrite sum_swap.
  rewrite (sum_delta q a).
  - rewrite sum_mul_l. pose proof (meq_at _ _ _ _ HV a a Ha Ha) as G. unfold mmul, madj, mid in G.
    rewrite Nat.eqb_refl in G. rewrite G. ring.
  - auto.
  - intros b Hb Hne. rewrite sum_mul_l. pose proof (meq_at _ _ _ _ HV b a Hb Ha) as G.
    unfold mmul, madj, mid in G. rewrite (proj2 (Nat.eqb_neq b a)) in G by auto.
    rewrite G. ring.
Qed.

Lemma energy_data : energy N X = sum q w.
Proof.
  unfold energy. transitivity (sum N (fun j => mmul q V (mmul q (mdiag w) (madj V)) j j)).
  - apply sum_ext. intros j Hj. apply HC; auto.
  - rewrite trace_conj. apply sum_ext. intros a Ha. unfold mdiag. rewrite Nat.eqb_refl. reflexivity.
Qed.

(** No orthogonal family of [r] vectors captures more than the level bound. *)
Lemma captured_bound r Q d mu : meq r r (ip Q Q) (mdiag d) -> real mu -> kle 0 mu ->
  kle (sum N (captured r Q d X)) (sum q (fun a => pos (w a - mu)) + kofnat r * mu).
Proof.
  intros HQ Rmu Hmu.
  set (P := ip Q Y).
  (* in terms of the orthogonal data *)
  assert (E1 : sum N (captured r Q d X) = sum q (captured r Q d Y)).
  { set (D := mdiag (fun i => pinv (d i))).
    assert (EP : meq r N (ip Q X) (mmul q P (madj V))).
    { rewrite data_X. unfold P. rewrite wip_mul_r. reflexivity. }
    transitivity (sum N (fun j => mmul q V (mmul q (mmul r (madj P) (mmul r D P)) (madj V)) j j)).
    - apply sum_ext. intros j Hj. rewrite <- (captured_mat r Q d N X j Hj). fold D.
      assert (G : meq N N (mmul r (madj (ip Q X)) (mmul r D (ip Q X)))
                    (mmul q V (mmul q (mmul r (madj P) (mmul r D P)) (madj V)))).
      { rewrite EP, madj_mmul, madj_madj, !mmul_assoc. reflexivity. }
      apply G; auto.
    - rewrite trace_conj. apply sum_ext. intros a Ha. apply (captured_mat r Q d q Y a Ha). }
  rewrite E1.
  set (f := fun a => pinv (w a)).
  set (c := fun a => f a * captured r Q d Y a).
  assert (Rf : forall a, a < q -> real (f a)) by (intros; apply pinv_real, data_w_real; auto).
  assert (Hf : forall a, a < q -> kle 0 (f a)).
  { intros. apply pinv_nonneg; [apply data_w_real|apply data_w_nonneg]; auto. }
  assert (Rg : forall a, real (captured r Q d Y a)) by (intros; apply captured_real; auto).
  assert (Rc : forall a, a < q -> real (c a)) by (intros; apply real_mul; auto).
  assert (Bg : forall a, a < q -> kle (captured r Q d Y a) (w a)).
  { intros a Ha. rewrite <- (fam_norm q Y w data_Y a Ha). apply bessel. auto. }
  assert (Ewc : forall a, a < q -> captured r Q d Y a = w a * c a).
  { intros a Ha. unfold c, f. destruct (k_dec F (w a) 0) as [E0|N0].
    - pose proof (Bg a Ha) as G. rewrite E0 in G |- *.
      rewrite (le_antisym (captured r Q d Y a) 0); auto using real_0; [ring|].
      apply captured_nonneg. auto.
    - transitivity (pinv (w a) * w a * captured r Q d Y a); [|ring]. rewrite pinv_l by auto. ring. }
  rewrite (sum_ext q _ (fun a => w a * c a)) by auto.
  apply level_bound; auto using kofnat_real.
  - apply data_w_real.
  - intros a Ha. apply le_0_mul; auto. apply captured_nonneg. auto.
  - intros a Ha. apply (le_trans _ (f a * w a)); auto using real_1.
    + apply real_mul; auto. apply data_w_real; auto.
    + apply le_sub_2; auto. { apply real_mul; auto. apply data_w_real; auto. }
      unfold c. replace (f a * w a - f a * captured r Q d Y a) with (f a * (w a - captured r Q d Y a)) by ring.
      apply le_0_mul; auto. { apply real_sub; auto. apply data_w_real; auto. }
      apply le_sub_1; auto. apply data_w_real; auto.
    + apply pinv_mul_le.
  - (* adding the c up over the data, for each member of the family *)
    assert (E2 : sum q c = sum r (fun i => pinv (d i) * captured q Y w Q i)).
    { unfold c, captured. transitivity (sum q (fun a => sum r (fun i =>
        pinv (d i) * (f a * ((ip Q Y i a)^* * ip Q Y i a))))).
      - apply sum_ext. intros a Ha. rewrite <- sum_mul_l. apply sum_ext. intros i Hi. ring.
      - rewrite sum_swap. apply sum_ext. intros i Hi. rewrite <- sum_mul_l. apply sum_ext. intros a Ha.
        assert (EA : ip Q Y i a = (ip Y Q a i)^*).
        { symmetry. apply (meq_at r q _ _ (wip_adj r q n W Y Q (proj1 HW)) i a); auto. }
        rewrite EA, conj_conj. unfold f. ring. }
    rewrite E2. replace (kofnat r) with (sum r (fun _ => 1 : F)).
    2:{ rewrite sum_const. ring. }
    assert (Rd : forall i, i < r -> real (d i)) by exact (fam_real r Q d HQ).
    apply sum_le.
    + intros i Hi. apply real_mul; [apply pinv_real; auto|apply captured_real]. apply data_Y.
    + intros. apply real_1.
    + intros i Hi. apply (le_trans _ (pinv (d i) * d i)); auto using real_1.
      * apply real_mul; [apply pinv_real; auto|apply captured_real]. apply data_Y.
      * apply real_mul; auto. apply pinv_real; auto.
      * apply le_sub_2; auto.
        { apply real_mul; [apply pinv_real; auto|apply captured_real]. apply data_Y. }
        { apply real_mul; auto. apply pinv_real; auto. }
        replace (pinv (d i) * d i - pinv (d i) * captured q Y w Q i)
          with (pinv (d i) * (d i - captured q Y w Q i)) by ring.
        apply le_0_mul.
        -- apply pinv_real; auto.
        -- apply real_sub; auto. apply captured_real. apply data_Y.
        -- apply pinv_nonneg; auto. apply (fam_nonneg r Q d HQ); auto.
        -- apply le_sub_1; auto. { apply captured_real, data_Y. }
           rewrite <- (fam_norm r Q d HQ i Hi). apply bessel. apply data_Y.
      * apply pinv_mul_le.
Qed.

(** Hence no approximation by combinations of [r] vectors beats it. *)
Lemma approximation_bound r A B mu : real mu -> kle 0 mu ->
  kle (energy N X - (sum q (fun a => pos (w a - mu)) + kofnat r * mu))
      (energy N (msub X (mmul r A B))).
Proof.
  intros Rmu Hmu. destruct (gram_schmidt r A) as (Q & T & d & EA & HQ).
  assert (E : meq n N (msub X (mmul r A B)) (msub X (mmul r Q (mmul r T B)))).
  { rewrite EA, mmul_assoc. reflexivity. }
  rewrite (energy_ext N _ _ E).
  assert (Rc : real (sum N (captured r Q d X))) by (apply sum_real; intros; apply captured_real; auto).
  assert (Rb : real (sum q (fun a => pos (w a - mu)) + kofnat r * mu)).
  { apply real_add; [apply sum_real|apply real_mul; auto using kofnat_real].
    intros. apply pos_real, real_sub; auto. apply data_w_real; auto. }
  apply (le_trans _ (energy N X - sum N (captured r Q d X))); auto using real_sub, energy_real.
  - pose proof (captured_bound r Q d mu HQ Rmu Hmu) as G. apply le_sub_1 in G; auto.
    apply le_sub_2; auto using real_sub, energy_real.
    match goal with |- kle 0 ?x => match type of G with kle 0 ?y => replace x with y by ring end end.
    exact G.
  - apply combination_bound. auto.
Qed.
End Data.
End Space.
