(** Lemmas for C31. *)
From Coq Require Import List Arith Lia Bool ZArith Field Ring Setoid Morphisms.
Import ListNotations.
From Verif Require Import Prelude Field Matrix NdArray DecompModel DecompProofs VSArraysModel EraModel EraProofs
  Lti OkidModel.
Open Scope nat_scope.

Section Okid.
Context {F : sfield}.
Add Field Okid_F : (k_field F).
Open Scope k_scope.

(** The regressors: the inputs, then for k = 0, 1, ... the inputs and outputs k + 1
    samples earlier (zero before the first sample). *)
Definition regressor (m p : nat) (u y : nat -> nat -> F) (r t : nat) : F :=
  if (r <? m)%nat then u t r else
  let k := ((r - m) / (m + p))%nat in let j := ((r - m) mod (m + p))%nat in
  if (t <? S k)%nat then 0 else
  if (j <? m)%nat then u (t - S k)%nat j else y (t - S k)%nat (j - m)%nat.

Lemma regressor_first m p u y r t : r < m -> regressor m p u y r t = u t r.
Proof. intros H. unfold regressor. rewrite (proj2 (Nat.ltb_lt r m)) by auto. reflexivity. Qed.
Lemma block_pos m q k j : j < q -> ((m + k * q + j - m) / q = k /\ (m + k * q + j - m) mod q = j)%nat.
Proof.
  intros H. replace (m + k * q + j - m)%nat with (k * q + j)%nat by lia. split.
  - symmetry. apply (Nat.div_unique _ q k j); lia.
  - symmetry. apply (Nat.mod_unique _ q k j); lia.
Qed.
Lemma regressor_block m p u y k j t : j < m + p -> regressor m p u y (m + k * (m + p) + j) t =
  if (t <? S k)%nat then 0 else if (j <? m)%nat then u (t - S k)%nat j else y (t - S k)%nat (j - m)%nat.
Proof.
  intros H. unfold regressor. rewrite (proj2 (Nat.ltb_ge (m + k * (m + p) + j) m)) by lia.
  destruct (block_pos m (m + p) k j H) as [-> ->]. reflexivity.
Qed.

Lemma okid_V_ok (inputs outputs : arr F) N : let m := nr inputs in let p := nr outputs in let ns := nc inputs in
  (N <= ns \/ ns <= 2)%nat -> exists V, okid_V inputs outputs N = Ok V /\ nr V = (m + (m + p) * N)%nat /\ nc V = ns /\
  forall r t, r < nr V -> t < ns ->
    ent V r t = kre (regressor m p (fun t j => ent inputs j t) (fun t j => ent outputs j t) r t).
Proof.
  intros m p ns HN. set (q := (m + p)%nat). set (u := fun t j => ent inputs j t). set (y := fun t j => ent outputs j t).
  set (io := fun i j : nat => if (i <? m)%nat then ent inputs i j else ent outputs (i - m)%nat j).
  set (P := fun i (V : mat F) => (forall r t, r < m -> t < ns -> V r t = kre (u t r)) /\
     forall k j t, j < q -> t < ns -> V (m + k * q + j)%nat t =
       if (k + 1 <? i)%nat then (if (t <? S k)%nat then 0 else kre (io j (t - S k)%nat)) else 0).
  destruct (foldM_seq (fun V i => if (ns <? i)%nat && (2 <=? 2 * ns - i)%nat then Raise ValueError else
          Ok (set_block (m + (i - 1) * q) q i (ns - i) io V)) P N 1%nat (set_block 0 m 0 ns (ent inputs) mzero))
    as (V & EV & PV).
  - split.
    + intros r t Hr Ht. apply (set_block_in 0 m 0 ns (ent inputs) mzero r t); auto.
    + intros k j t Hj Ht. rewrite (proj2 (Nat.ltb_ge (k + 1) 1)) by lia. unfold set_block.
      rewrite (proj2 (Nat.ltb_ge (m + k * q + j) (0 + m))) by lia. rewrite andb_false_r. reflexivity.
  - intros i V Hi [P1 P2].
    assert (G : ((ns <? i) && (2 <=? 2 * ns - i))%nat = false).
    { destruct (Nat.ltb_spec ns i); auto. apply Nat.leb_gt. lia. }
    rewrite G. eexists. split; [reflexivity|]. split.
    + intros r t Hr Ht. unfold set_block. rewrite (proj2 (Nat.leb_gt (m + (i - 1) * q) r)) by (apply Nat.lt_le_trans with m; [auto|apply Nat.le_add_r]). apply P1; auto.
    + intros k j t Hj Ht. destruct (Nat.eq_dec k (i - 1)) as [->|Nk].
      * rewrite (proj2 (Nat.ltb_lt (i - 1 + 1) (i + 1))) by lia.
        destruct (Nat.ltb_spec t (S (i - 1))) as [L|L].
        -- unfold set_block. rewrite (proj2 (Nat.leb_gt i t)) by lia. rewrite andb_false_r. cbn [andb].
           rewrite P2 by auto. rewrite (proj2 (Nat.ltb_ge (i - 1 + 1) i)) by lia. reflexivity.
        -- pose proof (set_block_in (m + (i - 1) * q) q i (ns - i) io V j (t - i)) as E.
           replace (i + (t - i))%nat with t in E by lia. rewrite E by lia.
           replace (t - S (i - 1))%nat with (t - i)%nat by lia. reflexivity.
      * assert (B : ((m + (i - 1) * q <=? m + k * q + j) && (m + k * q + j <? m + (i - 1) * q + q))%nat = false).
        { apply not_true_iff_false. rewrite andb_true_iff, Nat.leb_le, Nat.ltb_lt. intros [B1 B2]. apply Nk.
          assert (k < i \/ i <= k)%nat as [C|C] by lia.
          - assert (k < i - 1 \/ k = i - 1)%nat as [D|D] by lia; auto. exfalso.
            assert ((k + 1) * q <= (i - 1) * q)%nat by (apply Nat.mul_le_mono_r; lia). lia.
          - exfalso. assert ((i - 1 + 1) * q <= k * q)%nat by (apply Nat.mul_le_mono_r; lia). lia. }
        unfold set_block. rewrite B. cbn [andb]. rewrite P2 by auto.
        destruct (Nat.ltb_spec (k + 1) i); destruct (Nat.ltb_spec (k + 1) (i + 1)); auto; lia.
  - exists (Arr (m + q * N) ns V). unfold okid_V. fold m p ns q io. rewrite EV. cbn [rbind]. split; [reflexivity|].
    cbn [nr nc ent]. do 2 (split; [reflexivity|]). intros r t Hr Ht. destruct PV as [P1 P2].
    destruct (Nat.lt_ge_cases r m) as [L|L].
    + rewrite P1, regressor_first by auto. reflexivity.
    + assert (Hq : (0 < q)%nat) by (destruct q; lia).
      pose proof (Nat.div_mod (r - m) q ltac:(lia)) as Dm. pose proof (Nat.mod_upper_bound (r - m) q ltac:(lia)) as Um.
      set (k := ((r - m) / q)%nat) in *. set (j := ((r - m) mod q)%nat) in *.
      assert (Er : r = (m + k * q + j)%nat) by lia.
      assert (Hk : (k < N)%nat) by (unfold k; apply Nat.div_lt_upper_bound; lia).
      rewrite Er, P2, regressor_block by auto. rewrite (proj2 (Nat.ltb_lt (k + 1) (1 + N))) by lia.
      destruct (t <? S k)%nat; [|unfold io, u, y; destruct (j <? m)%nat; reflexivity].
      unfold kre. rewrite conj_0. field. apply two_neq_0.
Qed.
Lemma okid_V_bad (inputs outputs : arr F) N : (nc inputs < N)%nat -> (3 <= nc inputs)%nat ->
  okid_V inputs outputs N = Raise ValueError.
Proof.
  intros H1 H2. unfold okid_V. set (f := fun (V : mat F) (i : nat) => _). rewrite (foldM_fails f ValueError); auto.
  - intros s a _. unfold f. destruct ((nc inputs <? a) && (2 <=? 2 * nc inputs - a))%nat; eauto.
  - exists (S (nc inputs)). split; [apply in_seq; lia|]. intros s. unfold f.
    rewrite (proj2 (Nat.ltb_lt (nc inputs) (S (nc inputs)))) by lia.
    rewrite (proj2 (Nat.leb_le 2 (2 * nc inputs - S (nc inputs)))) by lia. reflexivity.
Qed.

(** A least squares solution is exact when the equations have a solution. *)
Lemma ls_exact (A B X : arr F) (Z : mat F) : lstsq_contract A B X ->
  meq (nr A) (nc B) (mmul (nc A) (ent A) Z) (ent B) ->
  meq (nr A) (nc B) (mmul (nc A) (ent A) (ent X)) (ent B).
Proof.
  intros H HZ. pose proof (ls_normal _ _ _ H) as HN.
  set (E := mmul (nc A) (ent A) (msub (ent X) Z)).
  assert (HE : meq (nr A) (nc B) (msub (mmul (nc A) (ent A) (ent X)) (ent B)) E).
  { unfold E. rewrite mmul_sub_r, HZ. reflexivity. }
  rewrite HE in HN.
  assert (G : meq (nc B) (nc B) (mmul (nr A) (madj E) E) mzero).
  { unfold E at 1. rewrite madj_mmul, mmul_assoc, HN, mmul_zero_r. reflexivity. }
  apply gram_zero in G. rewrite G in HE. split. intros i j Hi Hj.
  pose proof (meq_at _ _ _ _ HE i j Hi Hj) as Q. unfold msub, mzero in Q.
  transitivity (mmul (nc A) (ent A) (ent X) i j - ent B i j + ent B i j); [ring|rewrite Q; ring].
Qed.

(** The blocks of a row of coefficients, zero past the window. *)
Definition co_a (m p N : nat) (M : mat F) (k : nat) : mat F :=
  if (k <? N)%nat then fun i j => M i (m + k * (m + p) + j)%nat else mzero.
Definition co_b (m p N : nat) (M : mat F) (k : nat) : mat F :=
  if (k <? N)%nat then fun i j => M i (m + k * (m + p) + m + j)%nat else mzero.

Lemma sum_cut N t (f : nat -> F) :
  sum N (fun k => if (k <? t)%nat then f k else 0) = sum t (fun k => if (k <? N)%nat then f k else 0).
Proof.
  destruct (Nat.le_ge_cases N t) as [L|L].
  - rewrite (sum_pad N t) by (auto; intros i Hi; rewrite (proj2 (Nat.ltb_ge i N)) by lia; reflexivity).
    apply sum_ext. intros i Hi. rewrite (proj2 (Nat.ltb_lt i t)), (proj2 (Nat.ltb_lt i N)) by lia. reflexivity.
  - rewrite (sum_pad t N) by (auto; intros i Hi; rewrite (proj2 (Nat.ltb_ge i t)) by lia; reflexivity).
    apply sum_ext. intros i Hi. rewrite (proj2 (Nat.ltb_lt i t)), (proj2 (Nat.ltb_lt i N)) by lia. reflexivity.
Qed.
Lemma fit_eq m p N (M : mat F) u y i t :
  sum (m + (m + p) * N) (fun r => M i r * regressor m p u y r t) =
  mv m M (u t) i + sum t (fun k => mv m (co_a m p N M k) (u (t - 1 - k)%nat) i + mv p (co_b m p N M k) (y (t - 1 - k)%nat) i).
Proof.
  rewrite sum_split. f_equal.
  - apply sum_ext. intros r Hr. rewrite regressor_first by auto. reflexivity.
  - rewrite sum_blocks.
    set (f := fun k => mv m (fun i j => M i (m + k * (m + p) + j)%nat) (u (t - 1 - k)%nat) i +
                       mv p (fun i j => M i (m + k * (m + p) + m + j)%nat) (y (t - 1 - k)%nat) i).
    transitivity (sum N (fun k => if (k <? t)%nat then f k else 0)).
    + apply sum_ext. intros k Hk.
      rewrite (sum_ext (m + p) _ (fun j => M i (m + k * (m + p) + j)%nat *
        (if (t <? S k)%nat then 0 else if (j <? m)%nat then u (t - S k)%nat j else y (t - S k)%nat (j - m)%nat))).
      2: { intros j Hj. rewrite <- (regressor_block m p u y k j t) by auto. rewrite !Nat.add_assoc. reflexivity. }
      destruct (Nat.ltb_spec k t) as [L|L].
      * rewrite (proj2 (Nat.ltb_ge t (S k))) by lia. rewrite sum_split. unfold f. replace (t - 1 - k)%nat with (t - S k)%nat by lia.
        f_equal; apply sum_ext; intros j Hj.
        -- rewrite (proj2 (Nat.ltb_lt j m)) by auto. reflexivity.
        -- rewrite (proj2 (Nat.ltb_ge (m + j) m)) by lia. replace (m + j - m)%nat with j by lia.
           rewrite Nat.add_assoc. reflexivity.
      * rewrite (proj2 (Nat.ltb_lt t (S k))) by lia. apply sum_0. intros. ring.
    + rewrite sum_cut. apply sum_ext. intros k Hk. unfold co_a, co_b. destruct (k <? N)%nat; [reflexivity|].
      rewrite !mv_mzero. ring.
Qed.

(** The estimates. *)
Lemma est_length p ain aout l est : length (fold_left (okid_step (F:=F) p ain aout) l est) = (length est + length l)%nat.
Proof.
  revert est. induction l as [|k l IH]; intros est; simpl; [lia|]. rewrite IH. unfold okid_step. rewrite app_length. simpl. lia.
Qed.
Lemma est_keep p ain aout l : forall est k, k < length est ->
  nth k (fold_left (okid_step (F:=F) p ain aout) l est) mzero = nth k est mzero.
Proof.
  induction l as [|a l IH]; intros est k Hk; simpl; auto. rewrite IH.
  - unfold okid_step. apply app_nth1. auto.
  - unfold okid_step. rewrite app_length. simpl. lia.
Qed.
Lemma est_app p ain aout (D : mat F) n k : k <= n ->
  fold_left (okid_step p ain aout) (seq 1 n) [D] =
  fold_left (okid_step p ain aout) (seq (1 + k) (n - k)) (fold_left (okid_step p ain aout) (seq 1 k) [D]).
Proof. intros H. rewrite <- fold_left_app, <- seq_app. f_equal. f_equal. lia. Qed.
Lemma est_rec p ain aout (D : mat F) n k i j : k < n ->
  let est := fold_left (okid_step p ain aout) (seq 1 n) [D] in
  nth (S k) est mzero i j = kre (ain (S k) i j -
     sum (S k) (fun l => mmul p (aout (l + 1)%nat) (nth (k - l) est mzero) i j)).
Proof.
  intros Hk est.
  assert (K : forall l, l <= k -> nth l est mzero = nth l (fold_left (okid_step p ain aout) (seq 1 k) [D]) mzero).
  { intros l Hl. unfold est. rewrite (est_app p ain aout D n k) by lia. apply est_keep. rewrite est_length, seq_length. simpl. lia. }
  unfold est at 1. rewrite (est_app p ain aout D n (S k)) by lia.
  rewrite est_keep by (rewrite est_length, seq_length; simpl; lia).
  rewrite seq_S, fold_left_app. cbn [fold_left]. unfold okid_step at 1.
  rewrite app_nth2 by (rewrite est_length, seq_length; simpl; lia).
  rewrite est_length, seq_length. cbn [length]. replace (S k - (1 + k))%nat with O by lia. cbn [nth].
  replace (1 + k)%nat with (S k) by lia. f_equal. f_equal. apply sum_ext. intros l Hl.
  unfold mmul. apply sum_ext. intros a Ha. rewrite K by lia. replace (S k - (l + 1))%nat with (k - l)%nat by lia. reflexivity.
Qed.
Lemma est_0 p ain aout (D : mat F) n : nth 0 (fold_left (okid_step p ain aout) (seq 1 n) [D]) mzero = D.
Proof. rewrite est_keep by (simpl; lia). reflexivity. Qed.

Section Est.
Variables (m p N : nat) (aug : mat F).
Hypothesis (Hreal : forall i r, i < p -> (r < m + (m + p) * N)%nat -> real (aug i r)).
Let q := (m + p)%nat.
Let ain k : mat F := fun i j => aug i (m + (k - 1) * q + j)%nat.
Let aout k : mat F := fun i j => - aug i (m + (k - 1) * q + m + j)%nat.
Let est := fold_left (okid_step p ain aout) (seq 1 (N - 1)) [fun i j => kre (aug i j)].

Lemma col_lt k j : k < N -> j < q -> (m + k * q + j < m + (m + p) * N)%nat.
Proof. intros Hk Hj. fold q. assert ((k + 1) * q <= N * q)%nat by (apply Nat.mul_le_mono_r; lia). lia. Qed.
Lemma est_real k i j : k < N -> real (nth k est mzero i j).
Proof.
  intros Hk. destruct k as [|k].
  - unfold est. rewrite est_0. apply real_kre.
  - unfold est. rewrite est_rec by lia. apply real_kre.
Qed.
Lemma est_arx : 0 < N -> arx_Markov p aug (co_a m p N aug) (co_b m p N aug) (fun k => nth k est mzero) m N.
Proof.
  intros PN. split.
  - unfold est. rewrite est_0. split. intros i j Hi Hj. apply kre_real. apply Hreal; auto.
    assert (m + p <= (m + p) * N)%nat by (destruct N; lia). lia.
  - intros k Hk. split. intros i j Hi Hj.
    assert (E0 : nth (S k) est mzero i j = kre (ain (S k) i j -
      sum (S k) (fun l => mmul p (aout (l + 1)%nat) (nth (k - l) est mzero) i j))) by (apply est_rec; lia).
    rewrite E0. clear E0.
    assert (E1 : ain (S k) i j = co_a m p N aug k i j).
    { unfold co_a, ain. rewrite (proj2 (Nat.ltb_lt k N)) by lia. replace (S k - 1)%nat with k by lia. reflexivity. }
    assert (E2 : forall l, l < S k -> mmul p (aout (l + 1)%nat) (nth (k - l) est mzero) i j =
      - mmul p (co_b m p N aug l) (nth (k - l) est mzero) i j).
    { intros l Hl. unfold mmul. rewrite <- sum_opp. apply sum_ext. intros a Ha.
      unfold co_b, aout. rewrite (proj2 (Nat.ltb_lt l N)) by lia. replace (l + 1 - 1)%nat with l by lia. fold q. ring. }
    rewrite E1. rewrite (sum_ext (S k) _ _ E2), sum_opp. unfold madd.
    rewrite kre_real; [ring|].
    assert (R : real (sum (S k) (fun l => mmul p (co_b m p N aug l) (nth (k - l) est mzero) i j))).
    { apply sum_real. intros l Hl. apply sum_real. intros a Ha. apply real_mul; [|apply est_real; lia].
      unfold co_b. rewrite (proj2 (Nat.ltb_lt l N)) by lia. apply Hreal; auto.
      pose proof (col_lt l (m + a) ltac:(lia) ltac:(unfold q; lia)) as C. fold q. lia. }
    apply real_sub; [|apply real_opp; exact R]. unfold co_a. rewrite (proj2 (Nat.ltb_lt k N)) by lia.
    apply Hreal; auto. fold q. apply col_lt; [lia|unfold q; lia].
Qed.
End Est.

(** Solutions of the recursion exist, and are unique. *)
Lemma arx_exists p m (D : mat F) a b L : exists Y, arx_Markov p D a b Y m L.
Proof.
  induction L as [|L (Y & H0 & HS)].
  - exists (fun _ => D). split; [reflexivity|]. intros; lia.
  - destruct L as [|L].
    { exists (fun _ => D). split; [reflexivity|]. intros; lia. }
    exists (fun k => if (k =? S L)%nat then madd (a L) (fun i j => sum (S L) (fun l => mmul p (b l) (Y (L - l)%nat) i j)) else Y k).
    split; [exact H0|]. intros k Hk. destruct (Nat.eqb_spec (S k) (S L)) as [E|E].
    + injection E as ->. split. intros i j Hi Hj. unfold madd. f_equal. apply sum_ext. intros l Hl.
      rewrite (proj2 (Nat.eqb_neq (L - l) (S L))) by lia. reflexivity.
    + rewrite HS by lia. split. intros i j Hi Hj. unfold madd. f_equal. apply sum_ext. intros l Hl.
      rewrite (proj2 (Nat.eqb_neq (k - l) (S L))) by lia. reflexivity.
Qed.
Lemma arx_unique p m (D D' : mat F) a a' b b' Y Y' L L' : arx_Markov p D a b Y m L -> arx_Markov p D' a' b' Y' m L' ->
  meq p m D D' -> (forall k, S k < L -> meq p m (a k) (a' k)) -> (forall k, S k < L -> meq p p (b k) (b' k)) -> L <= L' ->
  forall k, k < L -> meq p m (Y k) (Y' k).
Proof.
  intros [H0 HS] [H0' HS'] HD Ha Hb HL k. induction k as [k IH] using (well_founded_induction lt_wf). intros Hk.
  destruct k as [|k].
  - rewrite H0, H0'. exact HD.
  - rewrite HS, HS' by lia. split. intros i j Hi Hj. unfold madd. f_equal; [apply Ha; auto|].
    apply sum_ext. intros l Hl. unfold mmul. apply sum_ext. intros c Hc. f_equal.
    + apply Hb; auto. lia.
    + apply IH; auto; lia.
Qed.
End Okid.
