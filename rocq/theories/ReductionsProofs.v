(** Correctness of the reductions on the lock-step schedule, and from there on
    every schedule. *)
From stdpp Require Import gmap list.
From Coq Require Import Lia.
From Verif Require Import Prelude Spmd SpmdFacts SpmdLock ReductionsModel.
Open Scope prog_scope.

(** ** Bits *)

Lemma pow2_pos b : 0 < 2 ^ b.
Proof. apply Nat.neq_0_lt_0. apply Nat.pow_nonzero. lia. Qed.

Lemma land_pow2 i b : Nat.land (2 ^ b) i = if Nat.testbit i b then 2 ^ b else 0.
Proof.
  apply Nat.bits_inj. intros n. rewrite Nat.land_spec, Nat.pow2_bits_eqb.
  destruct (Nat.eqb_spec b n) as [->|Hne]; simpl.
  - destruct (Nat.testbit i n); [rewrite Nat.pow2_bits_true; auto|rewrite Nat.bits_0; auto].
  - destruct (Nat.testbit i b); [rewrite Nat.pow2_bits_false; auto|rewrite Nat.bits_0; auto].
Qed.

Lemma land_pow2_zero i b : (Nat.land (2 ^ b) i =? 0) = negb (Nat.testbit i b).
Proof.
  rewrite land_pow2. pose proof (pow2_pos b). destruct (Nat.testbit i b); simpl.
  - apply Nat.eqb_neq. lia.
  - reflexivity.
Qed.

Lemma lxor_clear i b : Nat.testbit i b = false -> Nat.lxor i (2 ^ b) = i + 2 ^ b.
Proof.
  intros H. symmetry. apply Nat.add_nocarry_lxor.
  rewrite Nat.land_comm, land_pow2, H. reflexivity.
Qed.
Lemma lor_clear i b : Nat.testbit i b = false -> Nat.lor i (2 ^ b) = i + 2 ^ b.
Proof.
  intros H. rewrite <- lxor_clear by auto. symmetry. apply Nat.lxor_lor.
  rewrite Nat.land_comm, land_pow2, H. reflexivity.
Qed.
Lemma ldiff_set i b : Nat.testbit i b = true ->
  2 ^ b <= i /\ Nat.ldiff i (2 ^ b) = i - 2 ^ b.
Proof.
  intros H.
  assert (E : Nat.ldiff (2 ^ b) i = 0).
  { apply Nat.bits_inj. intros n. rewrite Nat.ldiff_spec, Nat.pow2_bits_eqb, Nat.bits_0.
    destruct (Nat.eqb_spec b n) as [->|Hne]; simpl; auto. rewrite H; auto. }
  split.
  - rewrite <- (Nat.ldiff_le (2 ^ b) i); auto.
  - symmetry. apply Nat.sub_nocarry_ldiff. exact E.
Qed.
Lemma lxor_set i b : Nat.testbit i b = true -> Nat.lxor i (2 ^ b) = i - 2 ^ b.
Proof.
  intros H. destruct (ldiff_set i b H) as [Hle <-].
  apply Nat.bits_inj. intros n.
  rewrite Nat.lxor_spec, Nat.ldiff_spec, Nat.pow2_bits_eqb.
  destruct (Nat.eqb_spec b n) as [->|Hne].
  - rewrite H. reflexivity.
  - destruct (Nat.testbit i n); reflexivity.
Qed.
Lemma testbit_lxor i b : Nat.testbit (Nat.lxor i (2 ^ b)) b = negb (Nat.testbit i b).
Proof. rewrite Nat.lxor_spec, Nat.pow2_bits_true. destruct (Nat.testbit i b); auto. Qed.
Lemma lxor_lxor i b : Nat.lxor (Nat.lxor i (2 ^ b)) (2 ^ b) = i.
Proof. rewrite Nat.lxor_assoc, Nat.lxor_nilpotent, Nat.lxor_0_r. reflexivity. Qed.

(** Quotient form: [i = 2^b * q + r], the bit is the parity of [q]. *)
Lemma testbit_quot i b :
  exists q r, i = 2 ^ b * q + r /\ r < 2 ^ b /\ i / 2 ^ b = q /\ i mod 2 ^ b = r /\
    (if Nat.testbit i b then exists q', q = 2 * q' + 1 else exists q', q = 2 * q').
Proof.
  pose proof (pow2_pos b) as Hp.
  exists (i / 2 ^ b), (i mod 2 ^ b).
  pose proof (Nat.div_mod i (2 ^ b) ltac:(lia)).
  pose proof (Nat.mod_upper_bound i (2 ^ b) ltac:(lia)).
  repeat split; auto.
  pose proof (Nat.testbit_spec' i b) as E.
  pose proof (Nat.div_mod (i / 2 ^ b) 2 ltac:(lia)) as D.
  destruct (Nat.testbit i b); cbn [Nat.b2n] in E; exists (i / 2 ^ b / 2); lia.
Qed.

Lemma mul_succ_pow2 b : 2 * 2 ^ b = 2 ^ S b.
Proof. reflexivity. Qed.

(** ** Ordered folds *)

(** [x lo op x (lo+1) op ... op x (lo+n-1)] for [n >= 1]. *)
Definition seg {M} (op : M -> M -> M) (x : nat -> M) (lo n : nat) : M :=
  fold_left op (map x (seq (lo + 1) (n - 1))) (x lo).

Definition assoc_op {M} (op : M -> M -> M) : Prop :=
  forall a b c, op a (op b c) = op (op a b) c.

Lemma fold_left_assoc {M} (op : M -> M -> M) (Ha : assoc_op op) l : forall a b,
  fold_left op l (op a b) = op a (fold_left op l b).
Proof.
  induction l as [|c l IH]; intros a b; simpl; auto.
  rewrite <- Ha. apply IH.
Qed.

Lemma seg_one {M} (op : M -> M -> M) x lo : seg op x lo 1 = x lo.
Proof. reflexivity. Qed.

Lemma seg_app {M} (op : M -> M -> M) (Ha : assoc_op op) x lo n m :
  1 <= n -> 1 <= m -> op (seg op x lo n) (seg op x (lo + n) m) = seg op x lo (n + m).
Proof.
  intros Hn Hm. unfold seg.
  rewrite <- fold_left_assoc by auto.
  replace (n + m - 1) with ((n - 1) + (1 + (m - 1))) by lia.
  rewrite seq_app, map_app, fold_left_app.
  replace (lo + 1 + (n - 1)) with (lo + n) by lia.
  rewrite seq_app, map_app, fold_left_app. simpl. reflexivity.
Qed.

Section Proofs.
Context {M V O : Type}.
Context (tag_ub : nat) (eager : M -> bool) (P : nat).
Notation prog := (prog M V O).
Notation wp := (@wp M V O tag_ub eager P).

Lemma fuel_enough fuel b : P <= fuel + b -> P <= 2 ^ (fuel + b).
Proof. intros H. pose proof (Nat.pow_gt_lin_r 2 (fuel + b) ltac:(lia)). lia. Qed.

(** ** reduce *)

Section Op.
Context (op : M -> M -> M).

Definition reduce_stage (b rank : nat) (r : M) : prog M :=
  if Nat.land (2 ^ b) rank =? 0 then
    let target := Nat.lor rank (2 ^ b) in
    if target <? P then
      tmp <- recv target 0 (tag_ub - 1) ;; ret (op r tmp)
    else ret r
  else
    let target := Nat.ldiff rank (2 ^ b) mod P in
    send target 0 (tag_ub - 1) r ;;; ret r.

(** Values after the exchange with mask [2^b]. *)
Definition reduce_next (b : nat) (r : nat -> M) (i : nat) : M :=
  if Nat.testbit i b then r i
  else if i + 2 ^ b <? P then op (r i) (r (i + 2 ^ b)) else r i.

Lemma wp_reduce_stage b st (r : nat -> M) (Post : _ -> _ -> Prop) :
  Post st (reduce_next b r) ->
  wp st (fun i => reduce_stage b i (r i)) Post.
Proof.
  intros HP.
  set (snd := fun i => if Nat.testbit i b then
     Some (i - 2 ^ b, 0, tag_ub - 1, r i) else @None (nat * nat * nat * M)).
  set (rcv := fun i => if Nat.testbit i b then None else
     if i + 2 ^ b <? P then Some (i + 2 ^ b, 0, tag_ub - 1) else None).
  apply wp_ext with (qs := fun i => x <- exch (snd i) (rcv i) ;;
     ret (match x with Some tmp => op (r i) tmp | None => r i end)).
  { intros i Hi k. unfold reduce_stage, snd, rcv.
    rewrite land_pow2_zero. destruct (Nat.testbit i b) eqn:Eb; simpl.
    - destruct (ldiff_set i b Eb) as [Hle ->].
      rewrite Nat.mod_small by lia. reflexivity.
    - rewrite lor_clear by auto. destruct (i + 2 ^ b <? P); reflexivity. }
  eapply wp_bind.
  - apply (wp_exch tag_ub eager P snd rcv st
             (fun st' a => st' = st /\ a = got snd rcv)); auto.
    split.
    + intros i d c t m Hi Hs. unfold snd in Hs.
      destruct (Nat.testbit i b) eqn:Eb; [|discriminate].
      injection Hs as <- <- <- <-.
      destruct (ldiff_set i b Eb) as [Hle _].
      split; [lia|]. split; [lia|].
      unfold rcv. rewrite <- lxor_set by auto. rewrite testbit_lxor, Eb. simpl.
      rewrite lxor_set by auto.
      replace (i - 2 ^ b + 2 ^ b) with i by lia.
      rewrite (proj2 (Nat.ltb_lt i P) Hi). reflexivity.
    + intros i s c t Hi Hr. unfold rcv in Hr.
      destruct (Nat.testbit i b) eqn:Eb; [discriminate|].
      destruct (i + 2 ^ b <? P) eqn:El; [|discriminate].
      apply Nat.ltb_lt in El. injection Hr as <- <- <-. split; auto.
      exists (r (i + 2 ^ b)). unfold snd.
      rewrite <- lxor_clear by auto. rewrite testbit_lxor, Eb. simpl.
      rewrite lxor_clear by auto.
      replace (i + 2 ^ b - 2 ^ b) with i by lia. reflexivity.
  - intros st' a [-> ->].
    apply wp_results.
    apply (wp_ret tag_ub eager P st (fun i => match got snd rcv i with
                                  Some tmp => op (r i) tmp | None => r i end)).
    exists (reduce_next b r). split; auto.
    intros i Hi. unfold got, rcv, snd, reduce_next.
    destruct (Nat.testbit i b) eqn:Eb; auto.
    destruct (i + 2 ^ b <? P) eqn:El; auto.
    rewrite <- lxor_clear by auto. rewrite testbit_lxor, Eb. simpl. reflexivity.
Qed.

Definition reduce_inv (x : nat -> M) (b : nat) (r : nat -> M) : Prop :=
  forall i, i < P -> i mod 2 ^ b = 0 -> r i = seg op x i (Nat.min (2 ^ b) (P - i)).

Lemma reduce_inv_next (Ha : assoc_op op) x b r :
  reduce_inv x b r -> reduce_inv x (S b) (reduce_next b r).
Proof.
  intros H i Hi Hmod. unfold reduce_next.
  destruct (testbit_quot i b) as (q & s & Ei & Hs & Eq & Es & Hb).
  pose proof (pow2_pos b) as Hp.
  assert (Hs0 : s = 0 /\ Nat.testbit i b = false).
  { rewrite <- mul_succ_pow2 in Hmod.
    apply Nat.mod_divide in Hmod; [|lia]. destruct Hmod as [z Hz].
    assert (i mod 2 ^ b = 0).
    { apply Nat.mod_divide; [lia|]. exists (z * 2). lia. }
    split; [lia|].
    destruct (Nat.testbit i b); auto. exfalso. destruct Hb as [q' ->].
    assert (s = 0) by lia. subst s.
    assert (Hc : 2 ^ b * (2 * q' + 1) = 2 ^ b * (z * 2)) by lia.
    apply Nat.mul_cancel_l in Hc; lia. }
  destruct Hs0 as [-> Hbit]. rewrite Hbit.
  destruct (i + 2 ^ b <? P) eqn:El.
  - apply Nat.ltb_lt in El.
    rewrite (H i) by (auto; lia).
    rewrite (H (i + 2 ^ b)); [| lia |].
    + rewrite Nat.min_l by lia.
      rewrite seg_app; auto; try lia. f_equal. rewrite <- mul_succ_pow2. lia.
    + apply Nat.mod_divide; [lia|]. exists (q + 1). lia.
  - apply Nat.ltb_ge in El. rewrite (H i) by (auto; lia).
    f_equal. rewrite <- mul_succ_pow2. lia.
Qed.

(** Final values of the loop: [reduce_next] iterated. *)
Fixpoint reduce_vals (fuel b : nat) (r : nat -> M) : nat -> M :=
  match fuel with
  | 0 => r
  | S fuel => if 2 ^ b <? P then reduce_vals fuel (S b) (reduce_next b r) else r
  end.

Lemma wp_reduce_loop fuel : forall b st (r : nat -> M) (Post : _ -> _ -> Prop),
  Post st (reduce_vals fuel b r) ->
  wp st (fun i => reduce_loop P tag_ub op fuel (2 ^ b) i (r i)) Post.
Proof.
  induction fuel as [|fuel IH]; intros b st r Post HP.
  - apply wp_ret. exact HP.
  - cbn [reduce_loop reduce_vals] in *.
    destruct (2 ^ b <? P).
    + eapply wp_bind.
      * apply (wp_reduce_stage b st r (fun st' a => st' = st /\ a = reduce_next b r)).
        auto.
      * intros st' a [-> ->]. rewrite mul_succ_pow2. apply IH. exact HP.
    + apply wp_ret. exact HP.
Qed.

Lemma reduce_vals_spec (Ha : assoc_op op) x fuel : forall b r,
  0 < P -> P <= 2 ^ (fuel + b) -> reduce_inv x b r ->
  reduce_vals fuel b r 0 = seg op x 0 P.
Proof.
  induction fuel as [|fuel IH]; intros b r HP Hf Hinv; simpl.
  - simpl in Hf. rewrite (Hinv 0); [f_equal; lia|lia|apply Nat.mod_0_l; pose proof (pow2_pos b); lia].
  - destruct (2 ^ b <? P) eqn:E.
    + apply IH; auto.
      * replace (fuel + S b) with (S fuel + b) by lia. exact Hf.
      * apply reduce_inv_next; auto.
    + apply Nat.ltb_ge in E.
      rewrite (Hinv 0); [f_equal; lia|lia|apply Nat.mod_0_l; pose proof (pow2_pos b); lia].
Qed.

Definition reduce_value (x : nat -> M) : M := reduce_vals P 0 x 0.

Lemma reduce_value_spec (Ha : assoc_op op) x : 0 < P -> reduce_value x = seg op x 0 P.
Proof.
  intros HP. apply reduce_vals_spec; auto.
  - apply fuel_enough. lia.
  - intros i Hi _. change (2 ^ 0) with 1. rewrite Nat.min_l by lia. reflexivity.
Qed.

(** Without associativity: any relation between segments and values that [op]
    respects. *)
Section Rel.
Context (Rel : nat -> nat -> M -> Prop) (x : nat -> M).
Context (Rel1 : forall i, i < P -> Rel i 1 (x i)).
Context (RelOp : forall lo n m a b, 1 <= n -> 1 <= m -> lo + n + m <= P ->
  Rel lo n a -> Rel (lo + n) m b -> Rel lo (n + m) (op a b)).

Definition rel_inv (b : nat) (r : nat -> M) : Prop :=
  forall i, i < P -> i mod 2 ^ b = 0 -> Rel i (Nat.min (2 ^ b) (P - i)) (r i).

Lemma rel_inv_next b r : rel_inv b r -> rel_inv (S b) (reduce_next b r).
Proof.
  intros H i Hi Hmod. unfold reduce_next.
  destruct (testbit_quot i b) as (q & s & Ei & Hs & Eq & Es & Hb).
  pose proof (pow2_pos b) as Hp.
  assert (Hs0 : s = 0 /\ Nat.testbit i b = false).
  { rewrite <- mul_succ_pow2 in Hmod.
    apply Nat.mod_divide in Hmod; [|lia]. destruct Hmod as [z Hz].
    assert (i mod 2 ^ b = 0).
    { apply Nat.mod_divide; [lia|]. exists (z * 2). lia. }
    split; [lia|].
    destruct (Nat.testbit i b); auto. exfalso. destruct Hb as [q' ->].
    assert (s = 0) by lia. subst s.
    assert (Hc : 2 ^ b * (2 * q' + 1) = 2 ^ b * (z * 2)) by lia.
    apply Nat.mul_cancel_l in Hc; lia. }
  destruct Hs0 as [-> Hbit]. rewrite Hbit. rewrite <- mul_succ_pow2.
  destruct (i + 2 ^ b <? P) eqn:El.
  - apply Nat.ltb_lt in El.
    replace (Nat.min (2 * 2 ^ b) (P - i))
      with (2 ^ b + Nat.min (2 ^ b) (P - (i + 2 ^ b))) by lia.
    apply RelOp; try lia.
    + replace (2 ^ b) with (Nat.min (2 ^ b) (P - i)) by lia. apply H; lia.
    + apply H; [lia|]. apply Nat.mod_divide; [lia|]. exists (q + 1). lia.
  - apply Nat.ltb_ge in El.
    replace (Nat.min (2 * 2 ^ b) (P - i)) with (Nat.min (2 ^ b) (P - i)) by lia.
    apply H; lia.
Qed.

Lemma reduce_vals_rel fuel : forall b r,
  0 < P -> P <= 2 ^ (fuel + b) -> rel_inv b r ->
  Rel 0 P (reduce_vals fuel b r 0).
Proof.
  assert (Base : forall b r, 0 < P -> P <= 2 ^ b -> rel_inv b r -> Rel 0 P (r 0)).
  { intros b r HP Hb Hinv. pose proof (pow2_pos b).
    replace P with (Nat.min (2 ^ b) (P - 0)) by lia.
    apply Hinv; [lia|]. apply Nat.mod_0_l. lia. }
  induction fuel as [|fuel IH]; intros b r HP Hf Hinv; simpl.
  - eapply Base; eauto.
  - destruct (2 ^ b <? P) eqn:E.
    + apply IH; auto.
      * replace (fuel + S b) with (S fuel + b) by lia. exact Hf.
      * apply rel_inv_next; auto.
    + apply Nat.ltb_ge in E. eapply Base; eauto.
Qed.

Lemma reduce_value_rel : 0 < P -> Rel 0 P (reduce_value x).
Proof.
  intros HP. apply reduce_vals_rel; auto.
  - apply fuel_enough. lia.
  - intros i Hi _. change (2 ^ 0) with 1. rewrite Nat.min_l by lia. auto.
Qed.
End Rel.

Lemma wp_reduce root st x (Post : _ -> _ -> Prop) :
  root < P ->
  (forall a, (forall i, i < P ->
     a i = if decide (i = root) then Some (reduce_value x) else None) ->
     Post st a) ->
  wp st (fun i => reduce P tag_ub op root i (x i)) Post.
Proof.
  intros Hroot HPost. unfold reduce.
  eapply wp_bind.
  { apply (wp_reduce_loop P 0 st x (fun st' a => st' = st /\ a = reduce_vals P 0 x)).
    auto. }
  intros st' v [-> ->]. set (v := reduce_vals P 0 x).
  destruct (Nat.eq_dec root 0) as [->|Hr0].
  - simpl. apply wp_ret. apply HPost. intros i Hi.
    destruct (decide (i = 0)) as [->|Hne]; auto.
    rewrite (proj2 (Nat.eqb_neq i 0)) by auto. reflexivity.
  - set (snd := fun i => if i =? 0 then Some (root, 0, tag_ub - 1, v i)
                         else @None (nat * nat * nat * M)).
    set (rcv := fun i => if i =? root then Some (0, 0, tag_ub - 1) else None).
    eapply wp_bind with (Q := fun st' a => st' = st /\ a root = v 0).
    + apply wp_ext with (qs := fun i => z <- exch (snd i) (rcv i) ;;
         ret (match z with Some tmp => tmp | None => v i end)).
      { intros i Hi k. unfold snd, rcv.
        rewrite (proj2 (Nat.eqb_neq root 0)) by auto.
        destruct (Nat.eqb_spec i 0) as [->|Hi0].
        - rewrite (proj2 (Nat.eqb_neq 0 root)) by auto. reflexivity.
        - destruct (Nat.eqb_spec i root) as [->|Hir]; reflexivity. }
      eapply wp_bind.
      * eapply (wp_exch tag_ub eager P snd rcv st
                  (fun st' a => st' = st /\ a = got snd rcv)); auto.
        split.
        -- intros i d c t m Hi Hs. unfold snd in Hs.
           destruct (Nat.eqb_spec i 0) as [->|]; [|discriminate].
           injection Hs as <- <- <- <-. repeat split; auto; [lia|].
           unfold rcv. rewrite Nat.eqb_refl. reflexivity.
        -- intros i s c t Hi Hr. unfold rcv in Hr.
           destruct (Nat.eqb_spec i root) as [->|]; [|discriminate].
           injection Hr as <- <- <-. split; [lia|].
           exists (v 0). reflexivity.
      * intros st' a [-> ->]. apply wp_ret. split; auto.
        unfold got, rcv, snd. rewrite Nat.eqb_refl. reflexivity.
    + intros st' a [-> Ha]. apply wp_ret. apply HPost. intros i Hi.
      destruct (decide (i = root)) as [->|Hne].
      * rewrite Nat.eqb_refl, Ha. reflexivity.
      * rewrite (proj2 (Nat.eqb_neq i root)) by auto. reflexivity.
Qed.

(** ** scan and exscan *)

Definition base (b i : nat) : nat := 2 ^ b * (i / 2 ^ b).

Lemma base_facts b i : base b i <= i /\ i < base b i + 2 ^ b.
Proof.
  unfold base. pose proof (pow2_pos b).
  pose proof (Nat.div_mod i (2 ^ b) ltac:(lia)).
  pose proof (Nat.mod_upper_bound i (2 ^ b) ltac:(lia)). lia.
Qed.

Lemma base_unique b i q : 2 ^ b * q <= i < 2 ^ b * q + 2 ^ b -> base b i = 2 ^ b * q.
Proof.
  intros H. unfold base. f_equal. pose proof (pow2_pos b).
  symmetry. apply (Nat.div_unique i (2 ^ b) q (i - 2 ^ b * q)); lia.
Qed.

Lemma base_clear b i : Nat.testbit i b = false ->
  base (S b) i = base b i /\ base b (i + 2 ^ b) = base b i + 2 ^ b.
Proof.
  intros H. destruct (testbit_quot i b) as (q & r & Ei & Hr & Eq & Er & Hb).
  rewrite H in Hb. destruct Hb as [q' ->].
  assert (B : base b i = 2 ^ b * (2 * q')) by (apply base_unique; lia).
  split.
  - rewrite B. rewrite (base_unique (S b) i q'); rewrite <- mul_succ_pow2; lia.
  - rewrite B. rewrite (base_unique b (i + 2 ^ b) (2 * q' + 1)); lia.
Qed.

Lemma base_set b i : Nat.testbit i b = true ->
  2 ^ b <= base b i /\
  base (S b) i = base b i - 2 ^ b /\ base b (i - 2 ^ b) = base b i - 2 ^ b.
Proof.
  intros H. destruct (testbit_quot i b) as (q & r & Ei & Hr & Eq & Er & Hb).
  rewrite H in Hb. destruct Hb as [q' ->].
  assert (B : base b i = 2 ^ b * (2 * q' + 1)) by (apply base_unique; lia).
  split; [lia|]. split.
  - rewrite B. rewrite (base_unique (S b) i q'); rewrite <- mul_succ_pow2; lia.
  - rewrite B. rewrite (base_unique b (i - 2 ^ b) (2 * q')); lia.
Qed.

Lemma base_zero b i : i < 2 ^ b -> base b i = 0.
Proof. intros H. unfold base. rewrite Nat.div_small by auto. lia. Qed.

(** One exchange of [partial] values with mask [2^b], the continuation [upd]
    giving the new local state. *)
Section HyperStage.
Context {S : Type} (part : S -> M) (step : nat -> M -> S -> S).

Definition hyper_stage (b rank : nat) (s : S) : prog S :=
  let target := Nat.lxor rank (2 ^ b) in
  if target <? P then
    tmp <- sendrecv (part s) target 0 (tag_ub - 1) ;; ret (step rank tmp s)
  else ret s.

Definition hyper_next (b : nat) (s : nat -> S) (i : nat) : S :=
  let target := Nat.lxor i (2 ^ b) in
  if target <? P then step i (part (s target)) (s i) else s i.

Lemma wp_hyper_stage b st (s : nat -> S) (Post : _ -> _ -> Prop) :
  Post st (hyper_next b s) -> wp st (fun i => hyper_stage b i (s i)) Post.
Proof.
  intros HP.
  set (snd := fun i => if Nat.lxor i (2 ^ b) <? P then
     Some (Nat.lxor i (2 ^ b), 0, tag_ub - 1, part (s i)) else @None (nat * nat * nat * M)).
  set (rcv := fun i => if Nat.lxor i (2 ^ b) <? P then
     Some (Nat.lxor i (2 ^ b), 0, tag_ub - 1) else None).
  apply wp_ext with (qs := fun i => x <- exch (snd i) (rcv i) ;;
     ret (match x with Some tmp => step i tmp (s i) | None => s i end)).
  { intros i Hi k. unfold hyper_stage, snd, rcv.
    destruct (Nat.lxor i (2 ^ b) <? P); reflexivity. }
  eapply wp_bind.
  - apply (wp_exch tag_ub eager P snd rcv st
             (fun st' a => st' = st /\ a = got snd rcv)); auto.
    split.
    + intros i d c t m Hi Hs. unfold snd in Hs.
      destruct (Nat.lxor i (2 ^ b) <? P) eqn:E; [|discriminate].
      injection Hs as <- <- <- <-. apply Nat.ltb_lt in E.
      split; auto. split; [lia|]. unfold rcv. rewrite lxor_lxor.
      rewrite (proj2 (Nat.ltb_lt i P) Hi). reflexivity.
    + intros i t' c t Hi Hr. unfold rcv in Hr.
      destruct (Nat.lxor i (2 ^ b) <? P) eqn:E; [|discriminate].
      injection Hr as <- <- <-. apply Nat.ltb_lt in E. split; auto.
      exists (part (s (Nat.lxor i (2 ^ b)))). unfold snd. rewrite lxor_lxor.
      rewrite (proj2 (Nat.ltb_lt i P) Hi). reflexivity.
  - intros st' a [-> ->]. apply wp_results.
    apply (wp_ret tag_ub eager P st (fun i => match got snd rcv i with
                         Some tmp => step i tmp (s i) | None => s i end)).
    exists (hyper_next b s). split; auto.
    intros i Hi. unfold got, rcv, snd, hyper_next.
    destruct (Nat.lxor i (2 ^ b) <? P) eqn:E; auto.
    rewrite lxor_lxor, (proj2 (Nat.ltb_lt i P) Hi). reflexivity.
Qed.

Lemma hyper_next_clear b s i : Nat.testbit i b = false ->
  hyper_next b s i = if i + 2 ^ b <? P then step i (part (s (i + 2 ^ b))) (s i) else s i.
Proof. intros H. unfold hyper_next. rewrite lxor_clear; auto. Qed.
Lemma hyper_next_set b s i : i < P -> Nat.testbit i b = true ->
  hyper_next b s i = step i (part (s (i - 2 ^ b))) (s i).
Proof.
  intros Hi H. unfold hyper_next. rewrite lxor_set; auto.
  rewrite (proj2 (Nat.ltb_lt (i - 2 ^ b) P)) by lia. reflexivity.
Qed.
End HyperStage.

Definition scan_step (rank : nat) (tmp : M) (s : M * M) (target : nat) : M * M :=
  if target <? rank then (op tmp s.1, op tmp s.2) else (s.1, op s.2 tmp).

(** The state of the scan loops is (recvobj, partial) resp. (recvobj, partial,
    flag). *)
Definition part_inv (x : nat -> M) (b : nat) (p : nat -> M) : Prop :=
  forall i, i < P -> base b i + 2 ^ b <= P -> p i = seg op x (base b i) (2 ^ b).

Definition scan_inv (x : nat -> M) (b : nat) (s : nat -> M * M) : Prop :=
  part_inv x b (fun i => (s i).2) /\
  forall i, i < P -> (s i).1 = seg op x (base b i) (i - base b i + 1).

Definition scan_upd (b rank : nat) (tmp : M) (s : M * M) : M * M :=
  scan_step rank tmp s (Nat.lxor rank (2 ^ b)).

Lemma scan_inv_next (Ha : assoc_op op) x b s :
  scan_inv x b s -> scan_inv x (S b) (hyper_next snd (scan_upd b) b s).
Proof.
  intros [Hp Hr]. pose proof (pow2_pos b) as Hpos. split.
  - intros i Hi Hfull. cbv beta.
    destruct (Nat.testbit i b) eqn:Eb.
    + destruct (base_set b i Eb) as (B0 & B1 & B2).
      rewrite hyper_next_set by auto. unfold scan_upd, scan_step.
      rewrite lxor_set by auto.
      pose proof (base_facts b i).
      rewrite (proj2 (Nat.ltb_lt (i - 2 ^ b) i)) by lia. cbn [fst snd].
      rewrite B1 in Hfull |- *. rewrite <- mul_succ_pow2 in Hfull |- *.
      rewrite (Hp (i - 2 ^ b)); [|lia|lia]. rewrite (Hp i); [|lia|lia].
      rewrite B2. replace (base b i) with ((base b i - 2 ^ b) + 2 ^ b) at 2 by lia.
      rewrite seg_app by (auto; lia). f_equal. lia.
    + destruct (base_clear b i Eb) as (B1 & B2).
      rewrite hyper_next_clear by auto. pose proof (base_facts b i).
      rewrite B1 in Hfull |- *. rewrite <- mul_succ_pow2 in Hfull |- *.
      rewrite (proj2 (Nat.ltb_lt (i + 2 ^ b) P)) by lia.
      unfold scan_upd, scan_step. rewrite lxor_clear by auto.
      rewrite (proj2 (Nat.ltb_ge (i + 2 ^ b) i)) by lia. cbn [fst snd].
      rewrite (Hp i); [|lia|lia]. rewrite (Hp (i + 2 ^ b)); [|lia|lia].
      rewrite B2. rewrite seg_app by (auto; lia). f_equal. lia.
  - intros i Hi. simpl.
    destruct (Nat.testbit i b) eqn:Eb.
    + destruct (base_set b i Eb) as (B0 & B1 & B2).
      rewrite hyper_next_set by auto. unfold scan_upd, scan_step.
      rewrite lxor_set by auto.
      pose proof (base_facts b i).
      rewrite (proj2 (Nat.ltb_lt (i - 2 ^ b) i)) by lia. cbn [fst snd].
      rewrite B1. rewrite (Hp (i - 2 ^ b)); [|lia|lia]. rewrite Hr by auto.
      rewrite B2. replace (base b i) with ((base b i - 2 ^ b) + 2 ^ b) at 2 by lia.
      rewrite seg_app by (auto; lia). f_equal. lia.
    + destruct (base_clear b i Eb) as (B1 & B2).
      rewrite hyper_next_clear by auto. rewrite B1.
      destruct (i + 2 ^ b <? P).
      * unfold scan_upd, scan_step. rewrite lxor_clear by auto.
        rewrite (proj2 (Nat.ltb_ge (i + 2 ^ b) i)) by lia. cbn [fst snd]. apply Hr; auto.
      * apply Hr; auto.
Qed.

Lemma wp_scan_loop (Ha : assoc_op op) x fuel : forall b st (s : nat -> M * M),
  0 < P -> P <= 2 ^ (fuel + b) -> scan_inv x b s ->
  wp st (fun i => scan_loop P tag_ub op fuel (2 ^ b) i (s i).1 (s i).2)
    (fun st' a => st' = st /\ forall i, i < P -> a i = seg op x 0 (i + 1)).
Proof.
  induction fuel as [|fuel IH]; intros b st s HP Hf Hinv.
  - simpl in Hf. apply (wp_ret tag_ub eager P st (fun i => (s i).1)). split; auto.
    intros i Hi. destruct Hinv as [_ Hr]. rewrite Hr by auto.
    rewrite base_zero by lia. f_equal. lia.
  - cbn [scan_loop]. destruct (2 ^ b <? P) eqn:E.
    + eapply wp_bind.
      * apply (wp_ext tag_ub eager P st _ (fun i => hyper_stage snd (scan_upd b) b i (s i))).
        { intros i Hi k. unfold hyper_stage, scan_upd, scan_step.
          destruct (s i) as [u v]. simpl.
          destruct (Nat.lxor i (2 ^ b) <? P); reflexivity. }
        apply (wp_hyper_stage snd (scan_upd b) b st s
                 (fun st' a => st' = st /\ a = hyper_next snd (scan_upd b) b s)). auto.
      * intros st' a [-> ->]. rewrite mul_succ_pow2.
        eapply wp_ext; [|apply (IH (S b) st (hyper_next snd (scan_upd b) b s)); auto].
        -- intros i Hi k. cbv beta. destruct (hyper_next snd (scan_upd b) b s i). reflexivity.
        -- replace (fuel + S b) with (S fuel + b) by lia. exact Hf.
        -- apply scan_inv_next; auto.
    + apply Nat.ltb_ge in E.
      apply (wp_ret tag_ub eager P st (fun i => (s i).1)). split; auto.
      intros i Hi. destruct Hinv as [_ Hr]. rewrite Hr by auto.
      rewrite base_zero by lia. f_equal. lia.
Qed.

Lemma base_0 i : base 0 i = i.
Proof. unfold base. change (2 ^ 0) with 1. rewrite Nat.div_1_r. lia. Qed.

Lemma wp_scan (Ha : assoc_op op) x st :
  0 < P ->
  wp st (fun i => scan P tag_ub op i (x i))
    (fun st' a => st' = st /\ forall i, i < P -> a i = seg op x 0 (i + 1)).
Proof.
  intros HP. apply (wp_scan_loop Ha x P 0 st (fun i => (x i, x i))); auto.
  - apply fuel_enough. lia.
  - split; intros i Hi; simpl; rewrite base_0; auto.
    replace (i - i + 1) with 1 by lia. rewrite seg_one. reflexivity.
Qed.

Definition ex_upd (b rank : nat) (tmp : M) (s : M * M * bool) : M * M * bool :=
  if Nat.lxor rank (2 ^ b) <? rank then
    if rank =? 0 then (s.1.1, op tmp s.1.2, s.2)
    else if negb s.2 then (tmp, op tmp s.1.2, true)
    else (op tmp s.1.1, op tmp s.1.2, s.2)
  else (s.1.1, op s.1.2 tmp, s.2).
Definition ex_part (s : M * M * bool) : M := s.1.2.

Definition ex_inv (x : nat -> M) (b : nat) (s : nat -> M * M * bool) : Prop :=
  part_inv x b (fun i => (s i).1.2) /\
  forall i, i < P ->
    (s i).2 = (base b i <? i) /\
    (base b i < i -> (s i).1.1 = seg op x (base b i) (i - base b i)).

Lemma ex_inv_next (Ha : assoc_op op) x b s :
  ex_inv x b s -> ex_inv x (S b) (hyper_next ex_part (ex_upd b) b s).
Proof.
  intros [Hp Hr]. pose proof (pow2_pos b) as Hpos. split.
  - intros i Hi Hfull. cbv beta.
    destruct (Nat.testbit i b) eqn:Eb.
    + destruct (base_set b i Eb) as (B0 & B1 & B2).
      rewrite hyper_next_set by auto. unfold ex_upd, ex_part.
      rewrite lxor_set by auto.
      pose proof (base_facts b i).
      rewrite (proj2 (Nat.ltb_lt (i - 2 ^ b) i)) by lia.
      rewrite (proj2 (Nat.eqb_neq i 0)) by lia.
      rewrite B1 in Hfull |- *. rewrite <- mul_succ_pow2 in Hfull |- *.
      assert (G : op (s (i - 2 ^ b)).1.2 (s i).1.2 =
              seg op x (base b i - 2 ^ b) (2 * 2 ^ b)).
      { rewrite (Hp (i - 2 ^ b)); [|lia|lia]. rewrite (Hp i); [|lia|lia].
        rewrite B2. replace (base b i) with ((base b i - 2 ^ b) + 2 ^ b) at 2 by lia.
        rewrite seg_app by (auto; lia). f_equal. lia. }
      destruct (negb (s i).2); simpl; exact G.
    + destruct (base_clear b i Eb) as (B1 & B2).
      rewrite hyper_next_clear by auto. pose proof (base_facts b i).
      rewrite B1 in Hfull |- *. rewrite <- mul_succ_pow2 in Hfull |- *.
      rewrite (proj2 (Nat.ltb_lt (i + 2 ^ b) P)) by lia.
      unfold ex_upd, ex_part. rewrite lxor_clear by auto.
      rewrite (proj2 (Nat.ltb_ge (i + 2 ^ b) i)) by lia. cbn [fst snd].
      rewrite (Hp i); [|lia|lia]. rewrite (Hp (i + 2 ^ b)); [|lia|lia].
      rewrite B2. rewrite seg_app by (auto; lia). f_equal. lia.
  - intros i Hi. specialize (Hr i Hi) as [Hf Hv].
    destruct (Nat.testbit i b) eqn:Eb.
    + destruct (base_set b i Eb) as (B0 & B1 & B2).
      rewrite hyper_next_set by auto. unfold ex_upd, ex_part.
      rewrite lxor_set by auto.
      pose proof (base_facts b i).
      rewrite (proj2 (Nat.ltb_lt (i - 2 ^ b) i)) by lia.
      rewrite (proj2 (Nat.eqb_neq i 0)) by lia.
      rewrite B1. rewrite (Hp (i - 2 ^ b)); [|lia|lia]. rewrite B2.
      rewrite Hf. destruct (Nat.ltb_spec (base b i) i) as [L|L]; simpl.
      * split; [symmetry; apply Nat.ltb_lt; lia|intros _].
        rewrite Hv by auto.
        replace (base b i) with ((base b i - 2 ^ b) + 2 ^ b) at 2 by lia.
        rewrite seg_app by (auto; lia). f_equal. lia.
      * split; [symmetry; apply Nat.ltb_lt; lia|intros _].
        f_equal. lia.
    + destruct (base_clear b i Eb) as (B1 & B2).
      rewrite hyper_next_clear by auto. rewrite B1.
      destruct (i + 2 ^ b <? P); auto.
      unfold ex_upd. rewrite lxor_clear by auto.
      rewrite (proj2 (Nat.ltb_ge (i + 2 ^ b) i)) by lia. cbn [fst snd]. auto.
Qed.

Lemma wp_exscan_loop (Ha : assoc_op op) x fuel : forall b st (s : nat -> M * M * bool),
  0 < P -> P <= 2 ^ (fuel + b) -> ex_inv x b s ->
  wp st (fun i => exscan_loop P tag_ub op fuel (2 ^ b) i (s i).1.1 (s i).1.2 (s i).2)
    (fun st' a => st' = st /\ forall i, 0 < i < P -> a i = seg op x 0 i).
Proof.
  induction fuel as [|fuel IH]; intros b st s HP Hf Hinv.
  - simpl in Hf. apply (wp_ret tag_ub eager P st (fun i => (s i).1.1)). split; auto.
    intros i Hi. destruct Hinv as [_ Hr]. destruct (Hr i ltac:(lia)) as [_ Hv].
    rewrite base_zero in Hv by lia. rewrite Hv by lia. f_equal. lia.
  - cbn [exscan_loop]. destruct (2 ^ b <? P) eqn:E.
    + eapply wp_bind.
      * apply (wp_ext tag_ub eager P st _ (fun i => hyper_stage ex_part (ex_upd b) b i (s i))).
        { intros i Hi k. unfold hyper_stage, ex_upd, ex_part.
          destruct (s i) as [[u v] w]. simpl.
          destruct (Nat.lxor i (2 ^ b) <? P); reflexivity. }
        apply (wp_hyper_stage ex_part (ex_upd b) b st s
                 (fun st' a => st' = st /\ a = hyper_next ex_part (ex_upd b) b s)). auto.
      * intros st' a [-> ->]. rewrite mul_succ_pow2.
        eapply wp_ext; [|apply (IH (S b) st (hyper_next ex_part (ex_upd b) b s)); auto].
        -- intros i Hi k. cbv beta. destruct (hyper_next ex_part (ex_upd b) b s i) as [[? ?] ?]. reflexivity.
        -- replace (fuel + S b) with (S fuel + b) by lia. exact Hf.
        -- apply ex_inv_next; auto.
    + apply Nat.ltb_ge in E.
      apply (wp_ret tag_ub eager P st (fun i => (s i).1.1)). split; auto.
      intros i Hi. destruct Hinv as [_ Hr]. destruct (Hr i ltac:(lia)) as [_ Hv].
      rewrite base_zero in Hv by lia. rewrite Hv by lia. f_equal. lia.
Qed.

Lemma wp_exscan (Ha : assoc_op op) x st :
  0 < P ->
  wp st (fun i => exscan P tag_ub op i (x i))
    (fun st' a => st' = st /\
       forall i, i < P -> a i = if i =? 0 then None else Some (seg op x 0 i)).
Proof.
  intros HP. unfold exscan. eapply wp_bind.
  - apply (wp_exscan_loop Ha x P 0 st (fun i => (x i, x i, false))); auto.
    + apply fuel_enough. lia.
    + split; intros i Hi; simpl; rewrite base_0; auto.
      split; [symmetry; apply Nat.ltb_irrefl|lia].
  - intros st' a [-> Hv].
    apply wp_ret. split; auto. intros i Hi.
    destruct (Nat.eqb_spec i 0); auto. rewrite Hv by lia. reflexivity.
Qed.

End Op.

(** ** Broadcast *)

Lemma wp_bcast root st (v : nat -> M) (Post : _ -> _ -> Prop) :
  root < P ->
  (forall a, (forall i, i < P -> a i = v root) -> Post st a) ->
  wp st (fun i => mpi_bcast P root i (v i)) Post.
Proof.
  intros Hroot HPost. unfold mpi_bcast.
  eapply wp_mono.
  - apply (wp_for_seq tag_ub eager P P st v _
      (fun j st' s => st' = st /\ s root = v root /\
                      forall i, i < P -> i < j -> s i = v root)).
    + split; auto. split; auto. lia.
    + intros j st' s Hj (-> & Hs & Hinv).
      destruct (Nat.eqb_spec j root) as [->|Hjr].
      * apply wp_ret. split; auto. split; auto. intros i Hi Hij.
        destruct (decide (i = root)) as [->|]; auto. apply Hinv; auto. lia.
      * set (snd := fun i => if i =? root then Some (j, 1, 0, s i)
                             else @None (nat * nat * nat * M)).
        set (rcv := fun i => if i =? j then Some (root, 1, 0) else None).
        apply wp_ext with (qs := fun i => z <- exch (snd i) (rcv i) ;;
             ret (match z with Some tmp => tmp | None => s i end)).
        { intros i Hi k. unfold snd, rcv.
          destruct (Nat.eqb_spec i root) as [->|Hir].
          - rewrite (proj2 (Nat.eqb_neq root j)) by auto. reflexivity.
          - destruct (Nat.eqb_spec i j) as [->|Hij]; reflexivity. }
        eapply wp_bind.
        -- apply (wp_exch tag_ub eager P snd rcv st
                    (fun st' a => st' = st /\ a = got snd rcv)); auto.
           split.
           ++ intros i d c t m Hi Hsd. unfold snd in Hsd.
              destruct (Nat.eqb_spec i root) as [->|]; [|discriminate].
              injection Hsd as <- <- <- <-. repeat split; auto; [lia|].
              unfold rcv. rewrite Nat.eqb_refl. reflexivity.
           ++ intros i s' c t Hi Hr. unfold rcv in Hr.
              destruct (Nat.eqb_spec i j) as [->|]; [|discriminate].
              injection Hr as <- <- <-. split; auto.
              exists (s root). unfold snd. rewrite Nat.eqb_refl. reflexivity.
        -- intros st' a [-> ->]. apply wp_ret. unfold got, rcv, snd.
           split; auto. split.
           { rewrite (proj2 (Nat.eqb_neq root j)) by auto. exact Hs. }
           intros i Hi Hij. destruct (Nat.eqb_spec i j) as [->|].
           ++ rewrite Nat.eqb_refl. exact Hs.
           ++ apply Hinv; auto. lia.
  - intros st' a (-> & Hs & Hinv). apply HPost. intros i Hi. apply Hinv; auto.
Qed.

Lemma wp_allreduce op st x (Post : _ -> _ -> Prop) :
  0 < P ->
  (forall a, (forall i, i < P -> a i = reduce_value op x) -> Post st a) ->
  wp st (fun i => allreduce P tag_ub op i (x i)) Post.
Proof.
  intros HP HPost. unfold allreduce. eapply wp_bind.
  - apply (wp_reduce op 0 st x (fun st' a => st' = st /\ forall i, i < P ->
      a i = if decide (i = 0) then Some (reduce_value op x) else None)); auto.
  - intros st' a [-> Ha].
    apply (wp_bcast 0 st (fun i => match a i with Some x => x | None => x i end)); auto.
    intros b Hb. apply HPost. intros i Hi. rewrite Hb by auto.
    rewrite Ha by auto. reflexivity.
Qed.

(** ** Footprints *)

Section Uses.
Context (R W : loc -> Prop).
Notation puses := (@puses M V O R W _).

Lemma puses_send d c t (m : M) : puses (send d c t m).
Proof. apply puses_bind; [apply puses_isend|intros; apply puses_wait]. Qed.
Lemma puses_sendrecv d c t (m : M) : puses (sendrecv m d c t).
Proof.
  apply puses_bind; [apply puses_isend|intros].
  apply puses_bind; [apply puses_recv|intros].
  apply puses_bind; [apply puses_wait|intros]. apply puses_ret.
Qed.
Lemma puses_reduce_loop op fuel : forall mask rank (r : M),
  puses (reduce_loop P tag_ub op fuel mask rank r).
Proof.
  induction fuel as [|fuel IH]; intros mask rank r; simpl; [apply puses_ret|].
  destruct (mask <? P); [|apply puses_ret].
  apply puses_bind; [|intros; apply IH].
  destruct (_ =? 0).
  - destruct (_ <? P); [|apply puses_ret].
    apply puses_bind; [apply puses_recv|intros; apply puses_ret].
  - apply puses_bind; [apply puses_send|intros; apply puses_ret].
Qed.
Lemma puses_reduce op root rank (x : M) : puses (reduce P tag_ub op root rank x).
Proof.
  apply puses_bind; [apply puses_reduce_loop|intros].
  apply puses_bind; [|intros; apply puses_ret].
  destruct (root =? 0); [apply puses_ret|].
  destruct (rank =? 0); [apply puses_bind; [apply puses_send|intros; apply puses_ret]|].
  destruct (rank =? root); [apply puses_recv|apply puses_ret].
Qed.
Lemma puses_bcast root rank (x : M) : puses (mpi_bcast P root rank x).
Proof.
  apply puses_for. intros j s _.
  destruct (j =? root); [apply puses_ret|].
  destruct (rank =? root); [apply puses_bind; [apply puses_send|intros; apply puses_ret]|].
  destruct (rank =? j); [apply puses_recv|apply puses_ret].
Qed.
Lemma puses_allreduce op rank (x : M) : puses (allreduce P tag_ub op rank x).
Proof. apply puses_bind; [apply puses_reduce|intros; apply puses_bcast]. Qed.
Lemma puses_scan op rank (x : M) : puses (scan P tag_ub op rank x).
Proof.
  assert (G : forall fuel mask r p, puses (scan_loop P tag_ub op fuel mask rank r p)).
  { induction fuel as [|fuel IH]; intros mask r p; simpl; [apply puses_ret|].
    destruct (mask <? P); [|apply puses_ret].
    apply puses_bind; [|intros [? ?]; apply IH].
    destruct (_ <? P); [|apply puses_ret].
    apply puses_bind; [apply puses_sendrecv|intros; apply puses_ret]. }
  apply G.
Qed.
Lemma puses_exscan op rank (x : M) : puses (exscan P tag_ub op rank x).
Proof.
  apply puses_bind; [|intros; apply puses_ret].
  assert (G : forall fuel mask r p f, puses (exscan_loop P tag_ub op fuel mask rank r p f)).
  { induction fuel as [|fuel IH]; intros mask r p f; simpl; [apply puses_ret|].
    destruct (mask <? P); [|apply puses_ret].
    apply puses_bind; [|intros [[? ?] ?]; apply IH].
    destruct (_ <? P); [|apply puses_ret].
    apply puses_bind; [apply puses_sendrecv|intros; apply puses_ret]. }
  apply G.
Qed.
Lemma puses_par_barrier : puses (barrier P).
Proof. unfold barrier. destruct (1 <? P); [apply puses_barrier|apply puses_ret]. Qed.
End Uses.

Lemma wp_par_barrier st (Post : _ -> _ -> Prop) :
  0 < P -> (forall u, Post st u) -> wp st (fun _ => barrier P) Post.
Proof.
  intros HP H. unfold barrier. destruct (1 <? P).
  - apply wp_barrier; auto.
  - apply (wp_ret tag_ub eager P st (fun _ => tt)). auto.
Qed.

End Proofs.

(** ** From the lock-step schedule to all schedules *)

Section All.
Context {M V O : Type}.
Context (tag_ub : nat) (eager : M -> bool) (P : nat).

Lemma ends_no_store (ps : nat -> prog M V O O) st (Q : nat -> O -> Prop) :
  0 < P ->
  (forall i, i < P -> puses (fun _ => False) (fun _ => False) (ps i)) ->
  wp tag_ub eager P st ps (fun st' a => st' = st /\ forall i, i < P -> Q i (a i)) ->
  always_ends tag_ub eager (launch P ps st)
    (fun c => all_return Q c /\ length (procs c) = P /\ store c = st).
Proof.
  intros HP Hu Hw.
  eapply (wp_always_ends tag_ub eager P st ps (fun _ _ => False) (fun _ _ => False)
            _ Q (fun s => s = st)); eauto.
  - apply separate_readonly.
  - intros i Hi. apply puses_uses. auto.
Qed.

(** All ranks only read. *)
Lemma ends_readonly (ps : nat -> prog M V O O) st (Q : nat -> O -> Prop) :
  0 < P ->
  (forall i, i < P -> puses (fun _ => True) (fun _ => False) (ps i)) ->
  wp tag_ub eager P st ps (fun st' a => st' = st /\ forall i, i < P -> Q i (a i)) ->
  always_ends tag_ub eager (launch P ps st)
    (fun c => all_return Q c /\ length (procs c) = P /\ store c = st).
Proof.
  intros HP Hu Hw.
  eapply (wp_always_ends tag_ub eager P st ps (fun _ _ => True) (fun _ _ => False)
            _ Q (fun st' => st' = st)); eauto.
  - apply separate_readonly.
  - intros i Hi. apply puses_uses. auto.
Qed.

Lemma uses_all (p : proc M V O) : uses (fun _ => True) (fun _ => True) p.
Proof. induction p; simpl; auto. Qed.

(** Only rank zero touches the store. *)
Lemma ends_rank_zero (ps : nat -> prog M V O O) st (Q : nat -> O -> Prop)
    (QS : gmap loc V -> Prop) :
  0 < P ->
  (forall i, 0 < i < P -> puses (fun _ => False) (fun _ => False) (ps i)) ->
  wp tag_ub eager P st ps (fun st' a => QS st' /\ forall i, i < P -> Q i (a i)) ->
  always_ends tag_ub eager (launch P ps st)
    (fun c => all_return Q c /\ length (procs c) = P /\ QS (store c)).
Proof.
  intros HP Hu Hw.
  eapply (wp_always_ends tag_ub eager P st ps (fun i _ => i = 0) (fun i _ => i = 0)
            _ Q QS); eauto.
  - intros i j h Hij ->. lia.
  - intros [|i] Hi.
    + generalize (ps 0 Ret). intros p.
      induction p; simpl; auto.
    + assert (G : forall p : proc M V O, uses (fun _ => False) (fun _ => False) p ->
                  uses (fun _ => S i = 0) (fun _ => S i = 0) p).
      { induction p; simpl; firstorder. }
      apply G. apply puses_uses. apply Hu. lia.
Qed.

(** ** Calls made by rank zero *)

(** [alone st p st' p']: running by itself, with get and put only, [p] with
    store [st] becomes [p'] with store [st']. *)
Inductive alone : gmap loc V -> proc M V O -> gmap loc V -> proc M V O -> Prop :=
| alone_done st p : alone st p st p
| alone_get st st' h v k p' : st !! h = Some v -> alone st (k v) st' p' ->
    alone st (Get h k) st' p'
| alone_get_missing st h k : st !! h = None -> alone st (Get h k) st (Fail OSError)
| alone_put st st' h v k p' : alone (<[h := v]> st) k st' p' ->
    alone st (Put h v k) st' p'.

Lemma alone_reach st p st' p' : alone st p st' p' ->
  forall i f ch, i < P -> f i = p ->
  reach tag_ub eager (conf P f ch st) (conf P (upd f i p') ch st').
Proof.
  induction 1 as [st p|st st' h v k p' Hv _ IH|st h k Hv|st st' h v k p' _ IH];
    intros i f ch Hi Hf.
  - rewrite <- Hf. erewrite (conf_ext P (upd _ _ _)); [apply reach_refl|].
    intros j _. apply upd_id.
  - eapply reach_trans.
    + apply (reach_rank tag_ub eager P f i (k v) ch ch st st Hi).
      rewrite Hf. simpl. rewrite Hv. reflexivity.
    + eapply reach_trans; [apply (IH i _ ch Hi); apply upd_same|].
      erewrite conf_ext; [apply reach_refl|]. intros j _. apply upd_upd.
  - apply reach_rank; auto. rewrite Hf. simpl. rewrite Hv. reflexivity.
  - eapply reach_trans.
    + apply (reach_rank tag_ub eager P f i k ch ch st (<[h:=v]> st) Hi).
      rewrite Hf. reflexivity.
    + eapply reach_trans; [apply (IH i _ ch Hi); apply upd_same|].
      erewrite conf_ext; [apply reach_refl|]. intros j _. apply upd_upd.
Qed.

(** Rank zero runs [call]; the others do nothing. *)
Lemma wp_rank_zero {A} st st' (call : nat -> prog M V O A) (a : nat -> A) (Post : _ -> _ -> Prop) :
  0 < P ->
  (forall k, alone st (call 0 k) st' (k (a 0))) ->
  (forall i k, 0 < i < P -> call i k = k (a i)) ->
  Post st' a -> wp tag_ub eager P st call Post.
Proof.
  intros HP H0 Hrest HPost.
  apply (wp_local tag_ub eager P call (fun i => if i =? 0 then st else st') a).
  - intros [|i] Hi; simpl.
    + intros i f k ch Hi' Hf. eapply alone_reach; eauto.
    + intros i' f k ch Hi' Hf. rewrite Hrest in Hf by lia.
      rewrite <- Hf. erewrite (conf_ext P (upd _ _ _)); [apply reach_refl|].
      intros j _. apply upd_id.
  - destruct P; [lia|]. exact HPost.
Qed.
End All.

Section Blocked.
Context {M V O : Type}.
Context (tag_ub : nat) (eager : M -> bool) (P : nat).

Lemma for_skip {A S} (l1 l2 : list A) (s : S) (body : A -> S -> prog M V O S) k :
  (forall x k, x ∈ l1 -> body x s k = k s) ->
  for_loop (l1 ++ l2) s body k = for_loop l2 s body k.
Proof.
  intros H. induction l1 as [|x l1 IH]; auto.
  cbn [for_loop app]. unfold bind at 1. rewrite H by left. apply IH.
  intros y k' Hy. apply H. right. auto.
Qed.

Lemma bcast_blocks rank (v : M) (k : M -> proc M V O) :
  0 < rank < P -> exists k', mpi_bcast P 0 rank v k = Recv 0 1 0 k'.
Proof.
  intros Hr. unfold mpi_bcast.
  replace (seq 0 P) with (seq 0 rank ++ rank :: seq (S rank) (P - S rank)).
  2: { replace P with (rank + S (P - S rank)) at 2 by lia.
       rewrite seq_app. reflexivity. }
  rewrite for_skip.
  - cbn [for_loop]. unfold bind at 1.
    rewrite (proj2 (Nat.eqb_neq rank 0)) by lia. rewrite Nat.eqb_refl.
    eexists. reflexivity.
  - intros x k' Hx. apply elem_of_seq in Hx.
    destruct (x =? 0); [reflexivity|].
    rewrite (proj2 (Nat.eqb_neq rank 0)) by lia.
    rewrite (proj2 (Nat.eqb_neq rank x)) by lia. reflexivity.
Qed.

End Blocked.

Section Blocked2.
Context {M V O : Type}.
Context (tag_ub : nat) (eager : M -> bool) (P : nat).

Lemma call_and_bcast_blocks none (call : nat -> prog M V M M) st st' e :
  1 < P ->
  (forall k, alone st (call 0 k) st' (Fail e)) ->
  always_ends tag_ub eager
    (launch P (fun i => call_and_bcast P none i (call i)) st)
    (fun c => procs c !! 0 = Some (Fail e) /\ store c = st' /\
       forall i, 0 < i < P -> exists k, procs c !! i = Some (Recv 0 1 0 k)).
Proof.
  intros HP Hcall.
  set (ps := fun i => call_and_bcast P none i (call i) (@Ret M V M)).
  set (fin := upd ps 0 (Fail e)).
  assert (Hreach : reach tag_ub eager (launch P (fun i => call_and_bcast P none i (call i)) st)
                     (conf P fin ∅ st')).
  { unfold fin. change (launch _ _ _) with (conf P ps ∅ st).
    apply (alone_reach tag_ub eager P st (ps 0)); [apply Hcall|lia|reflexivity]. }
  destruct Hreach as [n Hn].
  assert (Hblk : forall i, 0 < i < P -> exists k, fin i = Recv 0 1 0 k).
  { intros i Hi. unfold fin, upd. rewrite decide_False by lia.
    unfold ps, call_and_bcast, bind.
    rewrite (proj2 (Nat.eqb_neq i 0)) by lia.
    rewrite (proj2 (Nat.ltb_lt 1 P)) by lia. apply bcast_blocks. lia. }
  eapply (one_schedule_suffices tag_ub eager (fun i _ => i = 0) (fun i _ => i = 0)
            _ _ n); [| exact Hn | |].
  - split.
    + intros i j h Hij ->. lia.
    + intros i p Hp. unfold launch in Hp. simpl in Hp.
      rewrite list_lookup_fmap in Hp.
      destruct (seq 0 P !! i) as [x|] eqn:Ex; simplify_eq/=.
      apply lookup_seq in Ex. destruct Ex as [-> Hx]. simpl.
      destruct i as [|i].
      * simpl. generalize (call_and_bcast P none 0 (call 0) Ret). intros p.
        induction p; simpl; auto.
      * assert (G : forall p : proc M V M, uses (fun _ => False) (fun _ => False) p ->
                  uses (fun _ => S i = 0) (fun _ => S i = 0) p).
        { induction p; simpl; firstorder. }
        apply G. apply puses_uses. unfold call_and_bcast. simpl.
        apply puses_bind; [apply puses_ret|]. intros x.
        destruct P as [|[|n0]]; [lia|lia|]. simpl. apply puses_bcast.
  - intros c' Hs. inversion Hs as [i c0 c1 Hr|ps' ch' st2 Hne Hall]; subst.
    + unfold rank_step in Hr. simpl in Hr. rewrite list_lookup_fmap in Hr.
      destruct (seq 0 P !! i) as [x|] eqn:Ex; simpl in Hr; [|discriminate].
      apply lookup_seq in Ex. destruct Ex as [-> Hx]. simpl in Hr.
      destruct i as [|i].
      * unfold fin, upd in Hr. rewrite decide_True in Hr by auto. discriminate.
      * destruct (Hblk (S i) ltac:(lia)) as [k Hk]. rewrite Hk in Hr. simpl in Hr.
        discriminate.
    + destruct P as [|n0]; [lia|]. simpl in Hall. inversion Hall as [|? ? Hb]; subst.
      unfold fin, upd in Hb. rewrite decide_True in Hb by auto. exact Hb.
  - repeat split.
    + rewrite conf_lookup by lia. unfold fin. rewrite upd_same. reflexivity.
    + intros i Hi. destruct (Hblk i Hi) as [k Hk]. exists k.
      rewrite conf_lookup by lia. rewrite Hk. reflexivity.
Qed.

(** ** Rank zero writes, then everybody meets *)

Definition put_then (dest : loc) (v : V) (k : nat -> unit -> proc M V O) (i : nat)
  : proc M V O := put_array_method P i dest v (k i).

Lemma put_then_0 dest v (k : nat -> unit -> proc M V O) :
  1 < P -> put_then dest v k 0 = Put dest v (Barrier (k 0 tt)).
Proof.
  intros HP. unfold put_then, put_array_method, barrier, bind. simpl.
  rewrite (proj2 (Nat.ltb_lt 1 P)) by lia. reflexivity.
Qed.
Lemma put_then_S dest v (k : nat -> unit -> proc M V O) i :
  1 < P -> 0 < i -> put_then dest v k i = Barrier (k i tt).
Proof.
  intros HP Hi. unfold put_then, put_array_method, barrier, bind.
  rewrite (proj2 (Nat.eqb_neq i 0)) by lia.
  rewrite (proj2 (Nat.ltb_lt 1 P)) by lia. reflexivity.
Qed.

Lemma put_steps_1 dest v (k : nat -> unit -> proc M V O) st c1 :
  1 < P ->
  step tag_ub eager (conf P (put_then dest v k) ∅ st) c1 <->
  c1 = conf P (fun i => Barrier (k i tt)) ∅ (<[dest := v]> st).
Proof.
  intros HP. split.
  - intros Hstep. inversion Hstep as [i c0 c3 Hr|ps' ch' st2 Hne Hall]; subst.
    + unfold rank_step in Hr. simpl in Hr. rewrite list_lookup_fmap in Hr.
      destruct (seq 0 P !! i) as [x|] eqn:Ex; simpl in Hr; [|discriminate].
      apply lookup_seq in Ex. destruct Ex as [-> Hx]. simpl in Hr.
      destruct i as [|i].
      * rewrite put_then_0 in Hr by auto. simpl in Hr. injection Hr as <-.
        rewrite conf_insert by lia. apply conf_ext. intros j Hj. unfold upd.
        destruct (decide (j = 0)) as [->|]; auto. apply put_then_S; lia.
      * rewrite put_then_S in Hr by lia. discriminate.
    + pose proof (conf_lookup P (put_then dest v k) ∅ st 0 ltac:(lia)) as H0.
      simpl in H0. pose proof (Forall_lookup_1 _ _ _ _ Hall H0) as Hb.
      rewrite put_then_0 in Hb by auto. destruct Hb.
  - intros ->. apply (step_rank _ _ 0). unfold rank_step. rewrite conf_lookup by lia.
    rewrite put_then_0 by auto. simpl. f_equal.
    rewrite conf_insert by lia. apply conf_ext. intros j Hj. unfold upd.
    destruct (decide (j = 0)) as [->|]; auto. apply put_then_S; lia.
Qed.

Lemma put_steps_2 (k : nat -> unit -> proc M V O) st c1 :
  1 < P ->
  step tag_ub eager (conf P (fun i => Barrier (k i tt)) ∅ st) c1 <->
  c1 = conf P (fun i => k i tt) ∅ st.
Proof.
  intros HP.
  assert (E : conf P (fun i => k i tt) ∅ st =
    Config (past_barrier <$> ((fun i => Barrier (k i tt)) <$> seq 0 P)) ∅ st).
  { unfold conf. f_equal. rewrite <- list_fmap_compose. reflexivity. }
  split.
  - intros Hstep. inversion Hstep as [i c0 c3 Hr|ps' ch' st2 Hne Hall]; subst.
    + unfold rank_step in Hr. simpl in Hr. rewrite list_lookup_fmap in Hr.
      destruct (seq 0 P !! i) as [x|] eqn:Ex; simpl in Hr; discriminate.
    + symmetry. exact E.
  - intros ->. rewrite E. apply step_barrier.
    + destruct P; [lia|]. simpl. discriminate.
    + apply Forall_fmap. apply Forall_forall. intros; exact I.
Qed.

Lemma put_exact dest v (k : nat -> unit -> proc M V O) st n d :
  1 < P ->
  steps tag_ub eager n (conf P (put_then dest v k) ∅ st) d ->
  n = 0 /\ d = conf P (put_then dest v k) ∅ st \/
  n = 1 /\ d = conf P (fun i => Barrier (k i tt)) ∅ (<[dest := v]> st) \/
  (exists m, n = 2 + m /\
     steps tag_ub eager m (conf P (fun i => k i tt) ∅ (<[dest := v]> st)) d).
Proof.
  intros HP Hs.
  inversion Hs as [c|n1 c c1 c2 Hstep Hrest]; subst; clear Hs; [auto|].
  apply put_steps_1 in Hstep; [|exact HP]. subst c1. right.
  inversion Hrest as [c|n2 c c1 c2 Hstep2 Hrest2]; subst; clear Hrest; [auto|].
  apply put_steps_2 in Hstep2; [|exact HP]. subst c1. right.
  exists n2. auto.
Qed.

Lemma put_first dest v (k : nat -> unit -> proc M V O) st n d :
  1 < P ->
  steps tag_ub eager n (conf P (put_then dest v k) ∅ st) d ->
  (n < 2 /\ forall i, i < P -> exists k', procs d !! i = Some (Barrier k') \/
                               procs d !! i = Some (Put dest v (Barrier k'))) \/
  (exists m, n = 2 + m /\
     steps tag_ub eager m (conf P (fun i => k i tt) ∅ (<[dest := v]> st)) d).
Proof.
  intros HP Hs. destruct (put_exact dest v k st n d HP Hs) as [[-> ->]|[[-> ->]|H]]; auto.
  - left. split; [lia|]. intros i Hi. rewrite conf_lookup by auto.
    destruct i as [|i]; [rewrite put_then_0 by auto|rewrite put_then_S by lia]; eauto.
  - left. split; [lia|]. intros i Hi. rewrite conf_lookup by auto. eauto.
Qed.
End Blocked2.

Section Calls.
Context {M V : Type}.
Context (tag_ub : nat) (eager : M -> bool) (P : nat).

Lemma call_and_bcast_ends none (call : nat -> prog M V M M) st st' v :
  0 < P -> (forall k, alone st (call 0 k) st' (k v)) ->
  always_ends tag_ub eager
    (launch P (fun i => call_and_bcast P none i (call i)) st)
    (fun c => all_return (fun _ o => o = v) c /\ length (procs c) = P /\ store c = st').
Proof.
  intros HP Hc.
  apply (ends_rank_zero tag_ub eager P _ st (fun _ o => o = v) (fun s => s = st')); auto.
  - intros i Hi. unfold call_and_bcast. rewrite (proj2 (Nat.eqb_neq i 0)) by lia.
    apply puses_bind; [apply puses_ret|]. intros x.
    destruct (1 <? P); [apply puses_bcast|apply puses_ret].
  - unfold call_and_bcast. eapply wp_bind.
    + apply (wp_rank_zero tag_ub eager P st st' _ (fun i => if i =? 0 then v else none)
        (fun s a => s = st' /\ a = fun i => if i =? 0 then v else none)); auto.
      intros i k Hi. rewrite (proj2 (Nat.eqb_neq i 0)) by lia. reflexivity.
    + intros s a [-> ->]. destruct (1 <? P) eqn:E.
      * apply (wp_bcast tag_ub eager P 0 st' (fun i => if i =? 0 then v else none)); auto.
      * apply (wp_ret tag_ub eager P st' (fun i => if i =? 0 then v else none)).
        split; auto. intros i Hi. apply Nat.ltb_ge in E.
        assert (i = 0) by lia. subst. reflexivity.
Qed.

Lemma par_bcast_ends none (vals : nat -> M) :
  0 < P -> forall st,
  always_ends tag_ub eager (launch P (fun i => par_bcast P none i (vals i)) st)
    (fun c => all_return (fun _ o => o = vals 0) c /\ length (procs c) = P /\
              @store M V M c = st).
Proof.
  intros HP st. apply ends_no_store; auto.
  - intros i Hi. unfold par_bcast.
    destruct (1 <? P); [apply puses_bcast|apply puses_ret].
  - unfold par_bcast. destruct (1 <? P) eqn:E.
    + apply (wp_bcast tag_ub eager P 0 st (fun i => if i =? 0 then vals i else none)); auto.
    + apply (wp_ret tag_ub eager P st (fun i => if i =? 0 then vals i else none)).
      split; auto. intros i Hi. apply Nat.ltb_ge in E.
      assert (i = 0) by lia. subst. reflexivity.
Qed.

Lemma call_from_rank_zero_ends {A} (call : nat -> prog M V (option A) A) st st' v :
  0 < P -> (forall k, alone st (call 0 k) st' (k v)) ->
  always_ends tag_ub eager
    (launch P (fun i => call_from_rank_zero i (call i)) st)
    (fun c => all_return (fun i o => o = if i =? 0 then Some v else None) c /\
              length (procs c) = P /\ store c = st').
Proof.
  intros HP Hc.
  apply (ends_rank_zero tag_ub eager P _ st
    (fun i o => o = if i =? 0 then Some v else None) (fun s => s = st')); auto.
  - intros i Hi. unfold call_from_rank_zero. rewrite (proj2 (Nat.eqb_neq i 0)) by lia.
    apply puses_ret.
  - apply (wp_rank_zero tag_ub eager P st st' _ (fun i => if i =? 0 then Some v else None)).
    + auto.
    + intros k. unfold call_from_rank_zero, bind. simpl. apply (Hc (fun x => k (Some x))).
    + intros i k Hi. unfold call_from_rank_zero.
      rewrite (proj2 (Nat.eqb_neq i 0)) by lia. reflexivity.
    + auto.
Qed.

Lemma put_then_read dest (v : V) st :
  1 < P ->
  always_ends (M := M) tag_ub eager
    (launch P (fun i => put_array_method P i dest v ;;; get dest) st)
    (fun c => all_return (fun _ o => o = v) c /\ length (procs c) = P /\
              store c = <[dest := v]> st).
Proof.
  intros HP.
  set (st' := <[dest := v]> st).
  assert (Hread : always_ends (M := M) tag_ub eager (launch P (fun _ => get dest) st')
    (fun c => all_return (fun _ o => o = v) c /\ length (procs c) = P /\ store c = st')).
  { apply (wp_always_ends tag_ub eager P st' (fun _ => get dest)
      (fun _ _ => True) (fun _ _ => False) (fun s a => s = st' /\ forall i, i < P -> a i = v)
      (fun _ o => o = v) (fun s => s = st')).
    - lia.
    - apply separate_readonly.
    - intros i Hi. simpl. auto.
    - apply (wp_read tag_ub eager P st' _ (fun _ => v)); auto.
      intros i Hi. apply local_get. apply lookup_insert.
    - intros s a [-> H]. auto. }
  destruct Hread as [n Hn]. exists (2 + n). intros k d Hd.
  change (launch P _ st) with
    (conf P (put_then (O:=V) P dest v (fun _ _ => Get dest Ret)) ∅ st : config M V V) in Hd.
  destruct (Hn 0 _ (steps_O _ _ _)) as (_ & _ & df & Hdf & HQ).
  rewrite Nat.sub_0_r in Hdf.
  assert (Early : k < 2 -> steps tag_ub eager (2 + n - k) d df ->
    k <= 2 + n /\
    (stuck tag_ub eager d ->
      all_return (fun _ o => o = v) d /\ length (procs d) = P /\ store d = st') /\
    exists d', steps tag_ub eager (2 + n - k) d d' /\
      all_return (fun _ o => o = v) d' /\ length (procs d') = P /\ store d' = st').
  { intros Hk Hs. split; [lia|]. split; [|exists df; auto].
    intros Hst. exfalso. inversion Hs; subst; [lia|]. eapply Hst; eauto. }
  destruct (put_exact tag_ub eager P dest v _ st k d HP Hd) as [[-> ->]|[[-> ->]|(m & -> & Hm)]].
  - apply Early; [lia|].
    replace (2 + n - 0) with (S (S n)) by lia.
    eapply steps_S; [apply put_steps_1; auto|].
    eapply steps_S; [apply (put_steps_2 tag_ub eager P (fun _ _ => Get dest Ret)); auto|].
    exact Hdf.
  - apply Early; [lia|].
    replace (2 + n - 1) with (S n) by lia.
    eapply steps_S; [apply (put_steps_2 tag_ub eager P (fun _ _ => Get dest Ret)); auto|].
    exact Hdf.
  - destruct (Hn m d Hm) as (Hle & Hst & Hex). split; [lia|]. split; [exact Hst|].
    replace (2 + n - (2 + m)) with (n - m) by lia. exact Hex.
Qed.
End Calls.
