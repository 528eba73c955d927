(** Proofs about the task-assignment and node-identifier model. *)
From Coq Require Import List Arith NArith QArith Qabs ZArith Lia Lqa Bool Permutation.
From Verif Require Import Prelude ParallelModel.
Import ListNotations.
Open Scope nat_scope.

(** ** Basic list facts *)

Lemma skipn_skipn {A} x : forall y (l : list A),
  skipn x (skipn y l) = skipn (x + y) l.
Proof.
  induction y as [|y IH]; intros l.
  - rewrite Nat.add_0_r. reflexivity.
  - rewrite Nat.add_succ_r. destruct l as [|a l]; simpl.
    + apply skipn_nil.
    + apply IH.
Qed.

Lemma slice_length {A} a b (l : list A) :
  b <= length l -> length (slice a b l) = b - a.
Proof. intros H. unfold slice. rewrite firstn_length, skipn_length. lia. Qed.

Lemma slice_skipn {A} a b (l : list A) :
  a <= b -> slice a b l ++ skipn b l = skipn a l.
Proof.
  intros H. unfold slice.
  replace (skipn b l) with (skipn (b - a) (skipn a l)).
  - apply firstn_skipn.
  - rewrite skipn_skipn. f_equal. lia.
Qed.

Lemma skipn_nil_iff {A} n (l : list A) : skipn n l = [] <-> length l <= n.
Proof.
  split; intros H.
  - pose proof (skipn_length n l). rewrite H in H0. simpl in H0. lia.
  - apply skipn_all2. lia.
Qed.

(** ** argmin *)

Lemma qltb_spec x y : qltb x y = true <-> (x < y)%Q.
Proof.
  unfold qltb. rewrite negb_true_iff. split; intros H.
  - destruct (Qlt_le_dec x y) as [L|L]; auto.
    apply Qle_bool_iff in L. congruence.
  - apply Bool.not_true_iff_false. intros C. apply Qle_bool_iff in C. lra.
Qed.
Lemma qltb_false x y : qltb x y = false <-> (y <= x)%Q.
Proof.
  split; intros H.
  - destruct (Qlt_le_dec x y) as [L|L]; auto. apply qltb_spec in L. congruence.
  - apply Bool.not_true_iff_false. intros C. apply qltb_spec in C. lra.
Qed.

(** [is_first_min l k]: [k] is the first position of a smallest element. *)
Definition is_first_min (l : list Q) (k : nat) : Prop :=
  k < length l /\
  (forall j, j < length l -> (nth k l 0 <= nth j l 0)%Q) /\
  (forall j, j < k -> (nth k l 0 < nth j l 0)%Q).

Lemma argmin_from_spec l : forall pre best bv,
  best < length pre -> nth best pre 0%Q = bv ->
  (forall j, j < length pre -> (bv <= nth j pre 0)%Q) ->
  (forall j, j < best -> (bv < nth j pre 0)%Q) ->
  is_first_min (pre ++ l) (argmin_from best bv (length pre) l).
Proof.
  induction l as [|x l IH]; intros pre best bv Hb Hv Hall Hfirst; simpl.
  - rewrite app_nil_r. subst bv. repeat split; auto.
  - destruct (qltb x bv) eqn:E.
    + replace (pre ++ x :: l) with ((pre ++ [x]) ++ l)
        by (rewrite <- app_assoc; reflexivity).
      replace (S (length pre)) with (length (pre ++ [x]))
        by (rewrite app_length; simpl; lia).
      apply qltb_spec in E.
      apply IH.
      * rewrite app_length; simpl; lia.
      * rewrite app_nth2, Nat.sub_diag; auto.
      * intros j Hj. rewrite app_length in Hj; simpl in Hj.
        destruct (Nat.eq_dec j (length pre)) as [->|Hne].
        -- rewrite app_nth2, Nat.sub_diag; simpl; auto. lra.
        -- rewrite app_nth1 by lia. specialize (Hall j ltac:(lia)). lra.
      * intros j Hj. rewrite app_nth1 by lia. specialize (Hall j ltac:(lia)). lra.
    + replace (pre ++ x :: l) with ((pre ++ [x]) ++ l)
        by (rewrite <- app_assoc; reflexivity).
      replace (S (length pre)) with (length (pre ++ [x]))
        by (rewrite app_length; simpl; lia).
      apply qltb_false in E.
      apply IH.
      * rewrite app_length; simpl; lia.
      * rewrite app_nth1; auto.
      * intros j Hj. rewrite app_length in Hj; simpl in Hj.
        destruct (Nat.eq_dec j (length pre)) as [->|Hne].
        -- rewrite app_nth2, Nat.sub_diag; simpl; auto.
        -- rewrite app_nth1 by lia. apply Hall; lia.
      * intros j Hj. rewrite app_nth1 by lia. apply Hfirst; lia.
Qed.

Lemma argmin_spec l : l <> [] -> is_first_min l (argmin l).
Proof.
  destruct l as [|x l]; [congruence|]. intros _. simpl.
  change (x :: l) with ([x] ++ l).
  change 1 with (length [x]).
  apply argmin_from_spec; simpl; auto.
  - intros j Hj. assert (j = 0) by lia. subst. lra.
  - intros j Hj. lia.
Qed.

(** ** cumsum *)

Lemma cumsum_from_length l : forall acc, length (cumsum_from acc l) = length l.
Proof. induction l; simpl; intros; auto. Qed.

Lemma qsum_app l1 l2 : (qsum (l1 ++ l2) == qsum l1 + qsum l2)%Q.
Proof. induction l1; simpl; [lra|]. rewrite IHl1. lra. Qed.

Lemma cumsum_from_nth l : forall acc k, k < length l ->
  (nth k (cumsum_from acc l) 0 == acc + qsum (firstn (S k) l))%Q.
Proof.
  induction l as [|x l IH]; simpl; intros acc k Hk; [lia|].
  destruct k as [|k]; simpl.
  - lra.
  - rewrite IH by lia. simpl. lra.
Qed.

Lemma cumsum_nth l k : k < length l ->
  (nth k (cumsum l) 0 == qsum (firstn (S k) l))%Q.
Proof. intros H. unfold cumsum. rewrite cumsum_from_nth by auto. lra. Qed.

Lemma cumsum_length l : length (cumsum l) = length l.
Proof. apply cumsum_from_length. Qed.

(** The number of tasks given to the next worker, when some remain: *)
Definition take_count (workers : nat) (remaining : list Q) : nat :=
  S (argmin (map (fun c => Qabs (c - qsum remaining /
       inject_Z (Z.of_nat workers))) (cumsum remaining))).

Definition dist (workers : nat) (remaining : list Q) (k : nat) : Q :=
  Qabs (qsum (firstn k remaining) - qsum remaining /
       inject_Z (Z.of_nat workers)).

Lemma take_count_spec workers remaining :
  remaining <> [] ->
  let k := take_count workers remaining in
  1 <= k <= length remaining /\
  (forall j, 1 <= j <= length remaining ->
     (dist workers remaining k <= dist workers remaining j)%Q) /\
  (forall j, 1 <= j < k ->
     (dist workers remaining k < dist workers remaining j)%Q).
Proof.
  intros Hne. unfold take_count.
  set (f := fun c => Qabs (c - qsum remaining / inject_Z (Z.of_nat workers))).
  set (l := map f (cumsum remaining)).
  assert (Hl : length l = length remaining)
    by (unfold l; rewrite map_length, cumsum_length; auto).
  assert (Hnel : l <> []).
  { intros C. rewrite C in Hl. destruct remaining; simpl in *; congruence. }
  destruct (argmin_spec l Hnel) as (H1 & H2 & H3).
  assert (Hn : forall j, j < length remaining ->
             (nth j l 0 == dist workers remaining (S j))%Q).
  { intros j Hj. unfold l.
    rewrite (nth_indep _ 0%Q (f 0%Q)) by (rewrite map_length, cumsum_length; auto).
    rewrite map_nth. unfold f, dist. rewrite cumsum_nth by auto. reflexivity. }
  rewrite Hl in H1. repeat split; try lia.
  - intros j Hj. specialize (H2 (j - 1) ltac:(lia)).
    rewrite !Hn in H2 by lia. replace (S (j - 1)) with j in H2 by lia. exact H2.
  - intros j Hj. specialize (H3 (j - 1) ltac:(lia)).
    rewrite !Hn in H3 by lia. replace (S (j - 1)) with j in H3 by lia. exact H3.
Qed.

Lemma assign_loop_unfold {A} workers first (tasks : list A) weights :
  assign_loop (S workers) first tasks weights =
  if first <? length weights then
    let k := take_count (S workers) (skipn first weights) in
    slice first (first + k) tasks
      :: assign_loop workers (first + k) tasks weights
  else [] :: assign_loop workers first tasks weights.
Proof.
  simpl. destruct (first <? length weights) eqn:E.
  - apply Nat.ltb_lt in E.
    assert (skipn first weights <> [])
      by (intros C; apply skipn_nil_iff in C; lia).
    unfold take_count.
    destruct (skipn first weights) eqn:Es; [congruence|].
    set (a := argmin _). simpl.
    replace (a + first + 1) with (first + S a) by lia. reflexivity.
  - apply Nat.ltb_ge in E.
    rewrite (proj2 (skipn_nil_iff first weights)) by lia. reflexivity.
Qed.

Lemma assign_loop_length {A} workers : forall first (tasks : list A) weights,
  length (assign_loop workers first tasks weights) = workers.
Proof.
  induction workers; intros; [reflexivity|].
  rewrite assign_loop_unfold. destruct (_ <? _); simpl; rewrite IHworkers; auto.
Qed.

(** ** Partition *)

Lemma qsum_nonneg l : Forall (fun x => 0 <= x)%Q l -> (0 <= qsum l)%Q.
Proof. induction 1; simpl; lra. Qed.

Lemma qsum_zero l : Forall (fun x => 0 <= x)%Q l -> (qsum l == 0)%Q ->
  Forall (fun x => x == 0)%Q l.
Proof.
  induction 1; simpl; intros; constructor.
  - pose proof (qsum_nonneg l H0). lra.
  - apply IHForall. pose proof (qsum_nonneg l H0). lra.
Qed.

Lemma Forall_skipn {A} (Q : A -> Prop) n l : Forall Q l -> Forall Q (skipn n l).
Proof.
  intros H. rewrite <- (firstn_skipn n l) in H. apply Forall_app in H. tauto.
Qed.
Lemma Forall_firstn {A} (Q : A -> Prop) n l : Forall Q l -> Forall Q (firstn n l).
Proof.
  intros H. rewrite <- (firstn_skipn n l) in H. apply Forall_app in H. tauto.
Qed.

(** The last worker takes everything up to the first point where the total is
    reached. *)
Lemma take_count_last remaining :
  remaining <> [] ->
  (qsum (skipn (take_count 1 remaining) remaining) == 0)%Q.
Proof.
  intros Hne. destruct (take_count_spec 1 remaining Hne) as (H1 & H2 & _).
  set (k := take_count 1 remaining) in *.
  specialize (H2 (length remaining) ltac:(lia)).
  unfold dist in H2. rewrite firstn_all in H2.
  change (inject_Z (Z.of_nat 1)) with 1%Q in H2.
  assert (E : (qsum remaining / 1 == qsum remaining)%Q) by field.
  rewrite E in H2.
  assert (E2 : (qsum remaining - qsum remaining == 0)%Q) by ring.
  rewrite E2 in H2. rewrite (Qabs_pos 0) in H2 by lra.
  apply Qabs_Qle_condition in H2.
  rewrite <- (firstn_skipn k remaining) in H2 at 2 4.
  rewrite qsum_app in H2. lra.
Qed.

Lemma assign_loop_prefix {A} workers : forall first (tasks : list A) weights,
  length weights = length tasks -> first <= length tasks ->
  exists m, first <= m <= length tasks /\
    concat (assign_loop workers first tasks weights) = slice first m tasks /\
    (0 < workers -> (qsum (skipn m weights) == 0)%Q).
Proof.
  induction workers as [|workers IH]; intros first tasks weights Hlen Hfirst.
  - exists first. repeat split; try lia. simpl.
    unfold slice. rewrite Nat.sub_diag. reflexivity.
  - rewrite assign_loop_unfold. destruct (first <? length weights) eqn:E.
    + apply Nat.ltb_lt in E.
      assert (Hne : skipn first weights <> [])
        by (intros C; apply skipn_nil_iff in C; lia).
      destruct (take_count_spec (S workers) _ Hne) as (H1 & _ & _).
      set (k := take_count _ _) in *.
      rewrite skipn_length in H1.
      destruct (IH (first + k) tasks weights Hlen ltac:(lia)) as (m & Hm & Hc & Hz).
      exists m. repeat split; try lia.
      * simpl. rewrite Hc. unfold slice.
        replace (skipn (first + k) tasks) with (skipn k (skipn first tasks))
          by (rewrite skipn_skipn; f_equal; lia).
        replace (m - first) with (k + (m - (first + k))) by lia.
        replace (first + k - first) with k by lia.
        set (l := skipn first tasks).
        rewrite <- (firstn_skipn k l) at 3.
        rewrite firstn_app.
        rewrite firstn_length.
        assert (k <= length l) by (unfold l; rewrite skipn_length; lia).
        rewrite Nat.min_l by auto.
        rewrite firstn_firstn.
        rewrite Nat.min_r by lia.
        f_equal. f_equal. lia.
      * intros _. destruct workers as [|workers].
        -- simpl in Hc.
           assert (m = first + k).
           { assert (length (slice (first + k) m tasks) = 0)
               by (rewrite <- Hc; reflexivity).
             rewrite slice_length in H by lia. lia. }
           subst m.
           pose proof (take_count_last _ Hne) as HL.
           fold k in HL. rewrite skipn_skipn in HL.
           rewrite (Nat.add_comm first k). exact HL.
        -- apply Hz. lia.
    + apply Nat.ltb_ge in E.
      assert (first = length tasks) by lia. subst first.
      destruct (IH (length tasks) tasks weights Hlen ltac:(lia)) as (m & Hm & Hc & Hz).
      exists m. repeat split; try lia.
      * simpl. exact Hc.
      * intros _. rewrite skipn_all2 by lia. simpl. lra.
Qed.

Lemma find_assignments_length {A} P (tasks : list A) w :
  length (find_assignments P tasks w) = P.
Proof. apply assign_loop_length. Qed.

Definition weights_of {A} (tasks : list A) (w : option (list Q)) : list Q :=
  match w with None => repeat 1%Q (length tasks) | Some w => w end.

Lemma find_assignments_prefix {A} P (tasks : list A) w :
  0 < P -> length (weights_of tasks w) = length tasks ->
  exists m, m <= length tasks /\
    concat (find_assignments P tasks w) = firstn m tasks /\
    (qsum (skipn m (weights_of tasks w)) == 0)%Q.
Proof.
  intros HP Hl. unfold find_assignments. fold (weights_of tasks w).
  destruct (assign_loop_prefix P 0 tasks (weights_of tasks w) Hl ltac:(lia))
    as (m & Hm & Hc & Hz).
  exists m. repeat split; auto; try lia.
  rewrite Hc. unfold slice. rewrite Nat.sub_0_r. reflexivity.
Qed.

Lemma find_assignments_dropped_zero {A} P (tasks : list A) w :
  0 < P -> length (weights_of tasks w) = length tasks ->
  Forall (fun x => 0 <= x)%Q (weights_of tasks w) ->
  exists m, m <= length tasks /\
    concat (find_assignments P tasks w) = firstn m tasks /\
    Forall (fun x => x == 0)%Q (skipn m (weights_of tasks w)).
Proof.
  intros HP Hl Hpos.
  destruct (find_assignments_prefix P tasks w HP Hl) as (m & Hm & Hc & Hz).
  exists m. repeat split; auto.
  apply qsum_zero; auto. apply Forall_skipn; auto.
Qed.

Lemma find_assignments_concat {A} P (tasks : list A) w :
  0 < P -> length (weights_of tasks w) = length tasks ->
  Forall (fun x => 0 < x)%Q (weights_of tasks w) ->
  concat (find_assignments P tasks w) = tasks.
Proof.
  intros HP Hl Hpos.
  destruct (find_assignments_dropped_zero P tasks w HP Hl) as (m & Hm & Hc & Hz).
  { eapply Forall_impl; [|exact Hpos]. simpl. intros; lra. }
  rewrite Hc.
  assert (skipn m (weights_of tasks w) = []).
  { pose proof (Forall_skipn _ m _ Hpos) as H1.
    destruct (skipn m (weights_of tasks w)); auto.
    inversion H1; inversion Hz; subst. lra. }
  apply skipn_nil_iff in H. apply firstn_all2. lia.
Qed.

Lemma weights_of_none_pos {A} (tasks : list A) :
  Forall (fun x => 0 < x)%Q (weights_of tasks None).
Proof.
  simpl. apply Forall_forall. intros x Hx. apply repeat_spec in Hx. subst. lra.
Qed.

Lemma find_assignments_concat_default {A} P (tasks : list A) :
  0 < P -> concat (find_assignments P tasks None) = tasks.
Proof.
  intros HP. apply find_assignments_concat; auto.
  - simpl. apply repeat_length.
  - apply weights_of_none_pos.
Qed.

(** ** Balance with default weights *)

Lemma qsum_repeat n : (qsum (repeat 1%Q n) == inject_Z (Z.of_nat n))%Q.
Proof.
  induction n; simpl; [reflexivity|].
  rewrite IHn. rewrite Zpos_P_of_succ_nat.
  unfold Z.succ. rewrite inject_Z_plus. change (inject_Z 1) with 1%Q. lra.
Qed.

Lemma firstn_repeat {A} (x : A) k : forall n, k <= n -> firstn k (repeat x n) = repeat x k.
Proof.
  induction k; intros n H; simpl; auto.
  destruct n; simpl; [lia|]. rewrite IHk; auto. lia.
Qed.
Lemma skipn_repeat {A} (x : A) k : forall n, skipn k (repeat x n) = repeat x (n - k).
Proof.
  induction k; intros n; simpl.
  - rewrite Nat.sub_0_r; auto.
  - destruct n; simpl; auto.
Qed.

(** With unit weights the distance is [|k - m/n|], compared here after scaling
    by [n]. *)
Lemma dist_repeat workers m k :
  k <= m ->
  (dist (S workers) (repeat 1%Q m) k ==
   inject_Z (Z.abs (Z.of_nat k * Z.of_nat (S workers) - Z.of_nat m)) /
   inject_Z (Z.of_nat (S workers)))%Q.
Proof.
  intros Hk. unfold dist.
  rewrite firstn_repeat by auto. rewrite !qsum_repeat.
  set (n := Z.of_nat (S workers)).
  assert (Hn : (0 < n)%Z) by (unfold n; lia).
  assert (Hq : (0 < inject_Z n)%Q).
  { change 0%Q with (inject_Z 0). rewrite <- Zlt_Qlt. exact Hn. }
  assert (E : (inject_Z (Z.of_nat k) - inject_Z (Z.of_nat m) / inject_Z n ==
               inject_Z (Z.of_nat k * n - Z.of_nat m) / inject_Z n)%Q).
  { unfold Zminus. rewrite inject_Z_plus, inject_Z_mult, inject_Z_opp. field.
    lra. }
  rewrite E. unfold Qdiv. rewrite Qabs_Qmult.
  rewrite (Qabs_pos (/ inject_Z n)).
  - reflexivity.
  - apply Qinv_le_0_compat. lra.
Qed.

Lemma take_count_uniform workers m :
  0 < m ->
  let k := take_count (S workers) (repeat 1%Q m) in
  let n := S workers in
  1 <= k <= m /\
  (k = 1 /\ m < n \/
   n <= m /\ (k = m / n /\ 2 * (m mod n) <= n \/
              k = S (m / n) /\ n < 2 * (m mod n))).
Proof.
  intros Hm k n.
  assert (Hne : repeat 1%Q m <> []) by (destruct m; simpl; [lia|congruence]).
  destruct (take_count_spec (S workers) _ Hne) as (H1 & H2 & H3).
  fold k in H1, H2, H3. rewrite repeat_length in H1, H2.
  split; [lia|].
  assert (Hq : (0 < inject_Z (Z.of_nat n))%Q).
  { change 0%Q with (inject_Z 0). rewrite <- Zlt_Qlt. unfold n; lia. }
  assert (D2 : forall j, 1 <= j <= m ->
    (Z.abs (Z.of_nat k * Z.of_nat n - Z.of_nat m) <=
     Z.abs (Z.of_nat j * Z.of_nat n - Z.of_nat m))%Z).
  { intros j Hj. specialize (H2 j Hj). rewrite !dist_repeat in H2 by lia.
    fold n in H2. unfold Qdiv in H2.
    apply Qmult_le_r in H2; [|apply Qinv_lt_0_compat; auto].
    rewrite <- Zle_Qle in H2. exact H2. }
  assert (D3 : forall j, 1 <= j < k ->
    (Z.abs (Z.of_nat k * Z.of_nat n - Z.of_nat m) <
     Z.abs (Z.of_nat j * Z.of_nat n - Z.of_nat m))%Z).
  { intros j Hj. specialize (H3 j Hj). rewrite !dist_repeat in H3 by lia.
    fold n in H3. unfold Qdiv in H3.
    apply Qmult_lt_r in H3; [|apply Qinv_lt_0_compat; auto].
    rewrite <- Zlt_Qlt in H3. exact H3. }
  clear H2 H3 Hne Hq.
  assert (Hn0 : n <> 0) by (unfold n; lia).
  clearbody k n. clear workers.
  pose proof (Nat.div_mod m n Hn0) as Hdm.
  pose proof (Nat.mod_upper_bound m n Hn0) as Hr.
  set (q := m / n) in *. set (r := m mod n) in *. clearbody q r.
  destruct (Nat.lt_ge_cases m n) as [L|L].
  - left. split; auto. assert (q = 0) by nia. subst q.
    specialize (D2 1 ltac:(lia)). nia.
  - right. split; auto. assert (1 <= q) by nia.
    assert (q <= k <= S q).
    { split.
      - destruct (Nat.lt_ge_cases k q) as [L2|]; auto. exfalso.
        specialize (D2 q ltac:(nia)). nia.
      - destruct (Nat.lt_ge_cases (S q) k) as [L2|]; auto. exfalso.
        specialize (D2 (S q) ltac:(nia)). nia. }
    assert (Hcases : k = q \/ k = S q) by lia.
    destruct Hcases as [E|E].
    + left. split; auto. subst k.
      destruct (Nat.le_gt_cases (2 * r) n) as [|G]; auto. exfalso.
      assert (S q <= m) by nia.
      specialize (D2 (S q) ltac:(lia)). nia.
    + right. split; auto. subst k.
      specialize (D3 q ltac:(lia)). nia.
Qed.

(** Sizes of the assignments produced by the loop, for unit weights. *)
Lemma assign_loop_uniform {A} workers : forall first (tasks : list A),
  first <= length tasks ->
  let m := length tasks - first in
  Forall (fun a => m / workers <= length a /\
                   length a * workers < m + workers)
    (assign_loop workers first tasks (repeat 1%Q (length tasks))) /\
  (forall r, r < workers ->
    (nth r (assign_loop workers first tasks (repeat 1%Q (length tasks))) [] <> []
     <-> r < m)).
Proof.
  induction workers as [|workers IH]; intros first tasks Hf m.
  { simpl. split; [constructor|lia]. }
  rewrite assign_loop_unfold. rewrite repeat_length.
  destruct (first <? length tasks) eqn:E.
  - apply Nat.ltb_lt in E.
    rewrite skipn_repeat. fold m.
    destruct (take_count_uniform workers m ltac:(unfold m; lia)) as (Hk & Hcases).
    set (k := take_count _ _) in *. cbv zeta.
    destruct (IH (first + k) tasks ltac:(lia)) as (I1 & I2).
    cbv zeta in I1, I2.
    replace (length tasks - (first + k)) with (m - k) in I1, I2 by (unfold m; lia).
    assert (Hlen : length (slice first (first + k) tasks) = k)
      by (rewrite slice_length by (unfold m in *; lia); lia).
    assert (Hn0 : S workers <> 0) by lia.
    pose proof (Nat.div_mod m (S workers) Hn0) as Hdm.
    pose proof (Nat.mod_upper_bound m (S workers) Hn0) as Hr.
    set (q := m / S workers) in *. set (r := m mod S workers) in *.
    clearbody q r. clearbody m.
    split.
    + constructor.
      * rewrite Hlen. split; nia.
      * destruct workers as [|workers]; [simpl; constructor|].
        assert (Hn1 : S workers <> 0) by lia.
        pose proof (Nat.div_mod (m - k) (S workers) Hn1) as Hdm'.
        pose proof (Nat.mod_upper_bound (m - k) (S workers) Hn1) as Hr'.
        set (q' := (m - k) / S workers) in *.
        set (r' := (m - k) mod S workers) in *.
        clearbody q' r'.
        eapply Forall_impl; [|exact I1]. simpl. intros a (Ha1 & Ha2).
        assert (q <= q').
        { assert (q * S workers <= m - k) by nia. nia. }
        split; [lia|].
        assert (length a <= q + (if r =? 0 then 0 else 1)).
        { destruct (r =? 0) eqn:Er.
          - apply Nat.eqb_eq in Er. subst r.
            destruct Hcases as [[-> Hlt]|[_ [[-> _]|[_ ?]]]]; nia.
          - apply Nat.eqb_neq in Er.
            destruct Hcases as [[-> Hlt]|[_ [[-> _]|[-> ?]]]]; nia. }
        destruct (r =? 0) eqn:Er;
          [apply Nat.eqb_eq in Er|apply Nat.eqb_neq in Er]; nia.
    + intros [|i] Hi.
      * simpl. split; [lia|]. intros _ C. apply (f_equal (@length A)) in C.
        rewrite Hlen in C. simpl in C. lia.
      * simpl. rewrite I2 by lia.
        destruct Hcases as [[-> Hlt]|[Hge [[Hkq _]|[Hkq Hgt]]]]; [lia| |].
        -- split; [lia|]. intros _. nia.
        -- split; [lia|]. intros _. nia.
  - apply Nat.ltb_ge in E. assert (first = length tasks) by lia. subst first.
    assert (Hm : m = 0) by (unfold m; lia). rewrite Hm.
    destruct (IH (length tasks) tasks ltac:(lia)) as (I1 & I2).
    cbv zeta in I1, I2. rewrite Nat.sub_diag in I1, I2.
    split.
    + constructor; [split; [rewrite Nat.div_0_l by lia; simpl; lia|cbn [length]; lia]|].
      destruct workers as [|workers]; [simpl; constructor|].
      eapply Forall_impl; [|exact I1]. simpl. intros a (Ha1 & Ha2). nia.
    + intros [|i] Hi.
      * simpl. split; [congruence|lia].
      * simpl. rewrite I2 by lia. lia.
Qed.

Lemma find_assignments_sizes {A} P (tasks : list A) a :
  0 < P -> In a (find_assignments P tasks None) ->
  length a = length tasks / P \/
  length a = S (length tasks / P) /\ length tasks mod P <> 0.
Proof.
  intros HP Hin. unfold find_assignments in Hin.
  destruct (@assign_loop_uniform A P 0 tasks ltac:(lia)) as (H1 & _).
  rewrite Nat.sub_0_r in H1. cbv zeta in H1.
  rewrite Forall_forall in H1. specialize (H1 a Hin).
  pose proof (Nat.div_mod (length tasks) P ltac:(lia)) as Hdm.
  pose proof (Nat.mod_upper_bound (length tasks) P ltac:(lia)) as Hr.
  destruct H1 as (Ha & Hb).
  set (q := length tasks / P) in *. set (r := length tasks mod P) in *.
  destruct (Nat.eq_dec (length a) q); [left; auto|right].
  assert (length a = S q) by nia. split; auto. nia.
Qed.

Lemma find_assignments_busy {A} P (tasks : list A) r :
  0 < P -> r < P ->
  (nth r (find_assignments P tasks None) [] <> [] <-> r < length tasks).
Proof.
  intros HP Hr. unfold find_assignments.
  destruct (@assign_loop_uniform A P 0 tasks ltac:(lia)) as (_ & H2).
  rewrite Nat.sub_0_r in H2. apply H2. auto.
Qed.

Lemma check_for_empty_spec {A} (l : list (list A)) :
  check_for_empty_tasks l = true <-> exists r, r < length l /\ nth r l [] = [].
Proof.
  unfold check_for_empty_tasks. rewrite existsb_exists. split.
  - intros (a & Hin & Ha). destruct a; [|discriminate].
    apply (In_nth _ _ []) in Hin. destruct Hin as (r & Hr & E). exists r; auto.
  - intros (r & Hr & E). exists []. split; auto. rewrite <- E. apply nth_In; auto.
Qed.

Lemma check_for_empty_default {A} P (tasks : list A) :
  0 < P ->
  check_for_empty_tasks (find_assignments P tasks None) = (length tasks <? P).
Proof.
  intros HP. apply eq_true_iff_eq.
  rewrite check_for_empty_spec, Nat.ltb_lt, find_assignments_length. split.
  - intros (r & Hr & E).
    destruct (Nat.lt_ge_cases (length tasks) P) as [|L]; auto. exfalso.
    apply (find_assignments_busy P tasks r HP Hr); auto. lia.
  - intros H. exists (length tasks). split; auto.
    destruct (nth (length tasks) (find_assignments P tasks None) []) eqn:E; auto.
    assert (L : nth (length tasks) (find_assignments P tasks None) [] <> [])
      by congruence.
    apply find_assignments_busy in L; auto. lia.
Qed.

(** ** Consecutive ranges (used by the vector-space algorithms) *)

Lemma concat_seq_nth (L : list (list nat)) : forall s n r,
  concat L = seq s n -> r < length L ->
  nth r L [] = seq (s + length (concat (firstn r L))) (length (nth r L [])).
Proof.
  induction L as [|a L IH]; intros s n r Hc Hr; [simpl in Hr; lia|].
  simpl in Hc.
  assert (Ha : a = seq s (length a) /\ concat L = seq (s + length a) (n - length a)).
  { assert (Hle : length a <= n).
    { apply (f_equal (@length nat)) in Hc. rewrite app_length, seq_length in Hc. lia. }
    replace n with (length a + (n - length a)) in Hc by lia.
    rewrite seq_app in Hc.
    apply app_inj_tail_iff || idtac.
    assert (L1 : length a = length (seq s (length a))) by (rewrite seq_length; auto).
    split.
    - apply (f_equal (firstn (length a))) in Hc.
      rewrite firstn_app, Nat.sub_diag, firstn_all in Hc. simpl in Hc.
      rewrite app_nil_r in Hc. rewrite Hc at 1.
      rewrite firstn_app, seq_length, Nat.sub_diag. simpl.
      rewrite app_nil_r. rewrite firstn_all2; auto. rewrite seq_length; auto.
    - apply (f_equal (skipn (length a))) in Hc.
      rewrite skipn_app, Nat.sub_diag, skipn_all in Hc. simpl in Hc.
      rewrite Hc.
      rewrite skipn_app, seq_length, Nat.sub_diag. simpl.
      rewrite skipn_all2; auto. rewrite seq_length; auto. }
  destruct Ha as (Ha & Hrest).
  destruct r as [|r]; simpl.
  - rewrite Nat.add_0_r. exact Ha.
  - rewrite (IH (s + length a) _ r Hrest) at 1 by (simpl in Hr; lia).
    rewrite app_length. f_equal. lia.
Qed.

(** Start of the consecutive range assigned to rank [r] when the tasks are
    [seq s n]. *)
Definition range_start (P n r : nat) : nat :=
  length (concat (firstn r (find_assignments P (seq 0 n) None))).

Lemma assign_loop_map {A B} (f : A -> B) workers : forall first tasks weights,
  assign_loop workers first (map f tasks) weights =
  map (map f) (assign_loop workers first tasks weights).
Proof.
  induction workers as [|workers IH]; intros; [reflexivity|].
  rewrite !assign_loop_unfold. destruct (_ <? _); cbv zeta.
  - simpl. f_equal; auto.
    unfold slice. rewrite skipn_map, firstn_map. reflexivity.
  - simpl. f_equal; auto.
Qed.

Lemma find_assignments_map {A B} (f : A -> B) P tasks :
  find_assignments P (map f tasks) None = map (map f) (find_assignments P tasks None).
Proof. unfold find_assignments. rewrite map_length. apply assign_loop_map. Qed.

(** ** Node identifiers *)

Lemma node_ID_from_app l1 : forall acc l2,
  node_ID_from acc (l1 ++ l2) = node_ID_from (node_ID_from acc l1) l2.
Proof. induction l1; simpl; auto. Qed.

Open Scope N_scope.
Definition bytes_ok (l : list N) := Forall (fun b => b < 256) l.

Lemma node_ID_from_inj l1 : forall l2 a1 a2,
  length l1 = length l2 -> bytes_ok l1 -> bytes_ok l2 ->
  node_ID_from a1 l1 = node_ID_from a2 l2 -> a1 = a2 /\ l1 = l2.
Proof.
  induction l1 as [|x l1 IH]; intros [|y l2] a1 a2 Hl H1 H2 E; simpl in *;
    try discriminate; auto.
  inversion H1; inversion H2; subst.
  destruct (IH l2 (256 * a1 + x) (256 * a2 + y)) as (E1 & E2); auto.
  subst. assert (a1 = a2 /\ x = y) by lia. destruct H; subst; auto.
Qed.

Lemma node_ID_from_ge l : forall a, a <= node_ID_from a l.
Proof.
  induction l as [|x l IH]; intros a; cbn [node_ID_from]; [lia|].
  specialize (IH (256 * a + x)). lia.
Qed.

Lemma node_ID_from_lt l : forall a m, bytes_ok l -> a < m ->
  node_ID_from a l < m * 256 ^ N.of_nat (length l).
Proof.
  induction l as [|x l IH]; intros a m Hok H.
  - simpl. lia.
  - cbn [node_ID_from length]. inversion Hok; subst.
    rewrite Nat2N.inj_succ, N.pow_succ_r'.
    replace (m * (256 * 256 ^ N.of_nat (length l)))
      with ((m * 256) * 256 ^ N.of_nat (length l)) by ring.
    apply IH; auto. lia.
Qed.

Lemma node_ID_from_ge_pow l : forall a,
  a * 256 ^ N.of_nat (length l) <= node_ID_from a l.
Proof.
  induction l as [|x l IH]; intros a.
  - simpl. lia.
  - cbn [node_ID_from length]. rewrite Nat2N.inj_succ, N.pow_succ_r'.
    specialize (IH (256 * a + x)).
    eapply N.le_trans; [|exact IH].
    replace (a * (256 * 256 ^ N.of_nat (length l)))
      with ((256 * a) * 256 ^ N.of_nat (length l)) by ring.
    apply N.mul_le_mono_r. lia.
Qed.

Lemma node_ID_length_le l1 l2 b1 :
  bytes_ok (b1 :: l1) -> bytes_ok l2 -> b1 <> 0 ->
  node_ID_from 0 (b1 :: l1) = node_ID_from 0 l2 ->
  (length (b1 :: l1) <= length l2)%nat.
Proof.
  intros H1 H2 Hb E.
  destruct (Nat.le_gt_cases (length (b1 :: l1)) (length l2)) as [|G]; auto.
  exfalso.
  pose proof (node_ID_from_lt l2 0 1 H2 ltac:(lia)) as U.
  pose proof (node_ID_from_ge_pow l1 (256 * 0 + b1)) as Lo.
  cbn [node_ID_from] in E. rewrite E in Lo.
  assert (1 * 256 ^ N.of_nat (length l2) <= (256 * 0 + b1) * 256 ^ N.of_nat (length l1)).
  { apply N.mul_le_mono; [lia|]. apply N.pow_le_mono_r; [lia|].
    simpl in G. lia. }
  lia.
Qed.

Lemma node_ID_inj h1 h2 i :
  bytes_ok h1 -> bytes_ok h2 ->
  hd 0 h1 <> 0 -> hd 0 h2 <> 0 ->
  node_ID h1 = Ok i -> node_ID h2 = Ok i -> h1 = h2.
Proof.
  intros O1 O2 N1 N2 E1 E2.
  destruct h1 as [|b1 h1]; [simpl in N1; congruence|].
  destruct h2 as [|b2 h2]; [simpl in N2; congruence|].
  assert (E : node_ID_from 0 (b1 :: h1) = node_ID_from 0 (b2 :: h2)).
  { unfold node_ID in E1, E2.
    assert (E3 : Ok (node_ID_from 0 (b1 :: h1)) = Ok (node_ID_from 0 (b2 :: h2)))
      by (rewrite E1, E2; reflexivity).
    congruence. }
  simpl in N1, N2.
  pose proof (node_ID_length_le h1 (b2 :: h2) b1 O1 O2 N1 E).
  pose proof (node_ID_length_le h2 (b1 :: h1) b2 O2 O1 N2 (eq_sym E)).
  apply (node_ID_from_inj (b1 :: h1) (b2 :: h2) 0 0); auto. lia.
Qed.

Close Scope N_scope.

Lemma nodup_map_inj {A B} (decA : forall x y : A, {x = y} + {x <> y})
    (decB : forall x y : B, {x = y} + {x <> y}) (f : A -> B) l :
  (forall x y, In x l -> In y l -> f x = f y -> x = y) ->
  length (nodup decB (map f l)) = length (nodup decA l).
Proof.
  induction l as [|a l IH]; intros Hinj; simpl; auto.
  destruct (in_dec decB (f a) (map f l)) as [i|n];
    destruct (in_dec decA a l) as [i'|n']; simpl.
  - apply IH. intros; apply Hinj; simpl; auto.
  - exfalso. apply n'. apply in_map_iff in i. destruct i as (x & E & Hx).
    rewrite <- (Hinj x a); simpl; auto.
  - exfalso. apply n. apply in_map; auto.
  - f_equal. apply IH. intros; apply Hinj; simpl; auto.
Qed.
