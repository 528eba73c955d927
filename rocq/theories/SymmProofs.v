(** Correctness of the distributed symmetric inner-product array. *)
From stdpp Require Import gmap list.
From Coq Require Import Lia.
From Verif Require Import Prelude ParallelModel ParallelProofs Spmd SpmdFacts SpmdLock SpmdEnds
  ReductionsModel ReductionsProofs InnerProdModel ArrayProofs RingProofs TaskProofs
  InnerProdProofs SymmModel.
Open Scope prog_scope.

(** ** Arithmetic *)

Lemma ceil_div_mul k c m : 0 < c -> k < ceil_div m c -> k * c < m.
Proof.
  unfold ceil_div. intros Hc Hk.
  pose proof (Nat.mul_div_le (m + (c - 1)) c ltac:(lia)). nia.
Qed.

Lemma ceil_div_1 m : ceil_div m 1 = m.
Proof. unfold ceil_div. replace (m + (1 - 1)) with m by lia. apply Nat.div_1_r. Qed.

Lemma half_sets A : ceil_div (A - 1) 2 = A / 2.
Proof.
  unfold ceil_div. destruct A as [|A]; [reflexivity|]. f_equal. lia.
Qed.

(** Two different active ranks meet: one of them receives the other's vectors. *)
Lemma ranks_meet A p q : p < A -> q < A -> p <> q ->
  exists t, t < ceil_div (A - 1) 2 /\
    (q = (p + A - (t + 1)) mod A \/ p = (q + A - (t + 1)) mod A).
Proof.
  assert (G : forall p q, q < p < A -> exists t, t < ceil_div (A - 1) 2 /\
    (q = (p + A - (t + 1)) mod A \/ p = (q + A - (t + 1)) mod A)).
  { clear. intros p q H. rewrite half_sets.
    pose proof (Nat.div_mod_eq A 2) as E. pose proof (Nat.mod_upper_bound A 2).
    destruct (decide (p - q <= A / 2)) as [Hs|Hs].
    - exists (p - q - 1). split; [lia|]. left.
      replace (p + A - (p - q - 1 + 1)) with (q + 1 * A) by lia.
      rewrite Nat.mod_add by lia. rewrite Nat.mod_small; lia.
    - exists (A - (p - q) - 1). split; [lia|]. right.
      replace (q + A - (A - (p - q) - 1 + 1)) with p by lia.
      rewrite Nat.mod_small; lia. }
  intros Hp Hq Hne. destruct (Nat.lt_ge_cases q p) as [Hl|Hl].
  - apply G. lia.
  - destruct (G q p ltac:(lia)) as (t & Ht & H). exists t. tauto.
Qed.

Lemma set_source A r t : 0 < A -> r < A -> t < A / 2 ->
  ((r + t + 1) mod A + A - (t + 1)) mod A = r.
Proof.
  intros HA Hr Ht. pose proof (Nat.div_mod_eq A 2) as E.
  destruct (decide (r + t + 1 < A)).
  - rewrite (Nat.mod_small (r + t + 1)) by lia.
    replace (r + t + 1 + A - (t + 1)) with (r + 1 * A) by lia.
    rewrite Nat.mod_add by lia. apply Nat.mod_small; lia.
  - replace ((r + t + 1) mod A) with (r + t + 1 - A).
    + replace (r + t + 1 - A + A - (t + 1)) with r by lia. apply Nat.mod_small; lia.
    + replace (r + t + 1) with (r + t + 1 - A + 1 * A) at 2 by lia.
      rewrite Nat.mod_add by lia. symmetry. apply Nat.mod_small; lia.
Qed.
Lemma set_dest A r t : 0 < A -> r < A -> t < A / 2 ->
  ((r + A - (t + 1)) mod A + t + 1) mod A = r.
Proof.
  intros HA Hr Ht. pose proof (Nat.div_mod_eq A 2) as E.
  destruct (decide (t + 1 <= r)).
  - replace (r + A - (t + 1)) with (r - (t + 1) + 1 * A) by lia.
    rewrite Nat.mod_add by lia. rewrite (Nat.mod_small (r - (t + 1))) by lia.
    replace (r - (t + 1) + t + 1) with r by lia. apply Nat.mod_small; lia.
  - rewrite (Nat.mod_small (r + A - (t + 1))) by lia.
    replace (r + A - (t + 1) + t + 1) with (r + 1 * A) by lia.
    rewrite Nat.mod_add by lia. apply Nat.mod_small; lia.
Qed.

(** The largest tag of the exchange. *)
Lemma set_tag P A r t : A <= P -> r < A -> t < A / 2 ->
  pair_tag P r ((r + t + 1) mod A) <= P * P - 2 + P / 2.
Proof.
  intros HA Hr Ht. unfold pair_tag.
  pose proof (Nat.div_mod_eq A 2) as E.
  assert (A / 2 <= P / 2) by (apply Nat.div_le_mono; lia).
  destruct (decide (r + t + 1 < A)).
  - rewrite Nat.mod_small by lia. nia.
  - replace ((r + t + 1) mod A) with (r + t + 1 - A).
    + nia.
    + replace (r + t + 1) with (r + t + 1 - A + 1 * A) at 2 by lia.
      rewrite Nat.mod_add by lia. symmetry. apply Nat.mod_small; lia.
Qed.

Lemma ring_tag P : P * P - 2 + P / 2 >= P * P - 1.
Proof.
  destruct (decide (2 <= P)) as [H|H].
  - assert (1 <= P / 2) by (apply Nat.div_le_lower_bound; lia). nia.
  - assert (P * P <= 1) by nia. lia.
Qed.

Lemma set_dest_lt A r t : 0 < A -> (r + t + 1) mod A < A.
Proof. intros. apply Nat.mod_upper_bound. lia. Qed.

Lemma slice_one {A} (d : A) (l : list A) k :
  slice k (Nat.min (k + 1) (length l)) l = if decide (k < length l) then [nth k l d] else [].
Proof.
  destruct (decide (k < length l)) as [H|H].
  - rewrite Nat.min_l by lia. rewrite (slice_nth d) by lia. reflexivity.
  - apply slice_empty. lia.
Qed.

Section Proofs.
Context {V K O : Type}.
Context (P tag_ub : nat) (eager : msg V K -> bool).
Notation prog := (prog (msg V K) V O).
Notation wp := (@wp (msg V K) V O tag_ub eager P).
Notation arr := (list (list K)).
Context (zero : K) (add : K -> K -> K) (conj : K -> K) (is_zero : K -> bool)
  (store_as : K -> K -> res K).
Context (HP : 0 < P).


Lemma py_range_lookup a b step j x : py_range a b step !! j = Some x ->
  x = a + j * step /\ j < ceil_div (b - a) step.
Proof.
  unfold py_range. rewrite lookup_map. intros H.
  destruct (seq 0 (ceil_div (b - a) step) !! j) as [y|] eqn:E; [|discriminate].
  apply lookup_seq in E. destruct E as [-> E]. simpl in H. injection H as <-. auto.
Qed.
Lemma py_range_length a b step : length (py_range a b step) = ceil_div (b - a) step.
Proof. unfold py_range. rewrite map_length, seq_length. reflexivity. Qed.

(** Number of ranks with tasks. *)
Lemma active_count s c :
  length (filter (fun t => busy t = true) (find_assignments P (seq s c) None)) = Nat.min P c.
Proof.
  rewrite tasks_all by auto.
  assert (G : forall p a, a + p <= P ->
    length (filter (fun t => busy t = true)
      (map (fun r => seq (s + tstart P c r) (tlen P c r)) (seq a p))) =
    Nat.min (a + p) c - Nat.min a c).
  { induction p as [|p IH]; intros a Ha.
    - simpl. rewrite Nat.add_0_r. lia.
    - cbn [seq map]. rewrite filter_cons.
      pose proof (tlen_pos P c a HP ltac:(lia)) as Hp.
      specialize (IH (S a) ltac:(lia)).
      assert (Eb : busy (seq (s + tstart P c a) (tlen P c a)) = negb (tlen P c a =? 0))
        by (unfold busy; rewrite seq_length; reflexivity).
      destruct (tlen P c a =? 0) eqn:E; simpl in Eb.
      + rewrite decide_False by congruence. rewrite IH. apply Nat.eqb_eq in E. lia.
      + rewrite decide_True by congruence. cbn [length]. rewrite IH.
        apply Nat.eqb_neq in E. lia. }
  rewrite G; simpl; lia.
Qed.

Section Symm.
Context (ip sv : V -> V -> K) (per_node per_proc N : nat) (d : V).
Context (st : gmap loc V) (vecs : list loc) (vs : list V).
Context (Hvecs : stored st vecs vs).
Context (Hpp : 2 <= per_proc).

Let n := @length loc vecs.
Let RC := (per_proc - 1) * P.
Let f i j := sv (nth i vs d) (nth j vs d).
Let V_ i := nth i vs d.

Lemma RC_pos : 0 < RC.
Proof. unfold RC. nia. Qed.
Lemma vs_length : length vs = n.
Proof. symmetry. apply (Forall2_length _ _ _ Hvecs). Qed.

(** Set of rows of row [i], and the rank that computes row [i]. *)
Definition cstart (i : nat) : nat := i / RC * RC.
Definition cend (i : nat) : nat := Nat.min n (cstart i + RC).
Definition own (i : nat) : nat := owner P (cend i - cstart i) (i - cstart i).

Lemma cstart_of k i : k * RC <= i < k * RC + RC -> cstart i = k * RC.
Proof.
  intros H. unfold cstart. f_equal. pose proof RC_pos. symmetry.
  apply (Nat.div_unique i RC k (i - k * RC)); [lia|nia].
Qed.
Lemma cstart_le i : cstart i <= i < cstart i + RC.
Proof.
  unfold cstart. pose proof RC_pos. pose proof (Nat.div_mod_eq i RC).
  pose proof (Nat.mod_upper_bound i RC). nia.
Qed.

Definition goodS (r : nat) (D : nat -> nat -> Prop) (a : arr) : Prop :=
  shape n n a /\
  (forall i j, i < n -> j < n -> own i <> r -> ent a i j = Some zero) /\
  (forall i j, i < n -> j < n -> ent a i j = Some zero \/ ent a i j = Some (f i j)) /\
  (forall i j, i < n -> j < n -> D i j -> own i = r -> ent a i j = Some (f i j)).

Lemma goodS_mono r (D D' : nat -> nat -> Prop) a :
  (forall i j, i < n -> j < n -> own i = r -> D' i j -> D i j) ->
  goodS r D a -> goodS r D' a.
Proof. intros H (S & Z & E & F). unfold goodS. auto 6. Qed.

Context (like : K).
Context (Hstore : forall i j, i < n -> j < n ->
  store_as like (ip (nth i vs d) (nth j vs d)) = Ok (f i j)).

Section Chunk.
Context (k : nat).
Let s := k * RC.
Context (Hs : s < n).
Let e := Nat.min n (s + RC).
Let c := e - s.
Let A := Nat.min P c.
Let tst r := s + tstart P c r.
Let tl r := tlen P c r.

Lemma chunk_facts : s < e /\ e <= n /\ e = s + c /\ 0 < c /\ 0 < A /\ A <= P.
Proof. unfold A, c, e. pose proof RC_pos. lia. Qed.

Lemma own_here i : s <= i < e ->
  own i < A /\ tst (own i) <= i < tst (own i) + tl (own i) /\ cstart i = s /\ cend i = e.
Proof.
  intros Hi. pose proof chunk_facts as (F1 & F2 & F3 & F4 & F5 & F6).
  assert (E1 : cstart i = s) by (apply cstart_of; fold s; unfold e in *; lia).
  assert (E2 : cend i = e) by (unfold cend; rewrite E1; reflexivity).
  unfold own. rewrite E1, E2. fold c.
  destruct (owner_spec P c (i - s) HP ltac:(lia)) as [Ho Hio].
  pose proof (tlen_pos P c (owner P c (i - s)) HP Ho) as Hp.
  unfold tst, tl, A. split; [lia|]. split; [lia|auto].
Qed.

Lemma mine_own r i : r < P -> tst r <= i < tst r + tl r -> own i = r /\ s <= i < e.
Proof.
  intros Hr Hi. pose proof chunk_facts as (F1 & F2 & F3 & F4 & F5 & F6).
  pose proof (tend_le P c r HP Hr). unfold tst, tl in Hi.
  assert (Hi' : s <= i < e) by lia. split; auto.
  destruct (own_here i Hi') as (_ & _ & E1 & E2).
  unfold own. rewrite E1, E2. apply owner_unique; auto; fold c; lia.
Qed.

Lemma mine_end r : r < P -> tst r + tl r <= e.
Proof.
  intros Hr. pose proof chunk_facts as (F1 & F2 & F3 & F4 & F5 & F6).
  pose proof (tend_le P c r HP Hr). unfold tst, tl. lia.
Qed.

Lemma set_good r D (a : arr) i j : r < P -> goodS r D a -> own i = r -> i < n -> j < n ->
  exists a', set_entry a i j (f i j) = Ok a' /\
    goodS r (fun i' j' => D i' j' \/ (i' = i /\ j' = j)) a'.
Proof.
  intros Hr (S & Z & E & F) Ho Hi Hj.
  destruct (set_entry_spec n n a i j (f i j) S Hi Hj) as (a' & Ea & Sa & He).
  exists a'. split; auto. split; auto. split; [|split].
  - intros i' j' Hi' Hj' Hn. rewrite He. rewrite decide_False; auto. intros [-> _]. auto.
  - intros i' j' Hi' Hj'. rewrite He. destruct (decide _) as [[-> ->]|]; auto.
  - intros i' j' Hi' Hj' HD Ho'. rewrite He. destruct (decide _) as [[-> ->]|Hne]; auto.
    apply F; auto. tauto.
Qed.

Lemma triangle_good r D (a : arr) : r < P -> goodS r D a ->
  exists a', triangle store_as ip like (tst r) (tst r + tl r) (map V_ (seq (tst r) (tl r))) a
             = Ok a' /\
    goodS r (fun i j => D i j \/ (s <= i < e /\ s <= j < e /\ own i = own j /\ i <= j)) a'.
Proof.
  intros Hr Ha. unfold triangle. replace (tst r + tl r - tst r) with (tl r) by lia.
  pose proof (mine_end r Hr) as He. pose proof chunk_facts as (F1 & F2 & F3 & F4 & F5 & F6).
  assert (Hget : forall i, tst r <= i < tst r + tl r ->
    py_nth (map V_ (seq (tst r) (tl r))) (i - tst r) = Ok (V_ i)).
  { intros i Hi. unfold py_nth. rewrite nth_error_lookup, lookup_map.
    rewrite lookup_seq_lt by lia. simpl. do 2 f_equal. lia. }
  destruct (res_fold_inv
    (fun row_index a =>
      (v <-? py_nth (map V_ (seq (tst r) (tl r))) (row_index - tst r) ;
       x <-? store_as like (ip v v) ;
       a <-? set_entry a row_index row_index x ;
       res_fold (fun col_index a =>
         v <-? py_nth (map V_ (seq (tst r) (tl r))) (row_index - tst r) ;
         w <-? py_nth (map V_ (seq (tst r) (tl r))) (col_index - tst r) ;
         x <-? store_as like (ip v w) ;
         set_entry a row_index col_index x)
         (seq (row_index + 1) (tst r + tl r - (row_index + 1))) a)%res)
    (seq (tst r) (tl r)) a
    (fun q b => goodS r (fun i j => D i j \/
       (tst r <= i < tst r + q /\ i <= j < tst r + tl r)) b)) as (a' & Ea & Ga).
  - eapply goodS_mono; [|exact Ha]. intros i j Hi Hj Ho [H|H]; auto. lia.
  - intros q i b Hq Hb. apply lookup_seq in Hq. destruct Hq as [-> Hq].
    set (i := tst r + q). assert (Hi : tst r <= i < tst r + tl r) by (unfold i; lia).
    destruct (mine_own r i Hr Hi) as [Ho Hie].
    rewrite (Hget i Hi). cbn [rbind].
    unfold V_ at 1 2. rewrite Hstore by lia. cbn [rbind].
    destruct (set_good r _ b i i Hr Hb Ho ltac:(lia) ltac:(lia)) as (b1 & E1 & G1).
    rewrite E1. cbn [rbind].
    destruct (res_fold_inv
      (fun col_index a =>
         (v <-? Ok (V_ i) ;
         w <-? py_nth (map V_ (seq (tst r) (tl r))) (col_index - tst r) ;
         x <-? store_as like (ip v w) ;
         set_entry a i col_index x)%res)
      (seq (i + 1) (tst r + tl r - (i + 1))) b1
      (fun l b => goodS r (fun i' j' => D i' j' \/
         (tst r <= i' < i /\ i' <= j' < tst r + tl r) \/
         (i' = i /\ i <= j' < i + 1 + l)) b)) as (b2 & E2 & G2).
    + eapply goodS_mono; [|exact G1]. intros i' j' Hi' Hj' Ho' [H|[H|H]].
      * left. left. auto.
      * left. right. unfold i in *. lia.
      * right. lia.
    + intros l j b' Hl Hb'. apply lookup_seq in Hl. destruct Hl as [-> Hl].
      cbn [rbind]. rewrite Hget by lia. cbn [rbind].
      unfold V_. rewrite Hstore by lia. cbn [rbind].
      destruct (set_good r _ b' i (i + 1 + l) Hr Hb' Ho ltac:(lia) ltac:(lia))
        as (b3 & E3 & G3).
      exists b3. split; auto. eapply goodS_mono; [|exact G3].
      intros i' j' Hi' Hj' Ho' [H|[H|H]].
      * left. left. auto.
      * left. right. left. auto.
      * destruct (decide (j' = i + 1 + l)); [right; lia|left; right; right; lia].
    + rewrite seq_length in G2. exists b2. split; [exact E2|].
      eapply goodS_mono; [|exact G2]. intros i' j' Hi' Hj' Ho' [H|H]; auto. right.
      destruct (decide (i' = i)); [right; lia|left; unfold i in *; lia].
  - rewrite seq_length in Ga. exists a'. split; [exact Ea|].
    eapply goodS_mono; [|exact Ga]. intros i j Hi Hj Ho [H|(H1 & H2 & H3 & H4)]; auto.
    right. destruct (own_here i H1) as (_ & Hm & _). destruct (own_here j H2) as (_ & Hm' & _).
    rewrite <- H3 in Hm'. rewrite Ho in Hm, Hm'. lia.
Qed.

Lemma block_good r D (a : arr) idx : r < P -> goodS r D a -> Forall (fun j => j < n) idx ->
  exists a', ip_block store_as ip like (tst r) (tst r + tl r) (map V_ (seq (tst r) (tl r)))
               (map V_ idx, idx) a = Ok a' /\
    goodS r (fun i j => D i j \/ (s <= i < e /\ j ∈ idx)) a'.
Proof.
  intros Hr (S & Z & E & F) Hidx.
  pose proof (mine_end r Hr) as He. pose proof chunk_facts as (F1 & F2 & F3 & F4 & F5 & F6).
  destruct (ip_block_spec store_as ip like sv n n V_ V_ (tst r) (tl r) idx a S ltac:(lia) Hidx)
    as (a' & Ea & Sa & Ha).
  - intros i j Hi Hj. rewrite Forall_forall in Hidx. specialize (Hidx j Hj).
    apply Hstore; lia.
  - exists a'. split; auto. split; auto. split; [|split].
    + intros i j Hi Hj Ho. rewrite Ha, decide_False; auto. intros [H _].
      destruct (mine_own r i Hr H). auto.
    + intros i j Hi Hj. rewrite Ha. destruct (decide _); auto.
    + intros i j Hi Hj HD Ho. rewrite Ha. destruct (decide _) as [|Hn]; auto.
      apply F; auto. destruct HD as [HD|[H1 H2]]; auto.
      destruct Hn. split; auto. destruct (own_here i H1) as (_ & H & _).
      rewrite Ho in H. exact H.
Qed.

(** The entries computed by the exchanges of sets [0 .. t) and the first [q]
    sends of set [t]. *)
Definition Dset (D : nat -> nat -> Prop) (t q : nat) (i j : nat) : Prop :=
  D i j \/ (s <= i < e /\ s <= j < e /\
    exists t', own j = (own i + A - (t' + 1)) mod A /\
      (t' < t \/ (t' = t /\ j < tst (own j) + q))).

Definition picked r q : list nat := if decide (q < tl r) then [tst r + q] else [].

Lemma picked_spec r q j : r < P -> j ∈ picked r q <-> j = tst r + q /\ q < tl r.
Proof.
  intros Hr. unfold picked. destruct (decide (q < tl r)).
  - rewrite elem_of_list_singleton. tauto.
  - split; [intros H; apply elem_of_nil in H; tauto|lia].
Qed.

Lemma send_slice r q :
  (slice q (Nat.min (q + 1) (length (seq (tst r) (tl r)))) (map V_ (seq (tst r) (tl r))),
   slice q (Nat.min (q + 1) (length (seq (tst r) (tl r)))) (seq (tst r) (tl r))) =
  (map V_ (picked r q), picked r q).
Proof.
  f_equal.
  - rewrite <- (map_length V_ (seq (tst r) (tl r))) at 1.
    rewrite (slice_one d), map_length, seq_length. unfold picked.
    destruct (decide (q < tl r)); auto. cbn [map]. f_equal.
    rewrite (nth_indep _ d (V_ 0)) by (rewrite map_length, seq_length; auto).
    rewrite map_nth, seq_nth by auto. reflexivity.
  - rewrite (slice_one 0), seq_length. unfold picked.
    destruct (decide (q < tl r)); auto. rewrite seq_nth by auto. reflexivity.
Qed.

Lemma wp_sets D (lk : nat -> K) (a : nat -> arr) max (Post : _ -> _ -> Prop) :
  P * P - 2 + P / 2 <= tag_ub ->
  (forall r, r < P -> lk r = like) ->
  (forall r, r < P -> tl r <= max) ->
  (forall r, r < P -> goodS r D (a r)) ->
  (forall b, (forall r, r < P -> goodS r (Dset D (ceil_div (A - 1) 2) 0) (b r)) -> Post st b) ->
  wp st (fun r => square_sets P store_as ip (lk r) r A max (seq (tst r) (tl r))
                    (map V_ (seq (tst r) (tl r))) (a r)) Post.
Proof.
  intros Htag Hlk Hmax Ha HPost. unfold square_sets.
  pose proof chunk_facts as (F1 & F2 & F3 & F4 & F5 & F6).
  eapply wp_mono.
  { apply (wp_for_seq tag_ub eager P (ceil_div (A - 1) 2) st a _
      (fun t st' b => st' = st /\ forall r, r < P -> goodS r (Dset D t 0) (b r))).
    - split; auto. intros r Hr. eapply goodS_mono; [|apply Ha; auto].
      intros i j Hi Hj Ho [H|(H1 & H2 & t' & H3 & [H4|[H4 H5]])]; auto; [lia|].
      destruct (own_here j H2) as (_ & Hm & _). lia.
    - intros t st' b Ht (-> & Hb).
      rewrite half_sets in Ht. cbv zeta.
      eapply wp_mono.
      { apply (wp_for_seq tag_ub eager P max st b _
          (fun q st' b => st' = st /\ forall r, r < P -> goodS r (Dset D t q) (b r))).
        - auto.
        - intros q st' b' Hq (-> & Hb'). clear b Hb.
          set (act := fun r => 0 <? tl r).
          set (dst := fun r => (r + t + 1) mod A).
          set (src := fun r => (r + A - (t + 1)) mod A).
          assert (Hact : forall r, r < P -> act r = true <-> r < A).
          { intros r Hr. unfold act. rewrite Nat.ltb_lt. unfold tl.
            rewrite (tlen_pos P c r HP Hr). unfold A. lia. }
          set (pl := fun r => (map V_ (picked r q), picked r q)).
          apply wp_ext with (qs := fun r =>
            o <- (if act r then x <- swap P r (dst r) (src r) (pl r) ;; ret (Some x)
                  else ret None) ;;
            y <- (match o with
                  | Some x => lift (ip_block store_as ip like (tst r) (tst r + tl r)
                                      (map V_ (seq (tst r) (tl r))) x (b' r))
                  | None => ret (b' r)
                  end) ;;
            barrier P ;;; ret y).
          { intros r Hr k'. rewrite seq_length. fold (act r). rewrite (Hlk r Hr).
            destruct (act r) eqn:Ea; [|reflexivity].
            unfold act in Ea. apply Nat.ltb_lt in Ea.
            pose proof (send_slice r q) as Es. rewrite seq_length in Es. rewrite Es.
            rewrite first_of_seq by auto. rewrite last_of_seq by auto. reflexivity. }
          eapply wp_bind.
          + apply (wp_swap P tag_ub eager st act dst src pl
              (fun st' o => st' = st /\
                 o = fun r => if act r then Some (pl (src r)) else None)).
            * intros r Hr Hr'. apply Hact in Hr'; auto.
              assert (Hd : dst r < A) by (apply set_dest_lt; auto).
              split; [lia|]. split; [|split].
              -- pose proof (set_tag P A r t F6 Hr' Ht). unfold dst. lia.
              -- apply Hact; lia.
              -- apply set_source; auto.
            * intros r Hr Hr'. apply Hact in Hr'; auto.
              assert (Hd : src r < A) by (apply Nat.mod_upper_bound; lia).
              split; [lia|]. split.
              -- apply Hact; lia.
              -- apply set_dest; auto.
            * auto.
          + intros st' o [-> ->].
            set (res := fun r => if act r then
               match ip_block store_as ip like (tst r) (tst r + tl r)
                       (map V_ (seq (tst r) (tl r))) (pl (src r)) (b' r) with
               | Ok x => x | Raise _ => b' r end else b' r).
            assert (Hres : forall r, r < P -> goodS r (Dset D t (S q)) (res r) /\
              (if act r then ip_block store_as ip like (tst r) (tst r + tl r)
                       (map V_ (seq (tst r) (tl r))) (pl (src r)) (b' r) = Ok (res r)
               else res r = b' r)).
            { intros r Hr. unfold res. destruct (act r) eqn:Ea.
              - apply Hact in Ea; auto.
                assert (Hd : src r < A) by (apply Nat.mod_upper_bound; lia).
                destruct (block_good r _ (b' r) (picked (src r) q) Hr (Hb' r Hr))
                  as (x & Ex & Gx).
                { apply Forall_forall. intros j Hj. apply picked_spec in Hj; [|lia].
                  pose proof (mine_end (src r) ltac:(lia)). lia. }
                unfold pl. rewrite Ex. split; auto.
                eapply goodS_mono; [|exact Gx].
                intros i j Hi Hj Ho [H|(H1 & H2 & t' & H3 & [H4|[-> H5]])].
                + left. left. exact H.
                + left. right. split; auto. split; auto. exists t'. auto.
                + destruct (own_here j H2) as (_ & Hm & _).
                  destruct (decide (j < tst (own j) + q)).
                  * left. right. split; auto. split; auto. exists t. auto.
                  * right. split; auto. unfold src. rewrite <- Ho at 1. rewrite <- H3.
                    apply picked_spec; [|lia]. rewrite H3.
                    pose proof (Nat.mod_upper_bound (own i + A - (t + 1)) A). lia.
              - split; auto. eapply goodS_mono; [|apply Hb'; auto].
                intros i j Hi Hj Ho [H|(H1 & H2 & H3)].
                + left. exact H.
                + destruct (own_here i H1) as (HA & _). rewrite Ho in HA.
                  apply Hact in HA; auto. congruence. }
            apply wp_ext with (qs := fun r => y <- ret (res r) ;; barrier P ;;; ret y).
            { intros r Hr k'. cbv beta. destruct (Hres r Hr) as [_ E].
              destruct (act r); rewrite E; reflexivity. }
            eapply wp_bind.
            { apply (wp_ret tag_ub eager P st res (fun st' y => st' = st /\ y = res)). auto. }
            intros st' y [-> ->]. eapply wp_bind.
            { apply (wp_par_barrier tag_ub eager P st (fun st' _ => st' = st)); auto. }
            intros st' u ->. apply (wp_ret tag_ub eager P st res). split; auto.
            intros r Hr. apply Hres; auto. }
      intros st' b' (-> & Hb'). split; auto. intros r Hr.
      eapply goodS_mono; [|apply Hb'; auto].
      intros i j Hi Hj Ho [H|(H1 & H2 & t' & H3 & [H4|[-> H5]])].
      + left. exact H.
      + right. split; auto. split; auto. exists t'. split; auto.
        destruct (decide (t' = t)) as [->|Hne]; [|left; lia]. right. split; auto.
        destruct (own_here j H2) as (HA & Hm & _). pose proof (Hmax (own j) ltac:(lia)). lia.
      + destruct (own_here j H2) as (_ & Hm & _). lia. }
  intros st' b (-> & Hb). apply HPost. exact Hb.
Qed.

(** Columns right of the rows in memory. *)
Definition Dcol (D : nat -> nat -> Prop) (g : nat) (i j : nat) : Prop :=
  D i j \/ (s <= i < e /\ e <= j < e + g * P).

Lemma wp_rectangle D (lk : nat -> K) (a : nat -> arr) (Post : _ -> _ -> Prop) :
  P * P - 1 <= tag_ub ->
  (forall r, r < P -> lk r = like) ->
  (forall r, r < P -> goodS r D (a r)) ->
  (forall b, (forall r, r < P ->
     goodS r (fun i j => D i j \/ (s <= i < e /\ e <= j)) (b r)) -> Post st b) ->
  wp st (fun r => rectangle P store_as ip (lk r) r e vecs (seq (tst r) (tl r))
                    (map V_ (seq (tst r) (tl r))) (a r)) Post.
Proof.
  intros Htag Hlk Ha HPost. unfold rectangle.
  pose proof chunk_facts as (F1 & F2 & F3 & F4 & F5 & F6).
  change (@length loc vecs) with n.
  eapply wp_mono.
  { apply (wp_for tag_ub eager P (py_range e n P) st a _
      (fun g st' b => st' = st /\ forall r, r < P -> goodS r (Dcol D g) (b r))).
    - split; auto. intros r Hr. eapply goodS_mono; [|apply Ha; auto].
      intros i j Hi Hj Ho [H|H]; auto. lia.
    - intros g x st' b Hg (-> & Hb). apply py_range_lookup in Hg. destruct Hg as [-> Hg].
      apply ceil_div_mul in Hg; auto. cbv zeta.
      set (sc := e + g * P). set (w := Nat.min (sc + P) n - sc).
      set (idx := fun q => seq (sc + tstart P w q) (tlen P w q)).
      assert (Hidx : forall q, q < P -> Forall (fun j => j < n) (idx q)).
      { intros q Hq. apply Forall_forall. intros j Hj. apply elem_of_seq in Hj.
        pose proof (tend_le P w q HP Hq). unfold w in *. lia. }
      eapply (wp_ring_inv P tag_ub eager st _ (fun q => (map V_ (idx q), idx q)) _ b
        (fun p r c => goodS r (fun i j => Dcol D g i j \/
           (s <= i < e /\ exists p', p' < p /\ j ∈ idx ((r + P - p') mod P))) c)).
      + exact HP.
      + exact Htag.
      + intros r Hr. rewrite tasks_nth by auto. fold w. fold (idx r).
        pose proof (tend_le P w r HP Hr) as Hw.
        assert (El : length (idx r) = tlen P w r) by apply seq_length.
        rewrite El. destruct (Nat.ltb_spec 0 (tlen P w r)) as [Hp|Hp].
        * eapply local_bind; [apply local_get_slice; exact Hvecs|].
          unfold idx. rewrite first_of_seq by auto. rewrite last_of_seq by auto.
          rewrite (slice_nth d) by (rewrite vs_length; unfold w in *; lia).
          match goal with |- context [seq ?x (?y + ?z - ?y)] =>
            replace (y + z - y) with z by lia end.
          apply local_ret.
        * unfold idx. replace (tlen P w r) with 0 by lia. apply local_ret.
      + intros r Hr. eapply goodS_mono; [|apply Hb; auto].
        intros i j Hi Hj Ho [H|(_ & p' & Hp' & _)]; auto. lia.
      + intros p r z Hp Hr Hz. rewrite (Hlk r Hr), seq_length.
        set (q := (r + P - p) mod P).
        assert (Hq : q < P) by (apply Nat.mod_upper_bound; lia).
        destruct (Nat.ltb_spec 0 (tl r)) as [Hl|Hl].
        * rewrite first_of_seq by auto. rewrite last_of_seq by auto.
          destruct (block_good r _ z (idx q) Hr Hz (Hidx q Hq)) as (z' & Ez & Gz).
          exists z'. split; auto. eapply goodS_mono; [|exact Gz].
          intros i j Hi Hj Ho [H|(H & p' & Hp' & Hj')]; auto.
          destruct (decide (p' = p)) as [->|Hne]; [right; split; [exact H|exact Hj']|].
          left. right. split; auto. exists p'. split; [lia|auto].
        * exists z. split; auto. eapply goodS_mono; [|exact Hz].
          intros i j Hi Hj Ho [H|(H & p' & Hp' & Hj')]; auto.
          destruct (own_here i H) as (_ & Hm & _). rewrite Ho in Hm. lia.
      + intros z Hz. split; auto. intros r Hr. eapply goodS_mono; [|apply Hz; auto].
        intros i j Hi Hj Ho [H|(H1 & H2)]; [left; left; exact H|].
        destruct (decide (j < sc)).
        * left. right. split; auto. unfold sc in *. lia.
        * right. split; auto.
          assert (Hjw : j - sc < w) by (unfold w, sc in *; lia).
          destruct (owner_spec P w (j - sc) HP Hjw) as [Ho1 Ho2].
          destruct (ring_visits P r (owner P w (j - sc)) Hr Ho1) as (p & Hp & Ep).
          exists p. split; auto. rewrite Ep. apply elem_of_seq. lia. }
  intros st' b (-> & Hb). apply HPost. intros r Hr.
  rewrite py_range_length in Hb.
  eapply goodS_mono; [|apply Hb; auto].
  intros i j Hi Hj Ho [H|(H1 & H2)]; [left; exact H|]. right. split; auto.
  pose proof (ceil_div_ge (n - e) P HP). lia.
Qed.

Lemma wp_row_chunk D (lk : nat -> K) (a : nat -> arr) (Post : _ -> _ -> Prop) :
  P * P - 2 + P / 2 <= tag_ub ->
  (forall r, r < P -> lk r = like) ->
  (forall r, r < P -> goodS r D (a r)) ->
  (forall b, (forall r, r < P ->
     goodS r (fun i j => D i j \/ (s <= i < e /\
        (e <= j \/
         (s <= j < e /\ ((own i = own j /\ i <= j) \/
           exists t, t < ceil_div (A - 1) 2 /\ own j = (own i + A - (t + 1)) mod A)))))
       (b r)) -> Post st b) ->
  wp st (fun r => row_chunk P store_as ip (lk r) per_proc r vecs s (a r)) Post.
Proof.
  intros Htag Hlk Ha HPost. unfold row_chunk.
  pose proof chunk_facts as (F1 & F2 & F3 & F4 & F5 & F6).
  pose proof (ring_tag P) as Htag'.
  change (@length loc vecs) with n. fold RC e c.
  rewrite active_count. fold A. rewrite ceil_div_1.
  set (max := list_maximum (map length (find_assignments P (seq s c) None))).
  assert (Hmax : forall r, r < P -> tl r <= max) by (intros r Hr; apply tlen_le_max; auto).
  assert (Ht : forall r, r < P ->
    nth r (find_assignments P (seq s c) None) [] = seq (tst r) (tl r)).
  { intros r Hr. rewrite tasks_nth by auto. reflexivity. }
  eapply wp_bind with (Q := fun st' x => st' = st /\
    forall r, r < P -> x r = map V_ (seq (tst r) (tl r))).
  { apply (wp_read tag_ub eager P st _ (fun r => map V_ (seq (tst r) (tl r)))); auto.
    intros r Hr. rewrite Ht by auto. rewrite seq_length.
    destruct (Nat.ltb_spec 0 (tl r)) as [Hl|Hl].
    - rewrite first_of_seq by auto. rewrite last_of_seq by auto.
      pose proof (mine_end r Hr).
      pose proof (slice_nth d vs (tst r) (tl r) ltac:(rewrite vs_length; lia)) as Es.
      change (fun i => nth i vs d) with V_ in Es. rewrite <- Es.
      apply local_get_slice. exact Hvecs.
    - replace (tl r) with 0 by lia. apply local_ret. }
  intros st' x [-> Hx].
  set (D1 := fun i j => D i j \/
    (s <= i < e /\ s <= j < e /\ own i = own j /\ i <= j)).
  eapply wp_bind with (Q := fun st' b => st' = st /\ forall r, r < P -> goodS r D1 (b r)).
  { set (tri := fun r => match triangle store_as ip like (tst r) (tst r + tl r)
                                 (map V_ (seq (tst r) (tl r))) (a r) with
                         | Ok y => y | Raise _ => a r end).
    assert (Htri : forall r, r < P -> goodS r D1 (tri r) /\
      triangle store_as ip like (tst r) (tst r + tl r)
        (map V_ (seq (tst r) (tl r))) (a r) = Ok (tri r)).
    { intros r Hr. unfold tri. destruct (triangle_good r D (a r) Hr (Ha r Hr)) as (y & Ey & Gy).
      rewrite Ey. auto. }
    apply wp_ext with (qs := fun r => ret (tri r)).
    - intros r Hr k'. rewrite (Hx r Hr), (Ht r Hr), (Hlk r Hr), seq_length.
      destruct (Htri r Hr) as [_ Et].
      destruct (Nat.ltb_spec 0 (tl r)) as [Hl|Hl].
      + rewrite first_of_seq by auto.
        unfold consecutive. rewrite first_of_seq by auto. rewrite last_of_seq by auto.
        replace (tst r + tl r - tst r) with (tl r) by lia.
        rewrite bool_decide_true by reflexivity. rewrite Et. reflexivity.
      + unfold triangle in Et. replace (tst r + tl r - tst r) with 0 in Et by lia.
        simpl in Et. injection Et as Et. rewrite <- Et. reflexivity.
    - apply (wp_ret tag_ub eager P st tri). split; auto. intros r Hr. apply Htri; auto. }
  intros st' b (-> & Hb).
  eapply wp_bind with (Q := fun st' b => st' = st /\ forall r, r < P ->
    goodS r (Dset D1 (ceil_div (A - 1) 2) 0) (b r)).
  { apply wp_ext with (qs := fun r => square_sets P store_as ip (lk r) r A max
      (seq (tst r) (tl r)) (map V_ (seq (tst r) (tl r))) (b r)).
    { intros r Hr k'. rewrite (Hx r Hr), (Ht r Hr). reflexivity. }
    apply (wp_sets D1 lk b max); auto. }
  intros st' b' (-> & Hb').
  apply wp_ext with (qs := fun r => rectangle P store_as ip (lk r) r e vecs
      (seq (tst r) (tl r)) (map V_ (seq (tst r) (tl r))) (b' r)).
  { intros r Hr k'. rewrite (Hx r Hr), (Ht r Hr). reflexivity. }
  apply (wp_rectangle (Dset D1 (ceil_div (A - 1) 2) 0) lk b'); auto; [lia|].
  intros b2 Hb2. apply HPost. intros r Hr. eapply goodS_mono; [|apply Hb2; auto].
  intros i j Hi Hj Ho [H|(H1 & [H2|(H2 & [[H3 H4]|(t & H3 & H4)])])].
  - left. left. left. exact H.
  - right. auto.
  - left. left. right. auto.
  - left. right. split; auto. split; auto. exists t. auto.
Qed.
End Chunk.

(** Entry (i, j) is computed by the rank of row [i]. *)
Definition Cov (i j : nat) : Prop :=
  cend i <= j \/
  (cstart i <= j < cend i /\
    ((own i = own j /\ i <= j) \/
     exists t, t < ceil_div (Nat.min P (cend i - cstart i) - 1) 2 /\
       own j = (own i + Nat.min P (cend i - cstart i) - (t + 1))
                 mod (Nat.min P (cend i - cstart i)))).

Lemma cov_diag i : i < n -> Cov i i.
Proof.
  intros Hi. right. pose proof (cstart_le i). split; [unfold cend; lia|]. left. lia.
Qed.

Lemma chunk_index i : i < n -> exists k, k * RC < n /\ k * RC <= i < Nat.min n (k * RC + RC).
Proof.
  intros Hi. exists (i / RC). pose proof (cstart_le i) as H. unfold cstart in H. lia.
Qed.

Lemma cov_either i j : i < j -> j < n -> Cov i j \/ Cov j i.
Proof.
  intros Hij Hj. destruct (chunk_index i ltac:(lia)) as (k & Hk & Hi).
  destruct (own_here k Hk i Hi) as (Ho & _ & E1 & E2).
  destruct (decide (cend i <= j)) as [Hc|Hc]; [left; left; auto|].
  assert (Hj' : k * RC <= j < Nat.min n (k * RC + RC)) by (unfold cend in *; lia).
  destruct (own_here k Hk j Hj') as (Ho' & _ & E1' & E2').
  destruct (decide (own i = own j)) as [E|E].
  { left. right. split; [lia|]. left. split; [auto|lia]. }
  destruct (ranks_meet _ _ _ Ho Ho' E) as (t & Ht & [H|H]).
  - left. right. split; [lia|]. right. exists t. rewrite E1, E2. auto.
  - right. right. split; [lia|]. right. exists t. rewrite E1', E2'. auto.
Qed.

Context (Hpn : per_node * N <> 2 * P).
Context (add_0_l : forall x, add zero x = x) (add_0_r : forall x, add x zero = x).
Context (conj_0 : conj zero = zero).
Context (is_zero_spec : forall x, is_zero x = true <-> x = zero).

(** The result: symmetric, with values from either orientation off the
    diagonal. *)
Definition mirrored (a : arr) : Prop :=
  shape n n a /\
  (forall i, i < n -> ent a i i = Some (f i i)) /\
  (forall i j, i < j -> j < n -> exists x,
     (x = f i j \/ x = conj (f j i)) /\
     ent a i j = Some x /\ ent a j i = Some (conj x)).

Lemma symmetrize_spec F :
  (forall i j, i < n -> j < n -> F i j = zero \/ F i j = f i j) ->
  (forall i j, i < n -> j < n -> Cov i j -> F i j = f i j) ->
  mirrored (symmetrize zero add conj is_zero n (tabulate n n F)).
Proof.
  intros HF HC.
  assert (Hat : forall i j, i < n -> j < n -> at_ zero (tabulate n n F) i j = F i j).
  { intros i j Hi Hj. pose proof (ent_tabulate n n F i j Hi Hj) as E. unfold ent in E.
    destruct (tabulate n n F !! i) as [row|] eqn:Er; [|discriminate]. simpl in E.
    unfold at_. rewrite (nth_lookup_Some _ _ _ _ Er).
    apply nth_lookup_Some. exact E. }
  unfold symmetrize, build.
  set (y := fun i j => add (at_ zero (tabulate n n F) i j)
    (if is_zero (at_ zero (tabulate n n F) i j)
        && negb (is_zero (conj (at_ zero (tabulate n n F) j i)))
     then triu zero 1 (fun i j => conj (at_ zero (tabulate n n F) j i)) i j else zero)).
  cbv zeta.
  change (mirrored (tabulate n n (fun i j => add (triu zero 0 y i j) (conj (triu zero 1 y j i))))).
  assert (Hy : forall i j, i <= j -> j < n ->
    (y i j = conj (F j i) /\ i < j /\ conj (F j i) <> zero) \/
    (y i j = F i j /\ ~ (i < j /\ F i j = zero /\ conj (F j i) <> zero))).
  { intros i j Hij Hj. unfold y. rewrite !Hat by lia. unfold triu. rewrite Hat by lia.
    destruct (is_zero (F i j)) eqn:E1; simpl.
    - pose proof (proj1 (is_zero_spec _) E1) as Z1.
      destruct (is_zero (conj (F j i))) eqn:E2; simpl.
      + apply is_zero_spec in E2. right. split; [apply add_0_r|]. tauto.
      + destruct (Nat.leb_spec (i + 1) j).
        * left. split; [rewrite Z1; apply add_0_l|]. split; [lia|].
          intros E3. apply is_zero_spec in E3. congruence.
        * right. split; [apply add_0_r|]. lia.
    - right. split; [apply add_0_r|]. intros (_ & E & _). apply is_zero_spec in E. congruence. }
  assert (T0 : forall i j, i <= j -> add (triu zero 0 y i j) (conj (triu zero 1 y j i)) = y i j).
  { intros i j Hij. unfold triu. rewrite (proj2 (Nat.leb_le (i + 0) j)) by lia.
    rewrite (proj2 (Nat.leb_gt (j + 1) i)) by lia. rewrite conj_0. apply add_0_r. }
  assert (T1 : forall i j, i < j -> add (triu zero 0 y j i) (conj (triu zero 1 y i j)) = conj (y i j)).
  { intros i j Hij. unfold triu. rewrite (proj2 (Nat.leb_gt (j + 0) i)) by lia.
    rewrite (proj2 (Nat.leb_le (i + 1) j)) by lia. apply add_0_l. }
  split; [apply shape_tabulate|]. split.
  - intros i Hi. rewrite ent_tabulate by auto. rewrite T0 by auto. f_equal.
    destruct (Hy i i) as [(_ & H & _)|[-> _]]; auto; [lia|].
    apply HC; auto. apply cov_diag; auto.
  - intros i j Hij Hj. exists (y i j). split.
    + destruct (Hy i j) as [(-> & _ & H3)|[-> Hn]]; [lia|auto| |].
      * right. f_equal. destruct (HF j i) as [E|E]; auto; [lia|].
        rewrite E in H3. congruence.
      * destruct (cov_either i j Hij Hj) as [C|C].
        -- left. apply HC; auto; lia.
        -- destruct (HF i j) as [E|E]; auto; [lia|]. right.
           rewrite E. rewrite <- (HC j i) by (auto; lia).
           destruct (is_zero (conj (F j i))) eqn:E2.
           ++ apply is_zero_spec in E2. auto.
           ++ destruct Hn. split; auto. split; auto. intros E3. apply is_zero_spec in E3.
              congruence.
    + rewrite !ent_tabulate by lia. rewrite T0, T1 by lia. auto.
Qed.

Lemma own_lt i : i < n -> own i < P.
Proof.
  intros Hi. destruct (chunk_index i Hi) as (k & Hk & Hi').
  destruct (own_here k Hk i Hi') as (Ho & _).
  pose proof (chunk_facts k Hk). lia.
Qed.

Lemma wp_symm_core (Post : _ -> _ -> Prop) :
  P * P - 2 + P / 2 <= tag_ub -> 0 < n -> like = ip (nth 0 vs d) (nth 0 vs d) ->
  (forall b x, mirrored x -> (forall r, r < P -> b r = x) -> Post st b) ->
  wp st (fun r => symm_array P tag_ub zero add conj is_zero store_as (Some ip)
                    per_node per_proc N r vecs) Post.
Proof.
  intros Htag Hn Hlike HPost. unfold symm_array.
  change (@length loc vecs) with n. fold RC.
  destruct (stored_nth d _ _ _ 0 Hvecs Hn) as (h & Eh & Sh).
  unfold py_nth. rewrite nth_error_lookup, Eh.
  eapply wp_bind with (Q := fun st' y => st' = st /\ forall r, r < P -> y r = h).
  { apply (wp_ret tag_ub eager P st (fun _ => h)). auto. }
  intros st' h' [-> Hh].
  apply wp_ext with (qs := fun r =>
    v <- (_ <- get h ;; v <- get h ;;
          (if per_node * N =? 2 * P then fail ZeroDivisionError else ret tt) ;;; ret v) ;;
    a <- for_loop (py_range 0 n RC) (zeros zero n n)
           (fun start_row a => row_chunk P store_as ip (ip v v) per_proc r vecs start_row a) ;;
    a <- sum_over_procs P tag_ub add r a ;;
    barrier P ;;;
    ret (symmetrize zero add conj is_zero n a)).
  { intros r Hr k. rewrite (Hh r Hr). unfold bind, get. 
    destruct (per_node * N =? 2 * P); reflexivity. }
  eapply wp_bind with (Q := fun st' y => st' = st /\ forall r, r < P -> y r = nth 0 vs d).
  { apply (wp_read tag_ub eager P st _ (fun _ => nth 0 vs d)); auto. intros r Hr.
    eapply local_bind; [apply local_get; exact Sh|].
    eapply local_bind; [apply local_get; exact Sh|].
    rewrite (proj2 (Nat.eqb_neq _ _) Hpn). eapply local_bind; apply local_ret. }
  intros st' v [-> Hv].
  eapply wp_bind with (Q := fun st' a => st' = st /\ forall r, r < P -> goodS r Cov (a r)).
  { eapply wp_mono.
    { apply (wp_for tag_ub eager P (py_range 0 n RC) st (fun _ => zeros zero n n) _
        (fun m st' a => st' = st /\ forall r, r < P ->
           goodS r (fun i j => i < m * RC /\ Cov i j) (a r))).
      - split; auto. intros r Hr. split; [apply shape_zeros|]. split; [|split].
        + intros. apply ent_zeros; auto.
        + intros. left. apply ent_zeros; auto.
        + intros i j Hi Hj [H _]. lia.
      - intros k x st' a Hx (-> & Ha). apply py_range_lookup in Hx. destruct Hx as [-> Hk].
        apply ceil_div_mul in Hk; [|apply RC_pos]. rewrite Nat.sub_0_r in Hk.
        rewrite Nat.add_0_l.
        apply (wp_row_chunk k Hk (fun i j => i < k * RC /\ Cov i j) (fun r => ip (v r) (v r)) a);
          auto.
        + intros r Hr. rewrite Hv by auto. auto.
        + intros b Hb. split; auto. intros r Hr. eapply goodS_mono; [|apply Hb; auto].
          intros i j Hi Hj Ho [H1 H2]. destruct (decide (i < k * RC)); [left; auto|].
          right.
          assert (Hi' : k * RC <= i < Nat.min n (k * RC + RC)) by lia.
          split; auto. destruct (own_here k Hk i Hi') as (_ & _ & E1 & E2).
          unfold Cov in H2. rewrite E1, E2 in H2. exact H2. }
    intros st' a (-> & Ha). split; auto. intros r Hr. rewrite py_range_length in Ha.
    eapply goodS_mono; [|apply Ha; auto]. intros i j Hi Hj Ho H. split; auto.
    pose proof (ceil_div_ge (n - 0) RC RC_pos). lia. }
  intros st' a (-> & Ha).
  set (F := fun i j => default zero (ent (a (own i)) i j)).
  assert (HF : forall i j, i < n -> j < n -> ent (a (own i)) i j = Some (F i j)).
  { intros i j Hi Hj. unfold F. destruct (Ha (own i) (own_lt i Hi)) as (S & _).
    destruct (shape_ent _ _ _ _ _ S Hi Hj) as [x ->]. reflexivity. }
  eapply wp_bind with (Q := fun st' b => st' = st /\ forall r, r < P -> b r = tabulate n n F).
  { apply (wp_sum_over_procs P tag_ub eager zero add add_0_l add_0_r HP st a n n F own).
    - intros r Hr. apply (Ha r Hr).
    - apply own_lt.
    - intros r i j Hr Hi Hj. destruct (decide (r = own i)) as [->|E].
      + apply HF; auto.
      + destruct (Ha r Hr) as (_ & Z & _). apply Z; auto.
    - auto. }
  intros st' b [-> Hb].
  eapply wp_bind.
  { apply (wp_par_barrier tag_ub eager P st (fun st' _ => st' = st)); auto. }
  intros st' u ->.
  apply (wp_ret tag_ub eager P st (fun r => symmetrize zero add conj is_zero n (b r))).
  apply (HPost _ (symmetrize zero add conj is_zero n (tabulate n n F))).
  - apply symmetrize_spec.
    + intros i j Hi Hj. destruct (Ha (own i) (own_lt i Hi)) as (_ & _ & E & _).
      specialize (E i j Hi Hj). rewrite HF in E by auto. destruct E as [E|E]; injection E; auto.
    + intros i j Hi Hj HC. destruct (Ha (own i) (own_lt i Hi)) as (_ & _ & _ & E).
      specialize (E i j Hi Hj HC eq_refl). rewrite HF in E by auto. injection E; auto.
  - intros r Hr. rewrite (Hb r Hr). reflexivity.
Qed.

(** With a tag limit below [P*P-1] and a vector for every rank, the last rank
    cannot send in the first set. *)
Lemma symm_tag_fails :
  1 < P -> P <= n -> tag_ub < P * P - 1 -> like = ip (nth 0 vs d) (nth 0 vs d) ->
  local_fail tag_ub eager P st
    (@symm_array V K O P tag_ub zero add conj is_zero store_as (Some ip) per_node per_proc N
       (P - 1) vecs) MPIError.
Proof.
  intros H1 Hn Ht Hlike. unfold symm_array.
  change (@length loc vecs) with n. fold RC.
  destruct (stored_nth d _ _ _ 0 Hvecs ltac:(change (@length loc vecs) with n; lia))
    as (h & Eh & Sh).
  unfold py_nth. rewrite nth_error_lookup, Eh.
  eapply local_fail_after; [apply local_ret|].
  eapply local_fail_after; [apply local_get; exact Sh|].
  eapply local_fail_after; [apply local_get; exact Sh|].
  rewrite (proj2 (Nat.eqb_neq _ _) Hpn).
  eapply local_fail_after; [apply local_ret|].
  rewrite <- Hlike. apply local_fail_bind.
  assert (L1 : exists l, py_range 0 n RC = 0 * RC :: l).
  { unfold py_range. pose proof RC_pos as HRC.
    pose proof (ceil_div_ge (n - 0) RC HRC). destruct (ceil_div (n - 0) RC) as [|q]; [lia|].
    simpl. eauto. }
  destruct L1 as [l ->]. cbn [for_loop]. apply local_fail_bind.
  set (r := P - 1). assert (Hr : r < P) by (unfold r; lia).
  assert (Hk : 0 * RC < n) by lia.
  pose proof (chunk_facts 0 Hk) as (F1 & F2 & F3 & F4 & F5 & F6).
  unfold row_chunk. change (@length loc vecs) with n. fold RC.
  rewrite active_count. rewrite tasks_nth by auto.
  set (s := 0 * RC) in *. set (e := Nat.min n (s + RC)) in *. set (c := e - s) in *.
  assert (Hc : P <= c).
  { unfold c, e, s. unfold RC in *. nia. }
  rewrite (Nat.min_l P c) by auto.
  assert (Hl : 0 < tlen P c r) by (apply tlen_pos; auto; lia).
  rewrite seq_length, (proj2 (Nat.ltb_lt _ _) Hl).
  eapply local_fail_after; [apply local_get_slice; exact Hvecs|].
  unfold consecutive. rewrite !first_of_seq by auto. rewrite !last_of_seq by auto.
  match goal with |- context [seq ?x (?x + ?y - ?x)] =>
    replace (x + y - x) with y by lia end.
  rewrite bool_decide_true by reflexivity.
  assert (Hend : s + tstart P c r + tlen P c r <= n) by (pose proof (tend_le P c r HP Hr); lia).
  rewrite (slice_nth d) by (rewrite vs_length; lia).
  destruct (triangle_good 0 Hk r (fun _ _ => False) (zeros zero n n) Hr) as (a' & Ea & _).
  { split; [apply shape_zeros|]. split; [|split].
    - intros. apply ent_zeros; auto.
    - intros. left. apply ent_zeros; auto.
    - tauto. }
  eapply local_fail_after.
  { match goal with |- local_run _ _ _ _ (lift ?x) _ _ =>
      assert (E : x = Ok a') by exact Ea; rewrite E end. apply local_ret. }
  apply local_fail_bind. unfold square_sets.
  assert (L2 : exists q, seq 0 (ceil_div (P - 1) 2) = 0 :: seq 1 q).
  { rewrite half_sets. assert (1 <= P / 2) by (apply Nat.div_le_lower_bound; lia).
    destruct (P / 2) as [|q]; [lia|]. exists q. reflexivity. }
  assert (L3 : exists q, seq 0 (ceil_div (list_maximum
      (map length (find_assignments P (seq s c) None))) 1) = 0 :: seq 1 q).
  { rewrite ceil_div_1. pose proof (tlen_le_max P s c r HP Hr).
    destruct (list_maximum _) as [|q]; [lia|]. exists q. reflexivity. }
  destruct L2 as [q2 ->]. destruct L3 as [q3 ->]. cbn [for_loop].
  apply local_fail_bind. apply local_fail_bind. apply local_fail_bind.
  rewrite seq_length, (proj2 (Nat.ltb_lt _ _) Hl).
  apply local_fail_bind. unfold swap. apply local_fail_bind. apply local_fail_isend.
  unfold pair_tag, r. replace (P - 1 + 0 + 1) with P by lia. rewrite Nat.mod_same by lia. nia.
Qed.

End Symm.

Lemma symm_no_vecs ip per_node per_proc N r st :
  local_fail tag_ub eager P st
    (@symm_array V K O P tag_ub zero add conj is_zero store_as (Some ip) per_node per_proc N r [])
    IndexError.
Proof. unfold symm_array. apply local_fail_bind. apply local_fail_fail. Qed.

Lemma puses_symm_array (R W : loc -> Prop) ipo per_node per_proc N r (vecs : list loc) :
  (forall h, h ∈ vecs -> R h) ->
  puses R W (@symm_array V K O P tag_ub zero add conj is_zero store_as ipo per_node per_proc N
               r vecs).
Proof.
  intros Hr. unfold symm_array. destruct ipo as [ip|]; [|apply puses_fail].
  apply puses_nth; [exact Hr|intros h Hh].
  apply puses_bind; [apply puses_get; auto|intros _].
  apply puses_bind; [apply puses_get; auto|intros v].
  apply puses_bind; [destruct (_ =? _); [apply puses_fail|apply puses_ret]|intros _].
  apply puses_bind.
  - apply puses_for. intros x a _. unfold row_chunk.
    apply puses_bind; [destruct (_ <? _); [apply puses_get_slice; auto|apply puses_ret]|].
    intros rv. apply puses_bind.
    { destruct (_ <? _); [destruct (consecutive _); [apply puses_lift|apply puses_fail]|
        apply puses_ret]. }
    intros a1. apply puses_bind.
    + unfold square_sets. apply puses_for. intros t a2 _. apply puses_for. intros q a3 _.
      apply puses_bind.
      * destruct (_ <? _); [|apply puses_ret].
        apply puses_bind; [apply puses_swap|intros; apply puses_lift].
      * intros a4. apply puses_bind; [apply puses_par_barrier|intros; apply puses_ret].
    + intros a2. unfold rectangle. apply puses_for. intros g a3 _. apply puses_ring.
      destruct (_ <? _); [|apply puses_ret].
      apply puses_bind; [apply puses_get_slice; auto|intros; apply puses_ret].
  - intros a. apply puses_bind; [apply puses_sum_over_procs|intros b].
    apply puses_bind; [apply puses_par_barrier|intros; apply puses_ret].
Qed.
End Proofs.
