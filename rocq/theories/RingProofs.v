(** Exchanging vectors between processes: the pairwise swap and the ring. *)
From stdpp Require Import gmap list.
From Coq Require Import Lia.
From Verif Require Import Prelude ParallelModel ParallelProofs Spmd SpmdFacts SpmdLock SpmdEnds
  ReductionsModel ReductionsProofs InnerProdModel ArrayProofs.
Open Scope prog_scope.

Lemma mod_shift_inj P r : 1 < P -> r < P -> (((r + 1) mod P) + P - 1) mod P = r.
Proof.
  intros HP Hr. destruct (decide (r + 1 = P)) as [E|E].
  - rewrite E, Nat.mod_same by lia. rewrite Nat.mod_small; lia.
  - rewrite (Nat.mod_small (r + 1)) by lia.
    replace (r + 1 + P - 1) with (r + 1 * P) by lia.
    rewrite Nat.mod_add by lia. apply Nat.mod_small; auto.
Qed.
Lemma mod_shift_inj' P r : 1 < P -> r < P -> (((r + P - 1) mod P) + 1) mod P = r.
Proof.
  intros HP Hr. destruct r as [|r].
  - simpl. rewrite (Nat.mod_small (P - 1)) by lia.
    replace (P - 1 + 1) with P by lia. apply Nat.mod_same. lia.
  - replace (S r + P - 1) with (r + 1 * P) by lia.
    rewrite Nat.mod_add by lia. rewrite (Nat.mod_small r) by lia.
    rewrite Nat.mod_small; lia.
Qed.
Lemma mod_shift_step P r j : 1 < P -> r < P -> 0 < j < P ->
  (((r + P - 1) mod P) + P - (j - 1)) mod P = (r + P - j) mod P.
Proof.
  intros HP Hr Hj. destruct r as [|r].
  - simpl. rewrite (Nat.mod_small (P - 1)) by lia.
    replace (P - 1 + P - (j - 1)) with (P - j + 1 * P) by lia.
    rewrite Nat.mod_add by lia. f_equal.
  - replace (S r + P - 1) with (r + 1 * P) by lia.
    rewrite Nat.mod_add by lia. rewrite (Nat.mod_small r) by lia.
    f_equal. lia.
Qed.

(** Every rank is met exactly once going round the ring. *)
Lemma ring_visits P r s : r < P -> s < P -> exists p, p < P /\ (r + P - p) mod P = s.
Proof.
  intros Hr Hs. destruct (decide (s <= r)).
  - exists (r - s). split; [lia|]. replace (r + P - (r - s)) with (s + 1 * P) by lia.
    rewrite Nat.mod_add by lia. apply Nat.mod_small; auto.
  - exists (r + P - s). split; [lia|]. replace (r + P - (r + P - s)) with s by lia.
    apply Nat.mod_small; auto.
Qed.

Section Ring.
Context {V K O : Type}.
Context (P tag_ub : nat) (eager : msg V K -> bool).
Notation prog := (prog (msg V K) V O).
Notation wp := (@wp (msg V K) V O tag_ub eager P).
Notation payload := (list V * list nat)%type.

Lemma wp_swap st (act : nat -> bool) (dst src : nat -> nat) (pl : nat -> payload)
    (Post : _ -> _ -> Prop) :
  (forall r, r < P -> act r = true ->
     dst r < P /\ pair_tag P r (dst r) <= tag_ub /\ act (dst r) = true /\ src (dst r) = r) ->
  (forall r, r < P -> act r = true ->
     src r < P /\ act (src r) = true /\ dst (src r) = r) ->
  Post st (fun r => if act r then Some (pl (src r)) else None) ->
  wp st (fun r => if act r then x <- swap P r (dst r) (src r) (pl r) ;; ret (Some x)
                  else ret None) Post.
Proof.
  intros Hd Hs HPost.
  set (m := fun r => @MVecs V K (fst (pl r)) (snd (pl r))).
  set (snd := fun r => if act r then Some (dst r, 0, pair_tag P r (dst r), m r)
                       else @None (nat * nat * nat * msg V K)).
  set (rcv := fun r => if act r then Some (src r, 0, pair_tag P (src r) r) else None).
  apply wp_ext with (qs := fun r =>
    x <- exch (snd r) (rcv r) ;;
    match x with
    | Some y => z <- lift (unpack_vecs y) ;; ret (Some z)
    | None => ret None
    end).
  { intros r Hr k. unfold snd, rcv. destruct (act r); reflexivity. }
  eapply wp_bind.
  - apply (wp_exch tag_ub eager P snd rcv st
             (fun st' a => st' = st /\ a = got snd rcv)); auto.
    split.
    + intros i d c t x Hi Hsd. unfold snd in Hsd.
      destruct (act i) eqn:E; [|discriminate]. injection Hsd as <- <- <- <-.
      destruct (Hd i Hi E) as (H1 & H2 & H3 & H4). split; auto. split; auto.
      unfold rcv. rewrite H3, H4. reflexivity.
    + intros i s c t Hi Hr. unfold rcv in Hr.
      destruct (act i) eqn:E; [|discriminate]. injection Hr as <- <- <-.
      destruct (Hs i Hi E) as (H1 & H2 & H3). split; auto.
      exists (m (src i)). unfold snd. rewrite H2, H3. reflexivity.
  - intros st' a [-> ->]. apply wp_results.
    apply wp_ext with (qs := fun r => ret (if act r then Some (pl (src r)) else None)).
    + intros r Hr k. unfold got, rcv, snd. destruct (act r) eqn:E; [|reflexivity].
      destruct (Hs r Hr E) as (H1 & H2 & H3). rewrite H2. unfold m. simpl.
      destruct (pl (src r)). reflexivity.
    + apply (wp_ret tag_ub eager P st (fun r => if act r then Some (pl (src r)) else None)).
      eauto.
Qed.

Lemma pair_tag_ring r : r < P -> pair_tag P r ((r + 1) mod P) <= P * P - 1.
Proof.
  intros Hr. unfold pair_tag. destruct (decide (r + 1 = P)) as [E|E].
  - rewrite E, Nat.mod_same by lia. nia.
  - rewrite Nat.mod_small by lia. nia.
Qed.

Lemma wp_swap_ring st (pl : nat -> payload) (Post : _ -> _ -> Prop) :
  1 < P -> P * P - 1 <= tag_ub ->
  (forall a, (forall r, r < P -> a r = pl ((r + P - 1) mod P)) -> Post st a) ->
  wp st (fun r => swap P r ((r + 1) mod P) ((r + P - 1) mod P) (pl r)) Post.
Proof.
  intros HP Htag HPost.
  apply wp_ext with (qs := fun r =>
    y <- (if true then x <- swap P r ((r + 1) mod P) ((r + P - 1) mod P) (pl r) ;; ret (Some x)
          else ret None) ;;
    ret (match y with Some x => x | None => pl r end)).
  { intros r Hr k. reflexivity. }
  eapply wp_bind.
  - apply (wp_swap st (fun _ => true) (fun r => (r + 1) mod P) (fun r => (r + P - 1) mod P) pl
      (fun st' a => st' = st /\ a = fun r => Some (pl ((r + P - 1) mod P)))).
    + intros r Hr _. split; [apply Nat.mod_upper_bound; lia|].
      split; [pose proof (pair_tag_ring r Hr); lia|]. split; auto. apply mod_shift_inj; auto.
    + intros r Hr _. split; [apply Nat.mod_upper_bound; lia|]. split; auto.
      apply mod_shift_inj'; auto.
    + auto.
  - intros st' a [-> ->]. apply wp_ret. apply HPost. auto.
Qed.

Lemma wp_ring {T} st (fetch : nat -> prog payload) (pl : nat -> payload)
    (compute : nat -> payload -> T -> res T) (A : nat -> nat -> T) (Post : _ -> _ -> Prop) :
  0 < P -> P * P - 1 <= tag_ub ->
  (forall r, r < P -> local_run tag_ub eager P st (fetch r) st (pl r)) ->
  (forall p r, p < P -> r < P ->
     compute r (pl ((r + P - p) mod P)) (A p r) = Ok (A (S p) r)) ->
  Post st (A P) ->
  wp st (fun r => ring P r (fetch r) (compute r) (A 0 r)) Post.
Proof.
  intros HP Htag Hfetch Hcomp HPost. unfold ring.
  eapply wp_bind.
  - apply (wp_for_seq tag_ub eager P P st (fun r => (A 0 r, ([], []))) _
      (fun j st' s => st' = st /\
         forall r, r < P -> fst (s r) = A j r /\
           (0 < j -> snd (s r) = pl ((r + P - (j - 1)) mod P)))).
    + split; auto. intros r Hr. split; auto. lia.
    + intros j st' s Hj (-> & Hs).
      eapply wp_bind with (Q := fun st' a => st' = st /\
        forall r, r < P -> a r = pl ((r + P - j) mod P)).
      * destruct (Nat.eqb_spec j 0) as [->|Hj0].
        -- apply (wp_read tag_ub eager P st fetch pl); auto. split; auto.
           intros r Hr. rewrite Nat.sub_0_r.
           replace (r + P) with (r + 1 * P) by lia. rewrite Nat.mod_add by lia.
           rewrite Nat.mod_small by auto. reflexivity.
        -- eapply wp_bind with (Q := fun st' a => st' = st /\
             forall r, r < P -> a r = pl ((r + P - j) mod P)).
           ++ apply (wp_swap_ring st (fun r => snd (s r))); [lia|exact Htag|].
              intros a Ha. split; auto. intros r Hr. rewrite Ha by auto.
              destruct (Hs ((r + P - 1) mod P)) as [_ H2];
                [apply Nat.mod_upper_bound; lia|].
              rewrite H2 by lia. f_equal. apply mod_shift_step; lia.
           ++ intros st' a [-> Ha]. eapply wp_bind.
              ** apply (wp_par_barrier tag_ub eager P st (fun st' _ => st' = st)); auto.
              ** intros st' u ->. apply (wp_ret tag_ub eager P st a). auto.
      * intros st' a [-> Ha].
        apply wp_ext with (qs := fun r => ret (A (S j) r, a r)).
        { intros r Hr k. rewrite (Ha r Hr). destruct (Hs r Hr) as [-> _].
          rewrite Hcomp by auto. reflexivity. }
        apply (wp_ret tag_ub eager P st (fun r => (A (S j) r, a r))). split; auto.
        intros r Hr. simpl. split; auto. intros _. rewrite Ha by auto.
        do 2 f_equal. lia.
  - intros st' s (-> & Hs). apply wp_results.
    apply wp_ext with (qs := fun r => ret (fst (s r))).
    { intros r Hr k. destruct (s r). reflexivity. }
    apply (wp_ret tag_ub eager P st (fun r => fst (s r))). exists (A P). split; auto.
    intros r Hr. destruct (Hs r Hr) as [-> _]. reflexivity.
Qed.

(** The same with an invariant [I p r] on the accumulator of rank [r] after [p]
    passes. *)
Lemma wp_ring_inv {T} st (fetch : nat -> prog payload) (pl : nat -> payload)
    (compute : nat -> payload -> T -> res T) (acc : nat -> T)
    (I : nat -> nat -> T -> Prop) (Post : _ -> _ -> Prop) :
  0 < P -> P * P - 1 <= tag_ub ->
  (forall r, r < P -> local_run tag_ub eager P st (fetch r) st (pl r)) ->
  (forall r, r < P -> I 0 r (acc r)) ->
  (forall p r b, p < P -> r < P -> I p r b ->
     exists b', compute r (pl ((r + P - p) mod P)) b = Ok b' /\ I (S p) r b') ->
  (forall a, (forall r, r < P -> I P r (a r)) -> Post st a) ->
  wp st (fun r => ring P r (fetch r) (compute r) (acc r)) Post.
Proof.
  intros HP Htag Hf H0 Hstep HPost.
  set (A := fix A p r := match p with
    | 0 => acc r
    | S p => match compute r (pl ((r + P - p) mod P)) (A p r) with
             | Ok x => x | Raise _ => A p r end
    end).
  assert (HA : forall p r, p <= P -> r < P -> I p r (A p r)).
  { induction p as [|p IH]; intros r Hp Hr; simpl; auto.
    destruct (Hstep p r (A p r)) as (b' & -> & Hb); auto. apply IH; lia. }
  apply (wp_ring st fetch pl compute A); auto.
  intros p r Hp Hr. simpl.
  destruct (Hstep p r (A p r)) as (b' & -> & Hb); auto. apply HA; lia.
Qed.

(** With more than one process and a tag above the limit the first pass fails. *)
Lemma ring_fails {T} st r (fetch : prog payload) pl (compute : payload -> T -> res T) acc acc' :
  1 < P -> tag_ub < pair_tag P r ((r + 1) mod P) ->
  local_run tag_ub eager P st fetch st pl -> compute pl acc = Ok acc' ->
  local_fail tag_ub eager P st (ring P r fetch compute acc) MPIError.
Proof.
  intros HP Ht Hf Hc. unfold ring. apply local_fail_bind.
  destruct P as [|[|n]] eqn:EP; try lia. rewrite <- EP in *.
  replace (seq 0 P) with (0 :: 1 :: seq 2 n) by (rewrite EP; reflexivity). cbn [for_loop].
  eapply local_fail_after.
  - eapply local_bind; [exact Hf|]. cbn [fst]. rewrite Hc.
    eapply local_bind; apply local_ret.
  - apply local_fail_bind. apply local_fail_bind. cbn [Nat.eqb]. apply local_fail_bind.
    unfold swap. apply local_fail_bind. apply local_fail_isend. lia.
Qed.

(** ** Footprints *)

Lemma puses_swap R W r d s (pl : payload) : puses R W (@swap V K O P r d s pl).
Proof.
  unfold swap. apply puses_bind; [apply puses_isend|intros].
  apply puses_bind; [apply puses_recv|intros].
  apply puses_bind; [apply puses_wait|intros]. apply puses_lift.
Qed.
Lemma puses_ring R W {T} r (fetch : prog payload) (compute : payload -> T -> res T) acc :
  puses R W fetch -> puses R W (ring P r fetch compute acc).
Proof.
  intros Hf. unfold ring. apply puses_bind; [|intros [? ?]; apply puses_ret].
  apply puses_for. intros j s _. apply puses_bind.
  - destruct (j =? 0); auto. apply puses_bind; [apply puses_swap|intros].
    apply puses_bind; [apply puses_par_barrier|intros; apply puses_ret].
  - intros pl. apply puses_bind; [apply puses_lift|intros; apply puses_ret].
Qed.
Lemma puses_get_slice (R W : loc -> Prop) handles a b :
  (forall h, h ∈ handles -> R h) -> puses R W (@get_slice V K O handles a b).
Proof.
  intros H. apply puses_map. intros h Hh. apply puses_get. apply H.
  unfold slice in Hh. apply elem_of_list_In in Hh. apply elem_of_list_In.
  rewrite <- (firstn_skipn a handles). apply in_or_app. right.
  rewrite <- (firstn_skipn (b - a) (skipn a handles)). apply in_or_app. left. exact Hh.
Qed.

(** ** Reading vectors *)

Context (default : V).

(** All of [handles] are present in the store, with values [vs]. *)
Definition stored (st : gmap loc V) (handles : list loc) (vs : list V) : Prop :=
  Forall2 (fun h v => st !! h = Some v) handles vs.

Lemma local_get_slice st handles vs a b :
  stored st handles vs ->
  local_run tag_ub eager P st (@get_slice V K O handles a b) st (slice a b vs).
Proof.
  intros H. apply local_map. unfold slice.
  apply Forall2_take. apply (Forall2_drop _ _ _ a) in H.
  eapply Forall2_impl; [exact H|]. intros h v Hv. apply local_get. exact Hv.
Qed.

Lemma slice_nth {A} (d : A) (l : list A) a n :
  a + n <= length l -> slice a (a + n) l = map (fun i => nth i l d) (seq a n).
Proof.
  intros H. unfold slice. replace (a + n - a) with n by lia.
  apply list_eq. intros k. rewrite lookup_map.
  destruct (decide (k < n)) as [Hk|Hk].
  - rewrite lookup_take by auto. rewrite lookup_drop, lookup_seq_lt by auto. simpl.
    destruct (lookup_lt_is_Some_2 l (a + k)) as [x Hx]; [lia|].
    rewrite Hx. f_equal. symmetry. apply nth_lookup_Some. exact Hx.
  - rewrite lookup_take_ge by lia. rewrite lookup_seq_ge by lia. reflexivity.
Qed.
Lemma slice_empty {A} (l : list A) a b : b <= a -> slice a b l = [].
Proof. intros H. unfold slice. replace (b - a) with 0 by lia. reflexivity. Qed.
End Ring.
