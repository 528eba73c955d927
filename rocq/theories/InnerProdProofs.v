(** Correctness of the distributed inner-product array. *)
From stdpp Require Import gmap list.
From Coq Require Import Lia.
From Verif Require Import Prelude ParallelModel ParallelProofs Spmd SpmdFacts SpmdLock SpmdEnds
  ReductionsModel ReductionsProofs InnerProdModel ArrayProofs RingProofs TaskProofs.
Open Scope prog_scope.

Section Proofs.
Context {V K O : Type}.
Context (P tag_ub : nat) (eager : msg V K -> bool).
Notation prog := (prog (msg V K) V O).
Notation wp := (@wp (msg V K) V O tag_ub eager P).
Notation arr := (list (list K)).
Context (zero : K) (add : K -> K -> K) (conj : K -> K) (store_as : K -> K -> res K).
Context (add_0_l : forall x, add zero x = x) (add_0_r : forall x, add x zero = x).
Context (HP : 0 < P).

(** ** Summing arrays whose rows have one owner each *)

Lemma wp_sum_over_procs st (a : nat -> arr) m n (f : nat -> nat -> K) (own : nat -> nat)
    (Post : _ -> _ -> Prop) :
  (forall r, r < P -> shape m n (a r)) ->
  (forall i, i < m -> own i < P) ->
  (forall r i j, r < P -> i < m -> j < n ->
     ent (a r) i j = Some (if decide (r = own i) then f i j else zero)) ->
  (forall b, (forall r, r < P -> b r = tabulate m n f) -> Post st b) ->
  wp st (fun r => sum_over_procs P tag_ub add r (a r)) Post.
Proof.
  intros Hs Hown He HPost. unfold sum_over_procs.
  destruct (1 <? P) eqn:EP.
  - eapply wp_bind.
    + apply (wp_allreduce tag_ub eager P (msg_add add) st (fun r => MArr (a r))
        (fun st' b => st' = st /\
           forall r, r < P -> b r = reduce_value P (msg_add add) (fun r => MArr (a r)))); auto.
    + intros st' b [-> Hb].
      assert (G : exists x, reduce_value P (msg_add add) (fun r => MArr (a r)) = @MArr V K x /\
        shape m n x /\ forall i j, i < m -> j < n ->
        ent x i j = Some (if decide (0 <= own i < 0 + P) then f i j else zero)).
      { apply (reduce_value_rel P (msg_add add)
          (fun lo len y => exists x, y = @MArr V K x /\ shape m n x /\
            forall i j, i < m -> j < n ->
            ent x i j = Some (if decide (lo <= own i < lo + len) then f i j else zero))); auto.
        - intros r Hr. exists (a r). split; auto. split; auto. intros i j Hi Hj.
          rewrite He by auto. destruct (decide (r = own i)) as [E|E].
          + rewrite decide_True by lia. reflexivity.
          + rewrite decide_False by lia. reflexivity.
        - intros lo l1 l2 y1 y2 H1 H2 Hle (x1 & -> & S1 & E1) (x2 & -> & S2 & E2).
          exists (arr_add add x1 x2). split; auto. split; [apply shape_add; auto|].
          intros i j Hi Hj.
          rewrite (ent_add add x1 x2 i j _ _ (E1 i j Hi Hj) (E2 i j Hi Hj)). f_equal.
          destruct (decide (lo <= own i < lo + l1)).
          + rewrite decide_False by lia. rewrite decide_True by lia. apply add_0_r.
          + destruct (decide (lo + l1 <= own i < lo + l1 + l2)).
            * rewrite decide_True by lia. apply add_0_l.
            * rewrite decide_False by lia. apply add_0_l. }
      destruct G as (x & Ex & Sx & Hx).
      assert (Ext : x = tabulate m n f).
      { apply arr_eq_tabulate; auto. intros i j Hi Hj. rewrite Hx by auto.
        rewrite decide_True; auto. specialize (Hown i Hi). lia. }
      apply wp_ext with (qs := fun r => ret (tabulate m n f)).
      { intros r Hr k. rewrite (Hb r Hr), Ex, Ext. reflexivity. }
      apply (wp_ret tag_ub eager P st (fun _ => tabulate m n f)). auto.
  - apply (wp_ret tag_ub eager P st a). apply HPost. intros r Hr.
    apply Nat.ltb_ge in EP. apply arr_eq_tabulate; auto. intros i j Hi Hj.
    rewrite He by auto. rewrite decide_True; auto. specialize (Hown i Hi). lia.
Qed.

Lemma puses_sum_over_procs R W r (a : arr) :
  puses R W (@sum_over_procs V K O P tag_ub add r a).
Proof.
  unfold sum_over_procs. destruct (1 <? P); [|apply puses_ret].
  apply puses_bind; [apply puses_allreduce|intros; apply puses_lift].
Qed.

(** ** The main loop *)

Section Core.
Context (ip sv : V -> V -> K) (per_node per_proc N : nat) (d : V).
Context (st : gmap loc V) (rows cols : list loc) (rv cv : list V).
Context (Hrows : stored st rows rv) (Hcols : stored st cols cv).
Context (Hpp : 2 <= per_proc).
Context (Hpn : per_node * N <> 2 * P).

Let m := @length loc rows.
Let n := @length loc cols.
Let f i j := sv (nth i rv d) (nth j cv d).

Lemma stored_length (s : gmap loc V) hs vs : stored s hs vs -> length hs = length vs.
Proof. apply Forall2_length. Qed.

Lemma stored_nth (s : gmap loc V) hs vs i : stored s hs vs -> i < length hs ->
  exists h, hs !! i = Some h /\ s !! h = Some (nth i vs d).
Proof.
  intros H Hi. destruct (lookup_lt_is_Some_2 hs i Hi) as [h Hh].
  destruct (Forall2_lookup_l _ _ _ _ _ H Hh) as (v & Hv & E).
  exists h. split; auto. rewrite E. f_equal. symmetry. apply nth_lookup_Some. auto.
Qed.

Lemma local_burn : 0 < m -> 0 < n ->
  local_run tag_ub eager P st (@burn V K O P ip per_node N rows cols) st (ip (nth 0 rv d) (nth 0 cv d)).
Proof.
  intros Hm Hn. unfold burn.
  destruct (stored_nth _ _ _ 0 Hrows Hm) as (h & Eh & Sh).
  destruct (stored_nth _ _ _ 0 Hcols Hn) as (h' & Eh' & Sh').
  unfold py_nth. rewrite !nth_error_lookup, Eh, Eh'.
  eapply local_bind; [apply local_ret|].
  eapply local_bind; [apply local_get; exact Sh|].
  eapply local_bind; [apply local_ret|].
  eapply local_bind; [apply local_get; exact Sh'|].
  eapply local_bind; [apply local_get; exact Sh|].
  rewrite (proj2 (Nat.eqb_neq _ _) Hpn). apply local_ret.
Qed.

(** Array [a] of rank [r]: rows of other ranks are zero, entries in [D] are
    inner products. *)
Definition good (r : nat) (D : nat -> nat -> Prop) (a : arr) : Prop :=
  shape m n a /\
  (forall i j, i < m -> j < n -> owner P m i <> r -> ent a i j = Some zero) /\
  (forall i j, i < m -> j < n -> D i j -> ent a i j = Some (f i j)).

Lemma good_mono r (D D' : nat -> nat -> Prop) a : (forall i j, i < m -> j < n -> D' i j -> D i j) ->
  good r D a -> good r D' a.
Proof. intros H (S & Z & E). repeat split; auto; apply S. Qed.

Context (like : K).
Context (Hstore : forall i j, i < m -> j < n ->
  store_as like (ip (nth i rv d) (nth j cv d)) = Ok (f i j)).

Lemma compute_good r D (a : arr) lo hi clo chi : r < P ->
  good r D a ->
  (lo < hi -> tstart P m r <= lo /\ hi <= tstart P m r + tlen P m r) ->
  clo <= chi <= n ->
  exists a',
    (if 0 <? length (slice lo hi rv) then
       ip_block store_as ip like lo hi (slice lo hi rv)
         (slice clo chi cv, seq clo (chi - clo)) a
     else Ok a) = Ok a' /\
    good r (fun i j => D i j \/ (lo <= i < hi /\ clo <= j < chi)) a'.
Proof.
  intros Hr (S & Z & E) Hlo Hc.
  destruct (decide (lo < hi)) as [Hlt|Hge].
  - destruct (Hlo Hlt) as [L1 L2].
    pose proof (tend_le P m r HP Hr) as Lm.
    pose proof (stored_length _ _ _ Hrows) as Lr. fold m in Lr.
    pose proof (stored_length _ _ _ Hcols) as Lc. fold n in Lc.
    set (k := hi - lo). replace hi with (lo + k) by lia.
    set (l := chi - clo). replace chi with (clo + l) by lia.
    rewrite !(slice_nth d) by lia. rewrite map_length, seq_length.
    assert (Hk : 0 < k) by lia. rewrite (proj2 (Nat.ltb_lt 0 k) Hk).
    destruct (ip_block_spec store_as ip like sv m n (fun i => nth i rv d) (fun j => nth j cv d)
                lo k (seq clo l) a S ltac:(lia)) as (a' & Ea & Sa & He).
    + apply Forall_forall. intros j Hj. apply elem_of_seq in Hj. lia.
    + intros i j Hi Hj. apply elem_of_seq in Hj. apply Hstore; lia.
    + exists a'. replace (lo + k - lo) with k in Ea by lia. split; [exact Ea|].
      split; auto. split.
      * intros i j Hi Hj Ho. rewrite He. rewrite decide_False; auto.
        intros [Hi2 _]. apply Ho. apply owner_unique; auto. lia.
      * intros i j Hi Hj [HD|[H1 H2]]; rewrite He.
        -- case_decide; auto.
        -- rewrite decide_True; auto. split; [lia|]. apply elem_of_seq. lia.
  - rewrite slice_empty by lia. simpl. exists a. split; auto. split; auto. split; auto.
    intros i j Hi Hj [HD|[H1 H2]]; auto. lia.
Qed.

Lemma chunk_in_tasks r g c : r < P ->
  let b := chunk_bounds (seq (0 + tstart P m r) (tlen P m r)) g c in
  fst b < snd b -> tstart P m r <= fst b /\ snd b <= tstart P m r + tlen P m r.
Proof.
  intros Hr b Hb. destruct (chunk_bounds_spec (0 + tstart P m r) (tlen P m r) g c)
    as (H1 & H2 & H3 & _). fold b in H1, H2, H3. specialize (H3 Hb). simpl in *. lia.
Qed.

Lemma wp_core (Post : _ -> _ -> Prop) :
  P * P - 1 <= tag_ub -> 0 < m -> 0 < n -> like = ip (nth 0 rv d) (nth 0 cv d) ->
  (forall b, (forall r, r < P -> b r = tabulate m n f) -> Post st b) ->
  wp st (fun r => ip_array_core P tag_ub zero add store_as ip per_node per_proc N r rows cols)
    Post.
Proof.
  intros Htag Hm Hn Hlike HPost. unfold ip_array_core. fold m n.
  set (rc := per_proc - 1).
  set (RL := list_maximum (map length (find_assignments P (seq 0 m) None))).
  set (CL := list_maximum (map length (find_assignments P (seq 0 n) None))).
  set (rb := fun r g => chunk_bounds (seq (0 + tstart P m r) (tlen P m r)) g rc).
  set (cb := fun r h => chunk_bounds (seq (0 + tstart P n r) (tlen P n r)) h 1).
  eapply wp_bind with (Q := fun st' a => st' = st /\ forall r, r < P -> a r = like).
  { apply (wp_read tag_ub eager P st _ (fun _ => like)).
    - intros r Hr. rewrite Hlike. apply local_burn; auto.
    - auto. }
  intros st' lk [-> Hlk].
  set (Dr := fun g r (i j : nat) => exists g', g' < g /\ fst (rb r g') <= i < snd (rb r g')).
  eapply wp_bind.
  { apply (wp_for_seq tag_ub eager P (ceil_div RL rc) st (fun _ => zeros zero m n) _
      (fun g st' a => st' = st /\ forall r, r < P -> good r (Dr g r) (a r))).
    - split; auto. intros r Hr. split; [apply shape_zeros|]. split.
      + intros. apply ent_zeros; auto.
      + intros i j Hi Hj (g' & Hg & _). lia.
    - intros g st' a Hg (-> & Ha).
      apply wp_ext with (qs := fun r =>
        row_vecs <- get_slice rows (fst (rb r g)) (snd (rb r g)) ;;
        for_loop (seq 0 (ceil_div CL 1)) (a r) (fun h a =>
          ring P r
            (col_vecs <- get_slice cols (fst (cb r h)) (snd (cb r h)) ;;
             ret (col_vecs, seq (fst (cb r h)) (snd (cb r h) - fst (cb r h))))
            (fun payload a =>
               if 0 <? length row_vecs then
                 ip_block store_as ip like (fst (rb r g)) (snd (rb r g)) row_vecs payload a
               else Ok a) a)).
      { intros r Hr k. unfold rb, cb. rewrite !tasks_nth by auto.
        rewrite (Hlk r Hr). reflexivity. }
      eapply wp_bind with (Q := fun st' x => st' = st /\
        forall r, r < P -> x r = slice (fst (rb r g)) (snd (rb r g)) rv).
      { apply (wp_read tag_ub eager P st _ (fun r => slice (fst (rb r g)) (snd (rb r g)) rv));
          auto. intros r Hr. apply local_get_slice. exact Hrows. }
      intros st' x [-> Hx].
      set (Dc := fun h r (i j : nat) => Dr g r i j \/
        (fst (rb r g) <= i < snd (rb r g) /\
         exists h' s, h' < h /\ s < P /\ fst (cb s h') <= j < snd (cb s h'))).
      eapply wp_mono.
      + apply (wp_for_seq tag_ub eager P (ceil_div CL 1) st a _
          (fun h st' a => st' = st /\ forall r, r < P -> good r (Dc h r) (a r))).
        * split; auto. intros r Hr. eapply good_mono; [|apply Ha; auto].
          intros i j Hi Hj [H|(_ & h' & s & Hh & _)]; auto. lia.
        * intros h st' b Hh (-> & Hb).
          eapply (wp_ring_inv P tag_ub eager st _
            (fun s => (slice (fst (cb s h)) (snd (cb s h)) cv,
                       seq (fst (cb s h)) (snd (cb s h) - fst (cb s h)))) _ b
            (fun p r c => good r (fun i j => Dc h r i j \/
               (fst (rb r g) <= i < snd (rb r g) /\
                exists p', p' < p /\
                  let s := (r + P - p') mod P in fst (cb s h) <= j < snd (cb s h))) c)).
          -- exact HP.
          -- exact Htag.
          -- intros r Hr. eapply local_bind; [apply local_get_slice; exact Hcols|].
             apply local_ret.
          -- intros r Hr. eapply good_mono; [|apply Hb; auto].
             intros i j Hi Hj [H|(_ & p' & Hp' & _)]; auto. lia.
          -- intros p r c Hp Hr Hc. rewrite (Hx r Hr).
             set (s := (r + P - p) mod P) in *.
             assert (Hs : s < P) by (apply Nat.mod_upper_bound; lia).
             destruct (chunk_bounds_spec (0 + tstart P n s) (tlen P n s) h 1)
               as (B1 & B2 & _). fold (cb s h) in B1, B2.
             pose proof (tend_le P n s HP Hs) as Ln.
             destruct (compute_good r _ c (fst (rb r g)) (snd (rb r g))
                         (fst (cb s h)) (snd (cb s h)) Hr Hc) as (c' & Ec & Gc).
             ++ intros Hlt. apply (chunk_in_tasks r g rc Hr Hlt).
             ++ lia.
             ++ exists c'. split; [exact Ec|]. eapply good_mono; [|exact Gc].
                intros i j Hi Hj [H|(H & p' & Hp' & Hj')]; auto.
                destruct (decide (p' = p)) as [->|Hne]; auto.
                left. right. split; auto. exists p'. split; [lia|auto].
          -- intros c Hc. split; auto. intros r Hr. eapply good_mono; [|apply Hc; auto].
             intros i j Hi Hj [H|(H & h' & s & Hh' & Hs & Hj')]; [left; left; exact H|].
             destruct (decide (h' = h)) as [->|Hne].
             ++ right. split; auto. destruct (ring_visits P r s Hr Hs) as (p & Hp & Ep).
                exists p. split; auto. cbv zeta. rewrite Ep. exact Hj'.
             ++ left. right. split; auto. exists h', s. split; [lia|auto].
      + intros st' b (-> & Hb). split; auto. intros r Hr.
        eapply good_mono; [|apply Hb; auto].
        intros i j Hi Hj (g' & Hg' & H). destruct (decide (g' = g)) as [->|Hne].
        * right. split; auto.
          destruct (owner_spec P n j HP Hj) as [Ho Hjo].
          destruct (chunk_bounds_cover (0 + tstart P n (owner P n j)) (tlen P n (owner P n j))
                      1 CL j) as (h & Hh & Hb').
          -- lia.
          -- apply tlen_le_max; auto.
          -- simpl. lia.
          -- exists h, (owner P n j). auto.
        * left. exists g'. split; [lia|auto]. }
  intros st' a (-> & Ha).
  apply (wp_sum_over_procs st a m n f (owner P m)).
  - intros r Hr. apply (Ha r Hr).
  - intros i Hi. apply owner_spec; auto.
  - intros r i j Hr Hi Hj. destruct (Ha r Hr) as (S & Z & E).
    destruct (decide (r = owner P m i)) as [Eo|Eo].
    + apply E; auto. destruct (owner_spec P m i HP Hi) as [Ho Hio]. rewrite <- Eo in Ho, Hio.
      destruct (chunk_bounds_cover (0 + tstart P m r) (tlen P m r) rc RL i)
        as (g & Hg & Hb).
      * unfold rc. lia.
      * apply tlen_le_max; auto.
      * simpl. lia.
      * exists g. auto.
    + apply Z; auto.
  - auto.
Qed.

(** The last rank cannot send when the tag limit is below [P*P-1]. *)
Lemma core_tag_fails :
  1 < P -> tag_ub < P * P - 1 -> 0 < m -> 0 < n -> like = ip (nth 0 rv d) (nth 0 cv d) ->
  local_fail tag_ub eager P st
    (@ip_array_core V K O P tag_ub zero add store_as ip per_node per_proc N (P - 1) rows cols)
    MPIError.
Proof.
  intros H1 Ht Hm Hn Hlike. unfold ip_array_core. fold m n.
  eapply local_fail_after; [apply local_burn; auto|]. rewrite <- Hlike.
  apply local_fail_bind. rewrite !tasks_nth by lia.
  set (RL := list_maximum (map length (find_assignments P (seq 0 m) None))).
  set (CL := list_maximum (map length (find_assignments P (seq 0 n) None))).
  assert (HRL : 0 < RL).
  { pose proof (tlen_le_max P 0 m 0 HP HP). pose proof (proj2 (tlen_pos P m 0 HP HP) Hm).
    fold RL in H. lia. }
  assert (HCL : 0 < CL).
  { pose proof (tlen_le_max P 0 n 0 HP HP). pose proof (proj2 (tlen_pos P n 0 HP HP) Hn).
    fold CL in H. lia. }
  assert (L1 : exists k, seq 0 (ceil_div RL (per_proc - 1)) = 0 :: seq 1 k).
  { pose proof (ceil_div_ge RL (per_proc - 1) ltac:(lia)).
    destruct (ceil_div RL (per_proc - 1)) as [|k]; [lia|]. exists k. reflexivity. }
  assert (L2 : exists k, seq 0 (ceil_div CL 1) = 0 :: seq 1 k).
  { pose proof (ceil_div_ge CL 1 ltac:(lia)).
    destruct (ceil_div CL 1) as [|k]; [lia|]. exists k. reflexivity. }
  destruct L1 as [k1 ->]. destruct L2 as [k2 ->]. cbn [for_loop].
  apply local_fail_bind.
  eapply local_fail_after; [apply local_get_slice; exact Hrows|].
  apply local_fail_bind.
  set (rb := chunk_bounds (seq (0 + tstart P m (P - 1)) (tlen P m (P - 1))) 0 (per_proc - 1)).
  set (cb := chunk_bounds (seq (0 + tstart P n (P - 1)) (tlen P n (P - 1))) 0 1).
  destruct (chunk_bounds_spec (0 + tstart P n (P - 1)) (tlen P n (P - 1)) 0 1)
    as (B1 & B2 & _). fold cb in B1, B2.
  pose proof (tend_le P n (P - 1) HP ltac:(lia)) as Ln.
  destruct (compute_good (P - 1) (fun _ _ => False) (zeros zero m n) (fst rb) (snd rb)
              (fst cb) (snd cb)) as (a' & Ea & _).
  - lia.
  - split; [apply shape_zeros|]. split; [|tauto]. intros. apply ent_zeros; auto.
  - apply chunk_in_tasks. lia.
  - lia.
  - eapply ring_fails; [exact H1| | |exact Ea].
    + replace (P - 1 + 1) with P by lia. rewrite Nat.mod_same by lia.
      unfold pair_tag. nia.
    + eapply local_bind; [apply local_get_slice; exact Hcols|]. apply local_ret.
Qed.
End Core.

Lemma core_no_rows ip per_node per_proc N r (cols : list loc) st :
  local_fail tag_ub eager P st
    (@ip_array_core V K O P tag_ub zero add store_as ip per_node per_proc N r [] cols) IndexError.
Proof.
  unfold ip_array_core. apply local_fail_bind. unfold burn. apply local_fail_bind.
  apply local_fail_fail.
Qed.

Lemma puses_nth (R W : loc -> Prop) {A} (l : list loc) i (k : loc -> prog A) :
  (forall h, h ∈ l -> R h) ->
  (forall h, R h -> puses R W (k h)) -> puses R W (h <- lift (py_nth l i) ;; k h).
Proof.
  intros Hl Hk. unfold py_nth. rewrite nth_error_lookup.
  destruct (l !! i) as [h|] eqn:E.
  - intros k' Hk'. apply (Hk h); auto. apply Hl. apply elem_of_list_lookup. eauto.
  - intros k' Hk'. exact I.
Qed.

Lemma puses_core (R W : loc -> Prop) (ip : V -> V -> K) per_node per_proc N r (rows cols : list loc) :
  (forall h, h ∈ rows -> R h) -> (forall h, h ∈ cols -> R h) ->
  puses R W (@ip_array_core V K O P tag_ub zero add store_as ip per_node per_proc N r rows cols).
Proof.
  intros Hr Hc. unfold ip_array_core. apply puses_bind.
  - unfold burn. apply puses_nth; [exact Hr|intros h Hh].
    apply puses_bind; [apply puses_get; auto|intros _].
    apply puses_nth; [exact Hc|intros h' Hh'].
    apply puses_bind; [apply puses_get; auto|intros w].
    apply puses_bind; [apply puses_get; auto|intros v].
    destruct (_ =? _); [apply puses_fail|apply puses_ret].
  - intros like. apply puses_bind; [|intros; apply puses_sum_over_procs].
    apply puses_for. intros g a _.
    apply puses_bind; [apply puses_get_slice; auto|intros x].
    apply puses_for. intros h b _. apply puses_ring.
    apply puses_bind; [apply puses_get_slice; auto|intros; apply puses_ret].
Qed.

(** ** The whole routine *)

Definition table (ip : V -> V -> K) (rv cv : list V) : arr :=
  map (fun v => map (fun w => ip v w) cv) rv.

Lemma table_tabulate ip rv cv d :
  table ip rv cv = tabulate (length rv) (length cv) (fun i j => ip (nth i rv d) (nth j cv d)).
Proof.
  unfold table, tabulate.
  assert (E : forall {A} (l : list V) (g : V -> A), map g l = map (fun i => g (nth i l d)) (seq 0 (length l))).
  { intros A l g. apply list_eq. intros i. rewrite !lookup_map.
    destruct (decide (i < length l)) as [Hi|Hi].
    - rewrite lookup_seq_lt by auto. destruct (lookup_lt_is_Some_2 l i Hi) as [x Hx].
      rewrite Hx. simpl. do 2 f_equal. symmetry. apply nth_lookup_Some. auto.
    - rewrite lookup_ge_None_2 by lia. rewrite lookup_seq_ge by lia. reflexivity. }
  rewrite (E _ rv). apply map_ext. intros i. apply E.
Qed.

(** What is stored, in an array with the dtype of the first inner product. *)
Definition stored_as (ip g : V -> V -> K) (rv cv : list V) : Prop :=
  match rv, cv with
  | v0 :: _, w0 :: _ =>
      forall v w, v ∈ rv -> w ∈ cv -> store_as (ip v0 w0) (ip v w) = Ok (g v w)
  | _, _ => True
  end.

Lemma wp_core_table ip g per_node per_proc N st rows cols rv cv (Post : _ -> _ -> Prop) :
  stored st rows rv -> stored st cols cv -> rows <> [] -> cols <> [] ->
  P * P - 1 <= tag_ub -> 2 <= per_proc -> per_node * N <> 2 * P ->
  stored_as ip g rv cv ->
  (forall b, (forall r, r < P -> b r = table g rv cv) -> Post st b) ->
  wp st (fun r => ip_array_core P tag_ub zero add store_as ip per_node per_proc N r rows cols)
    Post.
Proof.
  intros Hr Hc Nr Nc Ht Hpp Hpn Hd HPost.
  pose proof (Forall2_length _ _ _ Hr) as Lr. pose proof (Forall2_length _ _ _ Hc) as Lc.
  destruct rv as [|v0 rv]; [destruct rows; simpl in *; congruence|].
  destruct cv as [|w0 cv]; [destruct cols; simpl in *; congruence|].
  simpl in Hd.
  apply (wp_core ip g per_node per_proc N v0 st rows cols _ _ Hr Hc Hpp Hpn (ip v0 w0)).
  - intros i j Hi Hj.
    assert (G : forall (l : list V) k, k < length l -> nth k l v0 ∈ l).
    { intros l k Hk. apply elem_of_list_In. apply nth_In. auto. }
    apply Hd; apply G; [rewrite <- Lr|rewrite <- Lc]; auto.
  - exact Ht.
  - destruct rows; simpl in *; [congruence|lia].
  - destruct cols; simpl in *; [congruence|lia].
  - reflexivity.
  - intros b Hb. apply HPost. intros r Hlt. rewrite Hb by auto.
    rewrite (table_tabulate g _ _ v0), Lr, Lc. reflexivity.
Qed.

(** The array is computed in the orientation with fewer rows. *)
Lemma wp_ip_array ip g per_node per_proc N st rows cols rv cv (Post : _ -> _ -> Prop) :
  stored st rows rv -> stored st cols cv -> rows <> [] -> cols <> [] ->
  P * P - 1 <= tag_ub -> 2 <= per_proc -> per_node * N <> 2 * P ->
  (if length cols <? length rows then stored_as ip g cv rv else stored_as ip g rv cv) ->
  (forall b, (forall r, r < P -> b r =
     if length cols <? length rows then table (fun v w => conj (g w v)) rv cv
     else table g rv cv) -> Post st b) ->
  wp st (fun r => ip_array P tag_ub zero add conj store_as (Some ip) per_node per_proc N r rows cols)
    Post.
Proof.
  intros Hr Hc Nr Nc Ht Hpp Hpn Hd HPost. unfold ip_array.
  eapply wp_bind with (Q := fun st' b => st' = st /\ forall r, r < P -> b r =
     if length cols <? length rows then table (fun v w => conj (g w v)) rv cv
     else table g rv cv).
  - destruct (Nat.ltb_spec (length cols) (length rows)) as [Hlt|Hle].
    + eapply wp_bind with (Q := fun st' b => st' = st /\ forall r, r < P -> b r = table g cv rv).
      * apply (wp_core_table ip g per_node per_proc N st cols rows cv rv); auto.
      * intros st' b [-> Hb].
        apply (wp_ret tag_ub eager P st (fun r => conj_transpose zero conj (length rows) (b r))).
        split; auto. intros r Hlr. rewrite Hb by auto.
        pose proof (Forall2_length _ _ _ Hr) as Lr.
        destruct rv as [|d rv0] eqn:Erv; [destruct rows; simpl in *; congruence|].
        rewrite <- Erv in *. clear Erv rv0.
        rewrite (table_tabulate _ rv cv d), (table_tabulate g cv rv d), Lr.
        apply arr_eq_tabulate.
        -- apply shape_conj_transpose. apply shape_tabulate.
        -- intros i j Hi Hj.
           apply (ent_conj_transpose zero conj _ _ _ i j
                    (g (nth j cv d) (nth i rv d)) (shape_tabulate _ _ _)).
           apply (ent_tabulate _ _ (fun i j => g (nth i cv d) (nth j rv d)) j i); auto.
    + apply (wp_core_table ip g per_node per_proc N st rows cols rv cv); auto.
  - intros st' b [-> Hb]. eapply wp_bind.
    + apply (wp_par_barrier tag_ub eager P st (fun st' _ => st' = st)); auto.
    + intros st' u ->. apply (wp_ret tag_ub eager P st b). auto.
Qed.

Lemma ip_array_tag_fails ip g per_node per_proc N st rows cols rv cv :
  stored st rows rv -> stored st cols cv -> rows <> [] -> cols <> [] ->
  1 < P -> tag_ub < P * P - 1 -> 2 <= per_proc -> per_node * N <> 2 * P ->
  (if length cols <? length rows then stored_as ip g cv rv else stored_as ip g rv cv) ->
  local_fail tag_ub eager P st
    (@ip_array V K O P tag_ub zero add conj store_as (Some ip) per_node per_proc N (P - 1)
       rows cols) MPIError.
Proof.
  assert (G : forall rows cols rv cv,
    stored st rows rv -> stored st cols cv -> rows <> [] -> cols <> [] ->
    1 < P -> tag_ub < P * P - 1 -> 2 <= per_proc -> per_node * N <> 2 * P ->
    stored_as ip g rv cv ->
    local_fail tag_ub eager P st
      (@ip_array_core V K O P tag_ub zero add store_as ip per_node per_proc N (P - 1) rows cols)
      MPIError).
  { clear rows cols rv cv. intros rows cols rv cv Hr Hc Nr Nc H1 Ht Hpp Hpn Hd.
    pose proof (Forall2_length _ _ _ Hr) as Lr. pose proof (Forall2_length _ _ _ Hc) as Lc.
    destruct rv as [|v0 rv]; [destruct rows; simpl in *; congruence|].
    destruct cv as [|w0 cv]; [destruct cols; simpl in *; congruence|].
    apply (core_tag_fails ip g per_node per_proc N v0 st rows cols _ _ Hr Hc Hpp Hpn (ip v0 w0));
      auto.
    - intros i j Hi Hj.
      assert (G : forall (l : list V) k, k < length l -> nth k l v0 ∈ l).
      { intros l k Hk. apply elem_of_list_In. apply nth_In. auto. }
      apply Hd; apply G; [rewrite <- Lr|rewrite <- Lc]; auto.
    - destruct rows; simpl in *; [congruence|lia].
    - destruct cols; simpl in *; [congruence|lia]. }
  intros Hr Hc Nr Nc H1 Ht Hpp Hpn Hd. unfold ip_array. apply local_fail_bind.
  destruct (Nat.ltb_spec (length cols) (length rows)).
  - apply local_fail_bind. eapply G; eauto.
  - eapply G; eauto.
Qed.

Lemma puses_ip_array (R W : loc -> Prop) ipo per_node per_proc N r (rows cols : list loc) :
  (forall h, h ∈ rows -> R h) -> (forall h, h ∈ cols -> R h) ->
  puses R W (@ip_array V K O P tag_ub zero add conj store_as ipo per_node per_proc N r rows cols).
Proof.
  intros Hr Hc. unfold ip_array. destruct ipo as [ip|]; [|apply puses_fail].
  apply puses_bind.
  - destruct (_ <? _).
    + apply puses_bind; [apply puses_core; auto|intros; apply puses_ret].
    + apply puses_core; auto.
  - intros a. apply puses_bind; [apply puses_par_barrier|intros; apply puses_ret].
Qed.
End Proofs.
