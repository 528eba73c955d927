(** The writes made during a run. *)
From stdpp Require Import gmap list.
From Coq Require Import Lia.
From Verif Require Import Prelude Spmd SpmdFacts SpmdLock.

Lemma flat_map_app_in {A B} (f : A -> list B) l l' :
  flat_map f (l ++ l') = flat_map f l ++ flat_map f l'.
Proof. induction l as [|x l IH]; simpl; auto. rewrite IH. apply app_assoc. Qed.

Section Writes.
Context {M V O : Type}.
Context (tag_ub : nat) (eager : M -> bool).
Notation proc := (proc M V O).
Notation prog := (prog M V O).
Notation config := (@config M V O).

(** The writes (rank, location) of a step. *)
Definition write_of (i : nat) (p : proc) : list (nat * loc) :=
  match p with Put h _ _ => [(i, h)] | _ => [] end.

(** [run w c d]: a run from [c] to [d] that makes the writes [w], in this order. *)
Inductive run : list (nat * loc) -> config -> config -> Prop :=
| run_nil c : run [] c c
| run_rank i p c c' d w :
    procs c !! i = Some p -> rank_step tag_ub eager i c = Some c' -> run w c' d ->
    run (write_of i p ++ w) c d
| run_barrier ps ch st d w :
    ps <> [] -> Forall at_barrier ps ->
    run w (Config (past_barrier <$> ps) ch st) d -> run w (Config ps ch st) d.

Lemma run_steps w c d : run w c d -> exists n, steps tag_ub eager n c d.
Proof.
  induction 1 as [c|i p c c' d w Hp Hr _ [n IH]|ps ch st d w Hne Hall _ [n IH]].
  - exists 0. constructor.
  - exists (S n). econstructor; eauto. eapply step_rank; eauto.
  - exists (S n). econstructor; eauto. apply step_barrier; auto.
Qed.
Lemma steps_run n c d : steps tag_ub eager n c d -> exists w, run w c d.
Proof.
  induction 1 as [c|n c c' d Hs _ [w IH]].
  - exists []. constructor.
  - inversion Hs as [i c0 c1 Hr|ps ch st Hne Hall]; subst.
    + destruct (procs c !! i) as [p|] eqn:E.
      * exists (write_of i p ++ w). eapply run_rank; eauto.
      * unfold rank_step in Hr. rewrite E in Hr. discriminate.
    + exists w. apply run_barrier; auto.
Qed.

(** [writes l p]: unless it raises, [p] writes exactly the locations [l], in this
    order, whatever it reads and receives. *)
Fixpoint writes (l : list loc) (p : proc) : Prop :=
  match p with
  | Ret _ => l = []
  | Fail _ => True
  | Isend _ _ _ _ k => writes l k
  | Recv _ _ _ k => forall m, writes l (k m)
  | Wait _ _ _ _ k => writes l k
  | Barrier k => writes l k
  | Get _ k => forall v, writes l (k v)
  | Put h _ k => exists l', l = h :: l' /\ writes l' k
  end.

Lemma local_step_writes n i p ch st p' ch' st' l :
  local_step tag_ub eager n i p ch st = Some (p', ch', st') -> writes l p ->
  exists l', map (pair i) l = write_of i p ++ map (pair i) l' /\ writes l' p' \/
             exists e, p' = Fail e.
Proof.
  destruct p; simpl; intros H Hw; try discriminate.
  - exists l. destruct (decide _); injection H as <- <- <-; [left; auto|right; eauto].
  - exists l. destruct (ch !! _) as [[|m q]|]; try discriminate.
    injection H as <- <- <-. left. auto.
  - exists l. destruct (decide _); [|discriminate]. injection H as <- <- <-. left. auto.
  - exists l. destruct (st !! h); injection H as <- <- <-; [left; auto|right; eauto].
  - injection H as <- <- <-. destruct Hw as (l' & -> & Hw). exists l'. left. auto.
Qed.

(** The writes of rank [i] in [w]. *)
Definition writes_of_rank (i : nat) (w : list (nat * loc)) : list loc :=
  map snd (filter (fun x => x.1 = i) w).

Lemma writes_of_rank_app i w w' :
  writes_of_rank i (w ++ w') = writes_of_rank i w ++ writes_of_rank i w'.
Proof. unfold writes_of_rank. rewrite filter_app, map_app. reflexivity. Qed.

Lemma writes_of_rank_write i j p :
  writes_of_rank i (write_of j p) =
  if decide (i = j) then map snd (write_of j p) else [].
Proof.
  unfold writes_of_rank. destruct p; simpl; try (destruct (decide (i = j)); reflexivity).
  unfold filter, list_filter. simpl. destruct (decide (j = i)), (decide (i = j)); subst; auto; congruence.
Qed.

Lemma step_ranks (c : config) i c' : rank_step tag_ub eager i c = Some c' ->
  exists p p' ch' st', procs c !! i = Some p /\
    local_step tag_ub eager (length (procs c)) i p (chans c) (store c) = Some (p', ch', st') /\
    procs c' = <[i := p']> (procs c).
Proof.
  intros H. unfold rank_step in H. destruct (procs c !! i) as [p|]; [|discriminate].
  destruct (local_step _ _ _ _ _ _ _) as [[[p' ch'] st']|] eqn:E; [|discriminate].
  injection H as <-. exists p, p', ch', st'. auto.
Qed.

(** If every rank ends by returning, each rank [i] has made exactly the writes
    [l i]. *)
Lemma run_writes w c d : run w c d -> forall l : nat -> list loc,
  (forall i p, procs c !! i = Some p -> writes (l i) p) ->
  (forall i p, procs d !! i = Some p -> exists o, p = Ret o) ->
  forall i, i < length (procs c) -> writes_of_rank i w = l i.
Proof.
  induction 1 as [c|j p c c' d w Hp Hr Hrun IH|ps ch st d w Hne Hall Hrun IH];
    intros l Hl Hd i Hi.
  - destruct (lookup_lt_is_Some_2 _ _ Hi) as [p Hp].
    destruct (Hd i p Hp) as [o ->]. pose proof (Hl i _ Hp) as E. simpl in E. rewrite E.
    reflexivity.
  - destruct (step_ranks _ _ _ Hr) as (p0 & p' & ch' & st' & Hp0 & Hs & Ec).
    rewrite Hp in Hp0. injection Hp0 as <-.
    assert (Hlen : length (procs c') = length (procs c)) by (rewrite Ec, insert_length; auto).
    assert (Hj : j < length (procs c)) by (apply lookup_lt_Some in Hp; auto).
    destruct (local_step_writes _ _ _ _ _ _ _ _ _ Hs (Hl j p Hp)) as (l' & [[El Hw]|[e He]]).
    + assert (Hlj : l j = map snd (write_of j p) ++ l').
      { assert (E : map snd (map (pair j) (l j)) = l j).
        { rewrite map_map. apply map_id. }
        rewrite <- E, El, map_app, map_map. simpl. rewrite map_id. reflexivity. }
      rewrite writes_of_rank_app, writes_of_rank_write.
      rewrite (IH (fun k => if decide (k = j) then l' else l k)).
      * destruct (decide (i = j)) as [->|Hne].
        -- symmetry. exact Hlj.
        -- reflexivity.
      * intros k q Hq. rewrite Ec in Hq. destruct (decide (k = j)) as [->|Hne].
        -- rewrite list_lookup_insert in Hq by auto. injection Hq as <-. exact Hw.
        -- rewrite list_lookup_insert_ne in Hq by auto. apply Hl; auto.
      * exact Hd.
      * lia.
    + exfalso. subst p'.
      destruct (run_steps _ _ _ Hrun) as [n Hn].
      assert (Hf : procs d !! j = Some (Fail e)).
      { assert (Hk : procs c' !! j = Some (Fail e)).
        { rewrite Ec. apply list_lookup_insert; auto. }
        clear -Hn Hk. induction Hn as [|n c c' d Hs _ IH]; auto. apply IH.
        inversion Hs as [k c0 c1 Hr|ps ch st Hne Hall]; subst.
        - destruct (step_ranks _ _ _ Hr) as (p0 & p' & ch' & st' & Hp0 & Hs' & ->).
          destruct (decide (j = k)) as [->|Hne].
          + rewrite Hk in Hp0. injection Hp0 as <-. discriminate.
          + rewrite list_lookup_insert_ne by auto. exact Hk.
        - simpl in *. rewrite list_lookup_fmap, Hk. reflexivity. }
      destruct (Hd j _ Hf) as [o Ho]. discriminate.
  - apply (IH l); auto.
    + simpl. intros k q Hq. rewrite list_lookup_fmap in Hq.
      destruct (ps !! k) as [p|] eqn:E; [|discriminate]. simpl in Hq. injection Hq as <-.
      specialize (Hl k p E). destruct p; simpl in *; auto.
    + simpl. rewrite fmap_length. exact Hi.
Qed.

Lemma run_ranks w c d : run w c d -> forall x, x ∈ w -> x.1 < length (procs c).
Proof.
  induction 1 as [c|j p c c' d w Hp Hr Hrun IH|ps ch st d w Hne Hall Hrun IH]; intros x Hx.
  - inversion Hx.
  - apply elem_of_app in Hx. destruct Hx as [Hx|Hx].
    + assert (x.1 = j) as ->; [|apply lookup_lt_Some in Hp; auto].
      destruct p; simpl in Hx; try (inversion Hx; fail).
      apply elem_of_list_singleton in Hx. subst. reflexivity.
    + specialize (IH x Hx). destruct (step_ranks _ _ _ Hr) as (p0 & p' & ch' & st' & _ & _ & E).
      rewrite E, insert_length in IH. exact IH.
  - specialize (IH x Hx). simpl in *. rewrite fmap_length in IH. exact IH.
Qed.

(** The writes, rank by rank. *)
Lemma by_rank P w : (forall x, x ∈ w -> x.1 < P) ->
  map snd w ≡ₚ flat_map (fun r => writes_of_rank r w) (seq 0 P).
Proof.
  induction w as [|[i h] w IH]; intros H.
  - simpl. induction (seq 0 P); simpl; auto.
  - assert (Hi : i < P) by (apply (H (i, h)); left).
    simpl. rewrite IH by (intros x Hx; apply H; right; auto). clear IH H.
    assert (E : forall r, writes_of_rank r ((i, h) :: w) =
                  if decide (i = r) then h :: writes_of_rank r w else writes_of_rank r w).
    { intros r. unfold writes_of_rank. rewrite filter_cons. simpl.
      destruct (decide (i = r)); reflexivity. }
    replace P with (i + S (P - i - 1)) by lia. rewrite seq_app. simpl seq.
    rewrite !flat_map_app_in. simpl flat_map.
    rewrite E, decide_True by auto.
    assert (G : forall a n, i < a \/ a + n <= i ->
      flat_map (fun r => writes_of_rank r ((i, h) :: w)) (seq a n) =
      flat_map (fun r => writes_of_rank r w) (seq a n)).
    { intros a n. revert a. induction n as [|n IHn]; intros a Ha; simpl; auto.
      rewrite E, decide_False by lia. f_equal. apply IHn. lia. }
    rewrite (G 0 i) by lia. rewrite (G (S i)) by lia.
    simpl. apply Permutation_middle.
Qed.

(** ** Programs *)

Definition pwrites (l : list loc) {A} (m : prog A) : Prop :=
  forall l' k, (forall a, writes l' (k a)) -> writes (l ++ l') (m k).

Lemma pwrites_ret {A} (a : A) : pwrites [] (ret a).
Proof. intros l' k H. apply H. Qed.
Lemma pwrites_fail l {A} e : pwrites l (@fail M V O A e).
Proof. intros l' k H. exact I. Qed.
Lemma pwrites_lift {A} (r : res A) : pwrites [] (lift r).
Proof. destruct r; [apply pwrites_ret|apply pwrites_fail]. Qed.
Lemma pwrites_bind l1 l2 {A B} (m : prog A) (f : A -> prog B) :
  pwrites l1 m -> (forall a, pwrites l2 (f a)) -> pwrites (l1 ++ l2) (bind m f).
Proof.
  intros Hm Hf l' k Hk. rewrite <- app_assoc. apply Hm. intros a. apply Hf. exact Hk.
Qed.
Lemma pwrites_bind_nil l {A B} (m : prog A) (f : A -> prog B) :
  pwrites [] m -> (forall a, pwrites l (f a)) -> pwrites l (bind m f).
Proof. intros H1 H2. apply (pwrites_bind [] l); auto. Qed.
Lemma pwrites_isend d c t (m : M) : pwrites [] (isend d c t m).
Proof. intros l' k H. apply H. Qed.
Lemma pwrites_recv s c t : pwrites [] (recv s c t).
Proof. intros l' k H m. apply H. Qed.
Lemma pwrites_wait d c t (m : M) : pwrites [] (wait d c t m).
Proof. intros l' k H. apply H. Qed.
Lemma pwrites_barrier : pwrites [] barrier_op.
Proof. intros l' k H. apply H. Qed.
Lemma pwrites_get h : pwrites [] (get h).
Proof. intros l' k H v. apply H. Qed.
Lemma pwrites_put h v : pwrites [h] (put h v).
Proof. intros l' k H. exists l'. split; [reflexivity|apply H]. Qed.
Lemma pwrites_for {A S} (f : A -> list loc) (l : list A) (body : A -> S -> prog S) : forall s,
  (forall x s, x ∈ l -> pwrites (f x) (body x s)) ->
  pwrites (flat_map f l) (for_loop l s body).
Proof.
  induction l as [|x l IH]; intros s H; simpl.
  - apply pwrites_ret.
  - apply pwrites_bind; [apply H; left|]. intros s'. apply IH.
    intros y s2 Hy. apply H. right. auto.
Qed.
Lemma pwrites_for_nil {A S} (l : list A) (body : A -> S -> prog S) s :
  (forall x s, x ∈ l -> pwrites [] (body x s)) -> pwrites [] (for_loop l s body).
Proof.
  intros H. replace ([] : list loc) with (flat_map (fun _ : A => [] : list loc) l).
  - apply pwrites_for. auto.
  - clear. induction l; auto.
Qed.
Lemma pwrites_map {A B} (f : A -> prog B) (l : list A) :
  (forall x, x ∈ l -> pwrites [] (f x)) -> pwrites [] (map_prog f l).
Proof.
  induction l as [|x l IH]; intros H; simpl.
  - apply pwrites_ret.
  - apply pwrites_bind_nil; [apply H; left|]. intros y. apply pwrites_bind_nil.
    + apply IH. intros z Hz. apply H. right. auto.
    + intros ys. apply pwrites_ret.
Qed.
Lemma pwrites_writes l (m : prog O) : pwrites l m -> writes l (m Ret).
Proof. intros H. rewrite <- (app_nil_r l). apply H. intros; reflexivity. Qed.
End Writes.
