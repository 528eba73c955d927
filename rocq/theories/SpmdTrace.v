(** What the ranks read, write and send during a run. *)
From stdpp Require Import gmap list.
From Coq Require Import Lia.
From Verif Require Import Prelude Spmd SpmdFacts SpmdLock SpmdWrites.

Section Trace.
Context {M V O : Type}.
Context (tag_ub : nat) (eager : M -> bool).
Notation proc := (proc M V O).
Notation prog := (prog M V O).
Notation config := (@config M V O).

(** Reading a handle, writing a handle, sending a message (also when it fails),
    passing a barrier. *)
Inductive event :=
| Reads (h : loc)
| Writes (h : loc)
| Sends (dst : nat) (m : M)
| Passes.

(** The event of the next step of a process. *)
Definition event_of (p : proc) : list event :=
  match p with
  | Get h _ => [Reads h]
  | Put h _ _ => [Writes h]
  | Isend dst _ _ m _ => [Sends dst m]
  | _ => []
  end.

(** [trun tr c d]: a run from [c] to [d] with the events [tr], each with its rank. *)
Inductive trun : list (nat * event) -> config -> config -> Prop :=
| trun_nil c : trun [] c c
| trun_rank i p c c' d tr :
    procs c !! i = Some p -> rank_step tag_ub eager i c = Some c' -> trun tr c' d ->
    trun (map (pair i) (event_of p) ++ tr) c d
| trun_barrier ps ch st d tr :
    ps <> [] -> Forall at_barrier ps ->
    trun tr (Config (past_barrier <$> ps) ch st) d ->
    trun (map (fun i => (i, Passes)) (seq 0 (length ps)) ++ tr) (Config ps ch st) d.

Lemma steps_procs_length n (c d : config) :
  steps tag_ub eager n c d -> length (procs d) = length (procs c).
Proof.
  induction 1 as [c|n c c' d Hs _ IH]; auto. rewrite IH.
  inversion Hs as [i c0 c1 Hr|ps ch st Hne Hall]; subst; simpl.
  - destruct (step_ranks _ _ _ _ _ Hr) as (p0 & p' & ch' & st' & _ & _ & ->). apply insert_length.
  - apply fmap_length.
Qed.

Lemma steps_trun n c d : steps tag_ub eager n c d -> exists tr, trun tr c d.
Proof.
  induction 1 as [c|n c c' d Hs _ [tr IH]].
  - exists []. constructor.
  - inversion Hs as [i c0 c1 Hr|ps ch st Hne Hall]; subst.
    + destruct (procs c !! i) as [p|] eqn:E.
      * exists (map (pair i) (event_of p) ++ tr). eapply trun_rank; eauto.
      * unfold rank_step in Hr. rewrite E in Hr. discriminate.
    + eexists. apply trun_barrier; eauto.
Qed.
Lemma trun_steps tr c d : trun tr c d -> exists n, steps tag_ub eager n c d.
Proof.
  induction 1 as [c|i p c c' d tr Hp Hr _ [n IH]|ps ch st d tr Hne Hall _ [n IH]].
  - exists 0. constructor.
  - exists (S n). econstructor; eauto. eapply step_rank; eauto.
  - exists (S n). econstructor; eauto. apply step_barrier; auto.
Qed.

Definition of_rank {E} (i : nat) (tr : list (nat * E)) : list E :=
  map snd (filter (fun x => x.1 = i) tr).

Lemma of_rank_app {E} i (w w' : list (nat * E)) : of_rank i (w ++ w') = of_rank i w ++ of_rank i w'.
Proof. unfold of_rank. rewrite filter_app, map_app. reflexivity. Qed.
Lemma of_rank_same {E} i (l : list E) : of_rank i (map (pair i) l) = l.
Proof.
  unfold of_rank. induction l as [|x l IH]; auto. simpl. rewrite filter_cons_True by auto.
  simpl. rewrite IH. reflexivity.
Qed.
Lemma of_rank_other {E} i j (l : list E) : i <> j -> of_rank i (map (pair j) l) = [].
Proof.
  intros H. unfold of_rank. induction l as [|x l IH]; auto. simpl. rewrite filter_cons_False by (simpl; auto).
  exact IH.
Qed.

(** The events, rank by rank. *)
Lemma trace_by_rank {E} P (w : list (nat * E)) : (forall x, x ∈ w -> x.1 < P) ->
  map snd w ≡ₚ flat_map (fun r => of_rank r w) (seq 0 P).
Proof.
  induction w as [|[i h] w IH]; intros H.
  - simpl. induction (seq 0 P); simpl; auto.
  - assert (Hi : i < P) by (apply (H (i, h)); left).
    simpl. rewrite IH by (intros x Hx; apply H; right; auto). clear IH H.
    assert (E' : forall r, of_rank r ((i, h) :: w) =
                  if decide (i = r) then h :: of_rank r w else of_rank r w).
    { intros r. unfold of_rank. rewrite filter_cons. simpl.
      destruct (decide (i = r)); reflexivity. }
    replace P with (i + S (P - i - 1)) by lia. rewrite seq_app. simpl seq.
    rewrite !flat_map_app_in. simpl flat_map.
    rewrite E', decide_True by auto.
    assert (G : forall a n, i < a \/ a + n <= i ->
      flat_map (fun r => of_rank r ((i, h) :: w)) (seq a n) =
      flat_map (fun r => of_rank r w) (seq a n)).
    { intros a n. revert a. induction n as [|n IHn]; intros a Ha; simpl; auto.
      rewrite E', decide_False by lia. f_equal. apply IHn. lia. }
    rewrite (G 0 i) by lia. rewrite (G (S i)) by lia.
    simpl. apply Permutation_middle.
Qed.

Lemma trun_ranks tr c d : trun tr c d -> forall x, x ∈ tr -> x.1 < length (procs c).
Proof.
  induction 1 as [c|j p c c' d w Hp Hr Hrun IH|ps ch st d w Hne Hall Hrun IH]; intros x Hx.
  - inversion Hx.
  - apply elem_of_app in Hx. destruct Hx as [Hx|Hx].
    + assert (x.1 = j) as ->; [|apply lookup_lt_Some in Hp; auto].
      apply elem_of_list_fmap in Hx. destruct Hx as (e & -> & _). reflexivity.
    + specialize (IH x Hx). destruct (step_ranks _ _ _ _ _ Hr) as (p0 & p' & ch' & st' & _ & _ & E).
      rewrite E, insert_length in IH. exact IH.
  - simpl in *. rewrite fmap_length in IH. apply elem_of_app in Hx. destruct Hx as [Hx|Hx]; auto.
    apply elem_of_list_fmap in Hx. destruct Hx as (j & -> & Hj). apply elem_of_seq in Hj. simpl. lia.
Qed.

Lemma of_rank_passes {E} i n (e : E) : i < n -> of_rank i (map (fun j => (j, e)) (seq 0 n)) = [e].
Proof.
  intros Hi. replace n with (i + S (n - i - 1)) by lia. rewrite seq_app, map_app, of_rank_app.
  simpl seq. simpl map.
  assert (G : forall a k, i < a \/ a + k <= i -> of_rank i (map (fun j => (j, e)) (seq a k)) = []).
  { intros a k. revert a. induction k as [|k IH]; intros a Ha; auto. simpl.
    unfold of_rank. rewrite filter_cons_False by (simpl; lia). apply IH. lia. }
  rewrite G by lia. simpl. unfold of_rank. rewrite filter_cons_True by auto. simpl.
  f_equal. apply G. lia.
Qed.

(** All ranks have passed the same number of barriers. *)
Definition passes (i : nat) (tr : list (nat * event)) : nat :=
  length (filter (fun e => match e with Passes => true | _ => false end = true) (of_rank i tr)).
Lemma trun_passes tr c d i j : trun tr c d -> i < length (procs c) -> j < length (procs c) ->
  passes i tr = passes j tr.
Proof.
  unfold passes.
  induction 1 as [c|k p c c' d w Hp Hr Hrun IH|ps ch st d w Hne Hall Hrun IH]; intros Hi Hj; auto.
  - destruct (step_ranks _ _ _ _ _ Hr) as (p0 & p' & ch' & st' & _ & _ & E).
    rewrite E, insert_length in IH. specialize (IH Hi Hj).
    assert (G : forall q, filter (fun e => match e with Passes => true | _ => false end = true)
                  (of_rank q (map (pair k) (event_of p))) = []).
    { intros q. destruct (decide (q = k)) as [->|Hq].
      - rewrite of_rank_same. destruct p; reflexivity.
      - rewrite of_rank_other by auto. reflexivity. }
    rewrite !of_rank_app, !filter_app, !G. exact IH.
  - simpl in *. rewrite fmap_length in IH. specialize (IH Hi Hj).
    rewrite !of_rank_app, !filter_app, !of_rank_passes by auto. simpl. rewrite IH. reflexivity.
Qed.

(** ** Processes with a known trace *)

(** What is observed of an event, and which messages may be sent. *)
Context {E : Type} (obs : event -> list E) (okm : M -> Prop).

(** [emits l p]: receiving only allowed messages, [p] sends only allowed messages and,
    unless it raises, what is observed of it is [l]. *)
Fixpoint emits (l : list E) (p : proc) : Prop :=
  match p with
  | Ret _ => l = []
  | Fail _ => True
  | Isend dst _ _ m k => okm m /\ exists l', l = obs (Sends dst m) ++ l' /\ emits l' k
  | Recv _ _ _ k => forall m, okm m -> emits l (k m)
  | Wait _ _ _ _ k => emits l k
  | Barrier k => exists l', l = obs Passes ++ l' /\ emits l' k
  | Get h k => exists l', l = obs (Reads h) ++ l' /\ forall v, emits l' (k v)
  | Put h _ k => exists l', l = obs (Writes h) ++ l' /\ emits l' k
  end.

Definition transit_ok (ch : gmap chan (list M)) : Prop :=
  forall c q, ch !! c = Some q -> Forall okm q.

Lemma local_step_emits n i p ch st p' ch' st' l :
  local_step tag_ub eager n i p ch st = Some (p', ch', st') -> emits l p -> transit_ok ch ->
  transit_ok ch' /\ exists l', l = flat_map obs (event_of p) ++ l' /\ emits l' p'.
Proof.
  destruct p; simpl; intros H Hw Hc; try discriminate.
  - destruct Hw as (Hm & l' & -> & Hw). rewrite app_nil_r.
    destruct (decide _); injection H as <- <- <-; split; eauto.
    + intros c q. unfold push. destruct (decide (c = (i, dst, ctx, tag))) as [->|Hne].
      * rewrite lookup_insert. intros [= <-]. apply Forall_app. split; [|auto].
        destruct (ch !! _) as [q'|] eqn:Eq; simpl; [apply (Hc _ _ Eq)|constructor].
      * rewrite lookup_insert_ne by auto. apply Hc.
    + exists l'. split; [reflexivity|exact I].
  - destruct (ch !! _) as [[|m q]|] eqn:Eq; try discriminate.
    injection H as <- <- <-. pose proof (Hc _ _ Eq) as F. inversion F as [|? ? F1 F2]; subst. split; eauto.
    intros c q0. unfold set_queue. destruct q as [|m' q'].
    + intros Hd. apply lookup_delete_Some in Hd. destruct Hd as [_ Hd]. apply (Hc _ _ Hd).
    + destruct (decide (c = (src, i, ctx, tag))) as [->|Hne].
      * rewrite lookup_insert. intros [= <-]. exact F2.
      * rewrite lookup_insert_ne by auto. apply Hc.
  - destruct (decide _); [|discriminate]. injection H as <- <- <-. eauto.
  - destruct Hw as (l' & -> & Hw). rewrite app_nil_r.
    destruct (st !! h); injection H as <- <- <-; split; auto; exists l'; split; auto. exact I.
  - injection H as <- <- <-. destruct Hw as (l' & -> & Hw). rewrite app_nil_r. eauto.
Qed.

(** Every rank has done a beginning of what is expected of it, and everything once it
    has returned; the messages in transit are allowed. *)
Lemma trun_emits tr c d : trun tr c d -> forall l : nat -> list E,
  (forall i p, procs c !! i = Some p -> emits (l i) p) -> transit_ok (chans c) ->
  transit_ok (chans d) /\
  forall i p, procs d !! i = Some p ->
    exists rest, l i = flat_map obs (of_rank i tr) ++ rest /\ emits rest p.
Proof.
  induction 1 as [c|j p c c' d tr Hp Hr Hrun IH|ps ch st d tr Hne Hall Hrun IH];
    intros l Hl Hc.
  - split; auto. intros i p Hp. exists (l i). split; auto.
  - unfold rank_step in Hr. rewrite Hp in Hr.
    destruct (local_step _ _ _ _ _ _ _) as [[[p' ch'] st']|] eqn:Hs; [|discriminate].
    injection Hr as <-.
    destruct (local_step_emits _ _ _ _ _ _ _ _ _ Hs (Hl j p Hp) Hc) as (Hc' & l' & El & Hw).
    assert (Hj : j < length (procs c)) by (apply lookup_lt_Some in Hp; auto).
    destruct (IH (fun k => if decide (k = j) then l' else l k)) as [G1 G2].
    + simpl. intros k q Hq. destruct (decide (k = j)) as [->|Hne].
      * rewrite list_lookup_insert in Hq by auto. injection Hq as <-. exact Hw.
      * rewrite list_lookup_insert_ne in Hq by auto. apply Hl; auto.
    + exact Hc'.
    + split; auto. intros i q Hq. destruct (G2 i q Hq) as (rest & E1 & E2). exists rest. split; auto.
      rewrite of_rank_app, flat_map_app_in. destruct (decide (i = j)) as [->|Hne].
      * rewrite of_rank_same, El, E1, app_assoc. reflexivity.
      * rewrite of_rank_other by auto. exact E1.
  - assert (Hl' : exists l' : nat -> list E, forall k p, ps !! k = Some p ->
              l k = obs Passes ++ l' k /\ emits (l' k) (past_barrier p)).
    { simpl in Hl. clear -Hl Hall. rewrite Forall_forall in Hall.
      assert (G : forall n, exists l' : nat -> list E, forall k p, k < n -> ps !! k = Some p ->
              l k = obs Passes ++ l' k /\ emits (l' k) (past_barrier p)).
      { induction n as [|n [l' IH]]; [exists (fun _ => []); intros; lia|].
        destruct (ps !! n) as [p|] eqn:En.
        - pose proof (Hall p (elem_of_list_lookup_2 _ _ _ En)) as Hb.
          specialize (Hl n p En). destruct p; try (exfalso; exact Hb). destruct Hl as (ln & E1 & E2).
          exists (fun k => if decide (k = n) then ln else l' k). intros k q Hk Hq.
          destruct (decide (k = n)) as [->|Hne].
          + rewrite En in Hq. injection Hq as <-. auto.
          + apply IH; [lia|auto].
        - exists l'. intros k q Hk Hq. apply IH; auto. destruct (decide (k = n)) as [->|]; [congruence|lia]. }
      destruct (G (length ps)) as [l' H]. exists l'. intros k p Hp. apply H; auto.
      apply lookup_lt_Some in Hp. exact Hp. }
    destruct Hl' as [l' Hl'].
    destruct (IH l') as [G1 G2]; auto.
    { simpl. intros k q Hq. rewrite list_lookup_fmap in Hq.
      destruct (ps !! k) as [p|] eqn:Ek; [|discriminate]. simpl in Hq. injection Hq as <-.
      apply (Hl' k p Ek). }
    split; auto. intros i p Hp. destruct (G2 i p Hp) as (rest & E1 & E2). exists rest. split; auto.
    assert (Hi : i < length ps).
    { apply lookup_lt_Some in Hp. destruct (trun_steps _ _ _ Hrun) as [n Hn].
      apply steps_procs_length in Hn. simpl in Hn. rewrite fmap_length in Hn. lia. }
    destruct (lookup_lt_is_Some_2 _ _ Hi) as [p0 Hp0]. destruct (Hl' i p0 Hp0) as [-> _].
    rewrite of_rank_app, flat_map_app_in, of_rank_passes by auto. simpl. rewrite app_nil_r, E1.
    apply app_assoc.
Qed.

(** ** Programs *)

(** [Q] is what is known of the result. *)
Definition pemits (l : list E) {A} (Q : A -> Prop) (m : prog A) : Prop :=
  forall l' k, (forall a, Q a -> emits l' (k a)) -> emits (l ++ l') (m k).

Lemma pemits_ret {A} (Q : A -> Prop) (a : A) : Q a -> pemits [] Q (ret a).
Proof. intros H l' k Hk. apply Hk, H. Qed.
Lemma pemits_fail l {A} (Q : A -> Prop) e : pemits l Q (@fail M V O A e).
Proof. intros l' k H. exact I. Qed.
Lemma pemits_lift {A} (Q : A -> Prop) (r : res A) : (forall a, r = Ok a -> Q a) -> pemits [] Q (lift r).
Proof. destruct r; intros H; [apply pemits_ret; auto|apply pemits_fail]. Qed.
Lemma pemits_bind l1 l2 {A B} (R : A -> Prop) (Q : B -> Prop) (m : prog A) (f : A -> prog B) :
  pemits l1 R m -> (forall a, R a -> pemits l2 Q (f a)) -> pemits (l1 ++ l2) Q (bind m f).
Proof.
  intros Hm Hf l' k Hk. rewrite <- app_assoc. apply Hm. intros a Ha. apply Hf; auto.
Qed.
Lemma pemits_eq l l' {A} (Q : A -> Prop) (m : prog A) : l = l' -> pemits l Q m -> pemits l' Q m.
Proof. intros ->. auto. Qed.
Lemma pemits_bind_nil l {A B} (R : A -> Prop) (Q : B -> Prop) (m : prog A) (f : A -> prog B) :
  pemits [] R m -> (forall a, R a -> pemits l Q (f a)) -> pemits l Q (bind m f).
Proof. intros H1 H2. apply (pemits_bind [] l R); auto. Qed.
Lemma pemits_mono l {A} (Q R : A -> Prop) (m : prog A) : (forall a, Q a -> R a) ->
  pemits l Q m -> pemits l R m.
Proof. intros H Hm l' k Hk. apply Hm. auto. Qed.
Lemma pemits_isend d c t (m : M) : okm m -> pemits (obs (Sends d m)) (fun _ => True) (isend d c t m).
Proof. intros H l' k Hk. split; auto. exists l'. split; auto. Qed.
Lemma pemits_recv s c t : pemits [] okm (recv s c t).
Proof. intros l' k H m Hm. apply H, Hm. Qed.
Lemma pemits_wait d c t (m : M) : pemits [] (fun _ => True) (wait d c t m).
Proof. intros l' k H. apply H. exact I. Qed.
Lemma pemits_barrier : pemits (obs Passes) (fun _ => True) barrier_op.
Proof. intros l' k H. exists l'. split; [reflexivity|apply H]. exact I. Qed.
Lemma pemits_get h : pemits (obs (Reads h)) (fun _ => True) (get h).
Proof. intros l' k H. exists l'. split; auto. Qed.
Lemma pemits_put h v : pemits (obs (Writes h)) (fun _ => True) (put h v).
Proof. intros l' k H. exists l'. split; [reflexivity|apply H]. exact I. Qed.
Lemma pemits_for {A S} (f : A -> list E) (Q : S -> Prop) (l : list A) (body : A -> S -> prog S) : forall s,
  Q s -> (forall x s, x ∈ l -> Q s -> pemits (f x) Q (body x s)) ->
  pemits (flat_map f l) Q (for_loop l s body).
Proof.
  induction l as [|x l IH]; intros s Hs H; simpl.
  - apply pemits_ret. exact Hs.
  - apply (pemits_bind _ _ Q); [apply H; [left|exact Hs]|]. intros s' Hs'. apply IH; auto.
    intros y s2 Hy. apply H. right. auto.
Qed.
Lemma pemits_for_nil {A S} (Q : S -> Prop) (l : list A) (body : A -> S -> prog S) s :
  Q s -> (forall x s, x ∈ l -> Q s -> pemits [] Q (body x s)) -> pemits [] Q (for_loop l s body).
Proof.
  intros Hs H. apply (pemits_eq (flat_map (fun _ : A => [] : list E) l)).
  - clear. induction l; auto.
  - apply pemits_for; auto.
Qed.
Lemma pemits_map {A B} (g : A -> list E) (f : A -> prog B) (l : list A) :
  (forall x, x ∈ l -> pemits (g x) (fun _ => True) (f x)) ->
  pemits (flat_map g l) (fun ys => length ys = length l) (map_prog f l).
Proof.
  induction l as [|x l IH]; intros H; simpl.
  - apply pemits_ret. reflexivity.
  - apply (pemits_bind _ _ (fun _ => True)); [apply H; left|]. intros y _.
    rewrite <- (app_nil_r (flat_map g l)).
    apply (pemits_bind _ _ (fun ys => length ys = length l)).
    + apply IH. intros z Hz. apply H. right. auto.
    + intros ys Hys. apply pemits_ret. simpl. auto.
Qed.
Lemma pemits_emits l Q (m : prog O) : pemits l Q m -> emits l (m Ret).
Proof. intros H. rewrite <- (app_nil_r l). apply H. intros; reflexivity. Qed.
End Trace.
Arguments event : clear implicits.
