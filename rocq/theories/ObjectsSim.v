(** A simulation between programs on values and programs on objects. *)
From stdpp Require Import gmap list.
From Coq Require Import Lia.
From Verif Require Import Prelude Spmd SpmdWrites InnerProdModel.
Open Scope nat_scope.

Section Sim.
Context {V W K O O' : Type}.
Notation msg := (msg V K).
(** Worlds: objects that keep their values from now on. *)
Notation world := (gmap nat V).
(** [stored F v w]: what a handle holds, [w], has value [v]; [own F w]: and is new. *)
Context (stored : world -> V -> W -> Prop) (own : world -> W -> Prop).
Context (Rd : loc -> Prop) (good : V -> Prop).
Context (Fin : world -> O -> O' -> Prop).

Definition good_msg (m : msg) : Prop :=
  match m with MVecs vs _ => Forall good vs | _ => True end.

Inductive sim : world -> proc msg V O -> proc msg W O' -> Prop :=
| sim_ret F o o' : Fin F o o' -> sim F (Ret o) (Ret o')
| sim_fail F e : sim F (Fail e) (Fail e)
| sim_isend F d c t m p q : good_msg m -> sim F p q -> sim F (Isend d c t m p) (Isend d c t m q)
| sim_recv F s c t p q : (forall m, good_msg m -> sim F (p m) (q m)) -> sim F (Recv s c t p) (Recv s c t q)
| sim_wait F d c t m p q : sim F p q -> sim F (Wait d c t m p) (Wait d c t m q)
| sim_barrier F p q : sim F p q -> sim F (Barrier p) (Barrier q)
| sim_get F h p q : Rd h -> (forall v w, good v -> stored F v w -> sim F (p v) (q w)) ->
    sim F (Get h p) (Get h q)
| sim_put F F' h v w p q : good v -> own F w -> F ⊆ F' -> stored F' v w -> sim F' p q ->
    sim F (Put h v p) (Put h w q).

Context (stored_mono : forall F F' v w, F ⊆ F' -> stored F v w -> stored F' v w).
Context (own_anti : forall F F' w, F ⊆ F' -> own F' w -> own F w).
Context (P : nat).
Context (alone : P = 1 \/ forall F F' v w, stored F v w -> stored F' v w).

Definition both {A B} (R : A -> B -> Prop) (x : option A) (y : option B) : Prop :=
  match x, y with Some a, Some b => R a b | None, None => True | _, _ => False end.

Definition separated : Prop := forall F v w, stored F v w -> own F w -> False.

(** [F0] the worlds at the start, [F] now, [T] the writes so far. *)
Record crel (F0 F : nat -> world) (T : list (nat * loc))
    (c : config msg V O) (d : config msg W O') : Prop := CRel {
  cr_len : length (procs c) = P;
  cr_len' : length (procs d) = P;
  cr_grow : forall i, F0 i ⊆ F i;
  cr_procs : forall i, both (sim (F i)) (procs c !! i) (procs d !! i);
  cr_chans : chans c = chans d;
  cr_msgs : forall x q, chans c !! x = Some q -> Forall good_msg q;
  cr_store : forall i, i < P -> forall h, both (stored (F i)) (store c !! h) (store d !! h);
  cr_good : forall h v, Rd h -> store c !! h = Some v -> good v;
  cr_own : forall h w, h ∈ map snd T -> store d !! h = Some w -> exists i, i < P /\ own (F0 i) w;
  cr_sep : separated -> forall h h' w, h ∈ map snd T ->
    store d !! h = Some w -> store d !! h' = Some w -> h = h'
}.

(** One step of a rank: whatever the one does, the other does. *)
Definition lstep tag_ub eager i p ch st := @local_step msg V O tag_ub eager P i p ch st.
Definition lstep' tag_ub eager i p ch st := @local_step msg W O' tag_ub eager P i p ch st.

Lemma good_push ch x (m : msg) : (forall y q, ch !! y = Some q -> Forall good_msg q) -> good_msg m ->
  forall y q, push x m ch !! y = Some q -> Forall good_msg q.
Proof.
  intros Hc Hm y q. unfold push. destruct (decide (x = y)) as [<-|Hn].
  - rewrite lookup_insert. intros [= <-]. apply Forall_app. split; auto.
    destruct (ch !! x) eqn:E; simpl; [eapply Hc; eauto|constructor].
  - rewrite lookup_insert_ne by auto. apply Hc.
Qed.
Lemma good_set (ch : gmap (nat * nat * nat * nat) (list msg)) x q0 :
  (forall y q, ch !! y = Some q -> Forall good_msg q) -> Forall good_msg q0 ->
  forall y q, set_queue x q0 ch !! y = Some q -> Forall good_msg q.
Proof.
  intros Hc Hm y q. unfold set_queue. destruct q0 as [|m q0].
  - destruct (decide (x = y)) as [<-|Hn]; [rewrite lookup_delete; discriminate|].
    rewrite lookup_delete_ne by auto. apply Hc.
  - destruct (decide (x = y)) as [<-|Hn].
    + rewrite lookup_insert. intros [= <-]. auto.
    + rewrite lookup_insert_ne by auto. apply Hc.
Qed.

Section Steps.
Context (tag_ub : nat) (eager : msg -> bool).

(** The step of a rank in lock with the other, either both blocked. *)
Lemma sim_step F i p q ch (st : gmap loc V) (st' : gmap loc W) : sim F p q ->
  (forall y q, ch !! y = Some q -> Forall good_msg q) ->
  (forall h, both (stored F) (st !! h) (st' !! h)) ->
  (forall h v, Rd h -> st !! h = Some v -> good v) ->
  write_of i p = write_of i q /\
  ((lstep tag_ub eager i p ch st = None /\ lstep' tag_ub eager i q ch st' = None) \/
  exists F' p' q' ch',
    F ⊆ F' /\ sim F' p' q' /\
    (forall y q, ch' !! y = Some q -> Forall good_msg q) /\
    ((F' = F /\ write_of i p = [] /\
      lstep tag_ub eager i p ch st = Some (p', ch', st) /\
      lstep' tag_ub eager i q ch st' = Some (q', ch', st')) \/
     exists h v w, write_of i p = [(i, h)] /\ good v /\ own F w /\ stored F' v w /\
      lstep tag_ub eager i p ch st = Some (p', ch', <[h := v]> st) /\
      lstep' tag_ub eager i q ch st' = Some (q', ch', <[h := w]> st'))).
Proof.
  unfold lstep, lstep'.
  intros Hs Hc Hst Hg. destruct Hs as [F o o' HF|F e|F dst ctx tag m p q Hm Hs|F src ctx tag p q Hs
    |F dst ctx tag m p q Hs|F p q Hs|F h p q HR Hs|F F' h v w p q Hv Ho HF Hsv Hs]; simpl;
    split; try reflexivity.
  - left. auto.
  - left. auto.
  - right. destruct (decide (dst < P /\ tag <= tag_ub)).
    + exists F, p, q, (push (i, dst, ctx, tag) m ch). split; [reflexivity|]. split; auto. split.
      { apply good_push; auto. } left. auto.
    + exists F, (Fail MPIError), (Fail MPIError), ch. split; [reflexivity|]. split; [constructor|].
      split; [auto|left; auto].
  - destruct (ch !! (src, i, ctx, tag)) as [[|m0 q0]|] eqn:E; auto.
    right. pose proof (Hc _ _ E) as Hq. apply Forall_cons in Hq as [Hm0 Hq0].
    exists F, (p m0), (q m0), (set_queue (src, i, ctx, tag) q0 ch). split; [reflexivity|].
    split; auto. split; [apply good_set; auto|]. left. auto.
  - destruct (decide (eager m = true \/ ch !! (i, dst, ctx, tag) = None)); auto.
    right. exists F, p, q, ch. split; [reflexivity|]. split; auto. split; [auto|left; auto].
  - left. auto.
  - right. pose proof (Hst h) as Hh. unfold both in Hh.
    destruct (st !! h) as [v|] eqn:E, (st' !! h) as [w|] eqn:E'; try contradiction.
    + exists F, (p v), (q w), ch. split; [reflexivity|]. split; [apply Hs; eauto|]. split; [auto|left; auto].
    + exists F, (Fail OSError), (Fail OSError), ch. split; [reflexivity|]. split; [constructor|].
      split; [auto|left; auto].
  - right. exists F', p, q, ch. split; auto. split; auto. split; auto. right.
    exists h, v, w. auto 8.
Qed.

Lemma both_insert {A B} (R : A -> B -> Prop) (m : gmap loc A) (m' : gmap loc B) h a b :
  R a b -> (forall x, both R (m !! x) (m' !! x)) -> forall x, both R (<[h := a]> m !! x) (<[h := b]> m' !! x).
Proof.
  intros Hab Hm x. destruct (decide (h = x)) as [<-|Hn].
  - rewrite !lookup_insert. exact Hab.
  - rewrite !lookup_insert_ne by auto. apply Hm.
Qed.
Lemma both_mono {A B} (R R' : A -> B -> Prop) x y : (forall a b, R a b -> R' a b) -> both R x y -> both R' x y.
Proof. destruct x, y; simpl; auto. Qed.

Definition fupd (F : nat -> world) (i : nat) (G : world) (j : nat) : world :=
  if decide (j = i) then G else F j.

Lemma procs_insert F G i (ps : list (proc msg V O)) (qs : list (proc msg W O')) p' q' p q :
  ps !! i = Some p -> qs !! i = Some q -> sim G p' q' ->
  (forall j, both (sim (F j)) (ps !! j) (qs !! j)) ->
  forall j, both (sim (fupd F i G j)) (<[i := p']> ps !! j) (<[i := q']> qs !! j).
Proof.
  intros Hp Hq Hs Hall j. unfold fupd. destruct (decide (j = i)) as [->|Hn].
  - rewrite !list_lookup_insert by (eapply lookup_lt_Some; eauto). exact Hs.
  - rewrite !list_lookup_insert_ne by auto. apply Hall.
Qed.

(** The ranks that may step are the same. *)
Lemma crel_rank F0 F T c d i : crel F0 F T c d ->
  (rank_step tag_ub eager i c = None /\ rank_step tag_ub eager i d = None) \/
  exists p q c' d' F', procs c !! i = Some p /\ procs d !! i = Some q /\
    write_of i p = write_of i q /\
    rank_step tag_ub eager i c = Some c' /\ rank_step tag_ub eager i d = Some d' /\
    crel F0 F' (T ++ write_of i q) c' d'.
Proof.
  intros [Hl Hl' Hgr Hp Hch Hm Hst Hg Hown Hsep]. unfold rank_step.
  pose proof (Hp i) as Hpi. unfold both in Hpi.
  destruct (procs c !! i) as [p|] eqn:Ep, (procs d !! i) as [q|] eqn:Eq; try contradiction; auto.
  assert (Hi : i < P) by (rewrite <- Hl; eapply lookup_lt_Some; eauto).
  destruct (sim_step (F i) i p q (chans c) (store c) (store d) Hpi Hm (Hst i Hi) Hg)
    as [Hw [[E1 E2]|(F' & p' & q' & ch' & HF & Hs & Hm' & Hcase)]].
  - left. unfold lstep, lstep' in *. rewrite Hl, Hl', <- Hch, E1, E2. auto.
  - right. unfold lstep, lstep' in *. rewrite Hl, Hl', <- Hch.
    destruct Hcase as [(-> & Hn & E1 & E2)|(h & v & w & Hn & Hv & Ho & Hsv & E1 & E2)];
      rewrite E1, E2; exists p, q; do 2 eexists.
    + exists F. split; auto. split; auto. split; auto. split; [reflexivity|]. split; [reflexivity|].
      rewrite <- Hw, Hn, app_nil_r. constructor; simpl; auto; rewrite ?insert_length; auto.
      intros j. pose proof (procs_insert F (F i) i _ _ p' q' _ _ Ep Eq Hs Hp j) as G.
      unfold fupd in G. destruct (decide (j = i)) as [->|]; exact G.
    + exists (fupd F i F'). split; auto. split; auto. split; auto. split; [reflexivity|].
      split; [reflexivity|]. rewrite <- Hw, Hn.
      assert (Hin : forall x, x ∈ map snd (T ++ [(i, h)]) -> x <> h -> x ∈ map snd T).
      { intros x Hx Hne. rewrite map_app in Hx. apply elem_of_app in Hx as [Hx|Hx]; auto.
        simpl in Hx. apply elem_of_list_singleton in Hx. congruence. }
      constructor; simpl; auto; rewrite ?insert_length; auto.
      * intros j. unfold fupd. destruct (decide (j = i)) as [->|]; auto. etransitivity; eauto.
      * apply procs_insert with (p := p) (q := q); auto.
      * intros j Hj. apply both_insert.
        -- unfold fupd. destruct (decide (j = i)) as [->|Hne]; auto.
           destruct alone as [H1|H1]; [lia|]. eapply H1; eauto.
        -- intros x. unfold fupd. destruct (decide (j = i)) as [->|Hne]; auto.
           eapply both_mono; [|apply (Hst i Hi)]. intros a b. apply stored_mono; auto.
      * intros x y HR. destruct (decide (h = x)) as [<-|Hne].
        -- rewrite lookup_insert. intros [= <-]. auto.
        -- rewrite lookup_insert_ne by auto. eauto.
      * intros x y Hx. destruct (decide (h = x)) as [<-|Hne].
        -- rewrite lookup_insert. intros [= <-]. exists i. split; auto. eapply own_anti; eauto.
        -- rewrite lookup_insert_ne by auto. apply Hown. auto.
      * intros Hsp x x' y Hx.
        assert (Hold : forall z, store d !! z = Some w -> False).
        { intros z Hz. pose proof (Hst i Hi z) as Hb. rewrite Hz in Hb. unfold both in Hb.
          destruct (store c !! z) as [u|]; [|contradiction]. eapply Hsp; eauto. }
        destruct (decide (h = x)) as [<-|Hne], (decide (h = x')) as [<-|Hne']; auto;
          rewrite ?lookup_insert, ?lookup_insert_ne by auto.
        -- intros [= <-] Hz. exfalso. eauto.
        -- intros Hz [= <-]. exfalso. eauto.
        -- intros Hz Hz'. eapply Hsep; eauto.
Qed.

Lemma sim_at_barrier F p q : sim F p q -> (at_barrier p <-> at_barrier q).
Proof. intros []; simpl; tauto. Qed.
Lemma sim_past F p q : sim F p q -> at_barrier p -> sim F (past_barrier p) (past_barrier q).
Proof. intros []; simpl; tauto. Qed.
Lemma crel_barriers F0 F T c d : crel F0 F T c d ->
  Forall at_barrier (procs c) <-> Forall at_barrier (procs d).
Proof.
  intros Hc. pose proof (cr_procs _ _ _ _ _ Hc) as Hp. rewrite !Forall_lookup. split; intros Hall i x Hx.
  - pose proof (Hp i) as Hi. rewrite Hx in Hi. unfold both in Hi.
    destruct (procs c !! i) eqn:E; [|contradiction]. apply (sim_at_barrier _ _ _ Hi). eauto.
  - pose proof (Hp i) as Hi. rewrite Hx in Hi. unfold both in Hi.
    destruct (procs d !! i) eqn:E; [|contradiction]. apply (sim_at_barrier _ _ _ Hi). eauto.
Qed.
Lemma crel_past F0 F T ps ch st qs ch' st' : crel F0 F T (Config ps ch st) (Config qs ch' st') ->
  Forall at_barrier ps ->
  crel F0 F T (Config (past_barrier <$> ps) ch st) (Config (past_barrier <$> qs) ch' st').
Proof.
  intros [Hl Hl' Hgr Hp Hch Hm Hst Hg Hown Hsep] Hall. constructor; simpl in *; rewrite ?fmap_length; auto.
  intros i. pose proof (Hp i) as Hi. rewrite !list_lookup_fmap.
  destruct (ps !! i) as [p|] eqn:E, (qs !! i) as [q|]; simpl in *; auto.
  apply sim_past; auto. eapply Forall_lookup_1; eauto.
Qed.

(** Forward and backward. *)
Lemma crel_step F0 F T c d c' : crel F0 F T c d -> step tag_ub eager c c' ->
  exists F' T' d', step tag_ub eager d d' /\ crel F0 F' T' c' d'.
Proof.
  intros Hc Hs. inversion Hs as [i c0 c1 Hr|ps ch st Hne Hall]; subst.
  - destruct (crel_rank F0 F T c d i Hc) as [[E _]|(p & q & c1 & d1 & F' & _ & _ & _ & E1 & E2 & Hc')];
      [congruence|].
    rewrite Hr in E1. injection E1 as <-. exists F', (T ++ write_of i q), d1. split; auto.
    eapply step_rank; eauto.
  - destruct d as [qs ch' st']. exists F, T. eexists. split; [apply step_barrier|].
    + intros ->. pose proof (cr_len _ _ _ _ _ Hc) as L. pose proof (cr_len' _ _ _ _ _ Hc) as L'.
      simpl in *. destruct ps; simpl in *; [congruence|lia].
    + apply (crel_barriers _ _ _ _ _ Hc). auto.
    + apply crel_past; auto.
Qed.
Lemma crel_step_back F0 F T c d d' : crel F0 F T c d -> step tag_ub eager d d' ->
  exists F' T' c', step tag_ub eager c c' /\ crel F0 F' T' c' d'.
Proof.
  intros Hc Hs. inversion Hs as [i c0 c1 Hr|qs ch st Hne Hall]; subst.
  - destruct (crel_rank F0 F T c d i Hc) as [[_ E]|(p & q & c1 & d1 & F' & _ & _ & _ & E1 & E2 & Hc')];
      [congruence|].
    rewrite Hr in E2. injection E2 as <-. exists F', (T ++ write_of i q), c1. split; auto.
    eapply step_rank; eauto.
  - destruct c as [ps ch' st'].
    assert (Hall' : Forall at_barrier ps).
    { apply (proj2 (crel_barriers _ _ _ _ _ Hc)). auto. }
    exists F, T. eexists. split; [apply step_barrier; auto|].
    + intros ->. pose proof (cr_len _ _ _ _ _ Hc) as L. pose proof (cr_len' _ _ _ _ _ Hc) as L'.
      simpl in *. destruct qs; simpl in *; [congruence|lia].
    + apply crel_past; auto.
Qed.
Lemma crel_steps n : forall F0 F T c d c', crel F0 F T c d -> steps tag_ub eager n c c' ->
  exists F' T' d', steps tag_ub eager n d d' /\ crel F0 F' T' c' d'.
Proof.
  induction n as [|n IH]; intros F0 F T c d c' Hc Hs; inversion Hs; subst.
  - exists F, T, d. split; [constructor|auto].
  - destruct (crel_step _ _ _ _ _ _ Hc H0) as (F1 & T1 & d1 & Hd1 & Hc1).
    destruct (IH _ _ _ _ _ _ Hc1 H1) as (F2 & T2 & d2 & Hd2 & Hc2).
    exists F2, T2, d2. split; auto. econstructor; eauto.
Qed.
Lemma crel_steps_back n : forall F0 F T c d d', crel F0 F T c d -> steps tag_ub eager n d d' ->
  exists F' T' c', steps tag_ub eager n c c' /\ crel F0 F' T' c' d'.
Proof.
  induction n as [|n IH]; intros F0 F T c d d' Hc Hs; inversion Hs; subst.
  - exists F, T, c. split; [constructor|auto].
  - destruct (crel_step_back _ _ _ _ _ _ Hc H0) as (F1 & T1 & d1 & Hd1 & Hc1).
    destruct (IH _ _ _ _ _ _ Hc1 H1) as (F2 & T2 & d2 & Hd2 & Hc2).
    exists F2, T2, d2. split; auto. econstructor; eauto.
Qed.

(** Runs, with their writes. *)
Lemma crel_run w d d' : run tag_ub eager w d d' -> forall F0 F T c, crel F0 F T c d ->
  exists F' c', run tag_ub eager w c c' /\ crel F0 F' (T ++ w) c' d'.
Proof.
  induction 1 as [d|i q d d1 d2 w Hq Hr _ IH|qs ch st d2 w Hne Hall _ IH]; intros F0 F T c Hc.
  - exists F, c. split; [constructor|]. rewrite app_nil_r. auto.
  - destruct (crel_rank F0 F T c d i Hc) as [[_ E]|(p & q' & c1 & d1' & F' & Ep & Eq & Hw & E1 & E2 & Hc')];
      [congruence|].
    rewrite Hr in E2. injection E2 as <-. rewrite Hq in Eq. injection Eq as <-.
    destruct (IH _ _ _ _ Hc') as (F2 & c2 & Hr2 & Hc2). exists F2, c2. rewrite app_assoc. split; auto.
    rewrite <- Hw. eapply run_rank; eauto.
  - destruct c as [ps ch' st'].
    assert (Hall' : Forall at_barrier ps).
    { apply (proj2 (crel_barriers _ _ _ _ _ Hc)). auto. }
    destruct (IH _ _ _ _ (crel_past _ _ _ _ _ _ _ _ _ Hc Hall')) as (F2 & c2 & Hr2 & Hc2).
    exists F2, c2. split; auto. apply run_barrier; auto.
    intros ->. pose proof (cr_len _ _ _ _ _ Hc) as L. pose proof (cr_len' _ _ _ _ _ Hc) as L'.
    simpl in *. destruct qs; simpl in *; [congruence|lia].
Qed.

Theorem crel_ends F0 F T c d Q : crel F0 F T c d -> always_ends tag_ub eager c Q ->
  always_ends tag_ub eager d (fun d' => exists F' T' c', crel F0 F' T' c' d' /\ Q c').
Proof.
  intros Hc [n Hn]. exists n. intros k d1 Hd1.
  destruct (crel_steps_back k _ _ _ _ _ _ Hc Hd1) as (F1 & T1 & c1 & Hc1 & Hr1).
  destruct (Hn k c1 Hc1) as (A & B & c2 & Hc2 & Q2). split; auto. split.
  - intros Hst. exists F1, T1, c1. split; auto. apply B. intros c3 Hc3.
    destruct (crel_step _ _ _ _ _ _ Hr1 Hc3) as (F3 & T3 & d3 & Hd3 & _). exact (Hst d3 Hd3).
  - destruct (crel_steps _ _ _ _ _ _ _ Hr1 Hc2) as (F2 & T2 & d2 & Hd2 & Hr2).
    exists d2. split; auto. exists F2, T2, c2. auto.
Qed.
End Steps.
End Sim.
