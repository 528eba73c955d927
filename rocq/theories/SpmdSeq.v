(** Running one SPMD program after another: what holds of each alone holds of the
    sequence, if the first ends with a barrier or does not touch the store. *)
From stdpp Require Import gmap list.
From Coq Require Import Lia.
From Verif Require Import Prelude Spmd SpmdFacts SpmdLock.

(** ** Programs with different continuations *)

Section Rel.
Context {M V A B : Type}.

(** [q] does what [p] does, and where [p] returns [a] it goes on with a program
    that [K a] accepts. *)
Fixpoint rel (K : A -> proc M V B -> Prop) (p : proc M V A) (q : proc M V B) : Prop :=
  match p with
  | Ret a => K a q
  | Fail e => q = Fail e
  | Isend d c t m k => exists k', q = Isend d c t m k' /\ rel K k k'
  | Recv s c t k => exists k', q = Recv s c t k' /\ forall m, rel K (k m) (k' m)
  | Wait d c t m k => exists k', q = Wait d c t m k' /\ rel K k k'
  | Barrier k => exists k', q = Barrier k' /\ rel K k k'
  | Get h k => exists k', q = Get h k' /\ forall v, rel K (k v) (k' v)
  | Put h v k => exists k', q = Put h v k' /\ rel K k k'
  end.

Definition is_ret (p : proc M V A) : Prop := exists a, p = Ret a.

Lemma rel_barrier K p q : rel K p q -> at_barrier p -> at_barrier q /\ rel K (past_barrier p) (past_barrier q).
Proof. destruct p; simpl; try tauto. intros (k' & -> & H) _. simpl. auto. Qed.
Lemma rel_barrier_back K p q : rel K p q -> ~ is_ret p -> at_barrier q -> at_barrier p.
Proof.
  destruct p; simpl; auto; try (intros (k' & -> & H); simpl; tauto).
  - intros _ H. exfalso. apply H. eexists. reflexivity.
  - intros ->. simpl. tauto.
Qed.

Context (tag_ub : nat) (eager : M -> bool).

Lemma rel_forward K n i p q ch st p' ch' st' :
  rel K p q -> local_step tag_ub eager n i p ch st = Some (p', ch', st') ->
  exists q', local_step tag_ub eager n i q ch st = Some (q', ch', st') /\ rel K p' q'.
Proof.
  intros Hr H. destruct p; simpl in H; try discriminate; simpl in Hr;
    destruct Hr as (k' & -> & Hr); simpl.
  - destruct (decide _); injection H as <- <- <-; eexists; split; eauto. reflexivity.
  - destruct (ch !! _) as [[|m q]|]; try discriminate. injection H as <- <- <-.
    eexists; split; eauto.
  - destruct (decide _); [|discriminate]. injection H as <- <- <-. eexists; split; eauto.
  - destruct (st !! h); injection H as <- <- <-; eexists; split; eauto. reflexivity.
  - injection H as <- <- <-. eexists; split; eauto.
Qed.

Lemma rel_back K n i p q ch st q' ch' st' :
  rel K p q -> ~ is_ret p -> local_step tag_ub eager n i q ch st = Some (q', ch', st') ->
  exists p', local_step tag_ub eager n i p ch st = Some (p', ch', st') /\ rel K p' q'.
Proof.
  intros Hr Hn H. destruct p; simpl in Hr.
  - exfalso. apply Hn. eexists. reflexivity.
  - subst q. discriminate.
  - destruct Hr as (k' & -> & Hr). simpl in *.
    destruct (decide _); injection H as <- <- <-; eexists; split; eauto. reflexivity.
  - destruct Hr as (k' & -> & Hr). simpl in *.
    destruct (ch !! _) as [[|m q]|]; try discriminate. injection H as <- <- <-.
    eexists; split; eauto.
  - destruct Hr as (k' & -> & Hr). simpl in *.
    destruct (decide _); [|discriminate]. injection H as <- <- <-. eexists; split; eauto.
  - destruct Hr as (k' & -> & Hr). discriminate.
  - destruct Hr as (k' & -> & Hr). simpl in *.
    destruct (st !! h); injection H as <- <- <-; eexists; split; eauto. reflexivity.
  - destruct Hr as (k' & -> & Hr). simpl in *.
    injection H as <- <- <-. eexists; split; eauto.
Qed.

End Rel.

(** ** Programs that agree whatever comes after them *)

Section Prel.
Context {M V A B : Type}.

Definition prel {X} (m : prog M V A X) (m' : prog M V B X) : Prop :=
  forall K k k', (forall x, rel K (k x) (k' x)) -> rel K (m k) (m' k').

Lemma prel_ret {X} (x : X) : prel (ret x) (ret x).
Proof. intros K k k' H. apply H. Qed.
Lemma prel_fail {X} e : prel (@fail M V A X e) (fail e).
Proof. intros K k k' H. reflexivity. Qed.
Lemma prel_lift {X} (r : res X) : prel (lift r) (lift r).
Proof. destruct r; [apply prel_ret|apply prel_fail]. Qed.
Lemma prel_bind {X Y} (m : prog M V A X) m' (f : X -> prog M V A Y) f' :
  prel m m' -> (forall x, prel (f x) (f' x)) -> prel (bind m f) (bind m' f').
Proof. intros Hm Hf K k k' H. apply Hm. intros x. apply Hf. exact H. Qed.
Lemma prel_isend d c t (m : M) : prel (isend d c t m) (isend d c t m).
Proof. intros K k k' H. simpl. eauto. Qed.
Lemma prel_recv s c t : prel (recv s c t) (recv s c t).
Proof. intros K k k' H. simpl. eauto. Qed.
Lemma prel_wait d c t (m : M) : prel (wait d c t m) (wait d c t m).
Proof. intros K k k' H. simpl. eauto. Qed.
Lemma prel_barrier : prel barrier_op barrier_op.
Proof. intros K k k' H. simpl. eauto. Qed.
Lemma prel_get h : prel (get h) (get h).
Proof. intros K k k' H. simpl. eauto. Qed.
Lemma prel_put h v : prel (put h v) (put h v).
Proof. intros K k k' H. simpl. eauto. Qed.
Lemma prel_for {X S} (l : list X) (body : X -> S -> prog M V A S) (body' : X -> S -> prog M V B S) : forall s,
  (forall x s, prel (body x s) (body' x s)) -> prel (for_loop l s body) (for_loop l s body').
Proof.
  induction l as [|x l IH]; intros s H; simpl; [apply prel_ret|].
  apply prel_bind; auto.
Qed.
Lemma prel_map {X Y} (f : X -> prog M V A Y) (f' : X -> prog M V B Y) (l : list X) :
  (forall x, prel (f x) (f' x)) -> prel (map_prog f l) (map_prog f' l).
Proof.
  intros H. induction l as [|x l IH]; simpl; [apply prel_ret|].
  apply prel_bind; auto. intros y. apply prel_bind; auto. intros ys. apply prel_ret.
Qed.

Lemma prel_rel (m : prog M V A A) (m' : prog M V B A) (k : A -> proc M V B) :
  prel m m' -> rel (fun a q => q = k a) (m Ret) (m' k).
Proof. intros H. apply H. intros x. reflexivity. Qed.

End Prel.

(** ** Programs that end with a barrier *)

Section Closed.
Context {M V O : Type}.

(** [p] does not return except right after a barrier. *)
Fixpoint closed (p : proc M V O) : Prop :=
  match p with
  | Ret _ => False
  | Fail _ => True
  | Isend _ _ _ _ k => closed k
  | Recv _ _ _ k => forall m, closed (k m)
  | Wait _ _ _ _ k => closed k
  | Barrier k => is_ret k \/ closed k
  | Get _ k => forall v, closed (k v)
  | Put _ _ k => closed k
  end.

(** [p] neither uses the store nor waits at a barrier. *)
Fixpoint free (p : proc M V O) : Prop :=
  match p with
  | Ret _ => True
  | Fail _ => True
  | Isend _ _ _ _ k => free k
  | Recv _ _ _ k => forall m, free (k m)
  | Wait _ _ _ _ k => free k
  | Barrier _ | Get _ _ | Put _ _ _ => False
  end.

Lemma closed_not_ret p : closed p -> ~ is_ret p.
Proof. intros H [a ->]. exact H. Qed.

Context (tag_ub : nat) (eager : M -> bool).

Lemma closed_local_step n i p ch st p' ch' st' :
  closed p -> local_step tag_ub eager n i p ch st = Some (p', ch', st') -> closed p'.
Proof.
  intros Hc H. destruct p; simpl in H, Hc;
    repeat case_decide; repeat case_match; simplify_eq; simpl; auto.
Qed.

End Closed.

Section ClosedProgs.
Context {M V O : Type}.

Lemma rel_closed_tail {A} (K : A -> proc M V O -> Prop) p : forall q,
  rel K p q -> (forall a q, K a q -> closed q) -> closed q.
Proof.
  induction p; simpl; intros q Hr HK; eauto; try (subst q; exact I);
    destruct Hr as (k' & -> & Hr); simpl; eauto.
Qed.
Lemma rel_free_tail {A} (K : A -> proc M V O -> Prop) p : forall q,
  rel K p q -> free p -> (forall a q, K a q -> free q) -> free q.
Proof.
  induction p; simpl; intros q Hr Hf HK; eauto; try (subst q; exact I); try tauto;
    destruct Hr as (k' & -> & Hr); simpl; eauto.
Qed.

(** A program that ends with a barrier. *)
Definition pclosed {X} (m : prog M V O X) : Prop :=
  forall k, (forall x, is_ret (k x)) -> closed (m k).
(** A program that does not use the store. *)
Definition pfree {X} (m : prog M V O X) : Prop :=
  forall k, (forall x, free (k x)) -> free (m k).

(** A program that ends with a barrier if what follows it does. *)
Definition ptail {X} (m : prog M V O X) : Prop :=
  forall k, (forall x, closed (k x)) -> closed (m k).

Lemma prel_tail {X} (m0 : prog M V X X) (m : prog M V O X) : prel m0 m -> ptail m.
Proof.
  intros Hm k Hk. apply (rel_closed_tail (fun _ q => closed q) (m0 Ret)); [|auto].
  apply Hm. exact Hk.
Qed.
Lemma ptail_lift {X} (r : res X) : ptail (lift r).
Proof. intros k H. destruct r; simpl; [apply H|exact I]. Qed.
Lemma ptail_ret {X} (x : X) : ptail (ret x).
Proof. intros k H. apply H. Qed.
Lemma ptail_fail {X} e : ptail (@fail M V O X e).
Proof. intros k H. exact I. Qed.
Lemma ptail_get h : ptail (get h).
Proof. intros k H v. apply H. Qed.
Lemma ptail_bind {X Y} (m : prog M V O X) (f : X -> prog M V O Y) :
  ptail m -> (forall x, ptail (f x)) -> ptail (bind m f).
Proof. intros Hm Hf k Hk. apply Hm. intros x. apply Hf. exact Hk. Qed.
Lemma pclosed_bind {X Y} (m : prog M V O X) (f : X -> prog M V O Y) :
  ptail m -> (forall x, pclosed (f x)) -> pclosed (bind m f).
Proof. intros Hm Hf k Hk. apply Hm. intros x. apply Hf. exact Hk. Qed.
Lemma pclosed_fail {X} e : pclosed (@fail M V O X e).
Proof. intros k H. exact I. Qed.
Lemma pclosed_barrier : pclosed barrier_op.
Proof. intros k H. left. apply H. Qed.
Lemma pclosed_barrier_ret {X} (f : X) : pclosed (bind barrier_op (fun _ => ret f)).
Proof. intros k H. left. apply H. Qed.

Lemma pfree_ret {X} (x : X) : pfree (ret x).
Proof. intros k H. apply H. Qed.
Lemma pfree_fail {X} e : pfree (@fail M V O X e).
Proof. intros k H. exact I. Qed.
Lemma pfree_lift {X} (r : res X) : pfree (lift r).
Proof. destruct r; [apply pfree_ret|apply pfree_fail]. Qed.
Lemma pfree_bind {X Y} (m : prog M V O X) (f : X -> prog M V O Y) :
  pfree m -> (forall x, pfree (f x)) -> pfree (bind m f).
Proof. intros Hm Hf k H. apply Hm. intros x. apply Hf. exact H. Qed.
Lemma pfree_isend d c t (m : M) : pfree (isend d c t m).
Proof. intros k H. apply H. Qed.
Lemma pfree_recv s c t : pfree (recv s c t).
Proof. intros k H m. apply H. Qed.
Lemma pfree_wait d c t (m : M) : pfree (wait d c t m).
Proof. intros k H. apply H. Qed.
Lemma pfree_for {X S} (l : list X) (body : X -> S -> prog M V O S) : forall s,
  (forall x s, pfree (body x s)) -> pfree (for_loop l s body).
Proof.
  induction l as [|x l IH]; intros s H; simpl; [apply pfree_ret|]. apply pfree_bind; auto.
Qed.

End ClosedProgs.

(** ** Configurations with one outcome *)

Section Leads.
Context {M V O : Type} (tag_ub : nat) (eager : M -> bool).
Notation config := (@config M V O).
Notation step := (@step M V O tag_ub eager).
Notation steps := (@steps M V O tag_ub eager).
Notation stuck := (@stuck M V O tag_ub eager).

(** Every schedule of [c] takes [n] steps and ends in [f]. *)
Definition leads (n : nat) (c f : config) : Prop :=
  stuck f /\ forall k d, steps k c d -> k <= n /\ steps (n - k) d f.

Lemma leads_NI R W n c f : NI R W c -> steps n c f -> stuck f -> leads n c f.
Proof.
  intros H Hs Hf. split; auto. intros k d Hd. eapply descent; eauto.
Qed.

Lemma leads_ends n c f (Q : config -> Prop) : leads n c f -> Q f -> always_ends tag_ub eager c Q.
Proof.
  intros [Hf H] HQ. exists n. intros k d Hd. destruct (H k d Hd) as [Hle Hr].
  split; [exact Hle|]. split; [|eauto].
  intros Hst. inversion Hr as [|? ? ? ? Hx]; subst; [exact HQ|]. exfalso. eapply Hst; eauto.
Qed.

Lemma leads_steps n c f : leads n c f -> steps n c f.
Proof. intros [_ H]. destruct (H 0 c) as [_ Hs]; [constructor|]. rewrite Nat.sub_0_r in Hs. exact Hs. Qed.
Lemma leads_stuck n c f : leads n c f -> stuck f.
Proof. intros [H _]. exact H. Qed.
Lemma leads_step n c f d : leads n c f -> step c d -> exists n', n = S n' /\ leads n' d f.
Proof.
  intros [Hf H] Hd. destruct (H 1 d) as [Hle _]; [econstructor; [exact Hd|constructor]|].
  destruct n as [|n]; [lia|]. exists n. split; auto. split; auto.
  intros k e He. destruct (H (S k) e) as [Hl Hs]; [econstructor; eauto|]. split; [lia|]. exact Hs.
Qed.
Lemma leads_0 f : stuck f -> leads 0 f f.
Proof.
  intros Hf. split; auto. intros k d Hd. inversion Hd as [|? ? ? ? Hx]; subst.
  - split; [lia|constructor].
  - exfalso. eapply Hf; eauto.
Qed.
Lemma leads_self n f : leads n f f -> n = 0.
Proof.
  intros H. pose proof (leads_steps _ _ _ H) as Hs. inversion Hs as [|? ? ? ? Hx]; subst; auto.
  exfalso. eapply (leads_stuck _ _ _ H); eauto.
Qed.

(** Ranks that have returned stay as they are. *)
Lemma step_cases c d : step c d ->
  (exists i p p' ch' st', procs c !! i = Some p /\
     local_step tag_ub eager (length (procs c)) i p (chans c) (store c) = Some (p', ch', st') /\
     d = Config (<[i := p']> (procs c)) ch' st') \/
  (procs c <> [] /\ Forall at_barrier (procs c) /\
     d = Config (past_barrier <$> procs c) (chans c) (store c)).
Proof.
  intros H. inversion H as [i c0 c1 Hr|ps ch st Hne Hall]; subst.
  - left. unfold rank_step in Hr. destruct (procs c !! i) as [p|] eqn:Hp; [|discriminate].
    destruct (local_step _ _ _ _ _ _ _) as [[[p' ch'] st']|] eqn:E; [|discriminate].
    injection Hr as <-. exists i, p, p', ch', st'. auto.
  - right. auto.
Qed.

Lemma step_rank' c i p p' ch' st' : procs c !! i = Some p ->
  local_step tag_ub eager (length (procs c)) i p (chans c) (store c) = Some (p', ch', st') ->
  step c (Config (<[i := p']> (procs c)) ch' st').
Proof. intros H E. apply step_rank with i. unfold rank_step. rewrite H, E. reflexivity. Qed.

Lemma step_ret c d i a : step c d -> procs c !! i = Some (Ret a) -> procs d !! i = Some (Ret a).
Proof.
  intros H Hi. destruct (step_cases c d H) as [(j & p & p' & ch' & st' & Hp & Hs & ->)|(Hne & Hall & ->)]; simpl.
  - destruct (decide (i = j)) as [->|Hne].
    + rewrite Hi in Hp. injection Hp as <-. discriminate.
    + rewrite list_lookup_insert_ne by auto. exact Hi.
  - assert (Hb : at_barrier (Ret a : proc M V O)) by (eapply Forall_lookup; eauto). destruct Hb.
Qed.
Lemma steps_ret n c d i a : steps n c d -> procs c !! i = Some (Ret a) -> procs d !! i = Some (Ret a).
Proof. induction 1; auto. intros. apply IHsteps. eapply step_ret; eauto. Qed.

Lemma step_length c d : step c d -> length (procs d) = length (procs c).
Proof.
  intros H. destruct (step_cases c d H) as [(j & p & p' & ch' & st' & Hp & Hs & ->)|(Hne & Hall & ->)]; simpl.
  - apply insert_length.
  - apply fmap_length.
Qed.
Lemma steps_length n c d : steps n c d -> length (procs d) = length (procs c).
Proof. induction 1; auto. rewrite IHsteps. eapply step_length; eauto. Qed.

(** A rank that ends with a barrier never returns once another has returned. *)
Lemma closed_never n c d i j a p : steps n c d ->
  procs c !! i = Some (Ret a) -> procs c !! j = Some p -> closed p ->
  exists p', procs d !! j = Some p' /\ closed p'.
Proof.
  intros H. revert p. induction H as [c|n c c' d Hs H IH]; intros p Hi Hj Hc; [eauto|].
  pose proof (step_ret _ _ _ _ Hs Hi) as Hi'.
  destruct (step_cases c c' Hs) as [(l & q & q' & ch' & st' & Hq & Hl & ->)|(Hne & Hall & ->)]; simpl in *.
  - destruct (decide (j = l)) as [->|Hne].
    + rewrite Hj in Hq. injection Hq as <-.
      apply (IH q'); auto.
      * apply list_lookup_insert. eapply lookup_lt_Some; eauto.
      * eapply closed_local_step; eauto.
    + apply (IH p); auto. rewrite list_lookup_insert_ne by auto. exact Hj.
  - assert (Hb : at_barrier (Ret a : proc M V O)) by (eapply Forall_lookup; eauto). destruct Hb.
Qed.

Lemma all_or_some {X} (F G : X -> Prop) l : (forall x, x ∈ l -> F x \/ G x) ->
  Forall F l \/ exists i x, l !! i = Some x /\ G x.
Proof.
  induction l as [|x l IH]; intros H; [left; constructor|].
  destruct (H x) as [Hx|Hx]; [left| |].
  - destruct IH as [IH|(i & y & Hi & Hy)]; [intros y Hy; apply H; right; auto| |].
    + left. constructor; auto.
    + right. exists (S i), y. auto.
  - right. exists 0, x. auto.
Qed.

Lemma stuck_rets c : (forall i p, procs c !! i = Some p -> is_ret p) -> procs c <> [] -> stuck c.
Proof.
  intros H Hne d Hd.
  destruct (step_cases c d Hd) as [(j & p & p' & ch' & st' & Hp & Hs & ->)|(_ & Hall & ->)].
  - destruct (H j p Hp) as [a ->]. discriminate.
  - destruct (procs c) as [|p ps] eqn:E; [congruence|].
    destruct (H 0 p) as [a ->]; auto. apply Forall_cons in Hall. destruct Hall as [[] _].
Qed.

Lemma closed_step c d n f : step c d -> Forall closed (procs c) -> steps n d f ->
  (forall i p, procs f !! i = Some p -> is_ret p) ->
  Forall closed (procs d) \/ (forall i p, procs d !! i = Some p -> is_ret p).
Proof.
  intros Hs Hc Hn Hf.
  destruct (step_cases c d Hs) as [(l & q & q' & ch' & st' & Hq & Hl & ->)|(Hne & Hall & ->)]; simpl in *.
  - left. apply Forall_insert; auto. eapply closed_local_step; eauto. eapply Forall_lookup; eauto.
  - destruct (all_or_some closed is_ret (past_barrier <$> procs c)) as [H|(i & x & Hi & [a ->])].
    + intros x Hx. apply elem_of_list_fmap in Hx. destruct Hx as (p & -> & Hp).
      rewrite Forall_forall in Hc, Hall. specialize (Hc p Hp). specialize (Hall p Hp).
      destruct p; simpl in *; tauto.
    + left. exact H.
    + right. intros j p Hj.
      assert (Hor : is_ret p \/ closed p).
      { rewrite list_lookup_fmap in Hj. destruct (procs c !! j) as [p0|] eqn:E; [|discriminate].
        simpl in Hj. injection Hj as <-.
        pose proof (Forall_lookup_1 _ _ _ _ Hc E) as H1. pose proof (Forall_lookup_1 _ _ _ _ Hall E) as H2.
        destruct p0; simpl in *; tauto. }
      destruct Hor as [Hr|Hcl]; auto. exfalso.
      destruct (closed_never n _ f i j a p Hn Hi Hj Hcl) as (p' & Hp' & Hcp).
      apply (closed_not_ret p' Hcp). eapply Hf; eauto.
Qed.

End Leads.

(** ** After a barrier *)

Section Seq.
Context {M V A B : Type} (tag_ub : nat) (eager : M -> bool).
Notation steps1 := (@steps M V A tag_ub eager).
Notation steps2 := (@steps M V B tag_ub eager).
Context (P : nat) (HP : 0 < P) (k : nat -> A -> proc M V B) (a : nat -> A).

Inductive sim : config M V A -> config M V B -> Prop :=
| Sim ps qs ch st : length ps = P -> length qs = P ->
    (forall i p q, ps !! i = Some p -> qs !! i = Some q -> rel (fun x r => r = k i x) p q) ->
    sim (Config ps ch st) (Config qs ch st).

Lemma sim_inv ps qs ch st : sim (Config ps ch st) (Config qs ch st) ->
  length ps = P /\ length qs = P /\
  forall i p q, ps !! i = Some p -> qs !! i = Some q -> rel (fun x r => r = k i x) p q.
Proof. intros H. inversion H; auto. Qed.

Lemma sim_forward c1 c2 d1 : sim c1 c2 -> step tag_ub eager c1 d1 ->
  exists d2, step tag_ub eager c2 d2 /\ sim d1 d2.
Proof.
  intros [ps qs ch st L1 L2 Hr] Hs.
  destruct (step_cases tag_ub eager _ d1 Hs) as [(i & p & p' & ch' & st' & Hp & Hl & ->)|(Hne & Hall & ->)];
    simpl in *.
  - assert (Hi : i < P) by (rewrite <- L1; eapply lookup_lt_Some; eauto).
    destruct (lookup_lt_is_Some_2 qs i) as [q Hq]; [lia|].
    destruct (rel_forward tag_ub eager _ _ _ _ _ _ _ _ _ _ (Hr i p q Hp Hq) Hl) as (q' & Hl' & Hr').
    exists (Config (<[i := q']> qs) ch' st'). split.
    + apply (step_rank' tag_ub eager (Config qs ch st) i q q' ch' st' Hq). simpl. rewrite L2, <- L1. exact Hl'.
    + constructor; try (rewrite insert_length; auto). intros j x y Hx Hy.
      destruct (decide (i = j)) as [<-|Hne].
      * rewrite list_lookup_insert in Hx by lia. rewrite list_lookup_insert in Hy by lia. injection Hx as <-. injection Hy as <-. exact Hr'.
      * rewrite list_lookup_insert_ne in Hx by auto. rewrite list_lookup_insert_ne in Hy by auto. eauto.
  - exists (Config (past_barrier <$> qs) ch st). split.
    + apply step_barrier.
      * intros ->. simpl in *. lia.
      * apply Forall_lookup. intros i q Hq.
        assert (Hi : i < P) by (rewrite <- L2; eapply lookup_lt_Some; eauto).
        destruct (lookup_lt_is_Some_2 ps i) as [p Hp]; [lia|].
        eapply rel_barrier; eauto. eapply Forall_lookup; eauto.
    + constructor; try (rewrite fmap_length; auto). intros i x y Hx Hy.
      rewrite list_lookup_fmap in Hx. rewrite list_lookup_fmap in Hy.
      destruct (ps !! i) as [p|] eqn:Hp; [|discriminate]. destruct (qs !! i) as [q|] eqn:Hq; [|discriminate].
      simpl in *. injection Hx as <-. injection Hy as <-.
      eapply rel_barrier; eauto. eapply Forall_lookup; eauto.
Qed.

Lemma sim_back c1 c2 d2 : sim c1 c2 -> (forall i p, procs c1 !! i = Some p -> ~ is_ret p) ->
  step tag_ub eager c2 d2 -> exists d1, step tag_ub eager c1 d1 /\ sim d1 d2.
Proof.
  intros [ps qs ch st L1 L2 Hr] Hn Hs. simpl in Hn.
  destruct (step_cases tag_ub eager _ d2 Hs) as [(i & q & q' & ch' & st' & Hq & Hl & ->)|(Hne & Hall & ->)];
    simpl in *.
  - assert (Hi : i < P) by (rewrite <- L2; eapply lookup_lt_Some; eauto).
    destruct (lookup_lt_is_Some_2 ps i) as [p Hp]; [lia|].
    destruct (rel_back tag_ub eager _ _ _ _ _ _ _ _ _ _ (Hr i p q Hp Hq) (Hn i p Hp) Hl) as (p' & Hl' & Hr').
    exists (Config (<[i := p']> ps) ch' st'). split.
    + apply (step_rank' tag_ub eager (Config ps ch st) i p p' ch' st' Hp). simpl. rewrite L1, <- L2. exact Hl'.
    + constructor; try (rewrite insert_length; auto). intros j x y Hx Hy.
      destruct (decide (i = j)) as [<-|Hne].
      * rewrite list_lookup_insert in Hx by lia. rewrite list_lookup_insert in Hy by lia. injection Hx as <-. injection Hy as <-. exact Hr'.
      * rewrite list_lookup_insert_ne in Hx by auto. rewrite list_lookup_insert_ne in Hy by auto. eauto.
  - assert (Hb : Forall at_barrier ps).
    { apply Forall_lookup. intros i p Hp.
      assert (Hi : i < P) by (rewrite <- L1; eapply lookup_lt_Some; eauto).
      destruct (lookup_lt_is_Some_2 qs i) as [q Hq]; [lia|].
      eapply rel_barrier_back; eauto. eapply Forall_lookup; eauto. }
    exists (Config (past_barrier <$> ps) ch st). split.
    + apply step_barrier; auto. intros ->. simpl in *. lia.
    + constructor; try (rewrite fmap_length; auto). intros i x y Hx Hy.
      rewrite list_lookup_fmap in Hx. rewrite list_lookup_fmap in Hy.
      destruct (ps !! i) as [p|] eqn:Hp; [|discriminate]. destruct (qs !! i) as [q|] eqn:Hq; [|discriminate].
      simpl in *. injection Hx as <-. injection Hy as <-.
      eapply rel_barrier; eauto. eapply Forall_lookup; eauto.
Qed.

Lemma sim_steps n : forall c1 c2 d1, sim c1 c2 -> steps1 n c1 d1 -> exists d2, steps2 n c2 d2 /\ sim d1 d2.
Proof.
  induction n as [|n IH]; intros c1 c2 d1 Hsim Hs; inversion Hs; subst.
  - exists c2. split; auto. constructor.
  - match goal with H : step _ _ c1 _ |- _ => destruct (sim_forward _ _ _ Hsim H) as (e2 & E & Hsim') end.
    match goal with H : Spmd.steps _ _ n _ _ |- _ => destruct (IH _ _ _ Hsim' H) as (d2 & D & Hd) end.
    exists d2. split; auto. econstructor; eauto.
Qed.

Lemma sim_end ch st d2 : sim (conf P (fun i => Ret (a i)) ch st) d2 -> d2 = conf P (fun i => k i (a i)) ch st.
Proof.
  intros H. unfold conf in H. inversion H as [ps qs ch' st' L1 L2 Hr]; subst. unfold conf. f_equal.
  apply list_eq. intros i. destruct (decide (i < P)) as [Hi|Hi].
  - destruct (lookup_lt_is_Some_2 qs i) as [q Hq]; [lia|]. rewrite Hq.
    rewrite list_lookup_fmap, lookup_seq_lt by auto. simpl. f_equal.
    specialize (Hr i (Ret (a i)) q). simpl in Hr. apply Hr; auto.
    rewrite list_lookup_fmap, lookup_seq_lt by auto. reflexivity.
  - rewrite !lookup_ge_None_2; auto; [rewrite fmap_length, seq_length|]; lia.
Qed.

Lemma conf_is_ret ch st i p :
  procs (conf P (fun i => Ret (a i) : proc M V A) ch st) !! i = Some p -> is_ret p.
Proof.
  simpl. rewrite list_lookup_fmap. destruct (seq 0 P !! i) as [j|]; [|discriminate].
  simpl. intros H. injection H as <-. exists (a j). reflexivity.
Qed.

(** The first program ends with a barrier. *)
Theorem seq_barrier n1 n2 c1 c2 ch st f2 :
  sim c1 c2 -> Forall closed (procs c1) ->
  leads tag_ub eager n1 c1 (conf P (fun i => Ret (a i)) ch st) ->
  leads tag_ub eager n2 (conf P (fun i => k i (a i)) ch st) f2 ->
  leads tag_ub eager (n1 + n2) c2 f2.
Proof.
  intros Hsim Hc H1 H2. split; [exact (leads_stuck _ _ _ _ _ H2)|].
  intros j. revert n1 c1 c2 Hsim Hc H1.
  induction j as [|j IH]; intros n1 c1 c2 Hsim Hc H1 d Hd; inversion Hd as [|? ? e2 ? He Hd']; subst.
  - split; [lia|]. rewrite Nat.sub_0_r.
    destruct (sim_steps n1 c1 d _ Hsim (leads_steps _ _ _ _ _ H1)) as (g & Hg & Hsg).
    apply sim_end in Hsg. subst g. eapply steps_trans; eauto. apply leads_steps with (1 := H2).
  - assert (Hnr : forall i p, procs c1 !! i = Some p -> ~ is_ret p).
    { intros i p Hp. apply closed_not_ret. eapply Forall_lookup; eauto. }
    destruct (sim_back _ _ _ Hsim Hnr He) as (e1 & Hs1 & Hsim').
    destruct (leads_step _ _ _ _ _ _ H1 Hs1) as (n1' & -> & H1').
    destruct (closed_step tag_ub eager c1 e1 n1' _ Hs1 Hc (leads_steps _ _ _ _ _ H1')) as [Hc'|Hr].
    { apply conf_is_ret. }
    + destruct (IH n1' e1 e2 Hsim' Hc' H1' d Hd') as [Hle Hst]. split; [lia|]. exact Hst.
    + assert (Hst : stuck tag_ub eager e1).
      { apply stuck_rets; auto. destruct Hsim' as [ps qs ch' st' L1 L2 _]. simpl. intros ->. simpl in L1. lia. }
      pose proof (leads_steps _ _ _ _ _ H1') as Hn. inversion Hn as [|? ? ? ? Hx]; subst.
      2:{ exfalso. eapply Hst; eauto. }
      apply sim_end in Hsim'. subst e2. destruct H2 as [_ H2]. destruct (H2 j d Hd') as [Hle Hs2].
      simpl. split; [lia|]. exact Hs2.
Qed.

End Seq.

(** ** After a program that does not use the store *)

Section Free.
Context {M V A B : Type} (tag_ub : nat) (eager : M -> bool).
Notation chmap := (gmap (nat * nat * nat * nat) (list M)).

Definition queue (ch : chmap) (c : nat * nat * nat * nat) : list M := default [] (ch !! c).
Definition wf (ch : chmap) : Prop := forall c, ch !! c <> Some [].

Lemma queue_none ch c : wf ch -> queue ch c = [] <-> ch !! c = None.
Proof.
  intros Hw. unfold queue. specialize (Hw c). destruct (ch !! c) as [[|m q]|]; simpl; split; congruence.
Qed.
Lemma queue_some ch c m q : queue ch c = m :: q <-> ch !! c = Some (m :: q).
Proof. unfold queue. destruct (ch !! c) as [l|]; simpl; split; congruence. Qed.
Lemma queue_eq ch ch' : wf ch -> wf ch' -> (forall c, queue ch c = queue ch' c) -> ch = ch'.
Proof.
  intros H1 H2 E. apply map_eq. intros c. specialize (H1 c). specialize (H2 c). specialize (E c).
  unfold queue in E. destruct (ch !! c) as [[|m q]|], (ch' !! c) as [[|m' q']|]; simpl in *; congruence.
Qed.
Lemma queue_push ch c m c' : queue (push c m ch) c' = queue ch c' ++ (if decide (c = c') then [m] else []).
Proof.
  unfold queue. destruct (decide (c = c')) as [<-|Hne].
  - rewrite push_eq. reflexivity.
  - rewrite push_ne by auto. rewrite app_nil_r. reflexivity.
Qed.
Lemma queue_set ch c q c' : queue (set_queue c q ch) c' = if decide (c = c') then q else queue ch c'.
Proof.
  unfold queue. destruct (decide (c = c')) as [<-|Hne].
  - unfold set_queue. destruct q; [rewrite lookup_delete|rewrite lookup_insert]; reflexivity.
  - rewrite set_queue_ne by auto. reflexivity.
Qed.
Lemma wf_empty : wf ∅.
Proof. intros c. rewrite lookup_empty. discriminate. Qed.
Lemma wf_push ch c m : wf ch -> wf (push c m ch).
Proof.
  intros H c'. destruct (decide (c = c')) as [<-|Hne].
  - rewrite push_eq. intros E. injection E as E. destruct (default [] (ch !! c)); discriminate.
  - rewrite push_ne by auto. apply H.
Qed.
Lemma wf_set ch c q : wf ch -> wf (set_queue c q ch).
Proof.
  intros H c'. unfold set_queue. destruct q as [|m q].
  - destruct (decide (c = c')) as [<-|Hne]; [rewrite lookup_delete; discriminate|].
    rewrite lookup_delete_ne by auto. apply H.
  - destruct (decide (c = c')) as [<-|Hne]; [rewrite lookup_insert; discriminate|].
    rewrite lookup_insert_ne by auto. apply H.
Qed.

Lemma free_step {O} n i (p : proc M V O) ch st p' ch' st' :
  free p -> local_step tag_ub eager n i p ch st = Some (p', ch', st') -> free p' /\ st' = st.
Proof.
  intros Hf H. destruct p; simpl in H, Hf; try tauto; try discriminate;
    repeat case_decide; repeat case_match; simplify_eq; simpl; auto.
Qed.

Section Two.
Context (P : nat) (HP : 0 < P) (k : nat -> A -> proc M V B) (a : nat -> A) (st0 : gmap loc V).

Notation goal1 := (conf P (fun i => Ret (a i)) ∅ st0 : config M V A).

(** The first program has run as in [d1] and the second as in [d2]; ranks that
    have not finished the first have not begun the second. *)
Record comb (d1 : config M V A) (d2 d : config M V B) : Prop := Comb {
  cb_l1 : length (procs d1) = P;
  cb_l2 : length (procs d2) = P;
  cb_l : length (procs d) = P;
  cb_st1 : store d1 = st0;
  cb_st : store d = store d2;
  cb_w1 : wf (chans d1);
  cb_w2 : wf (chans d2);
  cb_w : wf (chans d);
  cb_q : forall c, queue (chans d) c = queue (chans d1) c ++ queue (chans d2) c;
  cb_out : forall s dst c t, P <= s -> queue (chans d2) (s, dst, c, t) = [];
  cb_end : exists n, steps tag_ub eager n d1 goal1;
  cb_at : forall i p1 p2 p, procs d1 !! i = Some p1 -> procs d2 !! i = Some p2 -> procs d !! i = Some p ->
    (is_ret p1 /\ p = p2) \/
    (~ is_ret p1 /\ free p1 /\ rel (fun x r => r = k i x) p1 p /\ p2 = k i (a i) /\
     forall dst c t, queue (chans d2) (i, dst, c, t) = [])
}.

Lemma goal1_at i : i < P -> procs goal1 !! i = Some (Ret (a i)).
Proof. intros H. simpl. rewrite list_lookup_fmap, lookup_seq_lt by auto. reflexivity. Qed.

(** A rank of the first program that has returned has received everything. *)
Lemma finished_empty n : forall (d1 : config M V A) i x s c t, steps tag_ub eager n d1 goal1 ->
  procs d1 !! i = Some (Ret x) -> queue (chans d1) (s, i, c, t) = [].
Proof.
  assert (G : forall n (d1 e : config M V A) i x s c t, steps tag_ub eager n d1 e ->
    procs d1 !! i = Some (Ret x) -> queue (chans d1) (s, i, c, t) <> [] -> queue (chans e) (s, i, c, t) <> []).
  { intros m d1 e i x s c t H. induction H as [d|m d d' e Hs H IH]; intros Hi Hq; auto.
    apply IH; [eapply step_ret; eauto|].
    destruct (step_cases tag_ub eager d d' Hs) as [(j & p & p' & ch' & st' & Hp & Hl & ->)|(Hne & Hall & ->)];
      simpl; auto.
    destruct p; simpl in Hl; try discriminate.
    - destruct (decide _); injection Hl as <- <- <-; auto. rewrite queue_push.
      destruct (queue (chans d) (s, i, c, t)); [congruence|discriminate].
    - destruct (chans d !! _) as [[|m' q]|] eqn:E; try discriminate. injection Hl as <- <- <-.
      rewrite queue_set. destruct (decide _) as [E'|]; auto. injection E' as -> -> -> ->.
      rewrite Hp in Hi. discriminate.
    - destruct (decide _); [|discriminate]. injection Hl as <- <- <-. auto.
    - destruct (store d !! h); injection Hl as <- <- <-; auto.
    - injection Hl as <- <- <-. auto. }
  intros d1 i x s c t Hs Hi. destruct (queue (chans d1) (s, i, c, t)) as [|m q] eqn:E; auto. exfalso.
  apply (G n d1 goal1 i x s c t Hs Hi); [congruence|]. unfold queue. simpl. rewrite lookup_empty. reflexivity.
Qed.

(** A rank of the first program is not waiting for one that has returned. *)
Lemma not_blocked n : forall (d1 : config M V A) i s c t f x, steps tag_ub eager n d1 goal1 -> i < P ->
  procs d1 !! i = Some (Recv s c t f) -> procs d1 !! s = Some (Ret x) ->
  queue (chans d1) (s, i, c, t) <> [].
Proof.
  induction n as [|n IH]; intros d1 i s c t f x Hs Hi Hp Hx Hq; inversion Hs as [|? ? d' ? Hd Hs']; subst.
  - rewrite goal1_at in Hp by auto. discriminate.
  - apply (IH d' i s c t f x Hs' Hi).
    + destruct (step_cases tag_ub eager d1 d' Hd) as [(j & p & p' & ch' & st' & Hj & Hl & ->)|(Hne & Hall & ->)]; simpl.
      * destruct (decide (i = j)) as [<-|Hne].
        -- rewrite Hp in Hj. injection Hj as <-. simpl in Hl. unfold queue in Hq.
           destruct (chans d1 !! (s, i, c, t)) as [[|m q]|]; simpl in *; discriminate.
        -- rewrite list_lookup_insert_ne by auto. exact Hp.
      * assert (Hb : at_barrier (Recv s c t f : proc M V A)) by (eapply Forall_lookup; eauto). destruct Hb.
    + eapply step_ret; eauto.
    + destruct (step_cases tag_ub eager d1 d' Hd) as [(j & p & p' & ch' & st' & Hj & Hl & ->)|(Hne & Hall & ->)]; simpl; auto.
      destruct p; simpl in Hl; try discriminate.
      * destruct (decide _); injection Hl as <- <- <-; auto. rewrite queue_push, Hq.
        rewrite decide_False; auto. intros E. injection E as -> -> -> ->. rewrite Hj in Hx. discriminate.
      * destruct (chans d1 !! _) as [[|m' q]|] eqn:E; try discriminate. injection Hl as <- <- <-.
        rewrite queue_set. destruct (decide _) as [E'|]; auto. injection E' as -> -> -> ->.
        unfold queue in Hq. rewrite E in Hq. discriminate.
      * destruct (decide _); [|discriminate]. injection Hl as <- <- <-. auto.
      * destruct (store d1 !! h); injection Hl as <- <- <-; auto.
      * injection Hl as <- <- <-. auto.
Qed.

Lemma is_ret_dec (p : proc M V A) : is_ret p \/ ~ is_ret p.
Proof. destruct p; try (right; intros [x E]; discriminate). left. eexists. reflexivity. Qed.

(** A step of a rank in the first program, seen in both configurations. *)
Lemma comb_first d1 d2 d i p1 p1' p p' ch1' ch' :
  comb d1 d2 d -> procs d1 !! i = Some p1 -> procs d !! i = Some p -> ~ is_ret p1 ->
  local_step tag_ub eager P i p1 (chans d1) st0 = Some (p1', ch1', st0) ->
  rel (fun x r => r = k i x) p1' p' ->
  (exists n, steps tag_ub eager n (Config (<[i := p1']> (procs d1)) ch1' st0) goal1) ->
  wf ch1' -> wf ch' -> (forall c, queue ch' c = queue ch1' c ++ queue (chans d2) c) ->
  comb (Config (<[i := p1']> (procs d1)) ch1' st0) d2 (Config (<[i := p']> (procs d)) ch' (store d)).
Proof.
  intros [L1 L2 L S1 S W1 W2 W Q Out E At] H1 Hp Hn Hl Hr He Hw1 Hw Hq.
  assert (Hi : i < P) by (rewrite <- L1; eapply lookup_lt_Some; eauto).
  destruct (lookup_lt_is_Some_2 (procs d2) i) as [p2 H2]; [lia|].
  destruct (At i p1 p2 p H1 H2 Hp) as [[Hr1 _]|(_ & Hf & _ & E2 & Hq2)]; [tauto|].
  destruct (free_step _ _ _ _ _ _ _ _ Hf Hl) as [Hf' _].
  constructor; simpl; try (rewrite insert_length); auto.
  intros j q1 q2 q Hj1 Hj2 Hj.
  destruct (decide (i = j)) as [<-|Hne].
  - rewrite list_lookup_insert in Hj1 by lia. rewrite list_lookup_insert in Hj by lia. injection Hj1 as <-. injection Hj as <-.
    rewrite H2 in Hj2. injection Hj2 as <-.
    destruct (is_ret_dec p1') as [[x ->]|Hnr].
    + left. split; [exists x; auto|]. simpl in Hr. subst p' p2. f_equal.
      destruct He as [n He]. 
      assert (Hx : procs goal1 !! i = Some (Ret x)).
      { eapply steps_ret; [exact He|]. simpl. apply list_lookup_insert. lia. }
      rewrite goal1_at in Hx by auto. injection Hx as ->. reflexivity.
    + right. auto.
  - rewrite list_lookup_insert_ne in Hj1 by auto. rewrite list_lookup_insert_ne in Hj by auto. eauto.
Qed.

(** Steps of the first program can be made. *)
Lemma comb_forward d1 d2 d d1' : comb d1 d2 d -> step tag_ub eager d1 d1' ->
  (exists n, steps tag_ub eager n d1' goal1) ->
  exists d', step tag_ub eager d d' /\ comb d1' d2 d'.
Proof.
  intros Hc Hs He. pose proof Hc as [L1 L2 L S1 S W1 W2 W Q Out E At].
  destruct (step_cases tag_ub eager d1 d1' Hs) as [(i & p1 & p1' & ch' & st' & H1 & Hl & ->)|(Hne & Hall & ->)].
  - assert (Hi : i < P) by (rewrite <- L1; eapply lookup_lt_Some; eauto).
    destruct (lookup_lt_is_Some_2 (procs d2) i) as [p2 H2]; [lia|].
    destruct (lookup_lt_is_Some_2 (procs d) i) as [p Hp]; [lia|].
    destruct (At i p1 p2 p H1 H2 Hp) as [[[x ->] _]|(Hn & Hf & Hr & E2 & Hq2)]; [discriminate|].
    pose proof (free_step _ _ _ _ _ _ _ _ Hf Hl) as [_ ->]. rewrite S1, L1 in *.
    destruct p1; simpl in Hf; try tauto; try discriminate; simpl in Hr; destruct Hr as (q & -> & Hr).
    + (* send *)
      simpl in Hl. pose proof Hl as Hl0. destruct (decide (dst < P /\ tag <= tag_ub)) as [D|D].
      * injection Hl as <- <-.
        exists (Config (<[i := q]> (procs d)) (push (i, dst, ctx, tag) m (chans d)) (store d)). split.
        -- apply (step_rank' tag_ub eager d i _ q _ _ Hp). rewrite L. simpl. rewrite decide_True by auto. reflexivity.
        -- eapply comb_first; eauto; [simpl; rewrite decide_True by auto; reflexivity|apply wf_push; auto|apply wf_push; auto|].
           intros c. rewrite !queue_push, Q. destruct (decide _) as [<-|]; [|rewrite !app_nil_r; reflexivity].
           rewrite Hq2. rewrite !app_nil_r. reflexivity.
      * injection Hl as <- <-.
        exists (Config (<[i := Fail MPIError]> (procs d)) (chans d) (store d)). split.
        -- apply (step_rank' tag_ub eager d i _ (Fail MPIError) _ _ Hp). rewrite L. simpl.
           rewrite decide_False by auto. reflexivity.
        -- eapply comb_first; eauto; [simpl; rewrite decide_False by auto; reflexivity|reflexivity].
    + (* receive *)
      simpl in Hl. destruct (chans d1 !! (src, i, ctx, tag)) as [[|m r]|] eqn:Er; try discriminate.
      injection Hl as <- <-. pose proof (proj2 (queue_some _ _ _ _) Er) as Qr.
      assert (Ed : chans d !! (src, i, ctx, tag) = Some (m :: r ++ queue (chans d2) (src, i, ctx, tag))).
      { apply queue_some. rewrite Q, Qr. reflexivity. }
      exists (Config (<[i := q m]> (procs d))
        (set_queue (src, i, ctx, tag) (r ++ queue (chans d2) (src, i, ctx, tag)) (chans d)) (store d)). split.
      * apply (step_rank' tag_ub eager d i _ (q m) _ _ Hp). rewrite L. simpl. rewrite Ed. reflexivity.
      * eapply comb_first; eauto; [simpl; rewrite Er; reflexivity|apply wf_set; auto|apply wf_set; auto|].
        intros c. rewrite !queue_set. destruct (decide _) as [<-|]; auto.
    + (* wait *)
      simpl in Hl. destruct (decide _) as [D|]; [|discriminate]. injection Hl as <- <-.
      assert (D' : eager m = true \/ chans d !! (i, dst, ctx, tag) = None).
      { destruct D as [D|D]; auto. right. apply queue_none; auto. rewrite Q, Hq2.
        rewrite (proj2 (queue_none _ _ W1) D). reflexivity. }
      exists (Config (<[i := q]> (procs d)) (chans d) (store d)). split.
      * apply (step_rank' tag_ub eager d i _ q _ _ Hp). rewrite L. simpl. rewrite decide_True by auto. reflexivity.
      * eapply comb_first; eauto. simpl. rewrite decide_True by auto. reflexivity.
  - exfalso. destruct (lookup_lt_is_Some_2 (procs d1) 0) as [p1 H1]; [lia|].
    destruct (lookup_lt_is_Some_2 (procs d2) 0) as [p2 H2]; [lia|].
    destruct (lookup_lt_is_Some_2 (procs d) 0) as [p Hp]; [lia|].
    assert (Hb : at_barrier p1) by (eapply Forall_lookup; eauto).
    destruct (At 0 p1 p2 p H1 H2 Hp) as [[[x ->] _]|(Hn & Hf & _)]; [destruct Hb|].
    destruct p1; simpl in *; tauto.
Qed.

(** Every step is one of the first or one of the second program. *)
Lemma comb_back d1 d2 d d' : comb d1 d2 d -> step tag_ub eager d d' ->
  (forall e, step tag_ub eager d1 e -> exists n, steps tag_ub eager n e goal1) ->
  (exists d1', step tag_ub eager d1 d1' /\ comb d1' d2 d') \/
  (exists d2', step tag_ub eager d2 d2' /\ comb d1 d2' d').
Proof.
  intros Hc Hs Hgo. pose proof Hc as [L1 L2 L S1 S W1 W2 W Q Out [n E] At].
  destruct (step_cases tag_ub eager d d' Hs) as [(i & p & p' & ch' & st' & Hp & Hl & ->)|(Hne & Hall & ->)].
  - assert (Hi : i < P) by (rewrite <- L; eapply lookup_lt_Some; eauto).
    destruct (lookup_lt_is_Some_2 (procs d1) i) as [p1 H1]; [lia|].
    destruct (lookup_lt_is_Some_2 (procs d2) i) as [p2 H2]; [lia|].
    rewrite L in Hl.
    destruct (At i p1 p2 p H1 H2 Hp) as [[Hret Ep]|(Hn & Hf & Hr & E2 & Hq2)].
    + (* in the second program *)
      right. subst p2.
      assert (Hfin : forall s c t, queue (chans d1) (s, i, c, t) = []).
      { intros s c t. destruct Hret as [x ->]. eapply finished_empty; eauto. }
      assert (Hgen : forall q' ch2' st2',
        local_step tag_ub eager P i p (chans d2) (store d2) = Some (q', ch2', st2') ->
        p' = q' -> st' = st2' -> wf ch2' -> wf ch' ->
        (forall c, queue ch' c = queue (chans d1) c ++ queue ch2' c) ->
        (forall j dst c t, j <> i -> queue (chans d2) (j, dst, c, t) = [] -> queue ch2' (j, dst, c, t) = []) ->
        exists d2', step tag_ub eager d2 d2' /\ comb d1 d2' (Config (<[i := p']> (procs d)) ch' st')).
      { intros q' ch2' st2' Hl2 -> -> Hw2 Hw Hq Hother.
        exists (Config (<[i := q']> (procs d2)) ch2' st2'). split.
        - apply (step_rank' tag_ub eager d2 i p q' ch2' st2' H2). rewrite L2. exact Hl2.
        - constructor; simpl; try (rewrite insert_length); eauto.
          { intros s dst c t Hs'. apply Hother; auto. lia. }
          intros j q1 q2 q Hj1 Hj2 Hj. destruct (decide (i = j)) as [<-|Hne].
          + rewrite list_lookup_insert in Hj2 by lia. rewrite list_lookup_insert in Hj by lia. injection Hj2 as <-. injection Hj as <-.
            rewrite H1 in Hj1. injection Hj1 as <-. left. auto.
          + rewrite list_lookup_insert_ne in Hj2 by auto. rewrite list_lookup_insert_ne in Hj by auto.
            destruct (At j q1 q2 q Hj1 Hj2 Hj) as [HA|(A1 & A2 & A3 & A4 & A5)]; [left; auto|right].
            do 4 (split; [auto|]). intros dst c t. apply Hother; auto. }
      destruct p; simpl in Hl; try discriminate.
      * destruct (decide _) as [D|D]; injection Hl as <- <- <-.
        -- eapply (Hgen _ (push (i, dst, ctx, tag) m (chans d2)) (store d2));
             [simpl; rewrite decide_True by auto; reflexivity|auto|auto|apply wf_push; auto|apply wf_push; auto| |].
           ++ intros c. rewrite !queue_push, Q, app_assoc. reflexivity.
           ++ intros j dst' c t Hj Hz. rewrite queue_push, Hz, decide_False; auto. congruence.
        -- eapply (Hgen _ (chans d2) (store d2)); auto. simpl. rewrite decide_False by auto. reflexivity.
      * destruct (chans d !! _) as [[|m r]|] eqn:Er; try discriminate. injection Hl as <- <- <-.
        pose proof (proj2 (queue_some _ _ _ _) Er) as Qr. rewrite Q, Hfin in Qr. simpl in Qr.
        pose proof (proj1 (queue_some _ _ _ _) Qr) as Er2.
        eapply (Hgen _ (set_queue (src, i, ctx, tag) r (chans d2)) (store d2));
          [simpl; rewrite Er2; reflexivity|auto|auto|apply wf_set; auto|apply wf_set; auto| |].
        -- intros c. rewrite !queue_set. destruct (decide _) as [<-|]; [rewrite Hfin|]; auto.
        -- intros j dst' c t Hj Hz. rewrite queue_set. destruct (decide _) as [E'|]; auto.
           injection E' as -> <- -> ->. rewrite Qr in Hz. discriminate.
      * destruct (decide _) as [D|]; [|discriminate]. injection Hl as <- <- <-.
        eapply (Hgen _ (chans d2) (store d2)); auto. simpl. rewrite decide_True; auto.
        destruct D as [D|D]; auto. right. apply queue_none; auto.
        apply (queue_none _ _ W) in D. rewrite Q in D. apply app_eq_nil in D. tauto.
      * rewrite S in Hl. destruct (store d2 !! h) as [v|] eqn:Ev; injection Hl as <- <- <-.
        -- eapply (Hgen _ (chans d2) (store d2)); auto. simpl. rewrite Ev. reflexivity.
        -- eapply (Hgen _ (chans d2) (store d2)); auto. simpl. rewrite Ev. reflexivity.
      * rewrite S in Hl. injection Hl as <- <- <-.
        eapply (Hgen _ (chans d2) (<[h := v]> (store d2))); auto.
    + (* in the first program *)
      left.
      assert (Hgen : forall p1' ch1', local_step tag_ub eager P i p1 (chans d1) st0 = Some (p1', ch1', st0) ->
        rel (fun x r => r = k i x) p1' p' -> st' = store d -> wf ch1' -> wf ch' ->
        (forall c, queue ch' c = queue ch1' c ++ queue (chans d2) c) ->
        exists d1', step tag_ub eager d1 d1' /\ comb d1' d2 (Config (<[i := p']> (procs d)) ch' st')).
      { intros p1' ch1' Hl1 Hr' -> Hw1 Hw Hq.
        assert (Hstep : step tag_ub eager d1 (Config (<[i := p1']> (procs d1)) ch1' st0)).
        { apply (step_rank' tag_ub eager d1 i p1 p1' ch1' st0 H1). rewrite L1, S1. exact Hl1. }
        exists (Config (<[i := p1']> (procs d1)) ch1' st0). split; auto. eapply comb_first; eauto. }
      destruct p1; simpl in Hf; try tauto; simpl in Hr.
      * exfalso. apply Hn. eexists. reflexivity.
      * subst p. discriminate.
      * destruct Hr as (q & -> & Hr). simpl in Hl. destruct (decide (dst < P /\ tag <= tag_ub)) as [D|D].
        -- injection Hl as <- <- <-. apply (Hgen p1 (push (i, dst, ctx, tag) m (chans d1)));
             [simpl; rewrite decide_True by auto; reflexivity|auto|auto|apply wf_push; auto|apply wf_push; auto|].
           intros c. rewrite !queue_push, Q. destruct (decide _) as [<-|]; [|rewrite !app_nil_r; reflexivity].
           rewrite Hq2. rewrite !app_nil_r. reflexivity.
        -- injection Hl as <- <- <-. apply (Hgen (Fail MPIError) (chans d1)); auto; [|reflexivity].
           simpl. rewrite decide_False by auto. reflexivity.
      * destruct Hr as (q & -> & Hr). simpl in Hl.
        destruct (chans d !! _) as [[|m r]|] eqn:Er; try discriminate. injection Hl as <- <- <-.
        pose proof (proj2 (queue_some _ _ _ _) Er) as Qr. rewrite Q in Qr.
        destruct (queue (chans d1) (src, i, ctx, tag)) as [|m0 r1] eqn:Q1.
        -- exfalso.
           simpl in Qr. destruct (decide (src < P)) as [Hsrc|Hge]; [|rewrite Out in Qr by lia; discriminate].
           destruct (lookup_lt_is_Some_2 (procs d1) src) as [s1 Hs1]; [lia|].
           destruct (lookup_lt_is_Some_2 (procs d2) src) as [s2 Hs2]; [lia|].
           destruct (lookup_lt_is_Some_2 (procs d) src) as [s3 Hs3]; [lia|].
           destruct (At src s1 s2 s3 Hs1 Hs2 Hs3) as [[[x ->] _]|(_ & _ & _ & _ & Hz)].
           ++ exact (not_blocked n d1 i src ctx tag _ x E Hi H1 Hs1 Q1).
           ++ rewrite Hz in Qr. discriminate.
        -- simpl in Qr. injection Qr as <- <-.
           pose proof (proj1 (queue_some _ _ _ _) Q1) as E1.
           apply (Hgen (k0 m0) (set_queue (src, i, ctx, tag) r1 (chans d1)));
             [simpl; rewrite E1; reflexivity|auto|auto|apply wf_set; auto|apply wf_set; auto|].
           intros c. rewrite !queue_set. destruct (decide _) as [<-|]; auto.
      * destruct Hr as (q & -> & Hr). simpl in Hl.
        destruct (decide _) as [D|]; [|discriminate]. injection Hl as <- <- <-.
        apply (Hgen p1 (chans d1)); auto. simpl. rewrite decide_True; auto.
        destruct D as [D|D]; auto. right. apply queue_none; auto.
        apply (queue_none _ _ W) in D. rewrite Q in D. apply app_eq_nil in D. tauto.
  - right.
    assert (Hsame : procs d2 = procs d).
    { apply list_eq. intros i. destruct (decide (i < P)) as [Hi|Hi].
      - destruct (lookup_lt_is_Some_2 (procs d1) i) as [p1 H1]; [lia|].
        destruct (lookup_lt_is_Some_2 (procs d2) i) as [p2 H2]; [lia|].
        destruct (lookup_lt_is_Some_2 (procs d) i) as [p Hp]; [lia|].
        rewrite H2, Hp. f_equal.
        destruct (At i p1 p2 p H1 H2 Hp) as [[_ ->]|(Hn & Hf & Hr & _)]; auto. exfalso.
        assert (Hb : at_barrier p) by (eapply Forall_lookup; eauto).
        pose proof (rel_barrier_back (fun x r => r = k i x) _ _ Hr Hn Hb) as Hb1. destruct p1; simpl in *; tauto.
      - rewrite !lookup_ge_None_2; auto; lia. }
    exists (Config (past_barrier <$> procs d2) (chans d2) (store d2)). split.
    + destruct d2 as [ps2 c2 s2]. simpl in *. subst ps2. apply step_barrier; auto.
    + constructor; simpl; try (rewrite fmap_length); eauto.
      intros i q1 q2 q Hj1 Hj2 Hj. rewrite list_lookup_fmap in Hj2. rewrite list_lookup_fmap in Hj.
      destruct (procs d2 !! i) as [p2|] eqn:H2; [|discriminate].
      destruct (procs d !! i) as [p|] eqn:Hp; [|discriminate].
      simpl in *. injection Hj2 as <-. injection Hj as <-.
      left. destruct (At i q1 p2 p Hj1 H2 Hp) as [[HA ->]|(Hn & Hf & Hr & _)]; auto. exfalso.
      assert (Hb : at_barrier p) by (eapply Forall_lookup; eauto).
      pose proof (rel_barrier_back (fun x r => r = k i x) _ _ Hr Hn Hb) as Hb1. destruct q1; simpl in *; tauto.
Qed.

Lemma comb_finish n2 f2 d2 : steps tag_ub eager n2 d2 f2 ->
  forall n1 d1 d, comb d1 d2 d -> steps tag_ub eager n1 d1 goal1 -> steps tag_ub eager (n1 + n2) d f2.
Proof.
  intros H2. induction n1 as [|n1 IH]; intros d1 d Hc Hs; inversion Hs as [|? ? d1' ? Hd Hs']; subst.
  - assert (d = d2) as ->; [|exact H2].
    destruct Hc as [L1 L2 L S1 S W1 W2 W Q Out E At].
    assert (Hp : procs d = procs d2).
    { apply list_eq. intros i. destruct (decide (i < P)) as [Hi|Hi].
      - destruct (lookup_lt_is_Some_2 (procs d2) i) as [p2 Hp2]; [lia|].
        destruct (lookup_lt_is_Some_2 (procs d) i) as [p Hp]; [lia|].
        rewrite Hp2, Hp. f_equal.
        destruct (At i _ p2 p (goal1_at i Hi) Hp2 Hp) as [[_ ->]|(Hn & _)]; auto.
        exfalso. apply Hn. eexists. reflexivity.
      - rewrite !lookup_ge_None_2; auto; lia. }
    assert (Hch : chans d = chans d2).
    { apply queue_eq; auto. }
    destruct d, d2. simpl in *. congruence.
  - destruct (comb_forward d1 d2 d d1' Hc Hd) as (d' & Hd' & Hc'); [eauto|].
    simpl. econstructor; eauto.
Qed.

Lemma comb_leads f2 j : forall n1 n2 d1 d2 d e, comb d1 d2 d ->
  leads tag_ub eager n1 d1 goal1 -> leads tag_ub eager n2 d2 f2 -> steps tag_ub eager j d e ->
  j <= n1 + n2 /\ steps tag_ub eager (n1 + n2 - j) e f2.
Proof.
  induction j as [|j IH]; intros n1 n2 d1 d2 d e Hc H1 H2 Hj; inversion Hj as [|? ? d' ? Hd Hj']; subst.
  - split; [lia|]. rewrite Nat.sub_0_r.
    eapply comb_finish; eauto; eapply leads_steps; eauto.
  - destruct (comb_back d1 d2 d d' Hc Hd) as [(d1' & Hs & Hc')|(d2' & Hs & Hc')].
    { intros x Hx. destruct (leads_step _ _ _ _ _ _ H1 Hx) as (m & _ & Hm). exists m. eapply leads_steps; eauto. }
    + destruct (leads_step _ _ _ _ _ _ H1 Hs) as (m & -> & Hm).
      destruct (IH m n2 d1' d2 d' e Hc' Hm H2 Hj') as [Hle Hst]. split; [lia|]. exact Hst.
    + destruct (leads_step _ _ _ _ _ _ H2 Hs) as (m & -> & Hm).
      destruct (IH n1 m d1 d2' d' e Hc' H1 Hm Hj') as [Hle Hst]. split; [lia|].
      replace (n1 + S m - S j) with (n1 + m - j) by lia. exact Hst.
Qed.

(** The first program does not use the store and has no barrier. *)
Theorem seq_free n1 n2 ps qs f2 :
  sim P k (Config ps ∅ st0) (Config qs ∅ st0) -> Forall free ps ->
  leads tag_ub eager n1 (Config ps ∅ st0) goal1 ->
  leads tag_ub eager n2 (conf P (fun i => k i (a i)) ∅ st0) f2 ->
  leads tag_ub eager (n1 + n2) (Config qs ∅ st0) f2.
Proof.
  intros Hsim Hf H1 H2. destruct (sim_inv _ _ _ _ _ _ Hsim) as (L1 & L2 & Hr).
  assert (Hc : comb (Config ps ∅ st0) (conf P (fun i => k i (a i)) ∅ st0) (Config qs ∅ st0)).
  { constructor; simpl; auto; try apply wf_empty.
    - rewrite fmap_length, seq_length. reflexivity.
    - exists n1. eapply leads_steps; eauto.
    - intros i p1 p2 p Hp1 Hp2 Hp.
      assert (Hi : i < P) by (rewrite <- L1; eapply lookup_lt_Some; eauto).
      rewrite list_lookup_fmap, lookup_seq_lt in Hp2 by auto. simpl in Hp2. injection Hp2 as <-.
      pose proof (Hr i p1 p Hp1 Hp) as Hrel.
      destruct (is_ret_dec p1) as [[x ->]|Hn].
      + left. split; [eexists; reflexivity|]. simpl in Hrel. subst p. f_equal.
        assert (Hx : procs goal1 !! i = Some (Ret x)).
        { eapply steps_ret; [eapply leads_steps; exact H1|]. exact Hp1. }
        rewrite goal1_at in Hx by auto. injection Hx as ->. reflexivity.
      + right. split; [auto|]. split; [exact (Forall_lookup_1 _ _ _ _ Hf Hp1)|]. do 2 (split; [auto|]). intros. unfold queue. rewrite lookup_empty. reflexivity. }
  split; [eapply leads_stuck; eauto|]. intros j e He. eapply comb_leads; eauto.
Qed.

End Two.
End Free.

(** One process does what it does. *)
Lemma leads_one {M V O} tag_ub (eager : M -> bool) n (p : proc M V O) ch st f :
  steps tag_ub eager n (Config [p] ch st) f -> stuck tag_ub eager f ->
  leads tag_ub eager n (Config [p] ch st) f.
Proof.
  intros Hs Hf. apply leads_NI with (R := fun i _ => i = 0) (W := fun i _ => i = 0); auto.
  split; [intros i j h Hne -> ; split; congruence|].
  intros [|i] q Hq; [|discriminate]. clear -q. revert q.
  induction q; simpl; auto.
Qed.

(** ** Sequences of programs *)

Section Then.
Context {M V X O : Type} (tag_ub : nat) (eager : M -> bool) (P : nat) (HP : 0 < P).
Context (m0 : nat -> prog M V X X) (m : nat -> prog M V O X) (k : nat -> X -> proc M V O).
Context (Hm : forall i, i < P -> prel (m0 i) (m i)).

Lemma then_sim ch st : sim P k (conf P (fun i => m0 i Ret) ch st) (conf P (fun i => m i (k i)) ch st).
Proof.
  constructor; try (rewrite fmap_length, seq_length; reflexivity).
  intros i p q Hp Hq. rewrite list_lookup_fmap in Hp. rewrite list_lookup_fmap in Hq.
  destruct (seq 0 P !! i) as [j|] eqn:E; [|discriminate]. apply lookup_seq in E. destruct E as [-> Hj].
  simpl in *. injection Hp as <-. injection Hq as <-. apply prel_rel. auto.
Qed.

Lemma lock_leads R W st st' b : separate R W -> (forall i, i < P -> puses (R i) (W i) (m0 i)) ->
  lock tag_ub eager P st m0 st' b ->
  exists n, leads tag_ub eager n (conf P (fun i => m0 i Ret) ∅ st) (conf P (fun i => Ret (b i)) ∅ st').
Proof.
  intros Hs Hu Hl. destruct (Hl (fun _ => Ret)) as [n Hn]. exists n.
  apply leads_NI with (R := R) (W := W); auto.
  - split; auto. intros i p Hp. simpl in Hp. rewrite list_lookup_fmap in Hp.
    destruct (seq 0 P !! i) as [j|] eqn:E; [|discriminate]. apply lookup_seq in E. destruct E as [-> Hj].
    simpl in Hp. injection Hp as <-. apply puses_uses. auto.
  - apply stuck_returned. exact HP.
Qed.

Lemma then_all (G : proc M V X -> Prop) : (forall i, i < P -> G (m0 i Ret)) ->
  Forall G ((fun i => m0 i Ret) <$> seq 0 P).
Proof.
  intros H. apply Forall_forall. intros p Hp. apply elem_of_list_fmap in Hp.
  destruct Hp as (i & -> & Hi). apply elem_of_seq in Hi. apply H. lia.
Qed.

(** One process goes on with the rest. *)
Lemma then_alone st st' b n2 f2 : P = 1 -> lock tag_ub eager P st m0 st' b ->
  leads tag_ub eager n2 (conf P (fun i => k i (b i)) ∅ st') f2 ->
  exists n, leads tag_ub eager n (conf P (fun i => m i (k i)) ∅ st) f2.
Proof.
  intros H1 Hl H2. destruct (Hl (fun _ => Ret)) as [n1 Hn].
  destruct (sim_steps tag_ub eager P HP k n1 _ _ _ (then_sim ∅ st) Hn) as (d & Hd & Hs).
  apply (sim_end P HP) in Hs. subst d. exists (n1 + n2).
  assert (Hst : steps tag_ub eager (n1 + n2) (conf P (fun i => m i (k i)) ∅ st) f2).
  { eapply steps_trans; [exact Hd|]. apply leads_steps with (1 := H2). }
  unfold conf in *. replace (seq 0 P) with [0] in * by (rewrite H1; reflexivity).
  apply leads_one; [exact Hst|]. apply leads_stuck with (1 := H2).
Qed.

(** Once a program that ends with a barrier is done, the rest begins with the store
    as it then is. *)
Theorem then_barrier R W st st' b n2 f2 : (1 < P -> forall i, i < P -> pclosed (m0 i)) ->
  separate R W -> (forall i, i < P -> puses (R i) (W i) (m0 i)) -> lock tag_ub eager P st m0 st' b ->
  leads tag_ub eager n2 (conf P (fun i => k i (b i)) ∅ st') f2 ->
  exists n, leads tag_ub eager n (conf P (fun i => m i (k i)) ∅ st) f2.
Proof.
  intros Hc Hs Hu Hl H2. destruct (Nat.eq_dec P 1) as [H1|H1]; [eapply then_alone; eauto|].
  destruct (lock_leads R W st st' b Hs Hu Hl) as [n1 Hn]. exists (n1 + n2).
  eapply (seq_barrier tag_ub eager P HP k b n1 n2); [apply then_sim| |exact Hn|exact H2].
  apply then_all. intros i Hi. apply Hc; auto; [lia|]. intros x. exists x. reflexivity.
Qed.

(** The same for a program that neither uses the store nor has a barrier. *)
Theorem then_free st b n2 f2 : (forall i, i < P -> pfree (m0 i)) -> lock tag_ub eager P st m0 st b ->
  leads tag_ub eager n2 (conf P (fun i => k i (b i)) ∅ st) f2 ->
  exists n, leads tag_ub eager n (conf P (fun i => m i (k i)) ∅ st) f2.
Proof.
  intros Hf Hl H2.
  assert (Hu : forall (p : proc M V X), free p -> uses (fun _ => False) (fun _ => False) p).
  { induction p; simpl; auto; tauto. }
  destruct (Hl (fun _ => Ret)) as [n1 Hn]. exists (n1 + n2).
  eapply (seq_free tag_ub eager P HP k b st n1 n2); [apply then_sim| | |exact H2].
  - apply then_all. intros i Hi. apply Hf; auto. intros x. exact I.
  - apply leads_NI with (R := fun _ _ => False) (W := fun _ _ => False); auto.
    + split; [intros i j h _ []|]. intros i p Hp. simpl in Hp. rewrite list_lookup_fmap in Hp.
      destruct (seq 0 P !! i) as [j|] eqn:E; [|discriminate]. apply lookup_seq in E. destruct E as [-> Hj].
      simpl in Hp. injection Hp as <-. apply Hu. apply Hf; auto. intros x. exact I.
    + apply stuck_returned. exact HP.
Qed.

End Then.
