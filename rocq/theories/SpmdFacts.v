(** Meta-theory of the message-passing semantics: the diamond property, random
    descent, and lock-step composition rules. *)
From stdpp Require Import gmap list.
From Coq Require Import Lia.
From Verif Require Import Prelude Spmd.

Section Facts.
Context {M V O : Type}.
Context (tag_ub : nat) (eager : M -> bool).

Notation proc := (proc M V O).
Notation config := (@config M V O).
Notation prog := (prog M V O).
Notation rank_step := (@rank_step M V O tag_ub eager).
Notation step := (@step M V O tag_ub eager).
Notation steps := (@steps M V O tag_ub eager).
Notation stuck := (@stuck M V O tag_ub eager).
Notation always_ends := (@always_ends M V O tag_ub eager).

(** ** Non-interference *)

(** [uses R W p]: [p] reads only from [R] and writes only to [W], whatever
    messages it receives. *)
Fixpoint uses (R W : loc -> Prop) (p : proc) : Prop :=
  match p with
  | Ret _ => True
  | Fail _ => True
  | Isend _ _ _ _ k => uses R W k
  | Recv _ _ _ k => forall m, uses R W (k m)
  | Wait _ _ _ _ k => uses R W k
  | Barrier k => uses R W k
  | Get h k => R h /\ forall v, uses R W (k v)
  | Put h _ k => W h /\ uses R W k
  end.

(** Writes of one rank do not touch what another rank reads or writes. *)
Definition separate (R W : nat -> loc -> Prop) : Prop :=
  forall i j h, i <> j -> W i h -> ~ W j h /\ ~ R j h.

Definition NI (R W : nat -> loc -> Prop) (c : config) : Prop :=
  separate R W /\
  forall i p, procs c !! i = Some p -> uses (R i) (W i) p.

Lemma uses_past_barrier R W p : uses R W p -> uses R W (past_barrier p).
Proof. destruct p; simpl; auto. Qed.

Lemma local_step_uses R W n i p ch st p' ch' st' :
  uses R W p -> local_step tag_ub eager n i p ch st = Some (p', ch', st') ->
  uses R W p'.
Proof.
  intros Hu H. destruct p; simpl in H, Hu;
    repeat case_decide; repeat case_match; simplify_eq; simpl; intuition auto.
Qed.

Lemma NI_step R W c c' : NI R W c -> step c c' -> NI R W c'.
Proof.
  intros [Hsep Huse] Hstep. split; [exact Hsep|].
  inversion Hstep as [i c0 c1 Hr|ps ch st Hne Hall]; subst.
  - unfold Spmd.rank_step in Hr.
    destruct (procs c !! i) as [p|] eqn:Hi; [|discriminate].
    destruct (local_step _ _ _ _ _ _ _) as [[[p' ch'] st']|] eqn:E; [|discriminate].
    injection Hr as <-. simpl. intros j q Hj.
    destruct (decide (i = j)) as [->|Hne].
    + rewrite list_lookup_insert in Hj by (eapply lookup_lt_Some; eauto).
      injection Hj as <-. eapply local_step_uses; eauto.
    + rewrite list_lookup_insert_ne in Hj by auto. eauto.
  - intros i p Hi. simpl in Hi. rewrite list_lookup_fmap in Hi.
    destruct (ps !! i) as [q|] eqn:E; simplify_eq/=.
    apply uses_past_barrier. apply Huse. exact E.
Qed.

(** ** Diamond *)

Lemma set_queue_ne (c1 c2 : chan) (q : list M) (ch : gmap chan (list M)) :
  c1 <> c2 -> set_queue c1 q ch !! c2 = ch !! c2.
Proof.
  intros. unfold set_queue. destruct q.
  - apply lookup_delete_ne; auto.
  - apply lookup_insert_ne; auto.
Qed.
Lemma push_ne (c1 c2 : chan) (m : M) (ch : gmap chan (list M)) :
  c1 <> c2 -> push c1 m ch !! c2 = ch !! c2.
Proof. intros. unfold push. apply lookup_insert_ne; auto. Qed.
Lemma push_eq (c : chan) (m : M) (ch : gmap chan (list M)) :
  push c m ch !! c = Some (default [] (ch !! c) ++ [m]).
Proof. unfold push. apply lookup_insert. Qed.

Lemma set_queue_commute (c1 c2 : chan) (q1 q2 : list M) (ch : gmap chan (list M)) :
  c1 <> c2 ->
  set_queue c1 q1 (set_queue c2 q2 ch) = set_queue c2 q2 (set_queue c1 q1 ch).
Proof.
  intros. unfold set_queue. destruct q1, q2.
  - apply delete_commute.
  - rewrite delete_insert_ne; auto.
  - rewrite delete_insert_ne; auto.
  - apply insert_commute; auto.
Qed.
Lemma push_set_queue (c1 c2 : chan) (m : M) (q : list M) (ch : gmap chan (list M)) :
  c1 <> c2 -> push c1 m (set_queue c2 q ch) = set_queue c2 q (push c1 m ch).
Proof.
  intros. unfold push. rewrite set_queue_ne by auto.
  unfold set_queue. destruct q.
  - rewrite delete_insert_ne; auto.
  - apply insert_commute; auto.
Qed.
Lemma push_push (c1 c2 : chan) (m1 m2 : M) (ch : gmap chan (list M)) :
  c1 <> c2 -> push c1 m1 (push c2 m2 ch) = push c2 m2 (push c1 m1 ch).
Proof.
  intros. unfold push. rewrite !lookup_insert_ne by auto.
  apply insert_commute; auto.
Qed.
Lemma push_pop_same (c : chan) (m x : M) (q : list M) (ch : gmap chan (list M)) :
  ch !! c = Some (x :: q) ->
  set_queue c (q ++ [m]) (push c m ch) = push c m (set_queue c q ch).
Proof.
  intros H. unfold push. rewrite H. simpl.
  unfold set_queue. destruct q; simpl.
  - rewrite lookup_delete. simpl. rewrite insert_insert.
    rewrite insert_delete_insert. reflexivity.
  - rewrite lookup_insert. simpl. rewrite !insert_insert. reflexivity.
Qed.

Ltac chan_ne := intros ?; simplify_eq; congruence.

Lemma local_step_commute Ri Wi Rj Wj n i j p q ch st p' ch1 st1 q' ch2 st2 :
  i <> j ->
  uses Ri Wi p -> uses Rj Wj q ->
  (forall h, Wi h -> ~ Wj h /\ ~ Rj h) -> (forall h, Wj h -> ~ Wi h /\ ~ Ri h) ->
  local_step tag_ub eager n i p ch st = Some (p', ch1, st1) ->
  local_step tag_ub eager n j q ch st = Some (q', ch2, st2) ->
  exists ch3 st3,
    local_step tag_ub eager n j q ch1 st1 = Some (q', ch3, st3) /\
    local_step tag_ub eager n i p ch2 st2 = Some (p', ch3, st3).
Proof.
  intros Hij Hp Hq Si Sj H1 H2.
  destruct p; simpl in H1; try discriminate; simpl in Hp;
  destruct q; simpl in H2; try discriminate; simpl in Hq;
    (repeat match goal with
     | H : context [decide ?P] |- _ => destruct (decide P)
     | H : match ?x with _ => _ end = Some _ |- _ => destruct x eqn:?
     | H : Some _ = Some _ |- _ => injection H as <- <- <-
     end); try discriminate; simpl;
    repeat (rewrite decide_True by tauto);
    repeat (rewrite decide_False by tauto);
    repeat match goal with
       | H : ?x = _ |- context [?x] => rewrite H
       end;
    try (eexists _, _; split; reflexivity).
  all: try (rewrite !push_ne by chan_ne).
  all: try (rewrite !set_queue_ne by chan_ne).
  all: repeat (rewrite decide_True by tauto).
  all: repeat (rewrite decide_False by tauto).
  all: repeat match goal with
       | H : ?x = _ |- context [?x] => rewrite H
       end.
  all: try (eexists _, _; split; reflexivity).
  - (* send / send *)
    eexists _, _; split; [reflexivity|]. rewrite push_push by chan_ne. reflexivity.
  - (* send / recv *)
    destruct (decide ((i, dst, ctx, tag) = (src, j, ctx0, tag0))) as [E|E].
    + simplify_eq. rewrite push_eq.
      match goal with H : _ = Some (_ :: _) |- _ => pose proof H as Hq1; rewrite Hq1 end.
      simpl. eexists _, _; split; [reflexivity|].
      erewrite push_pop_same by eauto. reflexivity.
    + rewrite push_ne by auto.
      match goal with H : _ = Some (_ :: _) |- _ => rewrite H end.
      eexists _, _; split; [reflexivity|]. rewrite push_set_queue by auto. reflexivity.
  - (* recv / send *)
    destruct (decide ((j, dst, ctx0, tag0) = (src, i, ctx, tag))) as [E|E].
    + simplify_eq. rewrite push_eq.
      match goal with H : _ = Some (_ :: _) |- _ => pose proof H as Hq1; rewrite Hq1 end.
      simpl. eexists _, _; split; [reflexivity|].
      erewrite push_pop_same by eauto. reflexivity.
    + rewrite push_ne by auto.
      match goal with H : _ = Some (_ :: _) |- _ => rewrite H end.
      eexists _, _; split; [reflexivity|]. rewrite push_set_queue by auto. reflexivity.
  - (* recv / recv *)
    eexists _, _; split; [reflexivity|]. rewrite set_queue_commute by chan_ne. reflexivity.
  - (* recv / wait *)
    assert (G : eager m = true \/ set_queue (src, i, ctx, tag) l0 ch !! (j, dst, ctx0, tag0) = None).
    { destruct o as [o|o]; [left; auto|right].
      rewrite set_queue_ne; [auto|]. intros ?; simplify_eq. }
    rewrite decide_True by exact G.
    eexists _, _; split; reflexivity.
  - (* wait / recv *)
    assert (G : eager m = true \/ set_queue (src, j, ctx0, tag0) l0 ch !! (i, dst, ctx, tag) = None).
    { destruct o as [o|o]; [left; auto|right].
      rewrite set_queue_ne; [auto|]. intros ?; simplify_eq. }
    rewrite decide_True by exact G.
    eexists _, _; split; reflexivity.
  - destruct Hp as [Hp _], Hq as [Hq _]. destruct (Sj h0 Hq) as [_ Hr].
    rewrite lookup_insert_ne by (intros ->; auto).
    match goal with H : ?x = _ |- context [?x] => rewrite H end.
    eexists _, _; split; reflexivity.
  - destruct Hp as [Hp _], Hq as [Hq _]. destruct (Sj h0 Hq) as [_ Hr].
    rewrite lookup_insert_ne by (intros ->; auto).
    match goal with H : ?x = _ |- context [?x] => rewrite H end.
    eexists _, _; split; reflexivity.
  - destruct Hp as [Hp _], Hq as [Hq _]. destruct (Si h Hp) as [_ Hr].
    rewrite lookup_insert_ne by (intros ->; auto).
    match goal with H : ?x = _ |- context [?x] => rewrite H end.
    eexists _, _; split; reflexivity.
  - destruct Hp as [Hp _], Hq as [Hq _]. destruct (Si h Hp) as [_ Hr].
    rewrite lookup_insert_ne by (intros ->; auto).
    match goal with H : ?x = _ |- context [?x] => rewrite H end.
    eexists _, _; split; reflexivity.
  - destruct Hp as [Hp _], Hq as [Hq _]. destruct (Si h Hp) as [Hr _].
    eexists _, _; split; [reflexivity|].
    rewrite insert_commute by (intros ->; auto). reflexivity.
Qed.

Lemma rank_step_commute R W i j c c1 c2 :
  NI R W c -> i <> j ->
  rank_step i c = Some c1 -> rank_step j c = Some c2 ->
  exists d, rank_step j c1 = Some d /\ rank_step i c2 = Some d.
Proof.
  intros [Hsep Huse] Hij H1 H2. unfold Spmd.rank_step in H1, H2.
  destruct (procs c !! i) as [p|] eqn:Hi; [|discriminate].
  destruct (procs c !! j) as [q|] eqn:Hj; [|discriminate].
  destruct (local_step _ _ _ i _ _ _) as [[[p' ch1] st1]|] eqn:E1; [|discriminate].
  destruct (local_step _ _ _ j _ _ _) as [[[q' ch2] st2]|] eqn:E2; [|discriminate].
  injection H1 as <-. injection H2 as <-.
  destruct (local_step_commute (R i) (W i) (R j) (W j) _ i j p q _ _ _ _ _ _ _ _
              Hij (Huse i p Hi) (Huse j q Hj)
              (fun h => Hsep i j h Hij) (fun h => Hsep j i h (not_eq_sym Hij)) E1 E2)
    as (ch3 & st3 & F1 & F2).
  unfold Spmd.rank_step. simpl. rewrite !insert_length.
  rewrite !list_lookup_insert_ne by auto. rewrite Hi, Hj, F1, F2.
  eexists; split; [reflexivity|]. rewrite list_insert_commute by auto. reflexivity.
Qed.

Lemma barrier_no_rank_step ps ch st i c' :
  Forall at_barrier ps -> rank_step i (Config ps ch st) = Some c' -> False.
Proof.
  intros Hall H. unfold Spmd.rank_step in H. simpl in H.
  destruct (ps !! i) as [p|] eqn:Hi; [|discriminate].
  assert (Hb : at_barrier p) by (eapply Forall_lookup; eauto).
  destruct p; simpl in Hb; try tauto. simpl in H. discriminate.
Qed.

Lemma diamond R W c c1 c2 :
  NI R W c -> step c c1 -> step c c2 ->
  c1 = c2 \/ exists d, step c1 d /\ step c2 d.
Proof.
  intros HNI S1 S2.
  inversion S1 as [i c0 c0' H1|ps ch st Hne Hall]; subst;
  inversion S2 as [j c0 c0' H2|ps' ch' st' Hne' Hall']; subst.
  - destruct (decide (i = j)) as [->|Hij].
    + left. congruence.
    + right. destruct (rank_step_commute R W i j c c1 c2 HNI Hij H1 H2) as (d & D1 & D2).
      exists d. split; eapply step_rank; eauto.
  - exfalso. eapply barrier_no_rank_step; eauto.
  - exfalso. eapply barrier_no_rank_step; eauto.
  - left. reflexivity.
Qed.

(** ** Random descent *)

Lemma steps_trans n m c d e : steps n c d -> steps m d e -> steps (n + m) c e.
Proof. induction 1; simpl; intros; auto. econstructor; eauto. Qed.

Lemma NI_steps R W n c d : NI R W c -> steps n c d -> NI R W d.
Proof. intros H S. induction S; auto. apply IHS. eapply NI_step; eauto. Qed.

Lemma descent_one R W n : forall c f d,
  NI R W c -> steps n c f -> stuck f -> step c d ->
  exists n', n = S n' /\ steps n' d f.
Proof.
  induction n as [|n IH]; intros c f d HNI Hs Hf Hd.
  - inversion Hs; subst. exfalso. eapply Hf; eauto.
  - inversion Hs as [|? ? c1 ? Hc1 Hs1]; subst.
    exists n. split; auto.
    destruct (diamond R W c c1 d HNI Hc1 Hd) as [->|(e & E1 & E2)]; auto.
    destruct (IH c1 f e) as (n' & -> & He); auto.
    + eapply NI_step; eauto.
    + econstructor; eauto.
Qed.

Lemma descent R W k : forall n c f d,
  NI R W c -> steps n c f -> stuck f -> steps k c d ->
  k <= n /\ steps (n - k) d f.
Proof.
  induction k as [|k IH]; intros n c f d HNI Hs Hf Hd.
  - inversion Hd; subst. split; [lia|]. rewrite Nat.sub_0_r. auto.
  - inversion Hd as [|? ? c1 ? Hc1 Hd1]; subst.
    destruct (descent_one R W n c f c1 HNI Hs Hf Hc1) as (n' & -> & Hs').
    destruct (IH n' c1 f d) as (Hle & Hr); auto.
    + eapply NI_step; eauto.
    + split; [lia|]. simpl. exact Hr.
Qed.

Theorem one_schedule_suffices R W c f n (Q : config -> Prop) :
  NI R W c -> steps n c f -> stuck f -> Q f -> always_ends c Q.
Proof.
  intros HNI Hs Hf HQ. exists n. intros k d Hd.
  destruct (descent R W k n c f d HNI Hs Hf Hd) as (Hle & Hr).
  split; [exact Hle|]. split.
  - intros Hst. inversion Hr as [|? ? ? ? Hx]; subst.
    + exact HQ.
    + exfalso. eapply Hst; eauto.
  - exists f. auto.
Qed.

End Facts.
