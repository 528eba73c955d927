(** Every run of every program comes to an end; a failure reached on one
    schedule is reached on all. *)
From stdpp Require Import gmap list.
From Coq Require Import Lia.
From Verif Require Import Prelude Spmd SpmdFacts SpmdLock.

Section Ends.
Context {M V O : Type}.
Context (tag_ub : nat) (eager : M -> bool).
Notation proc := (proc M V O).
Notation config := (@config M V O).
Notation rank_step := (@rank_step M V O tag_ub eager).
Notation step := (@step M V O tag_ub eager).
Notation steps := (@steps M V O tag_ub eager).
Notation stuck := (@stuck M V O tag_ub eager).
Notation always_ends := (@always_ends M V O tag_ub eager).

(** [sub q p]: a process [p] can become [q] in one step. *)
Inductive sub : proc -> proc -> Prop :=
| sub_isend d c t m k : sub k (Isend d c t m k)
| sub_isend_fail e d c t m k : sub (Fail e) (Isend d c t m k)
| sub_recv s c t k m : sub (k m) (Recv s c t k)
| sub_wait d c t m k : sub k (Wait d c t m k)
| sub_barrier k : sub k (Barrier k)
| sub_get h k v : sub (k v) (Get h k)
| sub_get_fail e h k : sub (Fail e) (Get h k)
| sub_put h v k : sub k (Put h v k).

Lemma sub_wf p : Acc sub p.
Proof.
  assert (F : forall e, Acc sub (Fail e)).
  { intros e. constructor. intros q H. inversion H. }
  induction p; constructor; intros q Hq; inversion Hq; subst; auto.
Qed.

Inductive below : list proc -> list proc -> Prop :=
| below_head p p' ps : sub p' p -> below (p' :: ps) (p :: ps)
| below_tail p p' ps ps' : p' = p \/ sub p' p -> below ps' ps -> below (p' :: ps') (p :: ps).

Lemma below_wf ps : Acc below ps.
Proof.
  induction ps as [|p ps IH].
  - constructor. intros q H. inversion H.
  - revert p. induction IH as [ps _ IHps]. intros p.
    induction (sub_wf p) as [p _ IHp].
    constructor. intros q Hq. inversion Hq; subst; auto.
Qed.

Lemma local_step_sub n i p ch st p' ch' st' :
  local_step tag_ub eager n i p ch st = Some (p', ch', st') -> sub p' p.
Proof.
  destruct p; simpl; intros H; try discriminate.
  - destruct (decide _); injection H as <- <- <-; constructor.
  - destruct (ch !! _) as [[|m q]|]; try discriminate. injection H as <- <- <-. constructor.
  - destruct (decide _); [|discriminate]. injection H as <- <- <-. constructor.
  - destruct (st !! h); injection H as <- <- <-; constructor.
  - injection H as <- <- <-. constructor.
Qed.

Lemma insert_below (ps : list proc) i p p' :
  ps !! i = Some p -> sub p' p -> below (<[i := p']> ps) ps.
Proof.
  revert i. induction ps as [|q ps IH]; intros [|i] H Hs; simpl in *; try discriminate.
  - injection H as ->. constructor. auto.
  - apply below_tail; [auto|]. eapply IH; eauto.
Qed.

Lemma barrier_below ps : ps <> [] -> Forall at_barrier ps -> below (past_barrier <$> ps) ps.
Proof.
  intros Hne Hall. destruct ps as [|p ps]; [congruence|]. clear Hne.
  revert p Hall. induction ps as [|q ps IH]; intros p Hall; inversion Hall; subst; simpl.
  - destruct p; simpl in *; try tauto. constructor. constructor.
  - apply below_tail; [|apply IH; auto].
    right. destruct p; simpl in *; try tauto. constructor.
Qed.

Lemma step_below c c' : step c c' -> below (procs c') (procs c).
Proof.
  intros H. inversion H as [i c0 c1 Hr|ps ch st Hne Hall]; subst.
  - unfold Spmd.rank_step in Hr. destruct (procs c !! i) as [p|] eqn:E; [|discriminate].
    destruct (local_step _ _ _ _ _ _ _) as [[[p' ch'] st']|] eqn:El; [|discriminate].
    injection Hr as <-. simpl. eapply insert_below; eauto. eapply local_step_sub; eauto.
  - simpl. apply barrier_below; auto.
Qed.

#[local] Instance at_barrier_dec (p : proc) : Decision (at_barrier p).
Proof. destruct p; simpl; apply _. Defined.

Lemma step_or_stuck c : (exists c', step c c') \/ stuck c.
Proof.
  destruct (decide (procs c <> [] /\ Forall at_barrier (procs c))) as [[Hne Hall]|Hb].
  { left. destruct c. eexists. apply step_barrier; auto. }
  assert (G : forall n, (exists i c', rank_step i c = Some c') \/
                        forall i, i < n -> rank_step i c = None).
  { induction n as [|n [IH|IH]]; [right; lia|left; auto|].
    destruct (rank_step n c) as [c'|] eqn:E; [left; eauto|].
    right. intros i Hi. destruct (decide (i = n)) as [->|]; auto. apply IH. lia. }
  destruct (G (length (procs c))) as [(i & c' & H)|H].
  - left. exists c'. eapply step_rank; eauto.
  - right. intros c' Hs. inversion Hs as [i c0 c1 Hr|ps ch st Hne Hall]; subst.
    + destruct (decide (i < length (procs c))) as [Hi|Hi]; [rewrite H in Hr; auto; discriminate|].
      unfold Spmd.rank_step in Hr. rewrite lookup_ge_None_2 in Hr by lia. discriminate.
    + apply Hb. auto.
Qed.

Lemma reaches_stuck c : exists n f, steps n c f /\ stuck f.
Proof.
  remember (procs c) as ps eqn:E. revert c E.
  induction (below_wf ps) as [ps _ IH]. intros c ->.
  destruct (step_or_stuck c) as [[c' Hs]|Hs].
  - destruct (IH _ (step_below _ _ Hs) c' eq_refl) as (n & f & Hn & Hf).
    exists (S n), f. split; auto. econstructor; eauto.
  - exists 0, c. split; auto. constructor.
Qed.

Lemma fail_kept c d n i e : steps n c d ->
  procs c !! i = Some (Fail e) -> procs d !! i = Some (Fail e).
Proof.
  induction 1 as [|n c c' d Hs _ IH]; auto. intros Hi. apply IH.
  inversion Hs as [j c0 c1 Hr|ps ch st Hne Hall]; subst.
  - unfold Spmd.rank_step in Hr. destruct (procs c !! j) as [p|] eqn:E; [|discriminate].
    destruct (local_step _ _ _ _ _ _ _) as [[[p' ch'] st']|] eqn:El; [|discriminate].
    injection Hr as <-. simpl.
    destruct (decide (i = j)) as [->|Hne]; [|rewrite list_lookup_insert_ne; auto].
    rewrite Hi in E. injection E as <-. discriminate.
  - simpl in *. rewrite list_lookup_fmap, Hi. reflexivity.
Qed.

Theorem fail_inevitable R W c k d i e :
  NI R W c -> steps k c d -> procs d !! i = Some (Fail e) ->
  always_ends c (fun f => procs f !! i = Some (Fail e)).
Proof.
  intros HNI Hk Hi. destruct (reaches_stuck d) as (n & f & Hn & Hf).
  eapply (one_schedule_suffices tag_ub eager R W c f (k + n)); auto.
  - eapply steps_trans; eauto.
  - eapply fail_kept; eauto.
Qed.

(** ** A rank failing on its own *)

Context (P : nat).
Notation prog := (prog M V O).

Definition local_fail {A} (st : gmap loc V) (m : prog A) (e : exn) : Prop :=
  forall i f k ch, i < P -> f i = m k ->
    reach tag_ub eager (conf P f ch st) (conf P (upd f i (Fail e)) ch st).

Lemma local_fail_fail {A} st e : local_fail st (@fail M V O A e) e.
Proof.
  intros i f k ch Hi Hf. unfold fail in Hf. rewrite <- Hf.
  erewrite (conf_ext P (upd _ _ _)); [apply reach_refl|]. intros j _. apply upd_id.
Qed.
Lemma local_fail_bind {A B} st (m : prog A) (f : A -> prog B) e :
  local_fail st m e -> local_fail st (bind m f) e.
Proof. intros H i g k ch Hi Hg. apply (H i g (fun a => f a k) ch Hi Hg). Qed.
Lemma local_fail_after {A B} st (m : prog A) (f : A -> prog B) a e :
  local_run tag_ub eager P st m st a -> local_fail st (f a) e ->
  local_fail st (bind m f) e.
Proof.
  intros H1 H2 i g k ch Hi Hg.
  eapply reach_trans; [apply (H1 i g (fun x => f x k) ch Hi Hg)|].
  eapply reach_trans; [apply (H2 i _ k ch Hi); apply upd_same|].
  erewrite conf_ext; [apply reach_refl|]. intros j _. apply upd_upd.
Qed.
Lemma local_fail_isend st d c t m :
  ~ (d < P /\ t <= tag_ub) -> local_fail st (isend d c t m) MPIError.
Proof.
  intros H i f k ch Hi Hf. apply reach_rank; auto. rewrite Hf. simpl.
  rewrite decide_False by auto. reflexivity.
Qed.
Lemma local_fail_get st h : st !! h = None -> local_fail st (get h) OSError.
Proof.
  intros H i f k ch Hi Hf. apply reach_rank; auto. rewrite Hf. simpl. rewrite H. reflexivity.
Qed.

(** If one rank fails on its own, it does so on every schedule. *)
Theorem rank_fails (ps : nat -> prog O) st (R W : nat -> loc -> Prop) i e :
  i < P -> separate R W ->
  (forall j, j < P -> uses (R j) (W j) (ps j Ret)) ->
  local_fail st (ps i) e ->
  always_ends (launch P ps st) (fun c => procs c !! i = Some (Fail e)).
Proof.
  intros Hi Hsep Hu Hl.
  destruct (Hl i (fun j => ps j Ret) Ret ∅ Hi eq_refl) as [n Hn].
  eapply (fail_inevitable R W).
  - split; auto. intros j p Hp. unfold launch in Hp. simpl in Hp.
    rewrite list_lookup_fmap in Hp.
    destruct (seq 0 P !! j) as [j'|] eqn:E; simpl in Hp; [|discriminate].
    injection Hp as <-. apply lookup_seq in E. destruct E as [-> Hlt]. apply Hu; auto.
  - exact Hn.
  - rewrite conf_lookup by auto. rewrite upd_same. reflexivity.
Qed.

(** If all ranks fail on their own, all end failed and the store is unchanged. *)
Theorem all_fail (ps : nat -> prog O) st (R W : nat -> loc -> Prop) e :
  0 < P -> separate R W ->
  (forall j, j < P -> uses (R j) (W j) (ps j Ret)) ->
  (forall i, i < P -> local_fail st (ps i) e) ->
  always_ends (launch P ps st)
    (fun c => length (procs c) = P /\ (forall i, i < P -> procs c !! i = Some (Fail e)) /\
              chans c = ∅ /\ store c = st).
Proof.
  intros HP Hsep Hu Hl.
  assert (G : reach tag_ub eager (launch P ps st) (conf P (fun _ => Fail e) ∅ st)).
  { apply (reach_sweep tag_ub eager P (fun j => ps j Ret) (fun _ => Fail e)
             (fun _ => ∅) (fun _ => st)).
    intros i Hi h Hh. apply (Hl i Hi i h Ret ∅ Hi Hh). }
  destruct G as [n Hn].
  eapply (one_schedule_suffices tag_ub eager R W _ _ n); [|exact Hn| |].
  - split; auto. intros j p Hp. unfold launch in Hp. simpl in Hp.
    rewrite list_lookup_fmap in Hp.
    destruct (seq 0 P !! j) as [j'|] eqn:E; simpl in Hp; [|discriminate].
    injection Hp as <-. apply lookup_seq in E. destruct E as [-> Hlt]. apply Hu; auto.
  - apply (stuck_failed tag_ub eager P (fun _ => e)); auto.
  - simpl. split; [rewrite fmap_length, seq_length; auto|]. split; auto.
    intros i Hi. rewrite list_lookup_fmap, lookup_seq_lt by auto. reflexivity.
Qed.
End Ends.

Lemma always_ends_mono {M V O} tag_ub (eager : M -> bool) (c : config M V O) (Q Q' : _ -> Prop) :
  always_ends tag_ub eager c Q -> (forall d, Q d -> Q' d) -> always_ends tag_ub eager c Q'.
Proof.
  intros [n H] G. exists n. intros k d Hk. destruct (H k d Hk) as (H1 & H2 & d' & H3 & H4).
  split; auto. split; [auto|]. exists d'. auto.
Qed.
