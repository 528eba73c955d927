(** Main programs on P processes: what one process would do. *)
From stdpp Require Import gmap list.
From Coq Require Import ZArith Lia.
From Verif Require Import Prelude Field Matrix NdArray ParallelModel ParallelProofs Spmd SpmdFacts SpmdLock SpmdSeq
  ReductionsModel ReductionsProofs InnerProdModel HandlesModel HandlesProofs HandlesSeqProofs HandlesSpace MainModel.
Open Scope nat_scope.

(** ** The sequential reading *)

Section Acts.
Context {V : Type}.

Definition run_act (a : act V) (st : gmap loc V) : option (gmap loc V) :=
  match a with
  | Save h v => Some (<[h := v]> st)
  | Apply f src dst => x ← st !! src; Some (<[dst := f x]> st)
  end.
Fixpoint run_acts (l : list (act V)) (st : gmap loc V) : option (gmap loc V) :=
  match l with
  | [] => Some st
  | a :: l => st' ← run_act a st; run_acts l st'
  end.
(** Rank after rank, from rank [r]. *)
Fixpoint run_ranks (n r : nat) (acts : nat -> list (act V)) (st : gmap loc V) : option (gmap loc V) :=
  match n with
  | 0 => Some st
  | S n => st' ← run_acts (acts r) st; run_ranks n (S r) acts st'
  end.

(** What is read and written. *)
Definition act_reads (a : act V) (h : loc) : Prop := match a with Save _ _ => False | Apply _ s _ => h = s end.
Definition act_writes (a : act V) (h : loc) : Prop := match a with Save d _ => h = d | Apply _ _ d => h = d end.
(** No rank writes what another reads or writes. *)
Definition no_conflict (P : nat) (acts : nat -> list (act V)) : Prop :=
  forall i j a b h, i < P -> j < P -> i <> j -> a ∈ acts i -> b ∈ acts j -> act_writes a h ->
    ~ act_writes b h /\ ~ act_reads b h.

Lemma rank_zero_no_conflict P l : no_conflict P (rank_zero l).
Proof.
  intros i j a b h _ _ Hne Ha Hb. unfold rank_zero in *.
  destruct (Nat.eqb_spec i 0), (Nat.eqb_spec j 0); subst; try congruence; set_solver.
Qed.
Lemma rank_zero_run P l st : 0 < P -> run_ranks P 0 (rank_zero l) st = run_acts l st.
Proof.
  intros HP. destruct P as [|P]; [lia|]. simpl.
  assert (G : forall n r st, 0 < r -> run_ranks n r (rank_zero l) st = Some st).
  { induction n as [|n IH]; intros r st' Hr; simpl; auto. unfold rank_zero at 1.
    destruct r; [lia|]. simpl. apply IH. lia. }
  change (rank_zero l 0) with l. destruct (run_acts l st) as [s|]; simpl; auto.
Qed.
Lemma run_acts_app l l' st : run_acts (l ++ l') st = st' ← run_acts l st; run_acts l' st'.
Proof.
  revert st. induction l as [|a l IH]; intros st; simpl; auto. destruct (run_act a st); simpl; auto.
Qed.
End Acts.

Section Ok.
Context {F : sfield} {V : Type} (P tag_ub : nat).

Fixpoint okm {A} (st : gmap loc V) (m : main F V A) (Post : gmap loc V -> res A -> Prop) : Prop :=
  match m with
  | MRet a => Post st (Ok a)
  | MFail e => Post st (Raise e)
  | MDo sp h k => ip_space sp /\ (exists limit, set_up limit P tag_ub sp) /\
      ok sp st h (fun st' r => match r with Ok x => okm st' (k x) Post | Raise e => Post st' (Raise e) end)
  | MActs acts k => no_conflict P acts /\ exists st', run_ranks P 0 acts st = Some st' /\ okm st' k Post
  end.

Lemma okm_mono {A} (m : main F V A) : forall st (Q Q' : _ -> _ -> Prop),
  okm st m Q -> (forall st' r, Q st' r -> Q' st' r) -> okm st m Q'.
Proof.
  induction m as [a|e|X S h k IH|acts k IH]; intros st Q Q' H HQ; simpl in *; auto.
  - destruct H as (H1 & H2 & H3). do 2 (split; [auto|]). eapply ok_mono; eauto.
    intros st' [x|e]; eauto.
  - destruct H as (H1 & st' & H2 & H3). split; auto. exists st'. eauto.
Qed.
End Ok.

(** ** Running on P processes *)

Section Run.
Context {F : sfield} {V : Type} (tag_ub : nat) (eager : msg V F -> bool) (P : nat) (HP : 0 < P).

Lemma local_act {O} (a : act V) st st' : run_act a st = Some st' ->
  @local_run (msg V F) V O tag_ub eager P unit st (do_act a) st' tt.
Proof.
  destruct a as [h v|f src dst]; simpl.
  - intros [= <-]. apply local_put.
  - destruct (st !! src) as [x|] eqn:E; simpl; [|discriminate]. intros [= <-].
    eapply local_bind; [apply local_get; eauto|]. apply local_put.
Qed.
Lemma local_acts {O} (l : list (act V)) : forall st st', run_acts l st = Some st' ->
  @local_run (msg V F) V O tag_ub eager P unit st (for_loop l tt (fun a _ => do_act a)) st' tt.
Proof.
  induction l as [|a l IH]; intros st st' H; simpl in *.
  - injection H as <-. apply local_ret.
  - destruct (run_act a st) as [s|] eqn:E; simpl in H; [|discriminate].
    eapply local_bind; [apply local_act; eauto|]. apply IH. auto.
Qed.

Lemma run_ranks_trace (acts : nat -> list (act V)) n : forall r st st', run_ranks n r acts st = Some st' ->
  exists f, f r = st /\ f (n + r) = st' /\
    forall i, r <= i -> i < n + r -> run_acts (acts i) (f i) = Some (f (Datatypes.S i)).
Proof.
  induction n as [|n IH]; intros r st st' H; simpl in H.
  - injection H as <-. exists (fun _ => st). do 2 (split; [reflexivity|]). lia.
  - destruct (run_acts (acts r) st) as [s|] eqn:E; simpl in H; [|discriminate].
    destruct (IH _ _ _ H) as (f & F1 & F2 & F3).
    exists (fun i => if decide (i = r) then st else f i). split; [rewrite decide_True; auto|]. split.
    + rewrite decide_False by lia. rewrite <- F2. f_equal. lia.
    + intros i Hi Hlt. rewrite (decide_False (P := Datatypes.S i = r)) by lia.
      destruct (decide (i = r)) as [->|Hne]; [rewrite F1; auto|]. apply F3; lia.
Qed.

Lemma wp_acts {O} (acts : nat -> list (act V)) st st' : run_ranks P 0 acts st = Some st' ->
  @wp (msg V F) V O tag_ub eager P _ st (fun i => do_acts P (acts i)) (fun s _ => s = st').
Proof.
  intros H. destruct (run_ranks_trace acts P 0 st st' H) as (f & F1 & F2 & F3).
  rewrite Nat.add_0_r in F2. unfold do_acts.
  eapply wp_bind with (Q := fun s _ => s = st').
  - rewrite <- F1. apply (wp_local tag_ub eager P _ f (fun _ => tt)); auto.
    intros i Hi. apply local_acts. apply F3; lia.
  - intros s a ->. unfold barrier. destruct (1 <? P).
    + apply wp_barrier; auto.
    + apply (wp_ret tag_ub eager P st' (fun _ => tt)). auto.
Qed.

Lemma prel_act {A B} (a : act V) : prel (@do_act F V A a) (@do_act F V B a).
Proof.
  destruct a as [h v|f src dst]; simpl; [apply prel_put|].
  apply prel_bind; [apply prel_get|]. intros x. apply prel_put.
Qed.
Lemma prel_acts {A B} (l : list (act V)) : prel (@do_acts F V P A l) (@do_acts F V P B l).
Proof.
  unfold do_acts. apply prel_bind; [|intros; apply prel_par_barrier].
  apply prel_for. intros a u. apply prel_act.
Qed.
Lemma pclosed_acts {O} (l : list (act V)) : 1 < P -> pclosed (@do_acts F V P O l).
Proof.
  intros H. unfold do_acts. apply pclosed_bind; [|intros; apply pclosed_par_barrier; auto].
  eapply prel_tail. apply prel_for. intros a u. apply prel_act.
Qed.
Lemma puses_acts {O} (R W : loc -> Prop) (l : list (act V)) :
  (forall a h, a ∈ l -> act_reads a h -> R h) -> (forall a h, a ∈ l -> act_writes a h -> W h) ->
  puses R W (@do_acts F V P O l).
Proof.
  intros HR HW. unfold do_acts. apply puses_bind.
  - apply puses_for. intros [h v|f src dst] u Ha; simpl.
    + apply puses_put. eapply HW; eauto. reflexivity.
    + apply puses_bind; [apply puses_get; eapply HR; eauto; reflexivity|].
      intros x. apply puses_put. eapply HW; eauto. reflexivity.
  - intros _. unfold barrier. destruct (1 <? P); [apply puses_barrier|apply puses_ret].
Qed.

(** On every schedule all ranks end with the same result, that of the sequential
    reading. *)
Theorem leads_main {O A} (m : main F V A) : forall st Post (k : nat -> A -> proc (msg V F) V O)
    (Q : config (msg V F) V O -> Prop), okm P tag_ub st m Post ->
  (forall st' a, Post st' (Ok a) -> exists n f, leads tag_ub eager n (conf P (fun i => k i a) ∅ st') f /\ Q f) ->
  (forall st' e, Post st' (Raise e) -> Q (conf P (fun _ => Fail e) ∅ st')) ->
  exists n f, leads tag_ub eager n (conf P (fun i => exec_main P tag_ub i m (k i)) ∅ st) f /\ Q f.
Proof.
  induction m as [a|e|X S h m IH|acts m IH]; intros st Post k Q H HQ He; simpl in H.
  - apply HQ. exact H.
  - exists 0, (conf P (fun _ => Fail e) ∅ st). split; auto. apply leads_0. apply (stuck_failed tag_ub eager P (fun _ => e)). auto.
  - destruct H as (HS & (limit & Hm & Ht) & H).
    apply (leads_exec S HS tag_ub eager P limit Hm Ht h st _ (fun i x => exec_main P tag_ub i (m x) (k i)) Q H).
    + intros st' x Hx. apply (IH x st' Post k Q Hx HQ He).
    + intros st' e' H'. apply He. exact H'.
  - destruct H as (Hn & st1 & Hr & H).
    destruct (wp_acts (O := unit) acts st st1 Hr) as (s & b & Hl & ->).
    destruct (IH st1 Post k Q H HQ He) as (n2 & f & Hrun & Hf).
    assert (G : exists n, leads tag_ub eager n (conf P (fun i => exec_main P tag_ub i (MActs acts m) (k i)) ∅ st) f).
    { eapply (then_barrier tag_ub eager P HP (fun i => do_acts P (acts i)) (fun i => do_acts P (acts i))
        (fun i _ => exec_main P tag_ub i m (k i)) (fun i Hi => prel_acts (acts i))
        (fun i h => i < P /\ exists a, a ∈ acts i /\ act_reads a h)
        (fun i h => i < P /\ exists a, a ∈ acts i /\ act_writes a h)).
      - intros HP2 i Hi. apply pclosed_acts. exact HP2.
      - intros i j h Hne (Hi & a & Ha & Hw). split; intros (Hj & a' & Ha' & Hw').
        + exact (proj1 (Hn i j a a' h Hi Hj Hne Ha Ha' Hw) Hw').
        + exact (proj2 (Hn i j a a' h Hi Hj Hne Ha Ha' Hw) Hw').
      - intros i Hi. apply puses_acts; eauto.
      - exact Hl.
      - exact Hrun. }
    destruct G as [n Hn']. exists n, f. auto.
Qed.

Theorem main_ends {A} (m : main F V A) st Post : okm P tag_ub st m Post ->
  always_ends tag_ub eager (launch P (fun r => exec_main P tag_ub r m) st)
    (fun c => length (procs c) = P /\ exists r, all_end r c /\ Post (store c) r).
Proof.
  intros H. destruct (leads_main m st Post (fun _ => Ret) (ended P Post) H) as (n & f & Hl & HQ).
  - intros st' a Ha. exists 0, (conf P (fun _ => Ret a) ∅ st'). split; [|apply (ended_conf P Post st' (Ok a)); auto].
    apply leads_0. apply (stuck_returned tag_ub eager P (fun _ => a)). auto.
  - intros st' e He. apply (ended_conf P Post st' (Raise e)); auto.
  - eapply leads_ends; eauto.
Qed.

End Run.
