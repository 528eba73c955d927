(** Property C62. *)
From stdpp Require Import gmap list.
From Coq Require Import ZArith Lia.
From Verif Require Import Prelude ParallelModel VecSpaceModel VecSpaceProofs Spmd SpmdFacts
  SpmdLock SpmdEnds SpmdWrites ReductionsModel InnerProdModel InnerProdProps LinCombModel LinCombProofs
  LinCombProps ObjectsModel ObjectsSim ObjectsProofs.
Open Scope nat_scope.

(** ** Specifications *)

(** Objects are numbered below [fresh]. *)
Definition numbered {V} (s : heap V) : Prop := forall r, fresh s <= r -> vals s !! r = None.

(** What in-memory handles hold, as values. *)
Definition values {V} (s : heap V) (st : gmap loc nat) : gmap loc V := omap (fun r => vals s !! r) st.
(** Handles refer to objects that exist. *)
Definition live {V} (s : heap V) (st : gmap loc nat) : Prop :=
  forall h r, st !! h = Some r -> is_Some (vals s !! r).

(** Multiples of vectors that are [good] can be summed with [+=], and so on. *)
Definition summable {V K} (smul : V -> K -> V) (vadd : V -> V -> V) (can_add : V -> V -> bool)
    (good : V -> Prop) : Prop :=
  exists lay : V -> Prop,
    (forall v c, good v -> lay (smul v c)) /\
    (forall x y, lay x -> lay y -> can_add x y = true /\ lay (vadd x y)) /\
    (forall v, lay v -> good v).

(** Every rank of [d] has ended as the one of [c], with the objects [s i] of before
    unchanged. *)
Definition same_end {M M' V W} (s : nat -> heap V) (c : config M V unit) (d : config M' W (heap V)) : Prop :=
  length (procs d) = length (procs c) /\
  forall i, (procs c !! i = Some (Ret tt) ->
               exists s', procs d !! i = Some (Ret s') /\ vals (s i) ⊆ vals s') /\
            (forall e, procs c !! i = Some (Fail e) -> procs d !! i = Some (Fail e)).

Definition file_stored {V} (F : gmap nat V) (v w : V) : Prop := v = w.
Definition file_own {V} (F : gmap nat V) (w : V) : Prop := True.
Definition mem_stored {V} (F : gmap nat V) (v : V) (w : nat) : Prop := F !! w = Some v.
Definition mem_own {V} (F : gmap nat V) (w : nat) : Prop := F !! w = None.
Definition keeps {V} (F : gmap nat V) (_ : unit) (s : heap V) : Prop := F ⊆ vals s.

Lemma file_handles_ok {V K} : handles_ok (K := K) (@file_stored V) file_own (@file_handles (msg V K) V (heap V)).
Proof.
  split.
  - intros s F v w Hwf Hs. unfold file_stored in Hs. subst w.
    destruct (wf_alloc s F v Hwf) as (A & B & C & D & _).
    exists (fresh s), (Heap (<[fresh s := v]> (vals s)) (S (fresh s))).
    split; [reflexivity|]. auto.
  - intros s F r v Hwf Hh HF. exists v, F. split.
    { intros k. simpl. unfold deref. rewrite Hh. reflexivity. }
    split; [reflexivity|]. split; auto. split; [exact I|]. split; [reflexivity|]. auto.
Qed.
Lemma memory_handles_ok {V K} : handles_ok (K := K) (@mem_stored V) mem_own (@memory_handles (msg V K) V (heap V)).
Proof.
  split.
  - intros s F v w Hwf Hs. exists w, s. split; [reflexivity|]. split; auto. split; [intros ? ?; auto|].
    split; [|left; exact Hs]. unfold has. eapply lookup_weaken; [exact Hs|apply Hwf].
  - intros s F r v Hwf Hh HF. exists r, (<[r := v]> F). split; [reflexivity|].
    split; [apply insert_subseteq; exact HF|]. split; [split; [|apply Hwf]|].
    + apply insert_subseteq_l; [exact Hh|apply Hwf].
    + split; [exact HF|]. split; [apply lookup_insert|].
      intros r'. destruct (decide (r' = r)) as [->|Hne]; auto. left. apply lookup_insert_ne. auto.
Qed.

Section Link.
Context {V W K : Type}.
Context (stored : gmap nat V -> V -> W -> Prop) (own : gmap nat V -> W -> Prop).
Context (stored_mono : forall F F' v w, F ⊆ F' -> stored F v w -> stored F' v w).
Context (own_anti : forall F F' w, F ⊆ F' -> own F' w -> own F w).
Context (P : nat) (alone : P = 1 \/ forall F F' v w, stored F v w -> stored F' v w).
Context (H : handles (msg V K) V W (heap V)) (HH : handles_ok stored own H).
Context (vadd : V -> V -> V) (smul : V -> K -> V) (two : K) (in_place : bool) (can_add : V -> V -> bool).
Context (good : V -> Prop) (Hgood : summable smul vadd can_add good).
Context (per_node per_proc N : nat) (sums basis : list loc) (a : coeffs K) (idx : option col_index).

Notation crel := (crel stored own (fun h => h ∈ basis) good keeps P).
Notation value_prog := (fun r => @lin_combine V K unit P vadd smul per_node per_proc N r sums basis a idx).
Notation object_prog s := (fun r => with_objects
  (olin_combine P H vadd smul two (fun _ _ => true) in_place can_add per_node per_proc N r sums basis a idx) (s r)).

Lemma sim_lin_combine (s : heap V) r : numbered s ->
  sim stored own (fun h => h ∈ basis) good keeps (vals s) (value_prog r Ret) (object_prog (fun _ => s) r Ret).
Proof.
  intros Hn. destruct Hgood as (lay & H1 & H2 & H3).
  unfold lin_combine, with_objects, olin_combine, bind, obind, olift, oplain.
  destruct (lin_coeffs (length basis) (length sums) a idx) as [rows|e]; simpl; [|constructor].
  eapply (sm_lin_core stored own (fun h => h ∈ basis) good keeps P H HH vadd smul two (fun _ _ => true) in_place can_add
    rows lay); auto.
  - split; [reflexivity|exact Hn].
  - intros u u' s' F' _ Hw. constructor. apply Hw.
Qed.

Lemma crel_launch (s : nat -> heap V) st st' : (forall r, r < P -> numbered (s r)) ->
  (forall i, i < P -> forall h, both (stored (vals (s i))) (st !! h) (st' !! h)) ->
  (forall h v, h ∈ basis -> st !! h = Some v -> good v) ->
  crel (fun i => vals (s i)) (fun i => vals (s i)) [] (launch P value_prog st) (launch P (object_prog s) st').
Proof.
  intros Hn Hst Hg. constructor; simpl; rewrite ?fmap_length, ?seq_length; auto.
  - intros i. rewrite !list_lookup_fmap. destruct (seq 0 P !! i) as [j|] eqn:E; simpl; auto.
    apply lookup_seq in E as [-> Hi]. simpl. apply (sim_lin_combine (s i) i). auto.
  - intros x q Hq. rewrite lookup_empty in Hq. discriminate.
  - intros h w Hh. apply elem_of_nil in Hh. destruct Hh.
  - intros _ h h' w Hh. apply elem_of_nil in Hh. destruct Hh.
Qed.

Lemma crel_same_end (s : nat -> heap V) F T (c : config (msg V K) V unit) (d : config (msg V K) W (heap V)) : crel (fun i => vals (s i)) F T c d -> same_end s c d.
Proof.
  intros Hc. pose proof (cr_procs _ _ _ _ _ _ _ _ _ _ _ Hc) as Hp.
  pose proof (cr_grow _ _ _ _ _ _ _ _ _ _ _ Hc) as Hgr. split.
  { rewrite (cr_len _ _ _ _ _ _ _ _ _ _ _ Hc). apply (cr_len' _ _ _ _ _ _ _ _ _ _ _ Hc). }
  intros i. specialize (Hp i). split.
  - intros E. rewrite E in Hp. unfold both in Hp. destruct (procs d !! i) as [q|]; [|contradiction].
    inversion Hp as [F1 o o' Hk| | | | | | |]; subst. exists o'. split; auto.
    etransitivity; [apply Hgr|exact Hk].
  - intros e E. rewrite E in Hp. unfold both in Hp. destruct (procs d !! i) as [q|]; [|contradiction].
    inversion Hp; subst. reflexivity.
Qed.
End Link.

(** * C62 *)

(** With handles of files: the run on objects ends as the one on values ends, with the
    same files, and no object that existed before the call is changed. *)
Theorem C62_files {V K} tag_ub (eager : msg V K -> bool) P N per_node per_proc vadd smul two
    in_place can_add good (s : nat -> heap V) st (sums basis : list loc) (a : coeffs K) idx Q :
  0 < P -> summable smul vadd can_add good ->
  (forall r, r < P -> numbered (s r)) ->
  (forall h v, h ∈ basis -> st !! h = Some v -> good v) ->
  always_ends tag_ub eager
    (launch P (fun r => lin_combine P vadd smul per_node per_proc N r sums basis a idx) st) Q ->
  always_ends tag_ub eager
    (launch P (fun r => with_objects (olin_combine P file_handles vadd smul two (fun _ _ => true) in_place can_add
                 per_node per_proc N r sums basis a idx) (s r)) st)
    (fun d => exists c, Q c /\ same_end s c d /\ store d = store c /\ chans d = chans c).
Proof.
  intros HP Hsum Hn Hg HQ.
  assert (Hindep : forall F F' (v w : V), file_stored F v w -> file_stored F' v w) by auto.
  pose proof (crel_launch file_stored file_own P file_handles file_handles_ok
    vadd smul two in_place can_add good Hsum per_node per_proc N sums basis a idx s st st Hn) as Hc.
  destruct (crel_ends _ _ _ _ _ (fun F F' v w _ => Hindep F F' v w) (fun _ _ _ _ _ => I) P
    (or_intror Hindep) tag_ub eager _ _ _ _ _ Q (Hc ltac:(intros i Hi h; destruct (st !! h); simpl; auto; reflexivity) Hg) HQ)
    as [n Hq].
  assert (Hlast : forall d, (exists F' T' c', crel file_stored file_own (fun h => h ∈ basis) good keeps P
     (fun i => vals (s i)) F' T' c' d /\ Q c') ->
     exists c, Q c /\ same_end s c d /\ store d = store c /\ chans d = chans c).
  { intros d (F' & T' & c & Hr & HQc). exists c. split; auto.
    split; [eapply (crel_same_end file_stored file_own); eauto|].
    split; [|symmetry; apply (cr_chans _ _ _ _ _ _ _ _ _ _ _ Hr)].
    apply map_eq. intros h. pose proof (cr_store _ _ _ _ _ _ _ _ _ _ _ Hr 0 ltac:(lia) h) as Hb.
    unfold both, file_stored in Hb. destruct (store c !! h), (store d !! h); try contradiction; congruence. }
  exists n. intros k d Hd. destruct (Hq k d Hd) as (A & B & d' & C & D). split; auto. split; auto.
  exists d'. auto.
Qed.

Lemma mem_stored_mono {V} (F F' : gmap nat V) v w : F ⊆ F' -> mem_stored F v w -> mem_stored F' v w.
Proof. intros HF Hs. unfold mem_stored in *. eapply lookup_weaken; eauto. Qed.
Lemma mem_own_anti {V} (F F' : gmap nat V) w : F ⊆ F' -> mem_own F' w -> mem_own F w.
Proof. intros HF Hs. unfold mem_own in *. eapply lookup_weaken_None; eauto. Qed.
Lemma mem_separated {V} : separated (@mem_stored V) mem_own.
Proof. intros F v w Hs Ho. unfold mem_stored, mem_own in *. congruence. Qed.

Lemma values_lookup {V} (s : heap V) st h : values s st !! h = st !! h ≫= (fun r => vals s !! r).
Proof. unfold values. rewrite lookup_omap. reflexivity. Qed.

Lemma crel_memory {V K} vadd smul two in_place can_add good (s : heap V) per_node per_proc N
    (st : gmap loc nat) (sums basis : list loc) (a : coeffs K) idx :
  summable smul vadd can_add good -> numbered s -> live s st ->
  (forall h v, h ∈ basis -> values s st !! h = Some v -> good v) ->
  crel mem_stored mem_own (fun h => h ∈ basis) good keeps 1
    (fun _ => vals s) (fun _ => vals s) []
    (launch 1 (fun r => lin_combine 1 vadd smul per_node per_proc N r sums basis a idx) (values s st))
    (launch 1 (fun r => with_objects (olin_combine 1 memory_handles vadd smul two (fun _ _ => true) in_place can_add
                 per_node per_proc N r sums basis a idx) s) st).
Proof.
  intros Hsum Hn Hl Hg.
  apply (crel_launch mem_stored mem_own 1 memory_handles memory_handles_ok
    vadd smul two in_place can_add good Hsum per_node per_proc N sums basis a idx (fun _ => s)); auto.
  intros _ _ h. rewrite values_lookup. unfold both, mem_stored. destruct (st !! h) as [r|] eqn:E; simpl; auto.
  destruct (Hl h r E) as [v Hv]. rewrite Hv. reflexivity.
Qed.

(** With in-memory handles, in serial, several of which may refer to one object. *)
Theorem C62_in_memory {V K} tag_ub (eager : msg V K -> bool) N per_node per_proc vadd smul two
    in_place can_add good (s : heap V) (st : gmap loc nat) (sums basis : list loc) (a : coeffs K) idx Q :
  summable smul vadd can_add good -> numbered s -> live s st ->
  (forall h v, h ∈ basis -> values s st !! h = Some v -> good v) ->
  always_ends tag_ub eager
    (launch 1 (fun r => lin_combine 1 vadd smul per_node per_proc N r sums basis a idx) (values s st)) Q ->
  always_ends tag_ub eager
    (launch 1 (fun r => with_objects (olin_combine 1 memory_handles vadd smul two (fun _ _ => true) in_place can_add
                 per_node per_proc N r sums basis a idx) s) st)
    (fun d => exists c, Q c /\ same_end (fun _ => s) c d /\
       forall s', procs d = [Ret s'] -> live s' (store d) /\ store c = values s' (store d)).
Proof.
  intros Hsum Hn Hl Hg HQ.
  pose proof (crel_memory vadd smul two in_place can_add good s per_node per_proc N st sums basis a idx Hsum Hn Hl Hg) as Hc.
  destruct (crel_ends _ _ _ _ _ mem_stored_mono mem_own_anti 1 (or_introl eq_refl) tag_ub eager _ _ _ _ _ Q Hc HQ)
    as [n Hq].
  assert (Hlast : forall d, (exists F' T' c', crel mem_stored mem_own (fun h => h ∈ basis) good keeps 1
     (fun _ => vals s) F' T' c' d /\ Q c') ->
     exists c, Q c /\ same_end (fun _ => s) c d /\
       forall s', procs d = [Ret s'] -> live s' (store d) /\ store c = values s' (store d)).
  { intros d (F' & T' & c & Hr & HQc). exists c. split; auto.
    split; [eapply (crel_same_end mem_stored mem_own); eauto|].
    intros s' Es. pose proof (cr_procs _ _ _ _ _ _ _ _ _ _ _ Hr 0) as Hp. rewrite Es in Hp. simpl in Hp.
    unfold both in Hp. destruct (procs c !! 0) as [p|]; [|contradiction].
    inversion Hp as [F1 o o' Hk| | | | | | |]; subst. unfold keeps in Hk.
    pose proof (cr_store _ _ _ _ _ _ _ _ _ _ _ Hr 0 ltac:(lia)) as Hst. unfold both, mem_stored in Hst.
    split.
    - intros h r Hh. specialize (Hst h). rewrite Hh in Hst. destruct (store c !! h) as [v|]; [|contradiction].
      exists v. eapply lookup_weaken; eauto.
    - apply map_eq. intros h. rewrite values_lookup. specialize (Hst h).
      destruct (store c !! h) as [v|], (store d !! h) as [r|]; simpl; try contradiction; auto.
      symmetry. eapply lookup_weaken; eauto. }
  exists n. intros k d Hd. destruct (Hq k d Hd) as (A & B & d' & C & D). split; auto. split; auto.
  exists d'. auto.
Qed.

Lemma run_outside {M V O} tag_ub (eager : M -> bool) w (c d : config M V O) h :
  run tag_ub eager w c d -> h ∉ map snd w -> store d !! h = store c !! h.
Proof.
  induction 1 as [c|i p c c' d w Hp Hr _ IH|ps ch st d w Hne Hall _ IH]; intros Hh; auto.
  rewrite map_app, elem_of_app in Hh. rewrite IH by tauto.
  unfold rank_step in Hr. rewrite Hp in Hr.
  destruct (local_step _ _ _ i p (chans c) (store c)) as [[[p' ch'] st']|] eqn:E; [|discriminate].
  injection Hr as <-. simpl.
  destruct p; simpl in E; try discriminate.
  - destruct (decide _); injection E as <- <- <-; auto.
  - destruct (chans c !! _) as [[|? ?]|]; try discriminate. injection E as <- <- <-; auto.
  - destruct (decide _); try discriminate. injection E as <- <- <-; auto.
  - destruct (store c !! h0); injection E as <- <- <-; auto.
  - injection E as <- <- <-. simpl in Hh. apply lookup_insert_ne. intros ->. apply Hh. left.
    apply elem_of_list_singleton. reflexivity.
Qed.

Lemma step_keeps {M V O} tag_ub (eager : M -> bool) i p (c c' : config M V O) : procs c !! i = Some p ->
  rank_step tag_ub eager i c = Some c' ->
  forall h, is_Some (store c !! h) \/ h ∈ map snd (write_of i p) -> is_Some (store c' !! h).
Proof.
  intros Hp Hr h Hh. unfold rank_step in Hr. rewrite Hp in Hr.
  destruct (local_step _ _ _ i p (chans c) (store c)) as [[[p' ch'] st']|] eqn:E; [|discriminate].
  injection Hr as <-. simpl.
  assert (N : forall x : loc, x ∉ map snd ([] : list (nat * loc))) by (intros x; apply not_elem_of_nil).
  destruct p; simpl in E; try discriminate.
  - destruct (decide _); injection E as <- <- <-; destruct Hh as [Hh|Hh]; auto; destruct (N _ Hh).
  - destruct (chans c !! _) as [[|? ?]|]; try discriminate. injection E as <- <- <-; destruct Hh as [Hh|Hh]; auto; destruct (N _ Hh).
  - destruct (decide _); try discriminate. injection E as <- <- <-; destruct Hh as [Hh|Hh]; auto; destruct (N _ Hh).
  - destruct (store c !! h0); injection E as <- <- <-; destruct Hh as [Hh|Hh]; auto; destruct (N _ Hh).
  - injection E as <- <- <-. destruct (decide (h0 = h)) as [<-|Hne]; [rewrite lookup_insert; eauto|].
    rewrite lookup_insert_ne by auto. destruct Hh as [Hh|Hh]; auto.
    simpl in Hh. apply elem_of_list_singleton in Hh. congruence.
Qed.
Lemma run_written {M V O} tag_ub (eager : M -> bool) w (c d : config M V O) h :
  run tag_ub eager w c d -> is_Some (store c !! h) \/ h ∈ map snd w -> is_Some (store d !! h).
Proof.
  induction 1 as [c|i p c c' d w Hp Hr _ IH|ps ch st d w Hne Hall _ IH]; intros Hh; auto.
  - destruct Hh as [Hh|Hh]; auto. apply not_elem_of_nil in Hh. destruct Hh.
  - apply IH. rewrite map_app, elem_of_app in Hh. destruct Hh as [Hh|[Hh|Hh]]; auto;
      left; eapply step_keeps; eauto.
Qed.

(** Each sum is an object of its own, which is none of the caller's; the other handles
    refer to the objects they referred to. *)
Theorem C62_new_objects {V K} tag_ub (eager : msg V K -> bool) N limit per_node per_proc vadd smul two
    in_place can_add good (s : heap V) (st : gmap loc nat) (sums basis : list loc) (a : coeffs K) idx k d s' :
  made_with limit 1 N per_node per_proc ->
  summable smul vadd can_add good -> numbered s -> live s st ->
  (forall h v, h ∈ basis -> values s st !! h = Some v -> good v) ->
  steps tag_ub eager k
    (launch 1 (fun r => with_objects (olin_combine 1 memory_handles vadd smul two (fun _ _ => true) in_place can_add
                 per_node per_proc N r sums basis a idx) s) st) d ->
  procs d = [Ret s'] ->
  vals s ⊆ vals s' /\
  (forall h, h ∈ sums -> exists r, store d !! h = Some r /\ vals s !! r = None /\
     forall h', store d !! h' = Some r -> h' = h) /\
  (forall h, h ∉ sums -> store d !! h = st !! h).
Proof.
  intros Hm Hsum Hn Hl Hg Hs Hd.
  pose proof (crel_memory vadd smul two in_place can_add good s per_node per_proc N st sums basis a idx Hsum Hn Hl Hg) as Hc.
  destruct (steps_run _ _ _ _ _ Hs) as [w Hrun].
  destruct (crel_run _ _ _ _ _ mem_stored_mono mem_own_anti 1 (or_introl eq_refl) tag_ub eager w _ _ Hrun _ _ _ _ Hc)
    as (F' & c' & Hrc & Hc'). simpl in Hc'.
  assert (Hret : procs c' = [Ret tt] /\ vals s ⊆ vals s').
  { pose proof (cr_procs _ _ _ _ _ _ _ _ _ _ _ Hc' 0) as Hp.
    pose proof (cr_len _ _ _ _ _ _ _ _ _ _ _ Hc') as Hlen.
    pose proof (cr_grow _ _ _ _ _ _ _ _ _ _ _ Hc' 0) as Hgr. simpl in Hgr.
    rewrite Hd in Hp. unfold both in Hp. simpl in Hp.
    destruct (procs c') as [|p [|? ?]]; simpl in *; try lia; try contradiction.
    inversion Hp as [F1 o o' Hk| | | | | | |]; subst. destruct o. split; auto.
    etransitivity; [exact Hgr|exact Hk]. }
  destruct Hret as [Hret Hkeep].
  assert (Hw : map snd w ≡ₚ sums).
  { eapply C06_written_once; [exact Hm|exact Hrc|].
    intros i p Hp. rewrite Hret in Hp. destruct i; simpl in Hp; [|discriminate]. injection Hp as <-. eauto. }
  split; auto. split.
  - intros h Hh. rewrite <- Hw in Hh.
    assert (exists r, store d !! h = Some r) as [r Hr].
    { eapply run_written; eauto. }
    exists r. split; auto. split.
    + destruct (cr_own _ _ _ _ _ _ _ _ _ _ _ Hc' h r Hh Hr) as (i & _ & Ho). exact Ho.
    + intros h' Hh'. symmetry. eapply (cr_sep _ _ _ _ _ _ _ _ _ _ _ Hc' mem_separated); eauto.
  - intros h Hh. rewrite <- Hw in Hh. rewrite (run_outside _ _ _ _ _ _ Hrun Hh). reflexivity.
Qed.

Lemma ends_more {M V O} tag_ub (eager : M -> bool) (c : config M V O) (Q Q' : config M V O -> Prop) :
  (forall k d, steps tag_ub eager k c d -> Q d -> Q' d) ->
  always_ends tag_ub eager c Q -> always_ends tag_ub eager c Q'.
Proof.
  intros HQ [n H]. exists n. intros k d Hd. destruct (H k d Hd) as (A & B & d' & C & D).
  split; auto. split; [eauto|]. exists d'. split; auto.
  apply (HQ (k + (n - k)) d'); auto. eapply steps_trans; eauto.
Qed.

(** lin_combine on vectors in memory, as a whole: it returns, every sum handle refers to a
    new object that holds the sum of the terms, and no vector of the caller's is
    changed, not even those of the basis. *)
Theorem C62_sums_in_memory {V K} tag_ub (eager : msg V K -> bool) N limit per_node per_proc vadd smul two
    in_place can_add good (s : heap V) (st : gmap loc nat) (sums basis : list loc) (bv : list V)
    (a : coeffs K) idx :
  made_with limit 1 N per_node per_proc ->
  summable smul vadd can_add good -> Forall good bv -> numbered s -> live s st ->
  holds (values s st) basis bv -> basis <> [] ->
  NoDup sums -> (forall h, h ∈ sums -> h ∉ basis) ->
  rectangular a -> valid_columns (length basis) a idx -> fits (length basis) (length sums) a idx ->
  exists ord, ord ≡ₚ seq 0 (length basis) /\
    always_ends tag_ub eager
      (launch 1 (fun r => with_objects (olin_combine 1 memory_handles vadd smul two (fun _ _ => true) in_place can_add
                   per_node per_proc N r sums basis a idx) s) st)
      (fun d => exists s', procs d = [Ret s'] /\ vals s ⊆ vals s' /\
        (forall j h, sums !! j = Some h -> exists r ts v,
           store d !! h = Some r /\ vals s !! r = None /\ (forall h', store d !! h' = Some r -> h' = h) /\
           Forall2 (is_term smul bv a idx j) ord ts /\ sum_of vadd ts v /\ vals s' !! r = Some v) /\
        (forall h, h ∉ sums -> store d !! h = st !! h)).
Proof.
  intros Hm Hsum Hbv Hn Hl Hh Hne Hnd Hdis Hr Hv Hf.
  assert (Hg : forall h v, h ∈ basis -> values s st !! h = Some v -> good v).
  { intros h v Hin Hhv. apply elem_of_list_lookup in Hin as [i Hi].
    destruct (Forall2_lookup_l _ _ _ _ _ Hh Hi) as (u & Hu & Hu'). rewrite Hhv in Hu'. injection Hu' as ->.
    eapply Forall_lookup_1; eauto. }
  assert (HP : 1 * 1 - 1 <= tag_ub) by lia.
  destruct (C06_linear_combinations tag_ub eager 1 N limit per_node per_proc vadd smul (values s st) sums basis bv a idx
    Hm HP Hh Hne Hnd Hdis Hr Hv Hf) as (ord & Hord & Hends).
  exists (ord 0). split; [apply Hord; lia|].
  eapply ends_more; [|eapply (C62_in_memory tag_ub eager N per_node per_proc vadd smul two in_place can_add good s st
    sums basis a idx _ Hsum Hn Hl Hg Hends)].
  intros k d Hd (c & ((Hret & _) & Hlen & Hsums & _) & (Hlen' & Hse) & Hst).
  destruct (procs c) as [|p [|? ?]] eqn:Ec; simpl in Hlen; try lia.
  destruct (Hret 0 p eq_refl) as ([] & -> & _).
  destruct (Hse 0) as [He _]. destruct (He eq_refl) as (s' & Hs' & _).
  destruct (procs d) as [|q [|? ?]] eqn:Ed; simpl in Hlen', Hs'; try discriminate. injection Hs' as ->.
  exists s'. split; auto.
  destruct (C62_new_objects tag_ub eager N limit per_node per_proc vadd smul two in_place can_add good s st sums basis
    a idx k d s' Hm Hsum Hn Hl Hg Hd Ed) as (A & B & C).
  split; auto. split; auto. intros j h Hj.
  destruct (Hsums j h Hj) as (r0 & ts & v & Hr0 & Hts & Hsv & Hhv).
  destruct (B h) as (r & Hr1 & Hr2 & Hr3); [eapply elem_of_list_lookup_2; eauto|].
  exists r, ts, v. split; auto. split; auto. split; auto.
  assert (r0 = 0) as -> by lia. split; auto. split; auto.
  destruct (Hst s' eq_refl) as [_ E]. rewrite E, values_lookup, Hr1 in Hhv. exact Hhv.
Qed.

(** ** Examples *)

(** All vectors of integers can be summed. *)
Lemma z_summable : summable v_mul v_add (fun _ _ => true) (fun _ => True).
Proof. exists (fun _ => True). auto. Qed.

(** Handles 1 and 3 refer to the same object, 9 to another. *)
Definition ob_heap : heap (list Z) := Heap {[ 0 := [1; 2]%Z; 1 := [3; -1]%Z; 2 := [7; 7]%Z ]} 3.
Definition ob_store : gmap loc nat := {[ 1 := 0; 2 := 1; 3 := 0; 9 := 2 ]}.

Lemma ob_numbered : numbered ob_heap.
Proof.
  intros r Hr. simpl in Hr. unfold ob_heap. simpl. repeat (rewrite lookup_insert_ne by lia).
  apply lookup_singleton_ne. lia.
Qed.
Lemma ob_live : live ob_heap ob_store.
Proof.
  intros h r Hh. unfold ob_store in Hh.
  repeat (apply lookup_insert_Some in Hh; destruct Hh as [[_ <-]|[_ Hh]]; [vm_compute; eauto|]).
  apply lookup_singleton_Some in Hh as [_ <-]. vm_compute. eauto.
Qed.

(** A run that lets the first rank that can step do so, and computes where it gets. *)
Definition all_at_barrier {M V O} (ps : list (proc M V O)) : bool :=
  forallb (fun p => match p with Barrier _ => true | _ => false end) ps.
Fixpoint first_step {M V O} tag_ub (eager : M -> bool) (is : list nat) (c : config M V O) : option (config M V O) :=
  match is with
  | [] => match procs c with
          | [] => None
          | ps => if all_at_barrier ps then Some (Config (past_barrier <$> ps) (chans c) (store c)) else None
          end
  | i :: is => match rank_step tag_ub eager i c with Some c' => Some c' | None => first_step tag_ub eager is c end
  end.
Fixpoint some_run {M V O} tag_ub (eager : M -> bool) (n : nat) (c : config M V O) : config M V O :=
  match n with
  | 0 => c
  | S n => match first_step tag_ub eager (seq 0 (length (procs c))) c with
           | Some c' => some_run tag_ub eager n c'
           | None => c
           end
  end.
Lemma first_step_step {M V O} tag_ub (eager : M -> bool) is (c c' : config M V O) :
  first_step tag_ub eager is c = Some c' -> step tag_ub eager c c'.
Proof.
  induction is as [|i is IH]; cbn [first_step].
  - destruct c as [ps ch st]. cbn [procs chans store]. destruct ps as [|p ps]; [discriminate|].
    destruct (all_at_barrier (p :: ps)) eqn:E; [|discriminate]. intros [= <-]. apply (step_barrier _ _ (p :: ps)); [discriminate|].
    apply Forall_forall. intros q Hq. unfold all_at_barrier in E. rewrite forallb_forall in E.
    apply elem_of_list_In in Hq. specialize (E q Hq). destruct q; simpl; try discriminate; auto.
  - destruct (rank_step tag_ub eager i c) eqn:E; [|exact IH]. intros [= <-]. eapply step_rank; eauto.
Qed.
Lemma some_run_steps {M V O} tag_ub (eager : M -> bool) n : forall (c : config M V O),
  exists k, steps tag_ub eager k c (some_run tag_ub eager n c).
Proof.
  induction n as [|n IH]; intros c; simpl; [exists 0; constructor|].
  destruct (first_step _ _ _ c) as [c'|] eqn:E; [|exists 0; constructor].
  destruct (IH c') as [k Hk]. exists (S k). econstructor; [eapply first_step_step; eauto|exact Hk].
Qed.

Notation ob_run s mul_new := (launch 1 (fun r => with_objects (olin_combine 1 memory_handles v_add v_mul 2%Z mul_new true
  (fun _ _ => true) 3 3 1 r [10; 11; 12; 13] [1; 2; 3] lc_coeffs (Some (Cols [1; 0; -1; 1]%Z))) s) ob_store).

Example C62_sums_in_memory_example eager :
  always_ends 10 eager (ob_run ob_heap (fun _ _ => true))
    (fun d => exists s', procs d = [Ret s'] /\ vals ob_heap ⊆ vals s' /\
       store d !! 10 <> store d !! 12 /\ map (fun h => store d !! h) [1; 2; 3; 9] = [Some 0; Some 1; Some 0; Some 2]).
Proof.
  destruct (C62_sums_in_memory 10 eager 1 (Some 1%Z) 3 3 v_add v_mul 2%Z true (fun _ _ => true) (fun _ => True)
    ob_heap ob_store [10; 11; 12; 13] [1; 2; 3] [[1; 2]; [3; -1]; [1; 2]]%Z lc_coeffs (Some (Cols [1; 0; -1; 1]%Z)))
    as (ord & Hord & Hends).
  - split; [lia|]. split; [lia|]. reflexivity.
  - apply z_summable.
  - repeat constructor.
  - apply ob_numbered.
  - apply ob_live.
  - repeat constructor.
  - discriminate.
  - apply (bool_decide_unpack (NoDup [10; 11; 12; 13])). reflexivity.
  - intros h Hh. apply (bool_decide_unpack (h ∉ [1; 2; 3])).
    repeat (apply elem_of_cons in Hh; destruct Hh as [->|Hh]; [reflexivity|]). inversion Hh.
  - repeat constructor.
  - apply (bool_decide_unpack (Forall (fun z => -2 <= z < 2)%Z [1; 0; -1; 1]%Z)). reflexivity.
  - split; reflexivity.
  - eapply ends_more; [|exact Hends]. intros k d _ (s' & Hd & Hk & Hs & Ho).
    exists s'. split; auto. split; auto. split.
    + destruct (Hs 0 10 eq_refl) as (r & _ & _ & E1 & _ & Hu & _). intros E.
      pose proof (Hu 12 (eq_trans (eq_sym E) E1)) as E'. unfold loc in E'. lia.
    + simpl. rewrite !Ho; [reflexivity|..];
        [apply (bool_decide_unpack (9 ∉ [10; 11; 12; 13]))|apply (bool_decide_unpack (3 ∉ [10; 11; 12; 13]))
        |apply (bool_decide_unpack (2 ∉ [10; 11; 12; 13]))|apply (bool_decide_unpack (1 ∉ [10; 11; 12; 13]))]; reflexivity.
Qed.

(** The same by computation: the sums, and the basis as it was. *)
Example C62_new_objects_example eager : exists k d s',
  steps 10 eager k (ob_run ob_heap (fun _ _ => true)) d /\ procs d = [Ret s'] /\
  map (fun h => values s' (store d) !! h) [10; 11; 12; 13; 1; 2; 3; 9] =
    [Some [20; 12]; Some [15; 9]; Some [20; 12]; Some [20; 12]; Some [1; 2]; Some [3; -1]; Some [1; 2]; Some [7; 7]]%Z.
Proof.
  destruct (some_run_steps 10 eager 100 (ob_run ob_heap (fun _ _ => true))) as [k Hk].
  eexists k, _, _. split; [exact Hk|]. split; [vm_compute; reflexivity|]. vm_compute. reflexivity.
Qed.

(** Two ranks with files, the objects that each has before the call being the same. *)
Example C62_files_example eager :
  always_ends 10 eager
    (launch 2 (fun r => with_objects (olin_combine 2 file_handles v_add v_mul 2%Z (fun _ _ => true) true (fun _ _ => true)
       6 3 1 r [10; 11; 12; 13] [1; 2; 3] lc_coeffs (Some (Cols [1; 0; -1; 1]%Z))) ob_heap) lc_store)
    (fun d => map (fun h => store d !! h) [10; 11; 12; 13; 9] =
         [Some [14; 30]; Some [10; 24]; Some [14; 30]; Some [14; 30]; Some [7; 7]]%Z).
Proof.
  assert (Hg : forall h v, h ∈ [1; 2; 3] -> lc_store !! h = Some v -> True) by auto.
  eapply ends_more; [|exact (C62_files 10 eager 2 1 6 3 v_add v_mul 2%Z true (fun _ _ => true) (fun _ => True)
    (fun _ => ob_heap) lc_store [10; 11; 12; 13] [1; 2; 3] lc_coeffs (Some (Cols [1; 0; -1; 1]%Z)) _
    ltac:(lia) z_summable (fun _ _ => ob_numbered) Hg (C06_example eager))].
  intros k d _ (c & (_ & Hc) & _ & Hst & _). simpl in Hst. rewrite Hst. exact Hc.
Qed.

(** ** What the assumptions are for *)

(** A class of vectors whose [x * 1] is [x] itself would have its vectors changed:
    the basis vector of handle 1, [[1; 2]] before the call, is [[60; -6]] afterwards. *)
Theorem C62_product_returns_operand_refuted : exists k d s',
  steps 10 (fun _ => true) k (ob_run ob_heap (fun _ c => negb (c =? 1)%Z)) d /\ procs d = [Ret s'] /\
  values s' (store d) !! 1 = Some [60; -6]%Z.
Proof.
  destruct (some_run_steps 10 (fun _ => true) 100 (ob_run ob_heap (fun _ c => negb (c =? 1)%Z))) as [k Hk].
  eexists k, _, _. split; [exact Hk|]. split; [vm_compute; reflexivity|]. vm_compute. reflexivity.
Qed.

(** Vectors of which some are complex: [x += y] fails if only [y] is.  Whether lin_combine
    succeeds then depends on the order in which the basis vectors come, and so on the
    number of processes: one process sums them, of two processes one raises. *)
Definition kind_mul (v : bool * Z) (x : Z) : bool * Z := (fst v, snd v * x)%Z.
Definition kind_add (v w : bool * Z) : bool * Z := (fst v || fst w, snd v + snd w)%Z.
Definition kind_can_add (v w : bool * Z) : bool := fst v || negb (fst w).
Notation mixed_run P per_node := (launch P (fun r => with_objects (olin_combine P file_handles kind_add kind_mul 2%Z
  (fun _ _ => true) true kind_can_add per_node 3 1 r [10; 11] [1; 2] (Arr2 2 2 [[1; 2]; [3; 4]]%Z) None)
  (Heap ∅ 0)) {[ 1 := (true, 5%Z); 2 := (false, 7%Z) ]}).
Theorem C62_mixed_kinds_refuted :
  (exists k d, steps 10 (fun _ => true) k (mixed_run 1 3) d /\
     (exists s, procs d = [Ret s]) /\
     map (fun h => store d !! h) [10; 11] = [Some (true, 26%Z); Some (true, 38%Z)]) /\
  (exists k d, steps 10 (fun _ => true) k (mixed_run 2 6) d /\
     procs d !! 1 = Some (Fail TypeError)).
Proof.
  split.
  - destruct (some_run_steps 10 (fun _ => true) 100 (mixed_run 1 3)) as [k Hk].
    eexists k, _. split; [exact Hk|]. split; [eexists; vm_compute; reflexivity|]. vm_compute. reflexivity.
  - destruct (some_run_steps 10 (fun _ => true) 200 (mixed_run 2 6)) as [k Hk].
    eexists k, _. split; [exact Hk|]. vm_compute. reflexivity.
Qed.

Print Assumptions C62_files.
Print Assumptions C62_in_memory.
Print Assumptions C62_new_objects.
Print Assumptions C62_sums_in_memory.
Print Assumptions C62_product_returns_operand_refuted.
Print Assumptions C62_mixed_kinds_refuted.
