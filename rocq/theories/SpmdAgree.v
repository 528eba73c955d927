(** Executions in which only one step is possible, and executions of ranks that write the
    same files with the same contents. *)
From stdpp Require Import gmap list.
From Coq Require Import Lia.
From Verif Require Import Prelude Spmd SpmdFacts SpmdLock.

Section Forced.
Context {M V O : Type} (tag_ub : nat) (eager : M -> bool).
Notation config := (config M V O).
Notation step := (@step M V O tag_ub eager).

Lemma ends_step (c c' : config) Q : (forall c1, step c c1 <-> c1 = c') ->
  always_ends tag_ub eager c' Q -> always_ends tag_ub eager c Q.
Proof.
  intros Hs [n Hn]. exists (S n). intros k d Hd.
  destruct (Hn 0 _ (steps_O _ _ _)) as (_ & _ & df & Hdf & HQ). rewrite Nat.sub_0_r in Hdf.
  inversion Hd as [|k' c0 c1 c2 H1 H2]; subst.
  - split; [lia|]. split; [intros Hst; exfalso; apply (Hst c'), Hs; reflexivity|].
    exists df. split; auto. simpl. econstructor; [apply Hs; reflexivity|exact Hdf].
  - apply Hs in H1 as ->. destruct (Hn k' d H2) as (A1 & A2 & A3). split; [lia|]. split; auto.
Qed.
Lemma ends_stuck (c : config) (Q : config -> Prop) : stuck tag_ub eager c -> Q c -> always_ends tag_ub eager c Q.
Proof.
  intros Hs HQ. exists 0. intros k d Hd. inversion Hd as [|k' c0 c1 c2 H1 H2]; subst.
  - split; [lia|]. split; auto. exists d. split; [constructor|auto].
  - exfalso. eapply Hs; eauto.
Qed.

Context (P : nat).
Lemma forced_put (f : nat -> proc M V O) h v q st c1 :
  0 < P -> f 0 = Put h v q -> (forall i, 0 < i < P -> exists k, f i = Barrier k) ->
  step (conf P f ∅ st) c1 <-> c1 = conf P (upd f 0 q) ∅ (<[h := v]> st).
Proof.
  intros HP H0 Hi. split.
  - intros Hstep. inversion Hstep as [i c0 c3 Hr|ps' ch' st2 Hne Hall]; subst.
    + unfold rank_step in Hr. simpl in Hr. rewrite list_lookup_fmap in Hr.
      destruct (seq 0 P !! i) as [x|] eqn:Ex; simpl in Hr; [|discriminate].
      apply lookup_seq in Ex. destruct Ex as [-> Hx]. simpl in Hr.
      destruct i as [|i].
      * rewrite H0 in Hr. simpl in Hr. injection Hr as <-. rewrite conf_insert by lia. reflexivity.
      * destruct (Hi (S i)) as (k & Ek); [lia|]. rewrite Ek in Hr. discriminate.
    + pose proof (conf_lookup P f ∅ st 0 ltac:(lia)) as L0.
      simpl in L0. pose proof (Forall_lookup_1 _ _ _ _ Hall L0) as Hb. rewrite H0 in Hb. destruct Hb.
  - intros ->. apply (step_rank _ _ 0). unfold rank_step. rewrite conf_lookup by lia.
    rewrite H0. simpl. f_equal. rewrite conf_insert by lia. reflexivity.
Qed.
Lemma forced_barrier (f : nat -> proc M V O) st c1 : 0 < P ->
  step (conf P (fun i => Barrier (f i)) ∅ st) c1 <-> c1 = conf P f ∅ st.
Proof.
  intros HP.
  assert (E : conf P f ∅ st = Config (past_barrier <$> ((fun i => Barrier (f i)) <$> seq 0 P)) ∅ st).
  { unfold conf. f_equal. rewrite <- list_fmap_compose. reflexivity. }
  split.
  - intros Hstep. inversion Hstep as [i c0 c3 Hr|ps' ch' st2 Hne Hall]; subst.
    + unfold rank_step in Hr. simpl in Hr. rewrite list_lookup_fmap in Hr.
      destruct (seq 0 P !! i) as [x|] eqn:Ex; simpl in Hr; discriminate.
    + symmetry. exact E.
  - intros ->. rewrite E. apply step_barrier.
    + destruct P; [lia|]. simpl. discriminate.
    + apply Forall_fmap. apply Forall_forall. intros; exact I.
Qed.
End Forced.

Section Agree.
Context {M V O : Type} (tag_ub : nat) (eager : M -> bool) (P : nat) (HP : 0 < P).
Notation proc := (proc M V O).
Notation config := (config M V O).
(** Texts the ranks agree on; what every rank has written when it returns; results. *)
Context (L : loc -> V -> Prop) (must : list (loc * V)) (Q : O -> Prop) (E : exn -> Prop).
Context (L_fun : forall h v w, L h v -> L h w -> v = w).

(** [p] makes [n] more steps if the files in [w] are there: writes agreed texts and reads
    what it has written. *)
Inductive agreed : list (loc * V) -> proc -> nat -> Prop :=
| ag_ret w o : Q o -> (forall x, x ∈ must -> x ∈ w) -> agreed w (Ret o) 0
| ag_fail w e : E e -> agreed w (Fail e) 0
| ag_put w h v p n : L h v -> agreed ((h, v) :: w) p n -> agreed w (Put h v p) (S n)
| ag_get w h v k n : (h, v) ∈ w -> agreed w (k v) n -> agreed w (Get h k) (S n).

Record inv (st : gmap loc V) (c : config) (total : nat) : Prop := {
  inv_len : length (procs c) = P;
  inv_ch : chans c = ∅;
  inv_st : forall h, store c !! h = st !! h \/ exists v, L h v /\ store c !! h = Some v;
  inv_pr : exists ns, length ns = P /\ total = sum_list ns /\
    forall i p n, procs c !! i = Some p -> ns !! i = Some n ->
      exists w, agreed w p n /\ forall h v, (h, v) ∈ w -> L h v /\ store c !! h = Some v
}.

Lemma sum_list_insert (ns : list nat) i n m : ns !! i = Some (S n) -> m = sum_list ns ->
  m = S (sum_list (<[i := n]> ns)).
Proof.
  revert i m. induction ns as [|x ns IH]; intros [|i] m Hi ->; simpl in *; try discriminate.
  - injection Hi as ->. lia.
  - rewrite (IH i _ Hi eq_refl). lia.
Qed.
Lemma sum_list_0 (ns : list nat) i n : sum_list ns = 0 -> ns !! i = Some n -> n = 0.
Proof.
  revert i. induction ns as [|x ns IH]; intros [|i] Hs Hi; simpl in *; try discriminate.
  - injection Hi as ->. lia.
  - apply (IH i); auto. lia.
Qed.

Lemma inv_step st c total c' : inv st c total -> step tag_ub eager c c' -> exists t, total = S t /\ inv st c' t.
Proof.
  intros [Hl Hc Hs (ns & Hn & Ht & Hp)] Hstep.
  inversion Hstep as [i c0 c3 Hr|ps ch st2 Hne Hall]; subst.
  - unfold rank_step in Hr. destruct (procs c !! i) as [p|] eqn:Ep; [|discriminate].
    assert (Hi : i < P) by (rewrite <- Hl; apply lookup_lt_Some in Ep; auto).
    destruct (ns !! i) as [n|] eqn:En; [|apply lookup_ge_None in En; lia].
    destruct (Hp i p n Ep En) as (w & Hag & Hw).
    inversion Hag as [? o HQ Hm|? e HE|? h v q n' HL Hq|? h v k n' Hin Hq]; subst; simpl in Hr; try discriminate.
    + injection Hr as <-. exists (sum_list (<[i := n']> ns)). split; [apply (sum_list_insert _ _ _ _ En eq_refl)|].
      split; simpl; auto.
      * rewrite insert_length. auto.
      * intros g. destruct (decide (g = h)) as [->|Ng]; [right; exists v; split; auto; apply lookup_insert|].
        rewrite lookup_insert_ne by auto. apply Hs.
      * exists (<[i := n']> ns). split; [rewrite insert_length; auto|]. split; auto.
        intros j p m Hj Hm.
        assert (St : forall g u, L g u -> store c !! g = Some u -> <[h := v]> (store c) !! g = Some u).
        { intros g u Lg Sg. destruct (decide (g = h)) as [->|Ng]; [|rewrite lookup_insert_ne by auto; auto].
          rewrite lookup_insert. f_equal. apply (L_fun h); auto. }
        destruct (decide (j = i)) as [->|Nj].
        -- rewrite list_lookup_insert in Hj by lia. rewrite list_lookup_insert in Hm by lia. simplify_eq.
           exists ((h, v) :: w). split; auto. intros g u Hg. apply elem_of_cons in Hg as [Hg|Hg].
           ++ injection Hg as -> ->. split; auto. apply lookup_insert.
           ++ destruct (Hw g u Hg). split; auto.
        -- rewrite list_lookup_insert_ne in Hj by auto. rewrite list_lookup_insert_ne in Hm by auto.
           destruct (Hp j p m Hj Hm) as (w' & Ha & Hw'). exists w'. split; auto.
           intros g u Hg. destruct (Hw' g u Hg). split; auto.
    + destruct (Hw h v Hin) as [_ Sh]. rewrite Sh in Hr. injection Hr as <-.
      exists (sum_list (<[i := n']> ns)). split; [apply (sum_list_insert _ _ _ _ En eq_refl)|].
      split; simpl; auto.
      * rewrite insert_length. auto.
      * exists (<[i := n']> ns). split; [rewrite insert_length; auto|]. split; auto.
        intros j p m Hj Hm. destruct (decide (j = i)) as [->|Nj].
        -- rewrite list_lookup_insert in Hj by lia. rewrite list_lookup_insert in Hm by lia. simplify_eq.
           exists w. auto.
        -- rewrite list_lookup_insert_ne in Hj by auto. rewrite list_lookup_insert_ne in Hm by auto. eauto.
  - simpl in *. destruct ps as [|p ps]; [congruence|]. inversion Hall as [|? ? Hb]; subst.
    destruct ns as [|n ns]; [simpl in *; lia|].
    destruct (Hp 0 p n eq_refl eq_refl) as (w & Hag & _). inversion Hag; subst; destruct Hb.
Qed.

Lemma inv_move st c total : inv st c (S total) -> exists c', step tag_ub eager c c'.
Proof.
  intros [Hl Hc Hs (ns & Hn & Ht & Hp)].
  assert (G : exists i n, ns !! i = Some (S n)).
  { clear - Ht. revert total Ht. induction ns as [|[|x] ns IH]; intros total Ht; simpl in Ht; [discriminate| |exists 0, x; auto].
    destruct (IH total) as (i & n & E); [lia|]. exists (S i), n. auto. }
  destruct G as (i & n & En).
  assert (Hi : i < P) by (rewrite <- Hn; apply lookup_lt_Some in En; auto).
  destruct (procs c !! i) as [p|] eqn:Ep; [|apply lookup_ge_None in Ep; lia].
  destruct (Hp i p _ Ep En) as (w & Hag & Hw).
  inversion Hag as [|?|? h v q n' HL Hq|? h v k n' Hin Hq]; subst.
  - eexists. apply (step_rank _ _ i). unfold rank_step. rewrite Ep. simpl. reflexivity.
  - destruct (Hw h v Hin) as [_ Sh].
    eexists. apply (step_rank _ _ i). unfold rank_step. rewrite Ep. simpl. rewrite Sh. reflexivity.
Qed.

(** A rank that has returned has its files in the store. *)
Definition returned_ok (c : config) : Prop := forall i o, procs c !! i = Some (Ret o) ->
  Q o /\ forall h v, (h, v) ∈ must -> store c !! h = Some v.
Lemma inv_returned st c total : inv st c total -> returned_ok c.
Proof.
  intros [Hl Hc Hs (ns & Hn & Ht & Hp)] i o Hi.
  assert (Hi' : i < P) by (rewrite <- Hl; apply lookup_lt_Some in Hi; auto).
  destruct (ns !! i) as [n|] eqn:En; [|apply lookup_ge_None in En; lia].
  destruct (Hp i _ n Hi En) as (w & Hag & Hw). inversion Hag; subst. split; auto.
  intros h v Hin. apply Hw. auto.
Qed.
Lemma inv_start st (f : nat -> proc) : (forall i, i < P -> exists n, agreed [] (f i) n) ->
  exists total, inv st (conf P f ∅ st) total.
Proof.
  intros Hf.
  assert (G : forall l, (forall i, i ∈ l -> i < P) -> exists ns, length ns = length l /\
    forall j i n, l !! j = Some i -> ns !! j = Some n -> agreed [] (f i) n).
  { induction l as [|x l IH]; intros Hl; [exists []; split; auto; intros j i n Hj; inversion Hj|].
    destruct IH as (ns & Ln & Hns); [intros; apply Hl; constructor; auto|].
    destruct (Hf x) as (n & Hx); [apply Hl; constructor|].
    exists (n :: ns). split; [simpl; auto|]. intros [|j] i m Hj Hm; simpl in *; [simplify_eq; auto|eauto]. }
  destruct (G (seq 0 P)) as (ns & Ln & Hns); [intros i Hi; apply elem_of_seq in Hi; lia|].
  rewrite seq_length in Ln. exists (sum_list ns). split; simpl; auto.
  - rewrite fmap_length, seq_length. reflexivity.
  - exists ns. split; auto. split; auto. intros i p n Hp Hn. rewrite list_lookup_fmap in Hp.
    destruct (seq 0 P !! i) as [x|] eqn:Ex; simplify_eq/=. exists []. split; [eauto|]. intros h v Hh. inversion Hh.
Qed.
Lemma inv_steps st c total n d : inv st c total -> steps tag_ub eager n c d -> n <= total /\ inv st d (total - n).
Proof.
  intros Hi Hs. revert total Hi. induction Hs as [|n c c' c'' H1 H2 IH]; intros total Hi.
  - split; [lia|]. rewrite Nat.sub_0_r. auto.
  - destruct (inv_step _ _ _ _ Hi H1) as (t & -> & Ht). destruct (IH t Ht). split; [lia|]. auto.
Qed.
Lemma inv_run st c total : inv st c total -> exists d, steps tag_ub eager total c d /\ inv st d 0.
Proof.
  revert c. induction total as [|t IH]; intros c Hi; [exists c; split; [constructor|auto]|].
  destruct (inv_move _ _ _ Hi) as (c' & Hc). destruct (inv_step _ _ _ _ Hi Hc) as (t' & Et & Hi').
  injection Et as <-. destruct (IH c' Hi') as (d & Hd & Hd'). exists d. split; auto. econstructor; eauto.
Qed.

Lemma agree_ends st (f : nat -> proc) (R : config -> Prop) :
  (forall i, i < P -> exists n, agreed [] (f i) n) ->
  (forall c, inv st c 0 -> R c) ->
  always_ends tag_ub eager (conf P f ∅ st) R.
Proof.
  intros Hf HR. destruct (inv_start st f Hf) as (total & Hi). exists total. intros k d Hd.
  destruct (inv_steps _ _ _ _ _ Hi Hd) as (Hk & Hid). split; auto. split.
  - intros Hst. apply HR. destruct (total - k) as [|t] eqn:Et; auto.
    destruct (inv_move _ _ _ Hid) as (c' & Hc). exfalso. eapply Hst; eauto.
  - destruct (inv_run _ _ _ Hid) as (d' & Hd' & Hi'). eauto.
Qed.
Lemma agree_always st (f : nat -> proc) n d :
  (forall i, i < P -> exists n, agreed [] (f i) n) ->
  steps tag_ub eager n (conf P f ∅ st) d -> returned_ok d.
Proof.
  intros Hf Hd. destruct (inv_start st f Hf) as (total & Hi).
  destruct (inv_steps _ _ _ _ _ Hi Hd) as (_ & Hid). eapply inv_returned; eauto.
Qed.
(** At the end: every rank returned (or failed with [E]). *)
Lemma inv_end st c : inv st c 0 -> (forall e, ~ E e) -> 
  all_return (fun _ o => Q o) c /\ length (procs c) = P /\
  (forall h v, (h, v) ∈ must -> store c !! h = Some v) /\
  (forall h, store c !! h = st !! h \/ exists v, L h v /\ store c !! h = Some v).
Proof.
  intros Hi HE. pose proof (inv_returned _ _ _ Hi) as Hr. destruct Hi as [Hl Hc Hs (ns & Hn & Ht & Hp)].
  assert (G : forall i p, procs c !! i = Some p -> exists o, p = Ret o).
  { intros i p Hi. assert (i < P) by (rewrite <- Hl; apply lookup_lt_Some in Hi; auto).
    destruct (ns !! i) as [n|] eqn:En; [|apply lookup_ge_None in En; lia].
    destruct (Hp i p n Hi En) as (w & Hag & _).
    rewrite (sum_list_0 ns i n ltac:(lia) En) in Hag. inversion Hag; subst; eauto. exfalso. eapply HE; eauto. }
  split; [split; auto|].
  - intros i p Hi. destruct (G i p Hi) as (o & ->). exists o. split; auto. apply (Hr i o Hi).
  - split; auto. split; auto. intros h v Hin. destruct (procs c !! 0) as [p|] eqn:E0; [|apply lookup_ge_None in E0; lia].
    destruct (G 0 p E0) as (o & ->). apply (Hr 0 o E0). auto.
Qed.
(** If no rank can return, all fail. *)
Lemma inv_fail st c : inv st c 0 -> (forall o, ~ Q o) -> 
  (forall i, i < P -> exists e, procs c !! i = Some (Fail e) /\ E e) /\ chans c = ∅ /\
  (forall h, store c !! h = st !! h \/ exists v, L h v /\ store c !! h = Some v).
Proof.
  intros [Hl Hc Hs (ns & Hn & Ht & Hp)] HQ. split; [|auto]. intros i Hi.
  destruct (procs c !! i) as [p|] eqn:Ep; [|apply lookup_ge_None in Ep; lia].
  destruct (ns !! i) as [n|] eqn:En; [|apply lookup_ge_None in En; lia].
  destruct (Hp i p n Ep En) as (w & Hag & _).
  rewrite (sum_list_0 ns i n ltac:(lia) En) in Hag. inversion Hag; subst; eauto. exfalso. eapply HQ; eauto.
Qed.
End Agree.
