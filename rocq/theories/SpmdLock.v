(** Lock-step composition rules for SPMD programs. *)
From stdpp Require Import gmap list.
From Coq Require Import Lia.
From Verif Require Import Prelude Spmd SpmdFacts.

(** One communication phase of a rank: optionally post a send, optionally
    receive, then wait for the send. *)
Definition exch {M V O} (snd : option (nat * nat * nat * M))
    (rcv : option (nat * nat * nat)) : prog M V O (option M) :=
  bind (match snd with
        | Some (d, c, t, m) => isend d c t m
        | None => ret tt end) (fun _ =>
  bind (match rcv with
        | Some (s, c, t) => bind (recv s c t) (fun m => ret (Some m))
        | None => ret None end) (fun x =>
  bind (match snd with
        | Some (d, c, t, m) => wait d c t m
        | None => ret tt end) (fun _ => ret x))).

Section Lock.
Context {M V O : Type}.
Context (tag_ub : nat) (eager : M -> bool) (P : nat).

Notation proc := (proc M V O).
Notation config := (@config M V O).
Notation prog := (prog M V O).
Notation step := (@step M V O tag_ub eager).
Notation steps := (@steps M V O tag_ub eager).

Definition conf (f : nat -> proc) (ch : gmap (nat * nat * nat * nat) (list M))
    (st : gmap loc V) : config := Config (f <$> seq 0 P) ch st.

Definition reach (c d : config) : Prop := exists n, steps n c d.

Lemma reach_refl c : reach c c.
Proof. exists 0. constructor. Qed.
Lemma reach_trans c d e : reach c d -> reach d e -> reach c e.
Proof. intros [n H] [m H']. exists (n + m). eapply steps_trans; eauto. Qed.
Lemma reach_step c d : step c d -> reach c d.
Proof. intros H. exists 1. econstructor; eauto. constructor. Qed.

Lemma conf_ext f g ch st : (forall i, i < P -> f i = g i) -> conf f ch st = conf g ch st.
Proof.
  intros H. unfold conf. f_equal. apply list_fmap_ext.
  intros i x Hx. apply lookup_seq in Hx. apply H. lia.
Qed.

Lemma conf_lookup f ch st i : i < P -> procs (conf f ch st) !! i = Some (f i).
Proof.
  intros H. simpl. rewrite list_lookup_fmap, lookup_seq_lt by auto. reflexivity.
Qed.

Definition upd (f : nat -> proc) (i : nat) (p : proc) : nat -> proc :=
  fun j => if decide (j = i) then p else f j.

Lemma conf_insert f i p ch st :
  i < P -> Config (<[i := p]> (f <$> seq 0 P)) ch st = conf (upd f i p) ch st.
Proof.
  intros Hi. unfold conf. f_equal. apply list_eq. intros j.
  rewrite list_lookup_fmap.
  destruct (decide (j = i)) as [->|Hne].
  - rewrite list_lookup_insert by (rewrite fmap_length, seq_length; auto).
    rewrite lookup_seq_lt by auto. simpl. unfold upd.
    rewrite decide_True; auto.
  - rewrite list_lookup_insert_ne by auto. rewrite list_lookup_fmap.
    destruct (decide (j < P)).
    + rewrite lookup_seq_lt by auto. simpl. unfold upd. rewrite decide_False; auto.
    + rewrite lookup_seq_ge by lia. reflexivity.
Qed.

Lemma reach_rank f i p' ch ch' st st' :
  i < P -> local_step tag_ub eager P i (f i) ch st = Some (p', ch', st') ->
  reach (conf f ch st) (conf (upd f i p') ch' st').
Proof.
  intros Hi Hl. apply reach_step. apply step_rank with i.
  unfold rank_step. rewrite conf_lookup by auto. simpl.
  rewrite fmap_length, seq_length, Hl. f_equal. apply conf_insert; auto.
Qed.

(** Run the ranks one after the other. *)
Lemma reach_sweep (f g : nat -> proc) ch st :
  (forall i, i < P -> forall h, h i = f i ->
     reach (conf h (ch i) (st i)) (conf (upd h i (g i)) (ch (S i)) (st (S i)))) ->
  reach (conf f (ch 0) (st 0)) (conf g (ch P) (st P)).
Proof.
  intros H.
  assert (G : forall n, n <= P ->
    reach (conf f (ch 0) (st 0))
      (conf (fun j => if decide (j < n) then g j else f j) (ch n) (st n))).
  { induction n as [|n IH]; intros Hn.
    - erewrite conf_ext; [apply reach_refl|]. intros j Hj. cbv beta.
      rewrite decide_False by lia. reflexivity.
    - eapply reach_trans; [apply IH; lia|].
      eapply reach_trans.
      + apply (H n ltac:(lia)). rewrite decide_False by lia. reflexivity.
      + erewrite conf_ext; [apply reach_refl|]. intros j Hj. unfold upd. cbv beta.
        destruct (decide (j = n)) as [->|].
        * rewrite decide_True by lia. reflexivity.
        * destruct (decide (j < n)).
          -- rewrite decide_True by lia. reflexivity.
          -- rewrite decide_False by lia. reflexivity. }
  eapply reach_trans; [apply (G P); lia|].
  erewrite conf_ext; [apply reach_refl|]. intros j Hj. cbv beta.
  rewrite decide_True by lia. reflexivity.
Qed.

(** ** Lock-step triples *)

Definition lock {A} (st : gmap loc V) (ps : nat -> prog A) (st' : gmap loc V)
    (a : nat -> A) : Prop :=
  forall k : nat -> A -> proc,
    reach (conf (fun i => ps i (k i)) ∅ st) (conf (fun i => k i (a i)) ∅ st').

Definition wp {A} (st : gmap loc V) (ps : nat -> prog A)
    (Post : gmap loc V -> (nat -> A) -> Prop) : Prop :=
  exists st' a, lock st ps st' a /\ Post st' a.

Lemma wp_ret {A} st (a : nat -> A) (Post : _ -> _ -> Prop) :
  Post st a -> wp st (fun i => ret (a i)) Post.
Proof. intros H. exists st, a. split; auto. intros k. apply reach_refl. Qed.

Lemma wp_bind {A B} st (ps : nat -> prog A) (f : nat -> A -> prog B) Q Post :
  wp st ps Q ->
  (forall st' a, Q st' a -> wp st' (fun i => f i (a i)) Post) ->
  wp st (fun i => bind (ps i) (f i)) Post.
Proof.
  intros (st' & a & Hl & HQ) H.
  destruct (H st' a HQ) as (st'' & b & Hl' & HP).
  exists st'', b. split; auto. intros k.
  eapply reach_trans.
  - apply (Hl (fun i x => f i x (k i))).
  - apply (Hl' k).
Qed.

Lemma wp_mono {A} st (ps : nat -> prog A) (Q Q' : _ -> _ -> Prop) :
  wp st ps Q -> (forall st' a, Q st' a -> Q' st' a) -> wp st ps Q'.
Proof. intros (st' & a & Hl & HQ) H. exists st', a. auto. Qed.

Lemma wp_ext {A} st (ps qs : nat -> prog A) Post :
  (forall i, i < P -> forall k, ps i k = qs i k) -> wp st qs Post -> wp st ps Post.
Proof.
  intros He (st' & a & Hl & HQ). exists st', a. split; auto. intros k.
  erewrite conf_ext; [apply Hl|]. intros i Hi. apply He; auto.
Qed.

(** Results may be replaced outside the ranks [0..P-1]. *)
Lemma wp_results {A} st (ps : nat -> prog A) (Post : _ -> _ -> Prop) :
  wp st ps (fun st' a => exists b, (forall i, i < P -> a i = b i) /\ Post st' b) ->
  wp st ps Post.
Proof.
  intros (st' & a & Hl & b & He & HP). exists st', b. split; auto. intros k.
  erewrite (conf_ext (fun i => k i (b i))); [apply Hl|].
  intros i Hi. simpl. rewrite He; auto.
Qed.

Lemma wp_for {A S} (l : list A) : forall st (s : nat -> S)
    (body : nat -> A -> S -> prog S)
    (Inv : nat -> gmap loc V -> (nat -> S) -> Prop),
  Inv 0 st s ->
  (forall j x st s, l !! j = Some x -> Inv j st s ->
     wp st (fun i => body i x (s i)) (Inv (Datatypes.S j))) ->
  wp st (fun i => for_loop l (s i) (body i)) (Inv (length l)).
Proof.
  induction l as [|x l IH]; intros st s body Inv H0 H.
  - apply (wp_ret st s). exact H0.
  - cbn [for_loop length].
    eapply wp_bind.
    + apply (H 0 x st s); auto.
    + intros st' a Ha. simpl.
      apply (IH st' a body (fun j => Inv (Datatypes.S j))); auto.
Qed.

(** Same, for [seq 0 n]. *)
Lemma wp_for_seq {S} n st (s : nat -> S) (body : nat -> nat -> S -> prog S)
    (Inv : nat -> gmap loc V -> (nat -> S) -> Prop) :
  Inv 0 st s ->
  (forall j st s, j < n -> Inv j st s ->
     wp st (fun i => body i j (s i)) (Inv (Datatypes.S j))) ->
  wp st (fun i => for_loop (seq 0 n) (s i) (body i)) (Inv n).
Proof.
  intros H0 H.
  assert (E : Inv n = Inv (length (seq 0 n))) by (rewrite seq_length; auto).
  rewrite E. apply wp_for; auto.
  intros j x st2 s2 Hj. apply lookup_seq in Hj. simpl in Hj. destruct Hj as [-> Hj].
  apply H; auto.
Qed.

(** ** Barrier *)

Lemma wp_barrier st (Post : _ -> _ -> Prop) :
  0 < P -> (forall u, Post st u) -> wp st (fun _ => barrier_op) Post.
Proof.
  intros HP H. exists st, (fun _ => tt). split; auto. intros k.
  apply reach_step.
  assert (E : conf (fun i => k i tt) ∅ st =
    Config (past_barrier <$> ((fun i => barrier_op (k i)) <$> seq 0 P)) ∅ st).
  { unfold conf. f_equal. rewrite <- list_fmap_compose. reflexivity. }
  rewrite E. apply step_barrier.
  - destruct P; [lia|]. simpl. discriminate.
  - apply Forall_fmap. apply Forall_forall. intros; exact I.
Qed.

(** ** Local segments *)

(** [m], run by rank [i] alone, turns the store [st] into [st'] and returns [a],
    without communication. *)
Definition local_run {A} (st : gmap loc V) (m : prog A) (st' : gmap loc V) (a : A)
    : Prop :=
  forall i f k ch, i < P -> f i = m k ->
    reach (conf f ch st) (conf (upd f i (k a)) ch st').

Lemma upd_upd f i p q : forall j, upd (upd f i p) i q j = upd f i q j.
Proof. intros j. unfold upd. destruct (decide (j = i)); auto. Qed.
Lemma upd_same f i p : upd f i p i = p.
Proof. unfold upd. rewrite decide_True; auto. Qed.
Lemma upd_id f i : forall j, upd f i (f i) j = f j.
Proof. intros j. unfold upd. destruct (decide (j = i)) as [->|]; auto. Qed.

Lemma local_ret {A} st (a : A) : local_run st (ret a) st a.
Proof.
  intros i f k ch Hi Hf. unfold ret in Hf. rewrite <- Hf.
  erewrite (conf_ext (upd _ _ _)); [apply reach_refl|].
  intros j _. apply upd_id.
Qed.
Lemma local_bind {A B} st st' st'' (m : prog A) (f : A -> prog B) a b :
  local_run st m st' a -> local_run st' (f a) st'' b ->
  local_run st (bind m f) st'' b.
Proof.
  intros H1 H2 i g k ch Hi Hg.
  eapply reach_trans.
  - apply (H1 i g (fun x => f x k) ch Hi Hg).
  - eapply reach_trans.
    + apply (H2 i _ k ch Hi). apply upd_same.
    + erewrite conf_ext; [apply reach_refl|]. intros j _. apply upd_upd.
Qed.
Lemma local_get st h v : st !! h = Some v -> local_run st (get h) st v.
Proof.
  intros Hv i f k ch Hi Hf. apply reach_rank; auto.
  rewrite Hf. simpl. rewrite Hv. reflexivity.
Qed.
Lemma local_put st h v : local_run st (put h v) (<[h := v]> st) tt.
Proof.
  intros i f k ch Hi Hf. apply reach_rank; auto. rewrite Hf. reflexivity.
Qed.
Lemma local_map {A B} st (f : A -> prog B) l : forall bs,
  Forall2 (fun x b => local_run st (f x) st b) l bs ->
  local_run st (map_prog f l) st bs.
Proof.
  induction l as [|x l IH]; intros bs H; inversion H; subst; simpl.
  - apply local_ret.
  - eapply local_bind; eauto. eapply local_bind; eauto. apply local_ret.
Qed.
Lemma local_for {A S} (l : list A) (body : A -> S -> prog S) : forall st s
    (Inv : nat -> gmap loc V -> S -> Prop),
  Inv 0 st s ->
  (forall j x st s, l !! j = Some x -> Inv j st s ->
     exists st' s', local_run st (body x s) st' s' /\ Inv (Datatypes.S j) st' s') ->
  exists st' s', local_run st (for_loop l s body) st' s' /\ Inv (length l) st' s'.
Proof.
  induction l as [|x l IH]; intros st s Inv H0 H.
  - exists st, s. split; auto. apply local_ret.
  - destruct (H 0 x st s eq_refl H0) as (st1 & s1 & Hl1 & H1).
    destruct (IH st1 s1 (fun j => Inv (Datatypes.S j)) H1) as (st2 & s2 & Hl2 & H2).
    { intros j y st2 s2 Hj Hi. apply (H (Datatypes.S j) y st2 s2); auto. }
    exists st2, s2. split; auto. simpl. eapply local_bind; eauto.
Qed.

Lemma wp_local {A} (ps : nat -> prog A) (st : nat -> gmap loc V) (a : nat -> A)
    (Post : _ -> _ -> Prop) :
  (forall i, i < P -> local_run (st i) (ps i) (st (S i)) (a i)) ->
  Post (st P) a -> wp (st 0) ps Post.
Proof.
  intros H HP. exists (st P), a. split; auto. intros k.
  apply (reach_sweep (fun i => ps i (k i)) (fun i => k i (a i)) (fun _ => ∅) st).
  intros i Hi h Hh. apply (H i Hi i h (k i) ∅ Hi Hh).
Qed.

(** All ranks read only. *)
Lemma wp_read {A} st (ps : nat -> prog A) (a : nat -> A) (Post : _ -> _ -> Prop) :
  (forall i, i < P -> local_run st (ps i) st (a i)) ->
  Post st a -> wp st ps Post.
Proof. intros H HP. apply (wp_local ps (fun _ => st) a); auto. Qed.

(** ** A communication phase *)

Section Exch.
Context (snd : nat -> option (nat * nat * nat * M)).
Context (rcv : nat -> option (nat * nat * nat)).

Definition got (i : nat) : option M :=
  match rcv i with
  | Some (s, _, _) => match snd s with Some (_, _, _, m) => Some m | None => None end
  | None => None
  end.

Definition matched : Prop :=
  (forall i d c t m, i < P -> snd i = Some (d, c, t, m) ->
     d < P /\ t <= tag_ub /\ rcv d = Some (i, c, t)) /\
  (forall i s c t, i < P -> rcv i = Some (s, c, t) ->
     s < P /\ exists m, snd s = Some (i, c, t, m)).

Fixpoint chS (j : nat) : gmap (nat * nat * nat * nat) (list M) :=
  match j with
  | 0 => ∅
  | S j => match snd j with
           | Some (d, c, t, m) => push (j, d, c, t) m (chS j)
           | None => chS j end
  end.
Fixpoint chR (j : nat) : gmap (nat * nat * nat * nat) (list M) :=
  match j with
  | 0 => chS P
  | S j => match rcv j with
           | Some (s, c, t) => delete (s, j, c, t) (chR j)
           | None => chR j end
  end.

Lemma chS_fresh j s d c t : j <= s -> chS j !! (s, d, c, t) = None.
Proof.
  induction j as [|j IH]; intros Hj; simpl; [apply lookup_empty|].
  destruct (snd j) as [[[[d' c'] t'] m]|].
  - rewrite push_ne; [apply IH; lia|]. intros E; simplify_eq; lia.
  - apply IH; lia.
Qed.

Lemma chS_lookup j s d c t : s < j ->
  chS j !! (s, d, c, t) =
  match snd s with
  | Some (d', c', t', m) =>
      if decide ((d, c, t) = (d', c', t')) then Some [m] else None
  | None => None
  end.
Proof.
  induction j as [|j IH]; intros Hj; [lia|]. simpl.
  destruct (decide (s = j)) as [->|Hne].
  - destruct (snd j) as [[[[d' c'] t'] m]|].
    + case_decide as E.
      * simplify_eq. rewrite push_eq, chS_fresh by lia. reflexivity.
      * rewrite push_ne; [apply chS_fresh; lia|]. intros E'; simplify_eq.
    + apply chS_fresh; lia.
  - rewrite <- IH by lia. destruct (snd j) as [[[[d' c'] t'] m]|]; auto.
    apply push_ne. intros E'; simplify_eq.
Qed.

Lemma chR_lookup (Hm : matched) j s d c t : j <= P ->
  chR j !! (s, d, c, t) = if decide (d < j) then None else chS P !! (s, d, c, t).
Proof.
  destruct Hm as [H1 H2].
  induction j as [|j IH]; intros Hj; simpl; [auto|].
  specialize (IH ltac:(lia)).
  destruct (rcv j) as [[[s' c'] t']|] eqn:Er.
  - destruct (decide ((s', j, c', t') = (s, d, c, t))) as [E|E].
    + simplify_eq. rewrite lookup_delete. rewrite decide_True by lia. reflexivity.
    + rewrite lookup_delete_ne by auto. rewrite IH.
      destruct (decide (d < j)), (decide (d < S j)); auto; try lia.
      assert (d = j) by lia. subst d.
      destruct (decide (s < P)).
      * rewrite chS_lookup by auto. destruct (snd s) as [[[[d' c''] t''] m]|] eqn:Es; auto.
        case_decide as E'; auto. simplify_eq.
        destruct (H1 s _ _ _ _ ltac:(auto) Es) as (_ & _ & Hr). congruence.
      * apply chS_fresh. lia.
  - rewrite IH. destruct (decide (d < j)), (decide (d < S j)); auto; try lia.
    assert (d = j) by lia. subst d.
    destruct (decide (s < P)).
    + rewrite chS_lookup by auto. destruct (snd s) as [[[[d' c''] t''] m]|] eqn:Es; auto.
      case_decide as E'; auto. simplify_eq.
      destruct (H1 s _ _ _ _ ltac:(auto) Es) as (_ & _ & Hr). congruence.
    + apply chS_fresh. lia.
Qed.

Lemma chR_empty (Hm : matched) : chR P = ∅.
Proof.
  apply map_eq. intros [[[s d] c] t]. rewrite lookup_empty.
  rewrite chR_lookup by auto. case_decide as Hd; auto.
  destruct (decide (s < P)).
  - rewrite chS_lookup by auto. destruct (snd s) as [[[[d' c''] t''] m]|] eqn:Es; auto.
    case_decide as E'; auto. simplify_eq.
    destruct Hm as [H1 _]. destruct (H1 s _ _ _ _ ltac:(auto) Es). lia.
  - apply chS_fresh. lia.
Qed.

Lemma lock_exch st : matched -> lock st (fun i => exch (snd i) (rcv i)) st got.
Proof.
  intros Hm k. pose proof Hm as [H1 H2].
  set (p2 := fun i x => match snd i with
     | Some (d, c, t, m) => Wait d c t m (k i x)
     | None => k i x end).
  set (p1 := fun i => match rcv i with
     | Some (s, c, t) => Recv s c t (fun m => p2 i (Some m))
     | None => p2 i None end).
  eapply reach_trans.
  { (* sends *)
    apply (reach_sweep (fun i => exch (snd i) (rcv i) (k i)) p1 chS (fun _ => st)).
    intros i Hi h Hh. simpl.
    destruct (snd i) as [[[[d c] t] m]|] eqn:Es.
    - destruct (H1 i d c t m Hi Es) as (Hd & Ht & Hr).
      apply reach_rank; auto. rewrite Hh. unfold exch, bind, isend. simpl.
      rewrite decide_True by auto. f_equal. f_equal. f_equal.
      unfold p1, p2. rewrite Es. destruct (rcv i) as [[[s' c'] t']|]; reflexivity.
    - erewrite (conf_ext (upd _ _ _)); [apply reach_refl|].
      intros j _. assert (E : p1 i = h i).
      { rewrite Hh. unfold p1, p2, exch, bind. rewrite Es.
        destruct (rcv i) as [[[s' c'] t']|]; reflexivity. }
      rewrite E. apply upd_id. }
  eapply reach_trans.
  { (* receives *)
    apply (reach_sweep p1 (fun i => p2 i (got i)) chR (fun _ => st)).
    intros i Hi h Hh. cbn [chR]. unfold p1 in Hh. unfold got.
    destruct (rcv i) as [[[s c] t]|] eqn:Er.
    - destruct (H2 i s c t Hi Er) as (Hs & m & Es).
      apply reach_rank; auto. rewrite Hh. simpl.
      rewrite chR_lookup by (auto; lia). rewrite decide_False by lia.
      rewrite chS_lookup by auto. rewrite Es. rewrite decide_True by auto.
      simpl. reflexivity.
    - erewrite (conf_ext (upd _ _ _)); [apply reach_refl|].
      intros j _. rewrite <- Hh. apply upd_id. }
  { (* waits *)
    rewrite chR_empty by auto.
    apply (reach_sweep (fun i => p2 i (got i)) (fun i => k i (got i))
             (fun _ => ∅) (fun _ => st)).
    intros i Hi h Hh. unfold p2 in Hh.
    destruct (snd i) as [[[[d c] t] m]|] eqn:Es.
    - apply reach_rank; auto. rewrite Hh. simpl.
      rewrite decide_True by (right; apply lookup_empty). reflexivity.
    - erewrite (conf_ext (upd _ _ _)); [apply reach_refl|].
      intros j _. rewrite <- Hh. apply upd_id. }
Qed.

Lemma wp_exch st (Post : _ -> _ -> Prop) :
  matched -> Post st got -> wp st (fun i => exch (snd i) (rcv i)) Post.
Proof. intros Hm HP. exists st, got. split; auto. apply lock_exch; auto. Qed.
End Exch.

(** ** Whole programs *)

Lemma stuck_returned (a : nat -> O) ch st :
  0 < P -> stuck tag_ub eager (conf (fun i => Ret (a i)) ch st).
Proof.
  intros HP c' Hs. inversion Hs as [i c0 c1 Hr|ps ch' st' Hne Hall]; subst.
  - unfold rank_step in Hr. simpl in Hr.
    rewrite list_lookup_fmap in Hr. destruct (seq 0 P !! i); simpl in Hr; discriminate.
  - destruct P; [lia|]. simpl in Hall. inversion Hall; subst. auto.
Qed.

Lemma stuck_failed (e : nat -> exn) ch st :
  0 < P -> stuck tag_ub eager (conf (fun i => Fail (e i)) ch st).
Proof.
  intros HP c' Hs. inversion Hs as [i c0 c1 Hr|ps ch' st' Hne Hall]; subst.
  - unfold rank_step in Hr. simpl in Hr.
    rewrite list_lookup_fmap in Hr. destruct (seq 0 P !! i); simpl in Hr; discriminate.
  - destruct P; [lia|]. simpl in Hall. inversion Hall; subst. auto.
Qed.

Theorem wp_always_ends st (ps : nat -> prog O) (R W : nat -> loc -> Prop)
    (Post : gmap loc V -> (nat -> O) -> Prop) (Q : nat -> O -> Prop)
    (QS : gmap loc V -> Prop) :
  0 < P ->
  separate R W ->
  (forall i, i < P -> uses (R i) (W i) (ps i Ret)) ->
  wp st ps Post ->
  (forall st' a, Post st' a -> QS st' /\ forall i, i < P -> Q i (a i)) ->
  always_ends tag_ub eager (launch P ps st)
    (fun c => all_return Q c /\ length (procs c) = P /\ QS (store c)).
Proof.
  intros HP Hsep Hu (st' & a & Hl & HPost) HQ.
  destruct (HQ st' a HPost) as [HS Ha].
  destruct (Hl (fun _ => Ret)) as [n Hn].
  eapply (one_schedule_suffices tag_ub eager R W _ _ n); [| exact Hn | |].
  - split; auto. intros i p Hp. unfold launch in Hp. simpl in Hp.
    rewrite list_lookup_fmap in Hp.
    destruct (seq 0 P !! i) as [j|] eqn:E; simpl in Hp; [|discriminate].
    injection Hp as <-. apply lookup_seq in E. destruct E as [-> Hlt]. simpl.
    apply Hu; auto.
  - apply stuck_returned; auto.
  - simpl. split; [split|split]; auto.
    + intros i p Hp. simpl in Hp. rewrite list_lookup_fmap in Hp.
      destruct (seq 0 P !! i) as [j|] eqn:E; simpl in Hp; [|discriminate].
      injection Hp as <-. apply lookup_seq in E. destruct E as [-> Hlt].
      eexists; split; eauto.
    + rewrite fmap_length, seq_length. auto.
Qed.

(** ** Footprints of programs *)

Definition puses (R W : loc -> Prop) {A} (m : prog A) : Prop :=
  forall k, (forall a, uses R W (k a)) -> uses R W (m k).

Lemma puses_ret R W {A} (a : A) : puses R W (ret a).
Proof. intros k H. apply H. Qed.
Lemma puses_fail R W {A} e : puses R W (@fail M V O A e).
Proof. intros k H. exact I. Qed.
Lemma puses_lift R W {A} (r : res A) : puses R W (lift r).
Proof. destruct r; [apply puses_ret|apply puses_fail]. Qed.
Lemma puses_bind R W {A B} (m : prog A) (f : A -> prog B) :
  puses R W m -> (forall a, puses R W (f a)) -> puses R W (bind m f).
Proof. intros Hm Hf k Hk. apply Hm. intros a. apply Hf. exact Hk. Qed.
Lemma puses_isend R W d c t (m : M) : puses R W (isend d c t m).
Proof. intros k H. apply H. Qed.
Lemma puses_recv R W s c t : puses R W (recv s c t).
Proof. intros k H m. apply H. Qed.
Lemma puses_wait R W d c t (m : M) : puses R W (wait d c t m).
Proof. intros k H. apply H. Qed.
Lemma puses_barrier R W : puses R W barrier_op.
Proof. intros k H. apply H. Qed.
Lemma puses_get (R W : loc -> Prop) h : R h -> puses R W (get h).
Proof. intros Hh k H. split; auto. Qed.
Lemma puses_put (R W : loc -> Prop) h v : W h -> puses R W (put h v).
Proof. intros Hh k H. split; auto. Qed.
Lemma puses_for R W {A S} (l : list A) (body : A -> S -> prog S) : forall s,
  (forall x s, x ∈ l -> puses R W (body x s)) -> puses R W (for_loop l s body).
Proof.
  induction l as [|x l IH]; intros s H; simpl.
  - apply puses_ret.
  - apply puses_bind; [apply H; left|]. intros s'. apply IH.
    intros y s2 Hy. apply H. right. auto.
Qed.
Lemma puses_map R W {A B} (f : A -> prog B) (l : list A) :
  (forall x, x ∈ l -> puses R W (f x)) -> puses R W (map_prog f l).
Proof.
  induction l as [|x l IH]; intros H; simpl.
  - apply puses_ret.
  - apply puses_bind; [apply H; left|]. intros y. apply puses_bind.
    + apply IH. intros z Hz. apply H. right. auto.
    + intros ys. apply puses_ret.
Qed.
Lemma puses_exch R W snd rcv : puses R W (@exch M V O snd rcv).
Proof.
  unfold exch. apply puses_bind.
  - destruct snd as [[[[d c] t] m]|]; [apply puses_isend|apply puses_ret].
  - intros _. apply puses_bind.
    + destruct rcv as [[[s c] t]|]; [apply puses_bind; [apply puses_recv|intros; apply puses_ret]|apply puses_ret].
    + intros x. apply puses_bind; [|intros; apply puses_ret].
      destruct snd as [[[[d c] t] m]|]; [apply puses_wait|apply puses_ret].
Qed.
Lemma puses_uses R W (m : prog O) : puses R W m -> uses R W (m Ret).
Proof. intros H. apply H. intros; exact I. Qed.
Lemma separate_readonly (R : nat -> loc -> Prop) : separate R (fun _ _ => False).
Proof. intros i j h _ []. Qed.

End Lock.
