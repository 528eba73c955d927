(** Proofs about saving reduced-order models. *)
From stdpp Require Import gmap list.
From Coq Require Import Lia.
From Verif Require Import Prelude Spmd SpmdFacts SpmdLock SpmdAgree ReductionsModel ReductionsProofs.
From Verif Require Import TextModel TextProofs TextProps DecompIOModel DecompIOProofs ModelIOModel.
Open Scope nat_scope.

Section Rank0.
Context {T I O : Type} (show : T -> text) (read : text -> option T) (bits : I -> T).
Context (tag_ub : nat) (eager : option (array T I) -> bool) (P : nat).
Notation proc := (proc (option (array T I)) text O).
Notation saves a t := (save_array_text show bits a None = Ok t).
Notation conf := (conf P).
Notation steps := (@steps (option (array T I)) text O tag_ub eager).

Definition computed (l : list (array T I * loc)) : list (option (array T I) * loc) :=
  map (fun x => (Some x.1, x.2)) l.

Lemma put_reduced_0 a t dest (k : unit -> proc) : 1 < P -> saves a t ->
  put_reduced show bits P 0 (Some a) dest k = Put dest t (Barrier (k tt)).
Proof.
  intros HP E. unfold put_reduced, put_attr, put_array, bind, barrier. simpl. rewrite E. simpl.
  rewrite (proj2 (Nat.ltb_lt 1 P)) by auto. reflexivity.
Qed.
Lemma put_reduced_S a i dest (k : unit -> proc) : 1 < P -> 0 < i ->
  put_reduced show bits P i a dest k = Barrier (k tt).
Proof.
  intros HP Hi. unfold put_reduced, bind, barrier. rewrite (proj2 (Nat.eqb_neq i 0)) by lia.
  rewrite (proj2 (Nat.ltb_lt 1 P)) by auto. reflexivity.
Qed.
Lemma put_reduced_one a t dest (k : unit -> proc) : P = 1 -> saves a t ->
  put_reduced show bits P 0 (Some a) dest k = Put dest t (k tt).
Proof.
  intros -> E. unfold put_reduced, put_attr, put_array, bind, barrier. simpl. rewrite E. reflexivity.
Qed.

Lemma ends_put_reduced a t dest (k : nat -> unit -> proc) st Q : 0 < P -> saves a t ->
  always_ends tag_ub eager (conf (fun i => k i tt) ∅ (<[dest := t]> st)) Q ->
  always_ends tag_ub eager (conf (fun i => put_reduced show bits P i (Some a) dest (k i)) ∅ st) Q.
Proof.
  intros HP E H. destruct (decide (P = 1)) as [E1|N1].
  - eapply ends_step.
    + intros c1. eapply forced_put; [auto|apply put_reduced_one; eauto|]. intros i Hi. lia.
    + replace (conf _ ∅ _) with (conf (fun i => k i tt) ∅ (<[dest := t]> st)); auto.
      apply conf_ext. intros i Hi. replace i with 0 by lia. reflexivity.
  - eapply ends_step.
    + intros c1. eapply forced_put; [auto|apply put_reduced_0; eauto; lia|].
      intros i Hi. rewrite put_reduced_S by lia. eauto.
    + eapply ends_step; [|exact H]. intros c1. erewrite conf_ext; [apply forced_barrier; auto|].
      intros i Hi. unfold upd. destruct (decide (i = 0)) as [->|]; [reflexivity|]. rewrite put_reduced_S by lia. reflexivity.
Qed.

Lemma ends_put_reduced_each l : forall ts (k : nat -> unit -> proc) st Q, 0 < P ->
  Forall2 (fun x t => saves x.1 t) l ts ->
  always_ends tag_ub eager (conf (fun i => k i tt) ∅ (put_store l ts st)) Q ->
  always_ends tag_ub eager (conf (fun i => put_reduced_each show bits P i (computed l) (k i)) ∅ st) Q.
Proof.
  induction l as [|[a d] l IH]; intros ts k st Q HP HF H; inversion HF as [|x t l' ts' E HF' E1 E2]; subst.
  - exact H.
  - simpl in H. cbn [computed map put_reduced_each fst snd]. unfold bind at 1.
    apply (ends_put_reduced a t d (fun i _ => put_reduced_each show bits P i (computed l) (k i))); auto.
    eapply IH; eauto.
Qed.
Lemma put_reduced_app i l l' (k : unit -> proc) :
  put_reduced_each show bits P i (l ++ l') k
  = put_reduced_each show bits P i l (fun _ => put_reduced_each show bits P i l' k).
Proof.
  induction l as [|[a d] l IH]; [reflexivity|]. simpl. unfold bind. rewrite IH. reflexivity.
Qed.
(** The part already written when an attribute is missing or cannot be written. *)
Lemma ends_put_reduced_fail l1 ts a e dest l2 st : 1 < P ->
  Forall2 (fun x t => saves x.1 t) l1 ts ->
  (a = None /\ e = TypeError \/ exists b, a = Some b /\ save_array_text show bits b None = Raise e) ->
  forall k : nat -> unit -> proc,
  always_ends tag_ub eager
    (conf (fun i => put_reduced_each show bits P i (computed l1 ++ (a, dest) :: l2) (k i)) ∅ st)
    (fun c => procs c !! 0 = Some (Fail e) /\ store c = put_store l1 ts st /\
       forall i, 0 < i < P -> exists k, procs c !! i = Some (Barrier k)).
Proof.
  intros HP HF Ha k.
  replace (conf (fun i => put_reduced_each show bits P i (computed l1 ++ (a, dest) :: l2) (k i)) ∅ st)
    with (conf (fun i => put_reduced_each show bits P i (computed l1)
      (fun _ => put_reduced_each show bits P i ((a, dest) :: l2) (k i))) ∅ st).
  2: { apply conf_ext. intros i _. symmetry. apply put_reduced_app. }
  eapply (ends_put_reduced_each l1 ts (fun i _ => put_reduced_each show bits P i ((a, dest) :: l2) (k i))); eauto; [lia|].
  set (st' := put_store l1 ts st).
  set (f := fun i => if i =? 0 then Fail e else Barrier (put_reduced_each show bits P i l2 (k i)) : proc).
  rewrite (conf_ext P _ f).
  2: { intros i Hi. cbn [put_reduced_each]. unfold bind at 1, f. destruct i as [|i].
    - unfold put_reduced, bind. simpl. destruct Ha as [[-> ->]|(b & -> & E)]; [reflexivity|].
      unfold put_attr, put_array, bind. rewrite E. reflexivity.
    - rewrite put_reduced_S by lia. reflexivity. }
  apply ends_stuck.
  - intros c' Hs. inversion Hs as [i c0 c1 Hr|ps' ch' st2 Hne Hall]; subst.
    + unfold rank_step in Hr. simpl in Hr. rewrite list_lookup_fmap in Hr.
      destruct (seq 0 P !! i) as [x|]; simpl in Hr; [|discriminate]. unfold f in Hr.
      destruct (x =? 0); discriminate.
    + pose proof (conf_lookup P f ∅ st' 0 ltac:(lia)) as L0. simpl in L0.
      pose proof (Forall_lookup_1 _ _ _ _ Hall L0) as Hb. exact Hb.
  - split; [|split; [reflexivity|]].
    + rewrite conf_lookup by lia. reflexivity.
    + intros i Hi. rewrite conf_lookup by lia. unfold f. rewrite (proj2 (Nat.eqb_neq i 0)) by lia. eauto.
Qed.

(** Every execution writes all the files before any rank goes on. *)
Definition writing (d : config (option (array T I)) text O) : Prop :=
  forall i, i < P -> exists k', procs d !! i = Some (Barrier k') \/
    exists dest v, procs d !! i = Some (Put dest v (Barrier k')).
Lemma puts_first l : forall ts (k : nat -> unit -> proc) st n d, 1 < P ->
  Forall2 (fun x t => saves x.1 t) l ts ->
  steps n (conf (fun i => put_reduced_each show bits P i (computed l) (k i)) ∅ st) d ->
  (n < 2 * length l /\ writing d) \/
  (exists m, n = 2 * length l + m /\ steps m (conf (fun i => k i tt) ∅ (put_store l ts st)) d).
Proof.
  induction l as [|[a dst] l IH]; intros ts k st n d HP HF Hs; inversion HF as [|x t l' ts' E HF' E1 E2]; subst.
  - right. exists n. auto.
  - cbn [computed map put_reduced_each fst snd] in Hs. unfold bind at 1 in Hs. simpl in E.
    assert (EC : conf (fun i => put_reduced show bits P i (Some a) dst
        (fun _ => put_reduced_each show bits P i (map (fun x => (Some x.1, x.2)) l) (k i))) ∅ st
      = conf (put_then P dst t (fun i _ => put_reduced_each show bits P i (computed l) (k i))) ∅ st).
    { apply conf_ext. intros i Hi. destruct i as [|i].
      - rewrite (put_reduced_0 a t) by auto. rewrite put_then_0 by auto. reflexivity.
      - rewrite put_reduced_S by lia. rewrite put_then_S by lia. reflexivity. }
    rewrite EC in Hs.
    destruct (put_first tag_ub eager P dst t _ st n d HP Hs) as [[Hn Hw]|(m & -> & Hm)].
    + left. split; [simpl; lia|]. intros i Hi. destruct (Hw i Hi) as (k' & [H|H]); exists k'; eauto.
    + destruct (IH ts' k (<[dst := t]> st) m d HP HF' Hm) as [[Hn Hw]|(m' & -> & Hm')].
      * left. split; [simpl; lia|]. auto.
      * right. exists m'. split; [simpl; lia|]. exact Hm'.
Qed.

(** Two files, then the barrier. *)
Lemma ends_put_two a t b u dest dest' (k : nat -> unit -> proc) st Q : 0 < P -> saves a t -> saves b u ->
  always_ends tag_ub eager (conf (fun i => k i tt) ∅ (<[dest' := u]> (<[dest := t]> st))) Q ->
  always_ends tag_ub eager (conf (fun i => put_two_method show bits P i a b dest dest' (k i)) ∅ st) Q.
Proof.
  intros HP0 E E' H. destruct (decide (P = 1)) as [E1|HP1].
  { assert (H0 : put_two_method show bits P 0 a b dest dest' (k 0) = Put dest t (Put dest' u (k 0 tt))).
    { unfold put_two_method, put_array, bind, barrier. simpl. rewrite E. simpl. rewrite E', E1. reflexivity. }
    eapply ends_step.
    { intros c1. eapply forced_put; [lia|exact H0|]. intros i Hi. lia. }
    eapply ends_step.
    { intros c1. eapply forced_put; [lia|reflexivity|]. intros i Hi. lia. }
    erewrite conf_ext; [exact H|]. intros i Hi. assert (i = 0) as -> by lia. reflexivity. }
  assert (HP : 1 < P) by lia. clear HP0 HP1.
  assert (HS : forall i, 0 < i -> put_two_method show bits P i a b dest dest' (k i) = Barrier (k i tt)).
  { intros i Hi. unfold put_two_method, bind, barrier. rewrite (proj2 (Nat.eqb_neq i 0)) by lia.
    rewrite (proj2 (Nat.ltb_lt 1 P)) by auto. reflexivity. }
  assert (H0 : put_two_method show bits P 0 a b dest dest' (k 0) = Put dest t (Put dest' u (Barrier (k 0 tt)))).
  { unfold put_two_method, put_array, bind, barrier. simpl. rewrite E. simpl. rewrite E'. simpl.
    rewrite (proj2 (Nat.ltb_lt 1 P)) by auto. reflexivity. }
  eapply ends_step.
  { intros c1. eapply forced_put; [lia|exact H0|]. intros i Hi. rewrite HS by lia. eauto. }
  eapply ends_step.
  { intros c1. eapply forced_put; [lia|reflexivity|]. intros i Hi. unfold upd. destruct (decide (i = 0)); [lia|].
    rewrite HS by lia. eauto. }
  eapply ends_step; [|exact H]. intros c1. erewrite conf_ext; [apply forced_barrier; lia|].
  intros i Hi. unfold upd. destruct (decide (i = 0)) as [->|]; [reflexivity|]. rewrite HS by lia. reflexivity.
Qed.
End Rank0.

Section Loads.
Context {T I : Type} (show : T -> text) (read : text -> option T) (bits : I -> T).
Context (tag_ub : nat) (eager : option (array T I) -> bool) (P : nat) (HP : 0 < P).
Notation results := (list (option (array T I))).

(** Reading files that are there, by every rank. *)
Lemma wp_load_files l : forall st bs,
  Forall2 (fun src b => exists t, st !! src = Some t /\ load_array_text read t None false = Ok b) l bs ->
  wp (O := results) tag_ub eager P st (fun _ => load_files read l)
    (fun st' r => st' = st /\ forall i, i < P -> r i = map Some bs).
Proof.
  induction l as [|src l IH]; intros st bs HF; inversion HF as [|x b l' bs' (t & E & E') HF' E1 E2]; subst.
  - apply (wp_ret tag_ub eager P st (fun _ => [])). auto.
  - cbn [load_files].
    eapply wp_bind with (Q := fun st' r => st' = st /\ forall i, i < P -> r i = Some b).
    + apply (wp_read tag_ub eager P st _ (fun _ => Some b)); auto.
      intros i Hi. unfold get_array. eapply local_bind; [apply local_get; exact E|].
      cbn beta. rewrite E'. apply local_ret.
    + intros st' r [-> Hr]. eapply wp_bind; [apply IH; eauto|].
      intros st' r' [-> Hr']. apply wp_results. apply (wp_ret tag_ub eager P st).
      exists (fun i => r i :: r' i). split; auto. split; auto.
      intros i Hi. rewrite Hr, Hr' by auto. reflexivity.
Qed.
Lemma puses_load_files l :
  @puses (option (array T I)) text results (fun _ => True) (fun _ => False) _ (load_files read l).
Proof.
  induction l as [|src l IH]; simpl; [apply puses_ret|].
  apply puses_bind.
  - unfold get_array. apply puses_bind; [apply puses_get; exact Logic.I|]. intros t.
    apply puses_bind; [apply puses_lift|]. intros; apply puses_ret.
  - intros a. apply puses_bind; [exact IH|]. intros; apply puses_ret.
Qed.
Lemma ends_load_files l st bs :
  Forall2 (fun src b => exists t, st !! src = Some t /\ load_array_text read t None false = Ok b) l bs ->
  always_ends tag_ub eager (conf P (fun _ => load_files read l Ret) ∅ st)
    (fun c => all_return (fun _ r => r = map Some bs) c /\ length (procs c) = P /\ store c = st).
Proof.
  intros HF. apply (ends_readonly tag_ub eager P (fun _ => load_files read l) st (fun _ r => r = map Some bs)); auto.
  - intros i _. apply puses_load_files.
  - apply wp_load_files. exact HF.
Qed.
End Loads.

(** The same files written by every rank. *)
Section Every.
Context {T I O : Type} (show : T -> text) (read : text -> option T) (bits : I -> T).
Notation saves a t := (save_array_text show bits a None = Ok t).
Notation proc := (proc (option (array T I)) text O).
Context (L : loc -> text -> Prop) (must : list (loc * text)) (Q : O -> Prop) (E : exn -> Prop).
Notation agreed := (@agreed (option (array T I)) text O L must Q E).

Lemma agreed_weaken w w' (p : proc) n : (forall x, x ∈ w -> x ∈ w') -> agreed w p n -> agreed w' p n.
Proof.
  intros Hw H. revert w' Hw. induction H as [w o HQ Hm|w e HE|w h v p n HL H IH|w h v k n Hin H IH]; intros w' Hw.
  - apply ag_ret; auto.
  - apply ag_fail; auto.
  - apply ag_put; auto. apply IH. intros x Hx. apply elem_of_cons in Hx as [->|Hx]; [apply elem_of_list_here|].
    apply elem_of_list_further. auto.
  - eapply ag_get; eauto.
Qed.
Lemma agreed_puts l : forall ts w (k : unit -> proc),
  Forall2 (fun x t => saves x.1 t /\ L x.2 t) l ts ->
  (forall w', (forall x, x ∈ zip l.*2 ts -> x ∈ w') -> (forall x, x ∈ w -> x ∈ w') -> exists n, agreed w' (k tt) n) ->
  exists n, agreed w (put_attrs show bits (computed l) k) n.
Proof.
  induction l as [|[a d] l IH]; intros ts w k HF Hk; inversion HF as [|x t l' ts' [E1 E2] HF' E3 E4]; subst.
  - simpl. apply Hk; [intros x Hx; inversion Hx|auto].
  - simpl in E1, E2. destruct (IH ts' ((d, t) :: w) k HF') as (n & Hn).
    + intros w' H1 H2. apply Hk.
      * intros x Hx. simpl in Hx. apply elem_of_cons in Hx as [->|Hx]; [|auto]. apply H2. apply elem_of_list_here.
      * intros x Hx. apply H2. apply elem_of_list_further. auto.
    + exists (S n). simpl. unfold bind, put_array, bind. rewrite E1. simpl. unfold put. apply ag_put; auto.
Qed.
Lemma agreed_puts_fail l1 ts a e dest l2 w (k : unit -> proc) :
  Forall2 (fun x t => saves x.1 t /\ L x.2 t) l1 ts -> E e ->
  (a = None /\ e = TypeError \/ exists b, a = Some b /\ save_array_text show bits b None = Raise e) ->
  exists n, agreed w (put_attrs show bits (computed l1 ++ (a, dest) :: l2) k) n.
Proof.
  intros HF HE Ha.
  assert (EQ : put_attrs show bits (computed l1 ++ (a, dest) :: l2) k
    = put_attrs show bits (computed l1) (fun _ => put_attrs show bits ((a, dest) :: l2) k)).
  { clear. induction l1 as [|[b d] l IH]; [reflexivity|]. simpl. unfold bind. rewrite IH. reflexivity. }
  rewrite EQ. eapply agreed_puts; [exact HF|]. intros w' _ _. exists 0. simpl. unfold bind.
  destruct Ha as [[-> ->]|(b & -> & EE)]; [apply ag_fail; auto|].
  simpl. unfold put_array, bind. rewrite EE. apply ag_fail. auto.
Qed.
End Every.

Section EveryLoads.
Context {T I : Type} (show : T -> text) (read : text -> option T) (bits : I -> T).
Notation results := (list (option (array T I))).
Context (L : loc -> text -> Prop) (must : list (loc * text)) (Q : results -> Prop) (E : exn -> Prop).
Notation agreed := (@agreed (option (array T I)) text results L must Q E).
Lemma agreed_loads l : forall bs w (k : results -> proc _ _ _),
  Forall2 (fun src b => exists t, (src, t) ∈ w /\ load_array_text read t None false = Ok b) l bs ->
  (exists n, agreed w (k (map Some bs)) n) ->
  exists n, agreed w (load_files read l k) n.
Proof.
  induction l as [|src l IH]; intros bs w k HF Hk; inversion HF as [|x b l' bs' (t & Ht & E1) HF' E3 E4]; subst.
  - exact Hk.
  - destruct (IH bs' w (fun r => k (Some b :: r)) HF' Hk) as (n & Hn).
    exists (S n). simpl. unfold bind, get_array, bind, get. eapply ag_get; [exact Ht|]. rewrite E1. exact Hn.
Qed.
End EveryLoads.
