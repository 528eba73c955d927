(** Proofs about saving and loading decompositions. *)
From stdpp Require Import gmap list.
From Coq Require Import Lia.
From Verif Require Import Prelude Spmd SpmdFacts SpmdLock ReductionsModel ReductionsProofs.
From Verif Require Import TextModel TextProofs TextProps DecompIOModel.
Open Scope nat_scope.

Section Proofs.
Context {T I O : Type} (show : T -> text) (read : text -> option T) (bits : I -> T).
Context (tag_ub : nat) (eager : option (array T I) -> bool) (P : nat) (HP : 0 < P).
Notation wp := (@wp (option (array T I)) text O tag_ub eager P).

(** [a] can be written to a file that reads as [b]. *)
Definition loads_as (a b : array T I) : Prop :=
  exists t, save_array_text show bits a None = Ok t /\ load_array_text read t None false = Ok b.

Lemma wp_put_method st a dest t : save_array_text show bits a None = Ok t ->
  wp st (fun i => put_method show bits P i a dest) (fun st' _ => st' = <[dest := t]> st).
Proof.
  intros E. unfold put_method, put_array. rewrite E.
  eapply wp_bind with (Q := fun st' _ => st' = <[dest := t]> st).
  - eapply (wp_rank_zero tag_ub eager P st (<[dest := t]> st) _ (fun _ => tt)); auto.
    + intros k. simpl. apply alone_put. apply alone_done.
    + intros [|i] k Hi; [lia|]. reflexivity.
  - intros st' u ->. apply wp_par_barrier; auto.
Qed.

Lemma wp_get_method st src sq t b : st !! src = Some t -> load_array_text read t None false = Ok b ->
  wp st (fun i => get_method read P i src sq)
    (fun st' r => st' = st /\ forall i, i < P -> r i = Some (if sq then squeeze b else b)).
Proof.
  intros Ht E. unfold get_method.
  eapply wp_bind with (Q := fun st' r => st' = st /\ forall i, i < P -> r i = Some b).
  - unfold call_and_bcast.
    eapply wp_bind with (Q := fun st' r => st' = st /\ r 0 = Some b).
    + eapply (wp_rank_zero tag_ub eager P st st _ (fun i => if i =? 0 then Some b else None)); auto.
      * intros k. simpl. unfold get_array, bind. eapply alone_get; [exact Ht|]. rewrite E. apply alone_done.
      * intros [|i] k Hi; [lia|]. reflexivity.
    + intros st' r [-> Hr]. destruct (Nat.ltb_spec 1 P).
      * apply wp_bcast; auto. intros a Ha. split; auto. intros i Hi. rewrite Ha by auto. exact Hr.
      * apply (wp_ret tag_ub eager P st r). split; auto. intros i Hi. replace i with 0 by lia. exact Hr.
  - intros st' r [-> Hr]. apply (wp_ret tag_ub eager P st). split; auto.
    intros i Hi. rewrite Hr by auto. destruct sq; reflexivity.
Qed.

Fixpoint put_store (l : list (array T I * loc)) (ts : list text) (st : gmap loc text) : gmap loc text :=
  match l, ts with
  | (_, dest) :: l, t :: ts => put_store l ts (<[dest := t]> st)
  | _, _ => st
  end.
Lemma put_store_other l : forall ts st h, h ∉ l.*2 -> put_store l ts st !! h = st !! h.
Proof.
  induction l as [|[a d] l IH]; intros [|t ts] st h Hh; simpl; auto.
  simpl in Hh. apply not_elem_of_cons in Hh as [H1 H2]. rewrite IH by auto. apply lookup_insert_ne. auto.
Qed.
Lemma put_store_in l : forall ts st a d, NoDup l.*2 ->
  Forall2 (fun x t => save_array_text show bits x.1 None = Ok t) l ts -> (a, d) ∈ l ->
  exists t, put_store l ts st !! d = Some t /\ save_array_text show bits a None = Ok t.
Proof.
  induction l as [|[a' d'] l IH]; intros ts st a d Hnd HF Hin; [inversion Hin|].
  inversion HF as [|x t l' ts' E HF' E1 E2]; subst. simpl in *. apply NoDup_cons in Hnd as [Hn Hnd].
  apply elem_of_cons in Hin as [Heq|Hin].
  - injection Heq as -> ->. exists t. split; auto. rewrite put_store_other by auto. apply lookup_insert.
  - eapply IH; eauto.
Qed.

Lemma wp_put_each l : forall ts st,
  Forall2 (fun x t => save_array_text show bits x.1 None = Ok t) l ts ->
  wp st (fun i => put_each show bits P i l) (fun st' _ => st' = put_store l ts st).
Proof.
  induction l as [|[a d] l IH]; intros ts st HF; inversion HF as [|x t l' ts' E HF' E1 E2]; subst; simpl.
  - apply (wp_ret tag_ub eager P st (fun _ => tt)). reflexivity.
  - eapply wp_bind; [apply (wp_put_method st a d t E)|]. intros st' u ->. apply IH; auto.
Qed.

Lemma wp_get_each l : forall st bs,
  Forall2 (fun x b => exists t, st !! x.1 = Some t /\ load_array_text read t None false = Ok b) l bs ->
  wp st (fun i => get_each read P i l)
    (fun st' r => st' = st /\ forall i, i < P ->
       r i = zip_with (fun x b => Some (if (x.2 : bool) then squeeze b else b)) l bs).
Proof.
  induction l as [|[src sq] l IH]; intros st bs HF; inversion HF as [|x b l' bs' (t & E & E') HF' E1 E2]; subst.
  - apply (wp_ret tag_ub eager P st (fun _ => [])). auto.
  - cbn [get_each]. eapply wp_bind; [apply (wp_get_method st src sq t b); auto|].
    intros st' r [-> Hr]. eapply wp_bind; [apply IH; eauto|].
    intros st' r' [-> Hr']. apply wp_results. apply (wp_ret tag_ub eager P st).
    exists (fun i => r i :: r' i). split; auto. split; auto.
    intros i Hi. rewrite Hr, Hr' by auto. reflexivity.
Qed.

Lemma puses_get_method i src sq : i <> 0 ->
  @puses (option (array T I)) text O (fun _ => False) (fun _ => False) _ (get_method read P i src sq).
Proof.
  intros Hi. unfold get_method, call_and_bcast. rewrite (proj2 (Nat.eqb_neq i 0) Hi).
  apply puses_bind; [|intros; apply puses_ret].
  apply puses_bind; [apply puses_ret|]. intros m. destruct (1 <? P); [apply puses_bcast|apply puses_ret].
Qed.
Lemma puses_get_each i l : i <> 0 ->
  @puses (option (array T I)) text O (fun _ => False) (fun _ => False) _ (get_each read P i l).
Proof.
  intros Hi. induction l as [|[src sq] l IH]; simpl; [apply puses_ret|].
  apply puses_bind; [apply puses_get_method; auto|]. intros a.
  apply puses_bind; [exact IH|]. intros; apply puses_ret.
Qed.
Lemma puses_put_each i l : i <> 0 ->
  @puses (option (array T I)) text O (fun _ => False) (fun _ => False) _ (put_each show bits P i l).
Proof.
  intros Hi. induction l as [|[a d] l IH]; simpl; [apply puses_ret|].
  apply puses_bind; [|intros; exact IH]. unfold put_method. rewrite (proj2 (Nat.eqb_neq i 0) Hi).
  apply puses_bind; [apply puses_ret|]. intros; apply puses_par_barrier.
Qed.

End Proofs.

Section Trip.
Context {T I : Type} (show : T -> text) (read : text -> option T) (bits : I -> T).
Context (tag_ub : nat) (eager : option (array T I) -> bool) (P : nat) (HP : 0 < P).

(** The arrays [puts] are saved, the files [gets] are read: every rank gets what the files
    read as, and no other file has changed. *)
Lemma put_get_each (puts : list (array T I * loc)) (gets : list (loc * bool)) (bs : list (array T I))
    (results : list (option (array T I))) (files : list loc) st :
  NoDup puts.*2 -> (forall h, h ∉ files -> h ∉ puts.*2) ->
  Forall (fun x => exists b, loads_as show read bits x.1 b) puts ->
  Forall2 (fun x b => exists a, (a, x.1) ∈ puts /\ loads_as show read bits a b) gets bs ->
  results = zip_with (fun x b => Some (if (x.2 : bool) then squeeze b else b)) gets bs ->
  always_ends tag_ub eager
    (launch P (fun i => bind (put_each show bits P i puts) (fun _ => get_each read P i gets)) st)
    (fun c => all_return (fun _ r => r = results) c /\ length (procs c) = P /\
              forall h, h ∉ files -> store c !! h = st !! h).
Proof.
  intros Hnd Hfiles Hs HF ->.
  apply (ends_rank_zero tag_ub eager P _ st
    (fun _ r => r = zip_with (fun x b => Some (if (x.2 : bool) then squeeze b else b)) gets bs)
    (fun s => forall h, h ∉ files -> s !! h = st !! h)); auto.
  { intros i Hi. apply puses_bind; [apply puses_put_each; lia|]. intros; apply puses_get_each; lia. }
  assert (G : exists ts, Forall2 (fun x t => save_array_text show bits x.1 None = Ok t) puts ts).
  { clear -Hs. induction Hs as [|x l (b & t & E & _) _ (ts & IH)]; [exists []; constructor|].
    exists (t :: ts). constructor; auto. }
  destruct G as [ts Hts].
  eapply wp_bind; [apply wp_put_each; eauto|]. intros st' u ->.
  eapply wp_mono.
  - apply wp_get_each with (bs := bs); auto.
    eapply Forall2_impl; [exact HF|]. intros [src sq] b (a & Hin & t & E & E').
    destruct (put_store_in show bits puts ts st a src Hnd Hts Hin) as (t' & H1 & H2).
    exists t. rewrite E in H2. injection H2 as <-. auto.
  - intros st' r [-> Hr]. split; auto. intros h Hh. apply put_store_other; auto.
Qed.

End Trip.
