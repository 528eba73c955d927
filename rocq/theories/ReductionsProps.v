(** Properties C08, C09, C10 and C42. *)
From stdpp Require Import gmap list.
From Coq Require Import Lia.
From Verif Require Import Prelude Spmd SpmdFacts SpmdLock ReductionsModel ReductionsProofs.

(** Specification: [x lo op x (lo+1) op ... op x (lo+n-1)], from the left. *)
Definition ordered_fold {M} (op : M -> M -> M) (x : nat -> M) (n : nat) : M :=
  fold_left op (map x (seq 1 (n - 1))) (x 0).
Definition associative {M} (op : M -> M -> M) : Prop :=
  forall a b c, op a (op b c) = op (op a b) c.

(** What "[f] called on all [P] ranks gives [Q i] on rank [i]" means: every
    schedule ends, never in an exception or a deadlock, no message is left over
    and nothing was written. *)
Definition collective {M V O} (tag_ub : nat) (eager : M -> bool) (P : nat)
    (f : nat -> prog M V O O) (Q : nat -> O -> Prop) : Prop :=
  forall st : gmap loc V,
    always_ends tag_ub eager (launch P f st)
      (fun c => all_return Q c /\ length (procs c) = P /\ store c = st).

(** * C08 *)

Theorem C08_reduce {M V} tag_ub (eager : M -> bool) P op root (x : nat -> M) :
  root < P -> associative op ->
  collective (V := V) tag_ub eager P (fun i => reduce P tag_ub op root i (x i))
    (fun i o => o = if decide (i = root) then Some (ordered_fold op x P) else None).
Proof.
  intros Hr Ha st. apply ends_no_store; [lia|intros; apply puses_reduce|].
  apply wp_reduce; auto. intros a H. split; auto.
  intros i Hi. rewrite H by auto. rewrite reduce_value_spec by (auto; lia). reflexivity.
Qed.

Theorem C08_allreduce {M V} tag_ub (eager : M -> bool) P op (x : nat -> M) :
  0 < P -> associative op ->
  collective (V := V) tag_ub eager P (fun i => allreduce P tag_ub op i (x i))
    (fun i o => o = ordered_fold op x P).
Proof.
  intros HP Ha st. apply ends_no_store; [lia|intros; apply puses_allreduce|].
  apply wp_allreduce; auto. intros a H. split; auto.
  intros i Hi. rewrite H by auto. apply reduce_value_spec; auto.
Qed.

(** Whatever the operation (floating-point addition, say), all ranks agree. *)
Theorem C08_allreduce_agree {M V} tag_ub (eager : M -> bool) P op (x : nat -> M) :
  0 < P ->
  exists v, collective (V := V) tag_ub eager P
    (fun i => allreduce P tag_ub op i (x i)) (fun i o => o = v).
Proof.
  intros HP. exists (reduce_value P op x). intros st.
  apply ends_no_store; [lia|intros; apply puses_allreduce|].
  apply wp_allreduce; auto.
Qed.

(** Instance: concatenation, which does not commute, on five ranks. *)
Example C08_example_assoc : associative (@app nat).
Proof. intros a b c. apply app_assoc. Qed.
Example C08_example (V : Type) tag_ub eager :
  collective (V := V) tag_ub eager 5
    (fun i => reduce 5 tag_ub (@app nat) 3 i [i; 10 * i])
    (fun i o => o = if decide (i = 3)
       then Some [0; 0; 1; 10; 2; 20; 3; 30; 4; 40] else None).
Proof.
  exact (C08_reduce tag_ub eager 5 (@app nat) 3 (fun i => [i; 10 * i])
           ltac:(lia) C08_example_assoc).
Qed.

Example C08_allreduce_example (V : Type) tag_ub eager :
  collective (V := V) tag_ub eager 5 (fun i => allreduce 5 tag_ub (@app nat) i [i; 10 * i])
    (fun _ o => o = [0; 0; 1; 10; 2; 20; 3; 30; 4; 40]).
Proof. exact (C08_allreduce tag_ub eager 5 (@app nat) (fun i => [i; 10 * i]) ltac:(lia) C08_example_assoc). Qed.
(** Subtraction is not associative. *)
Example C08_allreduce_agree_example (V : Type) tag_ub eager : exists v,
  collective (V := V) tag_ub eager 5 (fun i => allreduce 5 tag_ub Nat.sub i (2 ^ i)) (fun _ o => o = v).
Proof. apply (C08_allreduce_agree tag_ub eager 5 Nat.sub (fun i => 2 ^ i)). lia. Qed.

(** * C09 *)

Theorem C09_scan {M V} tag_ub (eager : M -> bool) P op (x : nat -> M) :
  0 < P -> associative op ->
  collective (V := V) tag_ub eager P (fun i => scan P tag_ub op i (x i))
    (fun i o => o = ordered_fold op x (i + 1)).
Proof.
  intros HP Ha st. apply ends_no_store; [lia|intros; apply puses_scan|].
  apply wp_scan; auto.
Qed.

Theorem C09_exscan {M V} tag_ub (eager : M -> bool) P op (x : nat -> M) :
  0 < P -> associative op ->
  collective (V := V) tag_ub eager P (fun i => exscan P tag_ub op i (x i))
    (fun i o => o = if i =? 0 then None else Some (ordered_fold op x i)).
Proof.
  intros HP Ha st. apply ends_no_store; [lia|intros; apply puses_exscan|].
  apply wp_exscan; auto.
Qed.

Example C09_example (V : Type) tag_ub eager :
  collective (V := V) tag_ub eager 6
    (fun i => exscan 6 tag_ub (@app nat) i [i])
    (fun i o => o = if i =? 0 then None
       else Some (ordered_fold (@app nat) (fun i => [i]) i)) /\
  ordered_fold (@app nat) (fun i => [i]) 5 = [0; 1; 2; 3; 4].
Proof.
  split; [|reflexivity].
  exact (C09_exscan tag_ub eager 6 (@app nat) (fun i => [i]) ltac:(lia) C08_example_assoc).
Qed.

Example C09_scan_example (V : Type) tag_ub eager :
  collective (V := V) tag_ub eager 6 (fun i => scan 6 tag_ub (@app nat) i [i; 7])
    (fun i o => o = ordered_fold (@app nat) (fun i => [i; 7]) (i + 1)) /\
  ordered_fold (@app nat) (fun i => [i; 7]) (2 + 1) = [0; 7; 1; 7; 2; 7].
Proof.
  split; [|reflexivity].
  exact (C09_scan tag_ub eager 6 (@app nat) (fun i => [i; 7]) ltac:(lia) C08_example_assoc).
Qed.

(** * C10 *)

(** [sequential st call st' v]: run by one process alone, using only get and
    put, [call] turns the store [st] into [st'] and returns [v]. *)
Definition sequential {M V O A} (st : gmap loc V) (call : prog M V O A)
    (st' : gmap loc V) (v : A) : Prop :=
  forall k, alone st (call k) st' (k v).
Definition sequential_raises {M V O A} (st : gmap loc V) (call : prog M V O A)
    (st' : gmap loc V) (e : exn) : Prop :=
  forall k, alone st (call k) st' (Fail e).

(** Rank zero's call is made once (the final store is that of one run) and its
    value is returned on every rank; the calls of other ranks are not made. *)
Theorem C10_call_and_bcast {M V} tag_ub (eager : M -> bool) P none
    (call : nat -> prog M V M M) st st' v :
  0 < P -> sequential st (call 0) st' v ->
  always_ends tag_ub eager
    (launch P (fun i => call_and_bcast P none i (call i)) st)
    (fun c => all_return (fun _ o => o = v) c /\ length (procs c) = P /\ store c = st').
Proof. exact (call_and_bcast_ends tag_ub eager P none call st st' v). Qed.

Theorem C10_bcast {M V} tag_ub (eager : M -> bool) P none (vals : nat -> M) :
  0 < P ->
  collective (V := V) tag_ub eager P (fun i => par_bcast P none i (vals i))
    (fun i o => o = vals 0).
Proof. exact (par_bcast_ends tag_ub eager P none vals). Qed.

Theorem C10_call_from_rank_zero {M V A} tag_ub (eager : M -> bool) P
    (call : nat -> prog M V (option A) A) st st' v :
  0 < P -> sequential st (call 0) st' v ->
  always_ends tag_ub eager
    (launch P (fun i => call_from_rank_zero i (call i)) st)
    (fun c => all_return (fun i o => o = if i =? 0 then Some v else None) c /\
              length (procs c) = P /\ store c = st').
Proof. exact (call_from_rank_zero_ends tag_ub eager P call st st' v). Qed.

(** If rank zero's call raises, every other rank waits for a message for ever. *)
Theorem C10_call_and_bcast_raising {M V} tag_ub (eager : M -> bool) P none
    (call : nat -> prog M V M M) st st' e :
  1 < P -> sequential_raises st (call 0) st' e ->
  always_ends tag_ub eager
    (launch P (fun i => call_and_bcast P none i (call i)) st)
    (fun c => procs c !! 0 = Some (Fail e) /\ store c = st' /\
       forall i, 0 < i < P -> exists k, procs c !! i = Some (Recv 0 1 0 k)).
Proof. exact (call_and_bcast_blocks tag_ub eager P none call st st' e). Qed.

(** Instance: rank zero reads location 4 and increments it. *)
Example C10_example eager :
  let call := fun _ : nat => bind (get 4) (fun x => bind (put 4 (x + 1)) (fun _ => ret (x * 2)))
    : prog nat nat nat nat in
  always_ends 100 eager (launch 3 (fun i => call_and_bcast 3 0 i (call i)) {[4 := 7]})
    (fun c => all_return (fun _ o => o = 14) c /\ length (procs c) = 3 /\
              store c = {[4 := 8]}).
Proof.
  apply (C10_call_and_bcast 100 eager 3 0 _ {[4 := 7]} {[4 := 8]} 14); [lia|].
  intros k. eapply alone_get; [apply lookup_singleton|]. simpl.
  apply alone_put. rewrite insert_singleton. apply alone_done.
Qed.
Example C10_bcast_example (V : Type) eager :
  collective (V := V) 100 eager 4 (fun i => par_bcast 4 9 i (i + 5)) (fun _ o => o = 5).
Proof. apply (C10_bcast 100 eager 4 9 (fun i => i + 5)). lia. Qed.
(** Only rank zero's increment is made. *)
Example C10_call_from_rank_zero_example (eager : nat -> bool) :
  let call := fun i : nat => bind (get 4) (fun x => bind (put 4 (x + 1 + i)) (fun _ => ret (x * 2)))
    : prog nat nat (option nat) nat in
  always_ends 100 eager (launch 3 (fun i => call_from_rank_zero i (call i)) {[4 := 7]})
    (fun c => all_return (fun i o => o = if i =? 0 then Some 14 else None) c /\ length (procs c) = 3 /\
              store c = {[4 := 8]}).
Proof.
  apply (C10_call_from_rank_zero 100 eager 3 _ {[4 := 7]} {[4 := 8]} 14); [lia|].
  intros k. eapply alone_get; [apply lookup_singleton|]. simpl.
  apply alone_put. rewrite insert_singleton. apply alone_done.
Qed.
Example C10_example_raising eager :
  let call := fun _ : nat => get 5 : prog nat nat nat nat in
  always_ends 100 eager (launch 3 (fun i => call_and_bcast 3 0 i (call i)) {[4 := 7]})
    (fun c => procs c !! 0 = Some (Fail OSError) /\ store c = {[4 := 7]} /\
       forall i, 0 < i < 3 -> exists k, procs c !! i = Some (Recv 0 1 0 k)).
Proof.
  apply (C10_call_and_bcast_raising 100 eager 3 0 _ {[4 := 7]} {[4 := 7]} OSError); [lia|].
  intros k. apply alone_get_missing. reflexivity.
Qed.

(** * C42 *)

(** Ranks running [put_array_method] and then arbitrary continuations [k i]
    (which may read the file): in any execution either no rank has left the
    method yet, or all ranks continue from a common point at which the store
    holds the array, written once, and nothing else changed. *)
Theorem C42_put_before_return {M V O} tag_ub (eager : M -> bool) P dest (v : V)
    (k : nat -> unit -> proc M V O) st n d :
  1 < P ->
  steps tag_ub eager n
    (Config ((fun i => put_array_method P i dest v (k i)) <$> seq 0 P) ∅ st) d ->
  (n < 2 /\ forall i, i < P -> exists k', procs d !! i = Some (Barrier k') \/
                               procs d !! i = Some (Put dest v (Barrier k'))) \/
  (exists m, n = 2 + m /\
     steps tag_ub eager m
       (Config ((fun i => k i tt) <$> seq 0 P) ∅ (<[dest := v]> st)) d).
Proof. exact (put_first tag_ub eager P dest v k st n d). Qed.

(** In particular every rank that reads the file back gets the array, and no
    schedule deadlocks. *)
Theorem C42_put_then_read {M V} tag_ub (eager : M -> bool) P dest (v : V) st :
  1 < P ->
  always_ends (M := M) tag_ub eager
    (launch P (fun i => bind (put_array_method P i dest v) (fun _ => get dest)) st)
    (fun c => all_return (fun _ o => o = v) c /\ length (procs c) = P /\
              store c = <[dest := v]> st).
Proof. exact (put_then_read tag_ub eager P dest v st). Qed.

Example C42_example :
  exists d, steps (M := nat) (O := nat) 10 (fun _ => true) 2
    (Config ((fun i => put_array_method 3 i 0 42 (fun _ => Get 0 Ret)) <$> seq 0 3) ∅ ∅) d
    /\ procs d = [Get 0 Ret; Get 0 Ret; Get 0 Ret] /\ store d = {[0 := 42]}.
Proof.
  eexists. split.
  - eapply steps_S; [apply (step_rank _ _ 0); reflexivity|].
    eapply steps_S; [apply step_barrier; [discriminate|repeat constructor]|].
    apply steps_O.
  - simpl. split; reflexivity.
Qed.

(** Whatever three ranks do next, once five steps are made the file has been written. *)
Example C42_put_before_return_example (k : nat -> unit -> proc nat nat nat) d :
  steps 10 (fun _ => true) 5 (Config ((fun i => put_array_method 3 i 0 42 (k i)) <$> seq 0 3) ∅ ∅) d ->
  steps 10 (fun _ => true) 3 (Config ((fun i => k i tt) <$> seq 0 3) ∅ {[0 := 42]}) d.
Proof.
  intros H. apply C42_put_before_return in H; [|lia]. destruct H as [[H _]|(m & E & H)]; [lia|].
  replace m with 3 in H by lia. exact H.
Qed.
Example C42_put_then_read_example (eager : nat -> bool) :
  always_ends 10 eager
    (launch 3 (fun i => bind (put_array_method 3 i 0 42) (fun _ => get 0)) {[5 := 6]})
    (fun c => all_return (fun _ o => o = 42) c /\ length (procs c) = 3 /\ store c = {[0 := 42; 5 := 6]}).
Proof. apply (C42_put_then_read 10 eager 3 0 42 {[5 := 6]}). lia. Qed.

Print Assumptions C08_reduce.
Print Assumptions C08_allreduce.
Print Assumptions C08_allreduce_agree.
Print Assumptions C09_scan.
Print Assumptions C09_exscan.
Print Assumptions C10_call_and_bcast.
Print Assumptions C10_bcast.
Print Assumptions C10_call_from_rank_zero.
Print Assumptions C10_call_and_bcast_raising.
Print Assumptions C42_put_before_return.
Print Assumptions C42_put_then_read.
