(** Message-passing processes and their interleaving semantics.

    This file fixes what is assumed about mpi4py, the file system and the
    Python interpreter when several ranks run the same modred routine:

    - [Isend]/[Recv]/[Wait] model comm.isend, comm.recv and request.Wait
      (used in /repo/modred/vectorspace.py:438-443, 673-677, 755-760, 1025-1030
      and, as blocking send, /repo/modred/reductions.py:29-132).  Messages
      between two ranks with the same context and tag are delivered in order.
      [Wait] completes at once for messages that MPI buffers ([eager]) and
      otherwise only after the message has been received.
    - A send with a tag above the MPI limit [tag_ub], or to a rank that does
      not exist, raises an MPI error.
    - [Barrier] models comm.Barrier (/repo/modred/parallel.py:98-102): it
      completes when every rank is at a barrier.
    - [Get]/[Put] model the get and put methods of vector handles on a store
      shared by all ranks; reading a missing entry raises OSError.
    - A rank that has raised stays in [Fail] forever. *)
From stdpp Require Import gmap list.
From Verif Require Import Prelude.

(** Channels: source rank, destination rank, context, tag.  Context 0 is
    point-to-point traffic, context 1 the internal traffic of collective
    operations. *)
Notation chan := (nat * nat * nat * nat)%type (only parsing).
Definition loc := nat.

Section Spmd.
Context {M V O : Type}.

Inductive proc : Type :=
| Ret (o : O)
| Fail (e : exn)
| Isend (dst ctx tag : nat) (m : M) (k : proc)
| Recv (src ctx tag : nat) (k : M -> proc)
| Wait (dst ctx tag : nat) (m : M) (k : proc)
| Barrier (k : proc)
| Get (h : loc) (k : V -> proc)
| Put (h : loc) (v : V) (k : proc).

(** Programs in continuation-passing style: sequencing is associative by
    computation. *)
Definition prog (A : Type) : Type := (A -> proc) -> proc.
Definition ret {A} (a : A) : prog A := fun k => k a.
Definition bind {A B} (m : prog A) (f : A -> prog B) : prog B :=
  fun k => m (fun a => f a k).
Definition fail {A} (e : exn) : prog A := fun _ => Fail e.
Definition lift {A} (r : res A) : prog A :=
  match r with Ok a => ret a | Raise e => fail e end.
Definition isend (dst ctx tag : nat) (m : M) : prog unit :=
  fun k => Isend dst ctx tag m (k tt).
Definition recv (src ctx tag : nat) : prog M := fun k => Recv src ctx tag k.
Definition wait (dst ctx tag : nat) (m : M) : prog unit :=
  fun k => Wait dst ctx tag m (k tt).
Definition barrier_op : prog unit := fun k => Barrier (k tt).
Definition get (h : loc) : prog V := fun k => Get h k.
Definition put (h : loc) (v : V) : prog unit := fun k => Put h v (k tt).

(** Python [for x in l: s = body(x, s)]. *)
Fixpoint for_loop {A S} (l : list A) (s : S) (body : A -> S -> prog S) : prog S :=
  match l with
  | [] => ret s
  | x :: l' => bind (body x s) (fun s' => for_loop l' s' body)
  end.

(** Python [[f(x) for x in l]]. *)
Fixpoint map_prog {A B} (f : A -> prog B) (l : list A) : prog (list B) :=
  match l with
  | [] => ret []
  | x :: l' => bind (f x) (fun y => bind (map_prog f l') (fun ys => ret (y :: ys)))
  end.

Record config := Config {
  procs : list proc;
  chans : gmap chan (list M);
  store : gmap loc V
}.

Definition push (c : chan) (m : M) (ch : gmap chan (list M)) : gmap chan (list M) :=
  <[c := (default [] (ch !! c)) ++ [m]]> ch.
(** Channels holding no message are not stored. *)
Definition set_queue (c : chan) (q : list M) (ch : gmap chan (list M)) :
    gmap chan (list M) :=
  match q with [] => delete c ch | _ => <[c := q]> ch end.

Context (tag_ub : nat) (eager : M -> bool).

(** One step of rank [i] of [n], whose remaining program is [p]; [None] when it
    cannot move on its own. *)
Definition local_step (n i : nat) (p : proc) (ch : gmap chan (list M))
    (st : gmap loc V) : option (proc * gmap chan (list M) * gmap loc V) :=
  match p with
  | Isend dst ctx tag m k =>
      if decide (dst < n /\ tag <= tag_ub) then
        Some (k, push (i, dst, ctx, tag) m ch, st)
      else Some (Fail MPIError, ch, st)
  | Recv src ctx tag k =>
      match ch !! (src, i, ctx, tag) with
      | Some (m :: q) => Some (k m, set_queue (src, i, ctx, tag) q ch, st)
      | _ => None
      end
  | Wait dst ctx tag m k =>
      if decide (eager m = true \/ ch !! (i, dst, ctx, tag) = None) then
        Some (k, ch, st)
      else None
  | Get h k =>
      match st !! h with
      | Some v => Some (k v, ch, st)
      | None => Some (Fail OSError, ch, st)
      end
  | Put h v k => Some (k, ch, <[h := v]> st)
  | Ret _ | Fail _ | Barrier _ => None
  end.

Definition rank_step (i : nat) (c : config) : option config :=
  match procs c !! i with
  | Some p =>
      match local_step (length (procs c)) i p (chans c) (store c) with
      | Some (p', ch', st') => Some (Config (<[i := p']> (procs c)) ch' st')
      | None => None
      end
  | None => None
  end.

Definition at_barrier (p : proc) : Prop :=
  match p with Barrier _ => True | _ => False end.
Definition past_barrier (p : proc) : proc :=
  match p with Barrier k => k | _ => p end.

Inductive step : config -> config -> Prop :=
| step_rank i c c' : rank_step i c = Some c' -> step c c'
| step_barrier ps ch st :
    ps <> [] -> Forall at_barrier ps ->
    step (Config ps ch st) (Config (past_barrier <$> ps) ch st).

Definition stuck (c : config) : Prop := forall c', ~ step c c'.

(** [k] steps of some schedule. *)
Inductive steps : nat -> config -> config -> Prop :=
| steps_O c : steps 0 c c
| steps_S n c c' c'' : step c c' -> steps n c' c'' -> steps (S n) c c''.

(** All schedules of [c] are finite, with a common bound, and whenever no rank
    can move any more [Q] holds. *)
Definition always_ends (c : config) (Q : config -> Prop) : Prop :=
  exists n, forall k d, steps k c d ->
    k <= n /\ (stuck d -> Q d) /\ exists d', steps (n - k) d d' /\ Q d'.

(** Every rank [i] has returned [res i] with [Q i (res i)], and no message is
    left behind. *)
Definition all_return (Q : nat -> O -> Prop) (c : config) : Prop :=
  (forall i p, procs c !! i = Some p -> exists o, p = Ret o /\ Q i o) /\
  chans c = ∅.

(** [P] ranks, rank [i] running [p i]. *)
Definition launch (P : nat) (p : nat -> prog O) (st : gmap loc V) : config :=
  Config ((fun i => p i Ret) <$> seq 0 P) ∅ st.

End Spmd.

Arguments proc : clear implicits.
Arguments prog : clear implicits.
Arguments config : clear implicits.

Declare Scope prog_scope.
Delimit Scope prog_scope with prog.
Notation "x <- m ;; k" := (bind m (fun x => k))
  (at level 100, m at next level, right associativity) : prog_scope.
Notation "' pat <- m ;; k" := (bind m (fun x => match x with pat => k end))
  (at level 100, pat pattern, m at next level, right associativity) : prog_scope.
Notation "m ;;; k" := (bind m (fun _ => k))
  (at level 100, right associativity) : prog_scope.
