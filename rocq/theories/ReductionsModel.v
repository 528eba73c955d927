(** Model of /repo/modred/reductions.py and of the broadcasting helpers of
    /repo/modred/parallel.py, as SPMD programs. *)
From stdpp Require Import gmap list.
From Verif Require Import Prelude Spmd.
Open Scope prog_scope.

Section Model.
Context {M V O : Type}.
Notation prog := (prog M V O).
(** Number of ranks ([self.size]) and MPI's TAG_UB attribute. *)
Context (P tag_ub : nat).

(** Blocking send: a non-blocking send followed by its completion. *)
Definition send (dst ctx tag : nat) (m : M) : prog unit :=
  isend dst ctx tag m ;;; wait dst ctx tag m.

(** MPI_Sendrecv with one partner (used at reductions.py:86-87, 115-116). *)
Definition sendrecv (m : M) (partner ctx tag : nat) : prog M :=
  isend partner ctx tag m ;;;
  tmp <- recv partner ctx tag ;;
  wait partner ctx tag m ;;;
  ret tmp.

(** The [while mask < size] loop of [reduce], /repo/modred/reductions.py:41-50.
    [fuel] bounds the number of iterations; [P] always suffices because the mask
    doubles.  Operations are not MINLOC/MAXLOC (reductions.py:35-36 merely
    pairs the input with the rank). *)
Fixpoint reduce_loop (op : M -> M -> M) (fuel mask rank : nat) (recvobj : M)
    : prog M :=
  match fuel with
  | 0 => ret recvobj
  | S fuel =>
      if mask <? P then
        recvobj' <-
          (if Nat.land mask rank =? 0 then
             let target := Nat.lor rank mask in
             if target <? P then
               tmp <- recv target 0 (tag_ub - 1) ;;
               ret (op recvobj tmp)
             else ret recvobj
           else
             let target := Nat.ldiff rank mask mod P in
             send target 0 (tag_ub - 1) recvobj ;;;
             ret recvobj) ;;
        reduce_loop op fuel (2 * mask) rank recvobj'
      else ret recvobj
  end.

(** [Intracomm.reduce], /repo/modred/reductions.py:29-61. *)
Definition reduce (op : M -> M -> M) (root rank : nat) (sendobj : M)
    : prog (option M) :=
  recvobj <- reduce_loop op P 1 rank sendobj ;;
  recvobj <-
    (if root =? 0 then ret recvobj
     else if rank =? 0 then
       send root 0 (tag_ub - 1) recvobj ;;; ret recvobj
     else if rank =? root then recv 0 0 (tag_ub - 1)
     else ret recvobj) ;;
  ret (if rank =? root then Some recvobj else None).

(** MPI's [bcast] (used at reductions.py:66 and parallel.py:149, 176): the root
    sends its value to every other rank in turn, on the collective context.
    Synchronisation beyond that is not assumed. *)
Definition mpi_bcast (root rank : nat) (v : M) : prog M :=
  for_loop (seq 0 P) v (fun j v =>
    if j =? root then ret v
    else if rank =? root then send j 1 0 v ;;; ret v
    else if rank =? j then recv root 1 0
    else ret v).

(** [Intracomm.allreduce], /repo/modred/reductions.py:64-67. *)
Definition allreduce (op : M -> M -> M) (rank : nat) (sendobj : M) : prog M :=
  recvobj <- reduce op 0 rank sendobj ;;
  mpi_bcast 0 rank (match recvobj with Some x => x | None => sendobj end).

(** Loop of [scan], /repo/modred/reductions.py:82-93. *)
Fixpoint scan_loop (op : M -> M -> M) (fuel mask rank : nat) (recvobj partial : M)
    : prog M :=
  match fuel with
  | 0 => ret recvobj
  | S fuel =>
      if mask <? P then
        let target := Nat.lxor rank mask in
        '(recvobj', partial') <-
          (if target <? P then
             tmp <- sendrecv partial target 0 (tag_ub - 1) ;;
             ret (if target <? rank then (op tmp recvobj, op tmp partial)
                  else (recvobj, op partial tmp))
           else ret (recvobj, partial)) ;;
        scan_loop op fuel (2 * mask) rank recvobj' partial'
      else ret recvobj
  end.

(** [Intracomm.scan], /repo/modred/reductions.py:70-95. *)
Definition scan (op : M -> M -> M) (rank : nat) (sendobj : M) : prog M :=
  scan_loop op P 1 rank sendobj sendobj.

(** Loop of [exscan], /repo/modred/reductions.py:111-127; [flag] as there. *)
Fixpoint exscan_loop (op : M -> M -> M) (fuel mask rank : nat)
    (recvobj partial : M) (flag : bool) : prog M :=
  match fuel with
  | 0 => ret recvobj
  | S fuel =>
      if mask <? P then
        let target := Nat.lxor rank mask in
        '(recvobj', partial', flag') <-
          (if target <? P then
             tmp <- sendrecv partial target 0 (tag_ub - 1) ;;
             ret (if target <? rank then
                    if rank =? 0 then (recvobj, op tmp partial, flag)
                    else if negb flag then (tmp, op tmp partial, true)
                    else (op tmp recvobj, op tmp partial, flag)
                  else (recvobj, op partial tmp, flag))
           else ret (recvobj, partial, flag)) ;;
        exscan_loop op fuel (2 * mask) rank recvobj' partial' flag'
      else ret recvobj
  end.

(** [Intracomm.exscan], /repo/modred/reductions.py:98-132. *)
Definition exscan (op : M -> M -> M) (rank : nat) (sendobj : M)
    : prog (option M) :=
  recvobj <- exscan_loop op P 1 rank sendobj sendobj false ;;
  ret (if rank =? 0 then None else Some recvobj).

(** [parallel.barrier], /repo/modred/parallel.py:99-103. *)
Definition barrier : prog unit := if 1 <? P then barrier_op else ret tt.

(** [parallel.call_from_rank_zero], /repo/modred/parallel.py:112-132.  The call
    [func( *args, **kwargs)] made by this rank is the program [call]. *)
Definition call_from_rank_zero {A} (rank : nat) (call : prog A) : prog (option A) :=
  if rank =? 0 then out <- call ;; ret (Some out) else ret None.

(** [parallel.bcast], /repo/modred/parallel.py:135-150; [none] is Python's None. *)
Definition par_bcast (none : M) (rank : nat) (vals : M) : prog M :=
  let outputs := if rank =? 0 then vals else none in
  if 1 <? P then mpi_bcast 0 rank outputs else ret outputs.

(** [parallel.call_and_bcast], /repo/modred/parallel.py:153-177. *)
Definition call_and_bcast (none : M) (rank : nat) (call : prog M) : prog M :=
  outputs <- (if rank =? 0 then call else ret none) ;;
  if 1 <? P then mpi_bcast 0 rank outputs else ret outputs.

(** The [put_*] methods of the handle classes, e.g. PODHandles.put_eigvals,
    /repo/modred/pod.py:305-309: rank zero writes, then everybody meets. *)
Definition put_array_method (rank : nat) (dest : loc) (v : V) : prog unit :=
  (if rank =? 0 then put dest v else ret tt) ;;; barrier.

End Model.
