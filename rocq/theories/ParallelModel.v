(** Model of /repo/modred/parallel.py: task assignment and node identifiers. *)
From Coq Require Import List Arith QArith Qabs ZArith.
From Verif Require Import Prelude.
Import ListNotations.
Open Scope nat_scope.

(** [numpy.cumsum] (used at parallel.py:224-225). *)
Fixpoint cumsum_from (acc : Q) (l : list Q) : list Q :=
  match l with
  | [] => []
  | x :: l' => (acc + x)%Q :: cumsum_from (acc + x)%Q l'
  end.
Definition cumsum (l : list Q) : list Q := cumsum_from 0%Q l.

(** Python [sum] (parallel.py:212). *)
Fixpoint qsum (l : list Q) : Q :=
  match l with [] => 0%Q | x :: l' => (x + qsum l')%Q end.

(** [x < y] on rationals. *)
Definition qltb (x y : Q) : bool := negb (Qle_bool y x).

(** [numpy.argmin] (parallel.py:224-226): index of the first smallest element. *)
Fixpoint argmin_from (best : nat) (bv : Q) (i : nat) (l : list Q) : nat :=
  match l with
  | [] => best
  | x :: l' =>
      if qltb x bv then argmin_from i x (S i) l'
      else argmin_from best bv (S i) l'
  end.
Definition argmin (l : list Q) : nat :=
  match l with
  | [] => 0 (* numpy raises; parallel.py:221 guards against it *)
  | x :: l' => argmin_from 0 x 1 l'
  end.

(** The loop of [find_assignments], /repo/modred/parallel.py:208-232, with
    [workers] the number of workers still to be served and [first] the value of
    [first_unassigned_index].  Weights are exact rationals instead of floats. *)
Fixpoint assign_loop {A} (workers first : nat) (tasks : list A)
    (weights : list Q) : list (list A) :=
  match workers with
  | 0 => []
  | S workers' =>
      let remaining := skipn first weights in
      let work_remaining := qsum remaining in
      let work_per_worker :=
        (work_remaining / inject_Z (Z.of_nat workers))%Q in
      match remaining with
      | [] => [] :: assign_loop workers' first tasks weights
      | _ =>
          let new_max :=
            argmin (map (fun c => Qabs (c - work_per_worker))
                      (cumsum remaining)) + first in
          slice first (new_max + 1) tasks
            :: assign_loop workers' (new_max + 1) tasks weights
      end
  end.

(** [find_assignments(tasks, task_weights)], /repo/modred/parallel.py:180-234,
    run with [P] MPI workers.  [None] is the default weight argument
    (parallel.py:202-206: [numpy.ones]). *)
Definition find_assignments {A} (P : nat) (tasks : list A)
    (task_weights : option (list Q)) : list (list A) :=
  let weights :=
    match task_weights with
    | None => repeat 1%Q (length tasks)
    | Some w => w
    end in
  assign_loop P 0 tasks weights.

(** [check_for_empty_tasks], /repo/modred/parallel.py:237-252. *)
Definition check_for_empty_tasks {A} (assignments : list (list A)) : bool :=
  existsb (fun a => match a with [] => true | _ => false end) assignments.

(** [_node_ID], /repo/modred/parallel.py:27: host name bytes, written in
    hexadecimal and read back in base 16, i.e. big-endian base 256. *)
Fixpoint node_ID_from (acc : N) (bytes : list N) : N :=
  match bytes with
  | [] => acc
  | b :: bs => node_ID_from (256 * acc + b)%N bs
  end.
Definition node_ID (bytes : list N) : res N :=
  match bytes with
  | [] => Raise ValueError  (* int('', base=16) *)
  | _ => Ok (node_ID_from 0 bytes)
  end.

(** [_num_nodes], /repo/modred/parallel.py:34: size of the set of identifiers
    gathered from all workers. *)
Definition num_nodes (ids : list N) : nat := length (nodup N.eq_dec ids).
