(** The divisions that decide how work is split, with the rounding of floating-point
    numbers: find_assignments (/repo/modred/parallel.py:180-234), the numbers of loops
    (/repo/modred/vectorspace.py:332-335, 536, 621, 634, 952-955) and the memory settings
    (vectorspace.py:106-125).  ParallelModel.v and VecSpaceModel.v have the exact versions.

    [rnd] is the rounding of the result of one operation on floats. *)
From Coq Require Import List Arith QArith Qabs Qround ZArith.
From Verif Require Import Prelude ParallelModel.
Import ListNotations.
Open Scope nat_scope.

(** Naturals as numbers. *)
Definition q_of (n : nat) : Q := inject_Z (Z.of_nat n).

Section Model.
Context (rnd : Q -> Q).

(** Python [sum] of an array of floats (parallel.py:212): additions from the left. *)
Definition fl_sum (l : list Q) : Q := fold_left (fun acc x => rnd (acc + x)) l 0%Q.
(** [numpy.cumsum] (parallel.py:224-225). *)
Fixpoint fl_cumsum_from (acc : Q) (l : list Q) : list Q :=
  match l with
  | [] => []
  | x :: l' => rnd (acc + x) :: fl_cumsum_from (rnd (acc + x)) l'
  end.
Definition fl_cumsum (l : list Q) : list Q := fl_cumsum_from 0%Q l.

(** The loop of [find_assignments], parallel.py:210-232; as ParallelModel.assign_loop. *)
Fixpoint fl_assign_loop {A} (workers first : nat) (tasks : list A)
    (weights : list Q) : list (list A) :=
  match workers with
  | 0 => []
  | S workers' =>
      let remaining := skipn first weights in
      let work_remaining := fl_sum remaining in
      let work_per_worker := rnd (work_remaining / q_of workers) in
      match remaining with
      | [] => [] :: fl_assign_loop workers' first tasks weights
      | _ =>
          let new_max :=
            argmin (map (fun c => Qabs (rnd (c - work_per_worker)))
                      (fl_cumsum remaining)) + first in
          slice first (new_max + 1) tasks
            :: fl_assign_loop workers' (new_max + 1) tasks weights
      end
  end.

(** [find_assignments], parallel.py:180-234. *)
Definition fl_find_assignments {A} (P : nat) (tasks : list A)
    (task_weights : option (list Q)) : list (list A) :=
  let weights :=
    match task_weights with
    | None => repeat 1%Q (length tasks)
    | Some w => w
    end in
  fl_assign_loop P 0 tasks weights.

(** [int(np.ceil(a * 1. / b))], vectorspace.py:332-335, 536, 621, 634, 952-955. *)
Definition fl_ceil_div (a b : Z) : Z := Qceiling (rnd (inject_Z a / inject_Z b)).

(** The comparison and the raised limit of VectorSpaceHandles.__init__,
    vectorspace.py:110-119: Python compares an int with a float exactly. *)
Definition fl_handles_init (max_vecs_per_node : option Z) (P N : Z) : Z * Z :=
  let per_node := match max_vecs_per_node with None => 10000%Z | Some m => m end in
  if qltb (inject_Z per_node) (rnd (inject_Z (3 * P) / inject_Z N))
  then (fl_ceil_div (3 * P) N, 3%Z)
  else (per_node, (per_node * N / P)%Z).

(** The divisor of the time estimates, [vecs_per_proc - 2], vectorspace.py:363-369. *)
Definition fl_estimate_divisor (per_node P N : Z) : Q :=
  rnd (rnd (inject_Z (per_node * N) / inject_Z P) - 2).

End Model.

(** What is used of rounding: relative error at most 2^-53, and integers and halves of
    them are exact up to 2^52. *)
Definition unit_roundoff : Q := 1 # 2 ^ 53.
Record rounding (rnd : Q -> Q) : Prop := {
  rnd_proper : forall x y, (x == y)%Q -> (rnd x == rnd y)%Q;
  rnd_error : forall x, (Qabs (rnd x - x) <= Qabs x * unit_roundoff)%Q;
  rnd_half : forall x z, (2 * x == inject_Z z)%Q -> (Z.abs z <= 2 ^ 53)%Z -> (rnd x == x)%Q
}.

(** Rounding to the nearest number with 53 binary digits, ties to even: the arithmetic of
    IEEE 754 binary64 without limits on the exponent. *)
Definition round_div (n d : Z) : Z :=
  (let q := n / d in
   match 2 * (n mod d) ?= d with
   | Lt => q
   | Gt => q + 1
   | Eq => if Z.even q then q else q + 1
   end)%Z.
Definition up (u : Z) : Z := (2 ^ Z.max 0 u)%Z.
Definition last_bit (n d : Z) : Z :=
  (let u := Z.log2 n - Z.log2 d - 52 in
   if d * up u * 2 ^ 52 <=? n * up (- u) then u else u - 1)%Z.
Definition round_pos (n d : Z) : Q :=
  let u := last_bit n d in
  (inject_Z (round_div (n * up (- u)) (d * up u)) * inject_Z (up u) / inject_Z (up (- u)))%Q.
Definition binary64 (x : Q) : Q :=
  let r := Qred x in
  match Qnum r with
  | Z0 => 0%Q
  | Zpos n => round_pos (Zpos n) (Zpos (Qden r))
  | Zneg n => (- round_pos (Zpos n) (Zpos (Qden r)))%Q
  end.
