(** Model of the memory settings of VectorSpaceHandles,
    /repo/modred/vectorspace.py:93-125. *)
From Coq Require Import ZArith.
Open Scope Z_scope.

(** [int(np.ceil(a / b))] for integers, exact instead of floating point. *)
Definition z_ceil_div (a b : Z) : Z := - ((- a) / b).

(** [VectorSpaceHandles.__init__]: given the argument [max_vecs_per_node] (None
    by default), [P] processes and [N] nodes, the attributes
    (max_vecs_per_node, max_vecs_per_proc).  The comparison with [3 * P / N] is
    made on exact fractions.  Message printing is left out. *)
Definition handles_init (max_vecs_per_node : option Z) (P N : Z) : Z * Z :=
  let per_node := match max_vecs_per_node with None => 10000 | Some m => m end in
  if per_node * N <? 3 * P then (z_ceil_div (3 * P) N, 3)
  else (per_node, per_node * N / P).
