(** Model of VectorSpaceHandles.compute_inner_product_array and
    compute_symm_inner_product_array, /repo/modred/vectorspace.py:223-821, as
    SPMD programs.

    Simplifications common to all definitions: progress messages and timings are
    left out (the time estimates are kept as far as they can divide by zero);
    [util.make_iterable] (util.py:33-40) is not applied, handle arguments are
    lists; a handle is a location of the shared store and [handle.get()] reads
    it. *)
From stdpp Require Import gmap list.
From Verif Require Import Prelude ParallelModel Spmd ReductionsModel.
Open Scope prog_scope.

(** A one- or two-dimensional NumPy array as a member of a tuple: the numbers, or
    the shape and the entries. *)
Inductive item (K : Type) :=
| IVec (l : list K)
| IArr (m n : nat) (f : nat -> nat -> K).
Arguments IVec {K} l.
Arguments IArr {K} m n f.

(** Python objects sent between ranks: a pair (vectors, indices), an array, a tuple
    of arrays, or None. *)
Inductive msg (V K : Type) :=
| MVecs (vs : list V) (idx : list nat)
| MArr (a : list (list K))
| MTup (l : list (item K))
| MNone.
Arguments MVecs {V K} vs idx.
Arguments MArr {V K} a.
Arguments MTup {V K} l.
Arguments MNone {V K}.

(** [for x in l: b = f(x, b)] where [f] may raise. *)
Fixpoint res_fold {A B} (f : A -> B -> res B) (l : list A) (b : B) : res B :=
  match l with
  | [] => Ok b
  | x :: l' => match f x b with Ok b' => res_fold f l' b' | Raise e => Raise e end
  end.

(** Python [max(l)] of a non-empty list of naturals. *)
Definition list_maximum (l : list nat) : nat := foldr Nat.max 0 l.

(** [l[0]] and [l[-1]] of a list of task indices (only used on non-empty lists). *)
Definition first_of (l : list nat) : nat := hd 0 l.
Definition last_of (l : list nat) : nat := List.last l 0.

Section Model.
Context {V K O : Type}.
(** The number of processes and MPI's tag limit. *)
Context (P tag_ub : nat).
Notation msg := (msg V K).
Notation prog := (prog msg V O).
(** A two-dimensional NumPy array: the list of its rows. *)
Notation arr := (list (list K)).

Context (zero : K) (add : K -> K -> K) (conj : K -> K).
(** [store_as x y]: what assigning [y] to an element of an array with
    dtype [type(x)] stores; it may raise TypeError (a complex number in a float
    array) or change the value (a float in an integer array). *)
Context (store_as : K -> K -> res K).

(** [a[i, j] = v]. *)
Definition set_entry (a : arr) (i j : nat) (v : K) : res arr :=
  match a !! i with
  | Some row =>
      if decide (j < length row) then Ok (<[i := <[j := v]> row]> a)
      else Raise IndexError
  | None => Raise IndexError
  end.

(** [np.zeros((m, n))], vectorspace.py:385, 581. *)
Definition zeros (m n : nat) : arr := replicate m (replicate n zero).
(** Array addition [a + b] of arrays of the same shape, the operation MPI.SUM of
    [allreduce], vectorspace.py:481, 799. *)
Definition arr_add (a b : arr) : arr := zip_with (zip_with add) a b.
Definition msg_add (x y : msg) : msg :=
  match x, y with MArr a, MArr b => MArr (arr_add a b) | _, _ => x end.

(** Unpacking a received pair, vectorspace.py:445-446, 678-679, 762-763. *)
Definition unpack_vecs (m : msg) : res (list V * list nat) :=
  match m with MVecs vs idx => Ok (vs, idx) | _ => Raise TypeError end.
Definition unpack_arr (m : msg) : res arr :=
  match m with MArr a => Ok a | _ => Raise TypeError end.

(** The tag of a message, vectorspace.py:432-435, 664-667, 749-752, 1018-1022. *)
Definition pair_tag (src dst : nat) : nat := src * (P + 1) + dst.

(** Send to [dest], receive from [source], complete the send:
    vectorspace.py:438-443, 659-679, 755-760, 1025-1030. *)
Definition swap (rank dest source : nat) (payload : list V * list nat)
    : prog (list V * list nat) :=
  let m := MVecs (fst payload) (snd payload) in
  isend dest 0 (pair_tag rank dest) m ;;;
  x <- recv source 0 (pair_tag source rank) ;;
  wait dest 0 (pair_tag rank dest) m ;;;
  lift (unpack_vecs x).

(** The loop over [pass_index] that passes vectors round the ring of all
    processes, vectorspace.py:418-471, 728-791, 997-1047: [fetch] reads this
    rank's own vectors on the first pass, [compute] uses the vectors at hand. *)
Definition ring {T} (rank : nat) (fetch : prog (list V * list nat))
    (compute : list V * list nat -> T -> res T) (acc : T) : prog T :=
  '(acc, _) <-
    for_loop (seq 0 P) (acc, ([], [])) (fun pass_index s =>
      payload <-
        (if pass_index =? 0 then fetch
         else
           let dest := (rank + 1) mod P in
           let source := (rank + P - 1) mod P in
           payload <- swap rank dest source (snd s) ;;
           barrier P ;;;
           ret payload) ;;
      acc <- lift (compute payload (fst s)) ;;
      ret (acc, payload)) ;;
  ret acc.

(** [[h.get() for h in handles[a:b]]], vectorspace.py:395-397, 423-425, 590-592,
    734-736. *)
Definition get_slice (handles : list loc) (a b : nat) : prog (list V) :=
  map_prog get (slice a b handles).

(** The double loop writing inner products of the rows in memory with the
    vectors at hand, vectorspace.py:451-458, 681-689, 769-777.  [like] is the
    number whose type is the dtype of the array. *)
Definition ip_block (ip : V -> V -> K) (like : K) (start_row end_row : nat)
    (row_vecs : list V) (cols : list V * list nat) (a : arr) : res arr :=
  res_fold (fun row_index a =>
    res_fold (fun '(col_vec_index, col_vec) a =>
      (j <-? py_nth (snd cols) col_vec_index ;
       v <-? py_nth row_vecs (row_index - start_row) ;
       x <-? store_as like (ip v col_vec) ;
       set_entry a row_index j x)%res)
      (zip (seq 0 (length (fst cols))) (fst cols)) a)
    (seq start_row (end_row - start_row)) a.

(** Reading the first vectors and computing their inner product twice, and the
    estimate that divides by [vecs_per_proc - 2], vectorspace.py:343-374; the
    result is the number that fixes the dtype. *)
Definition burn (ip : V -> V -> K) (per_node N : nat) (rows cols : list loc)
    : prog K :=
  h <- lift (py_nth rows 0) ;;
  _ <- get h ;;
  h' <- lift (py_nth cols 0) ;;
  w <- get h' ;;
  v <- get h ;;
  (if per_node * N =? 2 * P then fail ZeroDivisionError else ret (ip v w)).

(** Row or column interval of chunk [g] for a rank with tasks [tasks],
    vectorspace.py:387-394, 402-412. *)
Definition chunk_bounds (tasks : list nat) (g per_chunk : nat) : nat * nat :=
  match tasks with
  | [] => (0, 0)
  | _ =>
      let start := Nat.min (first_of tasks + g * per_chunk) (last_of tasks + 1) in
      (start, Nat.min (last_of tasks + 1) (start + per_chunk))
  end.

(** The sum over all processes, vectorspace.py:480-481, 798-799. *)
Definition sum_over_procs (rank : nat) (a : arr) : prog arr :=
  if 1 <? P then
    m <- allreduce P tag_ub msg_add rank (MArr a) ;;
    lift (unpack_arr m)
  else ret a.

(** [a.conj().T] for an array with [n] columns, vectorspace.py:484. *)
Definition conj_transpose (n : nat) (a : arr) : arr :=
  map (fun j => map (fun row => conj (nth j row zero)) a) (seq 0 n).

(** VectorSpaceHandles.compute_inner_product_array,
    /repo/modred/vectorspace.py:223-492, on rank [rank] with
    [max_vecs_per_node = per_node], [max_vecs_per_proc = per_proc] and [N]
    nodes. *)
Definition ip_array_core (ip : V -> V -> K) (per_node per_proc N rank : nat)
    (rows cols : list loc) : prog arr :=
  let num_rows := length rows in
  let num_cols := length cols in
  let rows_per_chunk := per_proc - 1 in
  let cols_per_chunk := 1 in
  let row_tasks := find_assignments P (seq 0 num_rows) None in
  let col_tasks := find_assignments P (seq 0 num_cols) None in
  let num_row_get_loops :=
    ceil_div (list_maximum (map length row_tasks)) rows_per_chunk in
  let num_col_get_loops :=
    ceil_div (list_maximum (map length col_tasks)) cols_per_chunk in
  let my_rows := nth rank row_tasks [] in
  let my_cols := nth rank col_tasks [] in
  like <- burn ip per_node N rows cols ;;
  a <- for_loop (seq 0 num_row_get_loops) (zeros num_rows num_cols)
    (fun row_get_index a =>
       let bounds := chunk_bounds my_rows row_get_index rows_per_chunk in
       let start_row := fst bounds in
       let end_row := snd bounds in
       row_vecs <- get_slice rows start_row end_row ;;
       for_loop (seq 0 num_col_get_loops) a (fun col_get_index a =>
         let bounds := chunk_bounds my_cols col_get_index cols_per_chunk in
         let start_col := fst bounds in
         let end_col := snd bounds in
         ring rank
           (col_vecs <- get_slice cols start_col end_col ;;
            ret (col_vecs, seq start_col (end_col - start_col)))
           (fun payload a =>
              if 0 <? length row_vecs then
                ip_block ip like start_row end_row row_vecs payload a
              else Ok a)
           a)) ;;
  sum_over_procs rank a.

Definition ip_array (inner_product : option (V -> V -> K))
    (per_node per_proc N rank : nat) (rows cols : list loc) : prog arr :=
  match inner_product with
  | None => fail RuntimeError
  | Some ip =>
      a <-
        (if length cols <? length rows then
           a <- ip_array_core ip per_node per_proc N rank cols rows ;;
           ret (conj_transpose (length rows) a)
         else ip_array_core ip per_node per_proc N rank rows cols) ;;
      barrier P ;;;
      ret a
  end.

End Model.
