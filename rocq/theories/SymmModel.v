(** Model of VectorSpaceHandles.compute_symm_inner_product_array,
    /repo/modred/vectorspace.py:495-821, as an SPMD program.  Simplifications as
    in InnerProdModel.v. *)
From stdpp Require Import gmap list.
From Verif Require Import Prelude ParallelModel Spmd ReductionsModel InnerProdModel.
Open Scope prog_scope.

(** Python [range(a, b, step)] for [step > 0]. *)
Definition py_range (a b step : nat) : list nat :=
  map (fun k => a + k * step) (seq 0 (ceil_div (b - a) step)).

(** [proc_row_tasks != []]. *)
Definition busy (tasks : list nat) : bool := negb (length tasks =? 0).

(** Test that indices are consecutive, vectorspace.py:598-600. *)
Definition consecutive (tasks : list nat) : bool :=
  bool_decide (tasks = seq (first_of tasks) (last_of tasks + 1 - first_of tasks)).

Section Model.
Context {V K O : Type}.
Context (P tag_ub : nat).
Notation msg := (msg V K).
Notation prog := (prog msg V O).
Notation arr := (list (list K)).
Context (zero : K) (add : K -> K -> K) (conj : K -> K).
(** [x == 0]. *)
Context (is_zero : K -> bool).
Context (store_as : K -> K -> res K).

(** The triangle of the vectors in memory, vectorspace.py:603-616. *)
Definition triangle (ip : V -> V -> K) (like : K) (start_row end_row : nat)
    (row_vecs : list V) (a : arr) : res arr :=
  res_fold (fun row_index a =>
    (v <-? py_nth row_vecs (row_index - start_row) ;
     x <-? store_as like (ip v v) ;
     a <-? set_entry a row_index row_index x ;
     res_fold (fun col_index a =>
       v <-? py_nth row_vecs (row_index - start_row) ;
       w <-? py_nth row_vecs (col_index - start_row) ;
       x <-? store_as like (ip v w) ;
       set_entry a row_index col_index x)
       (seq (row_index + 1) (end_row - (row_index + 1))) a)%res)
    (seq start_row (end_row - start_row)) a.

(** The exchange of single vectors between the ranks that have rows,
    vectorspace.py:618-706.  [source_rank = (my_rank - set_index - 1) % active]
    is written without negative numbers; [set_index + 1 <= active]. *)
Definition square_sets (ip : V -> V -> K) (like : K) (rank active max_num_to_send : nat)
    (tasks : list nat) (row_vecs : list V) (a : arr) : prog arr :=
  for_loop (seq 0 (ceil_div (active - 1) 2)) a (fun set_index a =>
    let dest_rank := (rank + set_index + 1) mod active in
    let source_rank := (rank + active - (set_index + 1)) mod active in
    for_loop (seq 0 max_num_to_send) a (fun send_index a =>
      a <-
        (if 0 <? length tasks then
           let start_col := send_index in
           let end_col := Nat.min (start_col + 1) (length tasks) in
           payload <- swap P rank dest_rank source_rank
             (slice start_col end_col row_vecs, slice start_col end_col tasks) ;;
           lift (ip_block store_as ip like (first_of tasks) (last_of tasks + 1)
                   row_vecs payload a)
         else ret a) ;;
      barrier P ;;;
      ret a)).

(** The columns right of the rows in memory, vectorspace.py:708-791. *)
Definition rectangle (ip : V -> V -> K) (like : K) (rank end_row : nat) (vecs : list loc)
    (tasks : list nat) (row_vecs : list V) (a : arr) : prog arr :=
  for_loop (py_range end_row (length vecs) P) a (fun start_col a =>
    let end_col := Nat.min (start_col + P) (length vecs) in
    let cols := nth rank (find_assignments P (seq start_col (end_col - start_col)) None) [] in
    ring P rank
      (if 0 <? length cols then
         vs <- get_slice vecs (first_of cols) (last_of cols + 1) ;;
         ret (vs, seq (first_of cols) (last_of cols + 1 - first_of cols))
       else ret ([], []))
      (fun payload a =>
         if 0 <? length tasks then
           ip_block store_as ip like (first_of tasks) (last_of tasks + 1) row_vecs payload a
         else Ok a)
      a).

(** One set of rows, vectorspace.py:581-795. *)
Definition row_chunk (ip : V -> V -> K) (like : K) (per_proc rank : nat) (vecs : list loc)
    (start_row : nat) (a : arr) : prog arr :=
  let end_row := Nat.min (length vecs) (start_row + (per_proc - 1) * P) in
  let tasks_all := find_assignments P (seq start_row (end_row - start_row)) None in
  let active := length (filter (fun t => busy t = true) tasks_all) in
  let tasks := nth rank tasks_all [] in
  row_vecs <-
    (if 0 <? length tasks then get_slice vecs (first_of tasks) (last_of tasks + 1)
     else ret []) ;;
  a <-
    (if 0 <? length tasks then
       if consecutive tasks then
         lift (triangle ip like (first_of tasks) (last_of tasks + 1) row_vecs a)
       else fail ValueError
     else ret a) ;;
  a <- square_sets ip like rank active
         (ceil_div (list_maximum (map length tasks_all)) 1) tasks row_vecs a ;;
  rectangle ip like rank end_row vecs tasks row_vecs a.

(** [a[i, j]] of an array known to have that entry. *)
Definition at_ (a : arr) (i j : nat) : K := nth j (nth i a []) zero.
(** Arrays given by their entries; [np.triu(f, k)]. *)
Definition build (n : nat) (f : nat -> nat -> K) : arr :=
  map (fun i => map (f i) (seq 0 n)) (seq 0 n).
Definition triu (k : nat) (f : nat -> nat -> K) (i j : nat) : K :=
  if i + k <=? j then f i j else zero.

(** Filling in the elements computed below the diagonal only, and mirroring,
    vectorspace.py:801-812.  Multiplication with the boolean mask selects an
    element or zero (infinities and nan, for which [inf * False] is nan, are left
    out). *)
Definition symmetrize (n : nat) (a : arr) : arr :=
  let x := at_ a in
  let xh := fun i j => conj (at_ a j i) in
  let mask := fun i j => is_zero (x i j) && negb (is_zero (xh i j)) in
  let y := fun i j => add (x i j) (if mask i j then triu 1 xh i j else zero) in
  build n (fun i j => add (triu 0 y i j) (conj (triu 1 y j i))).

(** VectorSpaceHandles.compute_symm_inner_product_array,
    /repo/modred/vectorspace.py:495-821, on rank [rank]. *)
Definition symm_array (inner_product : option (V -> V -> K))
    (per_node per_proc N rank : nat) (vecs : list loc) : prog arr :=
  match inner_product with
  | None => fail RuntimeError
  | Some ip =>
      let n := length vecs in
      h <- lift (py_nth vecs 0) ;;
      _ <- get h ;;
      v <- get h ;;
      (if per_node * N =? 2 * P then fail ZeroDivisionError else ret tt) ;;;
      let like := ip v v in
      a <- for_loop (py_range 0 n ((per_proc - 1) * P)) (zeros zero n n)
             (fun start_row a => row_chunk ip like per_proc rank vecs start_row a) ;;
      a <- sum_over_procs P tag_ub add rank a ;;
      barrier P ;;;
      ret (symmetrize n a)
  end.
End Model.
