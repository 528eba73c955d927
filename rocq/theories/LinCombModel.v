(** Model of VectorSpaceHandles.lin_combine, /repo/modred/vectorspace.py:824-1066,
    as an SPMD program.  Progress messages and timings are left out, as in
    InnerProdModel.v; the burned operation [v + 2.*v] is taken not to raise. *)
From stdpp Require Import gmap list.
From Coq Require Import ZArith.
From Verif Require Import Prelude ParallelModel Spmd ReductionsModel InnerProdModel.
Open Scope nat_scope.
Open Scope prog_scope.

Section Model.
Context {V K O : Type}.
Context (P : nat).
Notation prog := (prog (msg V K) V O).

(** A NumPy array of at most two dimensions; a 2-D array carries its shape. *)
Inductive coeffs :=
| Scalar (x : K)
| Vec1 (l : list K)
| Arr2 (m n : nat) (rows : list (list K)).

(** A coefficient array with its shape. *)
Notation arr2 := (nat * nat * list (list K))%type.

(** util.atleast_2d_row, /repo/modred/util.py:15-21. *)
Definition atleast_2d_row (a : coeffs) : arr2 :=
  match a with
  | Scalar x => (1, 1, [[x]])
  | Vec1 l => (1, length l, [l])
  | Arr2 m n rows => (m, n, rows)
  end.
(** util.atleast_2d_col, /repo/modred/util.py:24-30. *)
Definition atleast_2d_col (a : coeffs) : arr2 :=
  match a with
  | Scalar x => (1, 1, [[x]])
  | Vec1 l => (length l, 1, map (fun x => [x]) l)
  | Arr2 m n rows => (m, n, rows)
  end.

(** A NumPy index into an axis of length [n]: negative indices count from the
    end. *)
Definition norm_index (n : nat) (i : Z) : res nat :=
  if (0 <=? i)%Z && (i <? Z.of_nat n)%Z then Ok (Z.to_nat i)
  else if (- Z.of_nat n <=? i)%Z && (i <? 0)%Z then Ok (Z.to_nat (i + Z.of_nat n))
  else Raise IndexError.

(** [[f(x) for x in l]] where [f] may raise. *)
Fixpoint res_map {A B} (f : A -> res B) (l : list A) : res (list B) :=
  match l with
  | [] => Ok []
  | x :: l' => (y <-? f x ; ys <-? res_map f l' ; Ok (y :: ys))%res
  end.

(** Column indices: an integer or a list of integers. *)
Inductive col_index := OneCol (i : Z) | Cols (l : list Z).

(** [atleast_2d_col(a[:, idx])] for a 2-D array [a], vectorspace.py:891-893. *)
Definition take_cols (a : arr2) (idx : col_index) : res arr2 :=
  let '(m, n, rows) := a in
  let l := match idx with OneCol i => [i] | Cols l => l end in
  (js <-? res_map (norm_index n) l ;
   rows' <-? res_map (fun row => res_map (py_nth row) js) rows ;
   Ok (m, length js, rows'))%res.

(** The checks at the head of lin_combine, vectorspace.py:872-903: the
    coefficient array used, or the exception raised. *)
Definition lin_coeffs (num_bases num_sums : nat) (a : coeffs) (idx : option col_index)
    : res (list (list K)) :=
  let a2 := if num_bases =? 1 then atleast_2d_row a else atleast_2d_col a in
  (a3 <-? match idx with None => Ok a2 | Some i => take_cols a2 i end ;
   if negb (num_bases =? fst (fst a3)) then Raise ValueError
   else if negb (num_sums =? snd (fst a3)) then Raise ValueError
   else Ok (snd a3))%res.

Context (vadd : V -> V -> V) (smul : V -> K -> V).

(** [a[i, j]]. *)
Definition get_entry (a : list (list K)) (i j : nat) : res K :=
  (row <-? py_nth a i ; py_nth row j)%res.

(** The scalar multiplications with the vectors at hand,
    vectorspace.py:1038-1047. *)
Definition add_layers (coeff : list (list K)) (start_sum end_sum : nat)
    (basis : list V * list nat) (layers : list (option V)) : res (list (option V)) :=
  res_fold (fun sum_index layers =>
    res_fold (fun '(basis_index, basis_vec) layers =>
      (i <-? py_nth (snd basis) basis_index ;
       c <-? get_entry coeff i sum_index ;
       old <-? py_nth layers (sum_index - start_sum) ;
       let layer := smul basis_vec c in
       Ok (<[sum_index - start_sum :=
              Some match old with None => layer | Some s => vadd s layer end]> layers))%res)
      (zip (seq 0 (length (fst basis))) (fst basis)) layers)
    (seq start_sum (end_sum - start_sum)) layers.

(** Writing the finished sums, vectorspace.py:1057-1060.  A sum that no basis
    vector contributed to would be None; there is none, as the basis is not
    empty. *)
Definition put_sums (sums : list loc) (start_sum end_sum : nat) (layers : list (option V))
    : prog unit :=
  for_loop (seq start_sum (end_sum - start_sum)) tt (fun sum_index _ =>
    h <- lift (py_nth sums sum_index) ;;
    layer <- lift (py_nth layers (sum_index - start_sum)) ;;
    match layer with
    | Some v => put h v
    | None => fail TypeError
    end).

(** The part of lin_combine after the checks, vectorspace.py:905-1066. *)
Definition lin_core (per_node per_proc N rank : nat) (sums basis : list loc)
    (coeff : list (list K)) : prog unit :=
  let num_bases := length basis in
  let num_sums := length sums in
  h <- lift (py_nth basis 0) ;;
  _ <- get h ;;
  _ <- get h ;;
  (if per_node * N =? 2 * P then fail ZeroDivisionError else ret tt) ;;;
  let sums_per_chunk := per_proc - 1 in
  let basis_tasks := find_assignments P (seq 0 num_bases) None in
  let sum_tasks := find_assignments P (seq 0 num_sums) None in
  let num_basis_get_iters := ceil_div (list_maximum (map length basis_tasks)) 1 in
  let num_sum_put_iters :=
    ceil_div (list_maximum (map length sum_tasks)) sums_per_chunk in
  let my_basis := nth rank basis_tasks [] in
  let my_sums := nth rank sum_tasks [] in
  for_loop (seq 0 num_sum_put_iters) tt (fun sum_put_index _ =>
    let bounds := chunk_bounds my_sums sum_put_index sums_per_chunk in
    let start_sum := fst bounds in
    let end_sum := snd bounds in
    layers <- for_loop (seq 0 num_basis_get_iters) (replicate (end_sum - start_sum) None)
      (fun basis_get_index layers =>
        let bounds := chunk_bounds my_basis basis_get_index 1 in
        let start_basis := fst bounds in
        let end_basis := snd bounds in
        ring P rank
          (vs <- get_slice basis start_basis end_basis ;;
           ret (vs, seq start_basis (end_basis - start_basis)))
          (add_layers coeff start_sum end_sum)
          layers) ;;
    put_sums sums start_sum end_sum layers) ;;;
  barrier P.

(** VectorSpaceHandles.lin_combine, /repo/modred/vectorspace.py:824-1066, on rank
    [rank]. *)
Definition lin_combine (per_node per_proc N rank : nat) (sums basis : list loc)
    (coeff : coeffs) (idx : option col_index) : prog unit :=
  a <- lift (lin_coeffs (length basis) (length sums) coeff idx) ;;
  lin_core per_node per_proc N rank sums basis a.

End Model.
Arguments coeffs : clear implicits.
