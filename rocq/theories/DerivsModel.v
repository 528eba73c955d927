(** Model of compute_derivs_handles and compute_derivs_arrays,
    /repo/modred/ltigalerkinproj.py:24-73. *)
From stdpp Require Import gmap list.
From Verif Require Import Prelude ParallelModel Spmd ReductionsModel.
Open Scope prog_scope.

Section Model.
Context {M V K O : Type}.
Notation prog := (prog M V O).
Context (P : nat).
(** Vector subtraction and multiplication by a number. *)
Context (vsub : V -> V -> V) (smul : K -> V -> V).

(** compute_derivs_handles, ltigalerkinproj.py:24-52, on rank [rank].
    [inv_dt] is the value of [1. / dt], evaluated after both vectors are read; it
    raises for [dt = 0]. *)
Definition derivs_handles (inv_dt : res K) (rank : nat) (vecs advs derivs : list loc)
    : prog unit :=
  if negb (length vecs =? length advs) || negb (length vecs =? length derivs) then
    fail RuntimeError
  else
    for_loop (nth rank (find_assignments P (seq 0 (length vecs)) None) []) tt (fun i _ =>
      h <- lift (py_nth vecs i) ;;
      vec <- get h ;;
      h' <- lift (py_nth advs i) ;;
      vec_dt <- get h' ;;
      c <- lift inv_dt ;;
      g <- lift (py_nth derivs i) ;;
      put g (smul c (vsub vec_dt vec))) ;;;
    barrier P.
End Model.

(** NumPy's broadcasting of one dimension: the lengths agree, or one of them is one. *)
Definition broadcast_dim (a b : nat) : option nat :=
  if a =? b then Some a else if a =? 1 then Some b else if b =? 1 then Some a else None.
Definition stretch {A} (n : nat) (l : list A) : list A := match l with [x] => replicate n x | _ => l end.
Definition width {K} (rows : list (list K)) : nat := match rows with r :: _ => length r | [] => 0 end.
(** compute_derivs_arrays, ltigalerkinproj.py:55-73, for two-dimensional arrays with at
    least one row, given as lists of rows. [div x] is [x / (1. * dt)]. *)
Definition derivs_arrays {K} (sub : K -> K -> K) (div : K -> K) (vecs advs : list (list K))
    : res (list (list K)) :=
  match broadcast_dim (length advs) (length vecs), broadcast_dim (width advs) (width vecs) with
  | Some m, Some n =>
      Ok (map (map div) (zip_with (zip_with sub) (stretch m (map (stretch n) advs)) (stretch m (map (stretch n) vecs))))
  | _, _ => Raise ValueError
  end.
