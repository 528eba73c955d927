(** Model of inner_product_array_uniform and InnerProductTrapz,
    /repo/modred/vectors.py:137-197. *)
From Coq Require Import List Arith Lia Bool.
Import ListNotations.
From Verif Require Import Prelude Field Matrix NdArray VSArraysModel.
Open Scope nat_scope.

Section Model.
Context {F : sfield}.
Open Scope k_scope.
Open Scope res_scope.

(** inner_product_array_uniform, vectors.py:137-141: np.vdot flattens both arrays and
    raises ValueError when their sizes differ. *)
Definition inner_product_array_uniform (v1 v2 : nd F) : res F :=
  if (length (flat v1) =? length (flat v2))%nat
  then Ok (sum (length (flat v1)) (fun k => (at1 (flat v1) k)^* * at1 (flat v2) k))
  else Raise ValueError.

(** A positional argument of the constructor: a one-dimensional array of grid points or
    something else than an array.  Grids with more dimensions are not modelled. *)
Inductive grid := Grid (x : list F) | NotArray.

(** __init__, vectors.py:164-173: the grids kept. *)
Fixpoint check_grids (gs : list grid) : res (list (list F)) :=
  match gs with
  | [] => Ok []
  | NotArray :: _ => Raise TypeError
  | Grid x :: gs => xs <-? check_grids gs ; Ok (x :: xs)
  end.
Definition new_trapz (gs : list grid) : res (list (list F)) :=
  match gs with [] => Raise ValueError | _ => check_grids gs end.
(** self.grid_shape, vectors.py:173. *)
Definition grid_shape (xs : list (list F)) : list nat := map (@length F) xs.

(** Numbers of entries. *)
Definition size (s : list nat) : nat := fold_right Nat.mul 1%nat s.
Definition shape_eqb (s t : list nat) : bool := if list_eq_dec Nat.eq_dec s t then true else false.

(** [np.trapz(y, x=x)] of [n] values: the sum of [diff(x) * (y[1:] + y[:-1]) / 2]. *)
Definition trapz1 (x : list F) (y : nat -> F) : F :=
  sum (length x - 1) (fun i => (at1 x (i + 1)%nat - at1 x i) * (y (i + 1)%nat + y i) / (1 + 1)).
(** [np.trapz] of an array: along the last axis, which disappears. *)
Definition trapz (x : list F) (a : nd F) : nd F :=
  let s := removelast (shape a) in
  let n := last (shape a) O in
  Nd s (map (fun k => trapz1 x (fun i => at1 (flat a) (k * n + i)%nat)) (seq 0 (size s))).

(** inner_product, vectors.py:180-197; [vec1.conj() * vec2] of arrays of equal shapes;
    the array left at the end is zero-dimensional. *)
Definition inner_product (xs : list (list F)) (vec1 vec2 : nd F) : res F :=
  if negb (shape_eqb (shape vec1) (grid_shape xs)) then Raise TypeError
  else if negb (shape_eqb (shape vec2) (grid_shape xs)) then Raise TypeError
  else
    let IP := Nd (shape vec1) (map (fun k => (at1 (flat vec1) k)^* * at1 (flat vec2) k) (seq 0 (size (shape vec1)))) in
    Ok (at1 (flat (fold_left (fun a x => trapz x a) (rev xs) IP)) 0).

End Model.
Arguments grid : clear implicits.
