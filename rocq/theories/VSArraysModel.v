(** Model of VectorSpaceArrays, /repo/modred/vectorspace.py:11-64. *)
From Coq Require Import List Arith Lia Bool ZArith.
Import ListNotations.
From Verif Require Import Prelude Field Matrix NdArray.
Open Scope nat_scope.

Section Model.
Context {F : sfield}.
Open Scope k_scope.
Open Scope res_scope.

(** An array of any number of dimensions: its shape and its entries in C order. *)
Record nd := Nd { shape : list nat; flat : list F }.

(** [.squeeze()]: drop the dimensions of length one. *)
Definition squeeze (a : nd) : nd :=
  Nd (filter (fun d => negb (d =? 1)%nat) (shape a)) (flat a).

(** A two-dimensional array from its entries in C order. *)
Definition as_2d (m n : nat) (l : list F) : arr F := Arr m n (fun i j => at1 l (i * n + j)%nat).

(** What the constructor keeps: the weights by number of dimensions, which selects
    the inner product method. *)
Inductive weights := WNone | W1 (w : list F) | W2 (W : arr F).

(** VectorSpaceArrays.__init__, vectorspace.py:19-30. *)
Definition set_weights (w : option nd) : res weights :=
  match w with
  | None => Ok WNone
  | Some a =>
      let b := squeeze a in
      match shape b with
      | [_] => Ok (W1 (flat b))
      | [m; n] => Ok (W2 (as_2d m n (flat b)))
      | _ => Raise ValueError
      end
  end.

(** [A * w] with [w] one-dimensional: broadcasting along the rows; a single
    column is repeated. *)
Definition mul_row (A : arr F) (w : list F) : res (arr F) :=
  if (nc A =? length w)%nat then Ok (Arr (nr A) (nc A) (fun i j => ent A i j * at1 w j))
  else if (nc A =? 1)%nat then Ok (Arr (nr A) (length w) (fun i j => ent A i O * at1 w j))
  else if (length w =? 1)%nat then Ok (Arr (nr A) (nc A) (fun i j => ent A i j * at1 w O))
  else Raise ValueError.

(** compute_inner_product_array: _IP_no_weights, _IP_1D_weights, _IP_2D_weights,
    vectorspace.py:33-42. *)
Definition inner_product_array (ws : weights) (vecs1 vecs2 : arr F) : res (arr F) :=
  match ws with
  | WNone => dot (conj_T vecs1) vecs2
  | W1 w => A <-? mul_row (conj_T vecs1) w ; dot A vecs2
  | W2 W => B <-? dot W vecs2 ; dot (conj_T vecs1) B
  end.

(** compute_symm_inner_product_array, vectorspace.py:45-46. *)
Definition symm_inner_product_array (ws : weights) (vecs : arr F) : res (arr F) :=
  inner_product_array ws vecs vecs.

(** lin_combine, vectorspace.py:49-54. *)
Definition lin_combine (basis_vecs coeff_array : arr F) (indices : option (list Z)) : res (arr F) :=
  C <-? pick_opt coeff_array indices ; dot basis_vecs C.

End Model.
Arguments nd : clear implicits.
Arguments weights : clear implicits.
