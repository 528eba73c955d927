(** Model of the equality of array vector spaces, VectorSpaceArrays.__eq__ and
    __ne__, /repo/modred/vectorspace.py:56-64. *)
From Coq Require Import List Arith Bool.
Import ListNotations.
From Verif Require Import Prelude Field Matrix NdArray VSArraysModel.
Open Scope nat_scope.

Section Model.
Context {F : sfield}.

(** [np.array_equal(a, b)]: same shape and all entries equal; None is an array of
    no dimensions, which no kept weights are. *)
Definition list_equal (l l' : list F) : bool :=
  (length l =? length l') &&
  forallb (fun i => if k_dec F (at1 l i) (at1 l' i) then true else false) (seq 0 (length l)).
Definition arr_equal (A B : arr F) : bool :=
  (nr A =? nr B) && (nc A =? nc B) &&
  forallb (fun i => forallb (fun j =>
    if k_dec F (ent A i j) (ent B i j) then true else false) (seq 0 (nc A))) (seq 0 (nr A)).
Definition array_equal (a b : weights F) : bool :=
  match a, b with
  | WNone, WNone => true
  | W1 w, W1 w' => list_equal w w'
  | W2 W, W2 W' => arr_equal W W'
  | _, _ => false
  end.

(** The other object: an array vector space or anything else. *)
Inductive operand := Space (w : weights F) | Anything_else.

(** __eq__ and __ne__, vectorspace.py:56-64. *)
Definition space_eq (self : weights F) (other : operand) : bool :=
  match other with Space w => array_equal self w | Anything_else => false end.
Definition space_ne (self : weights F) (other : operand) : bool := negb (space_eq self other).
End Model.
Arguments operand : clear implicits.
