(** Model of /repo/modred/examples/customvector.py, and of the operations of arrays as vectors. *)
From Coq Require Import List Arith Lia Bool.
Import ListNotations.
From Verif Require Import Prelude Field Matrix NdArray VSArraysModel TrapzModel.
Open Scope nat_scope.

Section Model.
Context {F : sfield}.
Open Scope k_scope.
Open Scope res_scope.

(** [u + v] and [u * c] of arrays.  Broadcasting is not modelled: unequal shapes raise
    ValueError here. *)
Definition array_add (u v : nd F) : res (nd F) :=
  if shape_eqb (shape u) (shape v)
  then Ok (Nd (shape u) (map (fun k => at1 (flat u) k + at1 (flat v) k) (seq 0 (size (shape u)))))
  else Raise ValueError.
Definition array_mul (u : nd F) (c : F) : nd F :=
  Nd (shape u) (map (fun k => at1 (flat u) k * c) (seq 0 (size (shape u)))).

(** CustomVector, customvector.py:10-13; [weighted_ip] holds the grids of the
    InnerProductTrapz object. *)
Record custom := Custom { grids : list (grid F); data_array : nd F; weighted_ip : list (list F) }.
Definition new_custom (gs : list (grid F)) (data : nd F) : res custom :=
  xs <-? new_trapz gs ; Ok (Custom gs data xs).
(** __add__, customvector.py:16-20: a deep copy of self with another array. *)
Definition custom_add (self other : custom) : res custom :=
  a <-? array_add (data_array self) (data_array other) ; Ok (Custom (grids self) a (weighted_ip self)).
(** __mul__, customvector.py:23-27. *)
Definition custom_mul (self : custom) (c : F) : custom :=
  Custom (grids self) (array_mul (data_array self) c) (weighted_ip self).
(** inner_product, customvector.py:30-31 and 55-56. *)
Definition custom_ip (v1 v2 : custom) : res F := inner_product (weighted_ip v1) (data_array v1) (data_array v2).

(** A file with pickled objects, one after the other; a put starts it anew. *)
Inductive pickled := PGrids (gs : list (grid F)) | PArray (a : nd F).
(** _put, customvector.py:48-52. *)
Definition custom_put (v : custom) : list pickled := [PGrids (grids v); PArray (data_array v)].
(** _get, customvector.py:40-45.  None: the file holds something else. *)
Definition custom_get (f : list pickled) : option (res custom) :=
  match f with
  | PGrids gs :: PArray a :: _ => Some (new_custom gs a)
  | _ => None
  end.
End Model.
Arguments custom : clear implicits.
Arguments pickled : clear implicits.
