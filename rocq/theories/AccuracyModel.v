(** [sum_layers[i] += basis_vec * coeff] (/repo/modred/vectorspace.py:1038-1047) on one-dimensional
    float64 arrays: sums and products are rounded entry by entry, [rnd] as in FloatModel.v.

    Simplified: numbers of any size, no overflow or underflow, no NaN. *)
From Coq Require Import List QArith.
Import ListNotations.
Open Scope Q_scope.

Section Model.
Context (rnd : Q -> Q).

(** [basis_vec * coeff], vectorspace.py:1040-1041. *)
Definition fl_scale (v : list Q) (c : Q) : list Q := map (fun x => rnd (x * c)) v.
(** [sum_layer += ...], vectorspace.py:1045-1047; arrays of one length. *)
Fixpoint fl_vadd (v w : list Q) : list Q :=
  match v, w with
  | x :: v', y :: w' => rnd (x + y) :: fl_vadd v' w'
  | _, _ => []
  end.
End Model.
