(** Model of util.Hankel and util.Hankel_chunks, /repo/modred/util.py:564-627. *)
From Coq Require Import List Arith Lia Bool.
Import ListNotations.
From Verif Require Import Prelude Field Matrix NdArray.
Open Scope nat_scope.

Section Model.
Context {F : sfield}.
Open Scope k_scope.
Open Scope res_scope.

(** [v[indices]] with a two-dimensional array of non-negative indices, m x n, given
    by [f]: IndexError when one is too large. *)
Definition fancy (v : list F) (m n : nat) (f : nat -> nat -> nat) : res (arr F) :=
  if forallb (fun i => forallb (fun j => (f i j <? length v)%nat) (seq 0 n)) (seq 0 m)
  then Ok (Arr m n (fun i j => at1 v (f i j))) else Raise IndexError.

(** util.Hankel, util.py:564-588; arguments already flattened to one dimension. *)
Definition Hankel (first_col : list F) (last_row : option (list F)) : res (arr F) :=
  let last_row := match last_row with None => repeat 0 (length first_col) | Some r => r end in
  let unique_vals := first_col ++ skipn 1 last_row in
  fancy unique_vals (length first_col) (length last_row) (fun a b => (a + b)%nat).

(** [np.array(l)] of a list of two-dimensional arrays, as iterated over again by
    [np.hstack]. Equal shapes only: the treatment of unequal shapes depends on the
    NumPy version and is not modelled (UndefinedError). *)
Definition same_shape (A B : arr F) : bool := (nr A =? nr B)%nat && (nc A =? nc B)%nat.
Definition np_array (l : list (arr F)) : res (list (arr F)) :=
  match l with
  | [] => Ok []
  | A :: l' => if forallb (same_shape A) l' then Ok l else Raise UndefinedError
  end.

Fixpoint rmapM {A B} (f : A -> res B) (l : list A) : res (list B) :=
  match l with
  | [] => Ok []
  | a :: l => b <-? f a ; bs <-? rmapM f l ; Ok (b :: bs)
  end.

(** util.Hankel_chunks, util.py:591-627. *)
Definition Hankel_chunks (first : list (arr F)) (last : option (list (arr F))) : res (arr F) :=
  last <-? match last with
           | Some l => Ok l
           | None => A <-? py_nth first 0 ; Ok (repeat (zeros (nr A) (nc A)) (length first))
           end ;
  let unique := first ++ skipn 1 last in
  rows <-? rmapM (fun idx => l <-? np_array (slice idx (idx + length last)%nat unique) ; hstack l)
             (seq 0 (length first)) ;
  vstack rows.

End Model.
