(** Model of the small helpers: /repo/modred/util.py:33-45, 151-192,
    /repo/modred/py2to3.py:18-40, the equality and printing methods of
    VectorSpaceHandles (/repo/modred/vectorspace.py:134-137, 1069-1077),
    /repo/modred/parallel.py:106-109 and the base class Vector
    (/repo/modred/vectors.py:200-225). *)
From Coq Require Import String Ascii ZArith.
From stdpp Require Import list.
From Verif Require Import Prelude InnerProdModel.
Open Scope nat_scope.

(** * Lists *)

(** An argument is iterable or a single object. *)
Inductive arg (A : Type) := Single (a : A) | Iterable (l : list A).
Arguments Single {A} a.
Arguments Iterable {A} l.

(** make_iterable, util.py:33-40: [iter(arg)] raises TypeError on a single
    object.  Simplified: an iterable is the list of what it gives, iterators that
    can be used only once are left out. *)
Definition make_iterable {A} (a : arg A) : list A :=
  match a with Single x => [x] | Iterable l => l end.

(** flatten_list, util.py:43-45: the comprehension's two loops. *)
Definition flatten_list {A} (my_list : list (list A)) : list A :=
  fold_left (fun out elem => fold_left (fun out num => out ++ [num]) elem out) my_list [].

(** sum_lists, util.py:156-162; [None] is the AssertionError (or an IndexError of
    the comprehension, which the assertion excludes). *)
Definition sum_lists {A} (add : A -> A -> A) (list1 list2 : list A) : option (list A) :=
  if length list1 =? length list2 then
    foldr (fun i out =>
      match list1 !! i, list2 !! i, out with
      | Some x, Some y, Some l => Some (add x y :: l)
      | _, _, _ => None
      end) (Some []) (seq 0 (length list1))
  else None.

(** sum_arrays, util.py:151-153, on one-dimensional arrays: NumPy's [+], which
    repeats an array of length one.  Simplified: other numbers of dimensions are
    left out. *)
Definition sum_arrays {A} (add : A -> A -> A) (arr1 arr2 : list A) : res (list A) :=
  if length arr1 =? length arr2 then Ok (zip_with add arr1 arr2)
  else match arr1, arr2 with
  | [x], _ => Ok (map (add x) arr2)
  | _, [y] => Ok (map (fun x => add x y) arr1)
  | _, _ => Raise ValueError
  end.

(** * smart_eq, util.py:165-174 *)

(** Python objects: an array (its shape and its entries in C order), or an object
    of another type.  Types and values of the latter are numbers, values of
    different types may be equal under [==] (1 and 1.0). *)
Inductive pyobj (A : Type) :=
| PArr (shape : list nat) (flat : list A)
| POther (type value : nat).
Arguments PArr {A} shape flat.
Arguments POther {A} type value.

(** [type(arg1) != type(arg2)]; subclasses of ndarray are left out. *)
Definition same_type {A} (a b : pyobj A) : bool :=
  match a, b with
  | PArr _ _, PArr _ _ => true
  | POther t _, POther t' _ => t =? t'
  | _, _ => false
  end.
(** [(arg1 == arg2).all()] of arrays of one shape; [eqb] is [==] of entries. *)
Fixpoint all_equal {A} (eqb : A -> A -> bool) (l l' : list A) : bool :=
  match l, l' with
  | x :: l, y :: l' => eqb x y && all_equal eqb l l'
  | _, _ => true
  end.
Definition smart_eq {A} (eqb : A -> A -> bool) (a b : pyobj A) : bool :=
  if negb (same_type a b) then false
  else match a, b with
  | PArr s l, PArr s' l' => if negb (bool_decide (s = s')) then false else all_equal eqb l l'
  | POther _ v, POther _ v' => v =? v'
  | _, _ => false
  end.

(** * InnerProductBlock.__call__, util.py:183-192 *)

(** [store_as] as in InnerProdModel.v: what assigning to an element of an array
    typed by the first product stores. *)
Definition product_block {V K} (zero : K) (store_as : K -> K -> res K) (ip : V -> V -> K)
    (vecs1 vecs2 : list V) : res (list (list K)) :=
  let n1 := length vecs1 in
  let n2 := length vecs2 in
  (v0 <-? py_nth vecs1 0 ;
   w0 <-? py_nth vecs2 0 ;
   res_fold (fun i a =>
     res_fold (fun j a =>
       v <-? py_nth vecs1 i ;
       w <-? py_nth vecs2 j ;
       x <-? store_as (ip v0 w0) (ip v w) ;
       set_entry a i j x) (seq 0 n2) a)
     (seq 0 n1) (zeros zero n1 n2))%res.

(** * Printing *)

(** [str.upper()] on ASCII letters. *)
Definition upper_ascii (c : ascii) : ascii :=
  let n := nat_of_ascii c in
  if (97 <=? n) && (n <=? 122) then ascii_of_nat (n - 32) else c.
Fixpoint upper (s : string) : string :=
  match s with EmptyString => EmptyString | String c s => String (upper_ascii c) (upper s) end.

(** What a call writes: stream and text. *)
Inductive stream := Stdout | Stderr.
Definition output := list (stream * string).

(** print_msg, py2to3.py:32-40 with print_stdout and print_stderr, 18-29: the
    newline is left out. *)
Definition print_msg (msg output_channel : string) : res output :=
  if String.eqb (upper output_channel) "STDOUT" then Ok [(Stdout, msg)]
  else if String.eqb (upper output_channel) "STDERR" then Ok [(Stderr, msg)]
  else Raise ValueError.

(** VectorSpaceHandles.print_msg, vectorspace.py:134-137, with is_rank_zero,
    parallel.py:94-96. *)
Definition vs_print_msg (verbosity : Z) (rank : nat) (msg output_channel : string) : res output :=
  if (0 <? verbosity)%Z && (rank =? 0) then print_msg msg output_channel else Ok [].

(** print_from_rank_zero, parallel.py:106-109. *)
Definition print_from_rank_zero (rank : nat) (msg output_channel : string) : res output :=
  if rank =? 0 then Ok [(Stdout, msg)] else Ok [].

(** * VectorSpaceHandles.__eq__ and __ne__, vectorspace.py:1069-1077 *)

(** The attributes compared, and the limit, which is not.  The inner product is
    the identity of the function object or None. *)
Record vspace := VSpace { vs_ip : option nat; vs_verbosity : Z; vs_limit : option Z }.
Definition vs_eq (s s' : vspace) : bool :=
  bool_decide (vs_ip s = vs_ip s') && (vs_verbosity s =? vs_verbosity s')%Z.
Definition vs_ne (s s' : vspace) : bool := negb (vs_eq s s').

(** * Vector, vectors.py:200-225 *)

(** A subclass defines addition and multiplication with scalars or leaves those
    of the base class, which raise. *)
Section Vector.
Context {V K : Type}.
Context (sub_init : option V) (sub_add : option (V -> V -> V)) (sub_mul : option (V -> K -> V)).
(** [-1] of the scalars *)
Context (minus_one : K).
Definition vector_init : res V :=
  match sub_init with Some v => Ok v | None => Raise NotImplementedError end.
Definition vector_add (v w : V) : res V :=
  match sub_add with Some f => Ok (f v w) | None => Raise NotImplementedError end.
Definition vector_mul (v : V) (c : K) : res V :=
  match sub_mul with Some f => Ok (f v c) | None => Raise NotImplementedError end.
(** [__rmul__] and [__lmul__]. *)
Definition vector_rmul (c : K) (v : V) : res V := vector_mul v c.
(** [__sub__]: the right operand is evaluated first. *)
Definition vector_sub (v w : V) : res V :=
  (u <-? vector_rmul minus_one w ; vector_add v u)%res.
End Vector.
