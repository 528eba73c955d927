(** Model of VectorSpaceHandles.sanity_check, /repo/modred/vectorspace.py:140-216, on one
    processor.

    Vectors are user-supplied objects, so every operation may change the state of all
    objects and may raise: [H] is the state, [R] are references to vectors. *)
From Coq Require Import List Arith Lia Bool.
Import ListNotations.
From Verif Require Import Prelude Field.
Open Scope nat_scope.

Section Model.
Context {F : sfield} {H R : Type}.
Open Scope k_scope.

(** Computations on the state of all objects. *)
Definition M (A : Type) : Type := H -> H * res A.
Definition mret {A} (a : A) : M A := fun s => (s, Ok a).
Definition mraise {A} (e : exn) : M A := fun s => (s, Raise e).
Definition mbind {A B} (m : M A) (k : A -> M B) : M B := fun s =>
  match m s with
  | (s', Ok a) => k a s'
  | (s', Raise e) => (s', Raise e)
  end.
Notation "x <-! m ; k" := (mbind m (fun x => k)) (at level 60, m at level 55, right associativity).

(** What the user supplies: the vector class's __mul__ and __add__, deep copies and the
    inner product, which may be None. *)
Record vector_ops := VectorOps {
  deepcopy : R -> M R;
  mul : R -> F -> M R;
  add : R -> R -> M R;
  inner_product : option (R -> R -> M F)
}.

Definition two : F := 1 + 1.
Definition ten : F := two * (two * two + 1).
Fixpoint power (x : F) (n : nat) : F := match n with O => 1 | Datatypes.S n => x * power x n end.
(** tol = 1e-12, vectorspace.py:156. *)
Definition tol : F := 1 / power ten 12.
(** [abs(z) > tol]. *)
Definition exceeds (z : F) : bool := klt F (tol * tol) (z^* * z).
(** [if abs(z) > tol: raise ValueError]. *)
Definition check (z : F) : M unit := if exceeds z then mraise ValueError else mret tt.

(** sanity_check, vectorspace.py:140-216. *)
Definition sanity_check (O : vector_ops) (get : M R) : M unit :=
  match inner_product O with
  | None => mraise RuntimeError
  | Some ip =>
      test_vec <-! get ;
      vec_copy <-! deepcopy O test_vec ;
      mag <-! ip vec_copy vec_copy ;
      vec_mult <-! mul O test_vec two ;
      a <-! ip vec_mult vec_mult ;
      _ <-! check (a - mag * power two 2) ;
      b <-! ip test_vec test_vec ;
      _ <-! check (b - mag) ;
      vec_add <-! add O test_vec test_vec ;
      c <-! ip vec_add vec_add ;
      _ <-! check (c - mag * (two * two)) ;
      d <-! ip test_vec test_vec ;
      _ <-! check (d - mag) ;
      t <-! mul O test_vec two ;
      vec_add_mult <-! add O t test_vec ;
      e <-! ip vec_add_mult vec_add_mult ;
      _ <-! check (e - mag * power (two + 1) 2) ;
      f <-! ip test_vec test_vec ;
      check (f - mag)
  end.

End Model.
Arguments vector_ops : clear implicits.
Arguments M : clear implicits.
