(** Common vocabulary: Python exceptions as values and Python list slicing. *)
From Coq Require Import List Arith Lia Bool.
Import ListNotations.

(** Exception classes raised by /repo/modred.  [LinAlgError] stands for errors
    raised inside NumPy/SciPy, [UndefinedError] is util.UndefinedError
    (/repo/modred/util.py:13), [MPIError] an error code raised by MPI. *)
Inductive exn :=
| ValueError | TypeError | IndexError | RuntimeError | ZeroDivisionError
| AttributeError | NotImplementedError | UndefinedError | LinAlgError
| OSError | MPIError.

(** A Python call either returns or raises. *)
Inductive res (A : Type) :=
| Ok (a : A)
| Raise (e : exn).
Arguments Ok {A} a.
Arguments Raise {A} e.

Definition rbind {A B} (m : res A) (f : A -> res B) : res B :=
  match m with Ok a => f a | Raise e => Raise e end.
Definition rmap {A B} (f : A -> B) (m : res A) : res B :=
  rbind m (fun a => Ok (f a)).

Declare Scope res_scope.
Delimit Scope res_scope with res.
Notation "x <-? m ; k" := (rbind m (fun x => k))
  (at level 100, m at next level, right associativity) : res_scope.

(** Python [l[a:b]] for non-negative [a], [b]. *)
Definition slice {A} (a b : nat) (l : list A) : list A :=
  firstn (b - a) (skipn a l).

(** Python [l[i]] for non-negative [i]. *)
Definition py_nth {A} (l : list A) (i : nat) : res A :=
  match nth_error l i with Some a => Ok a | None => Raise IndexError end.

(** [int(numpy.ceil(a / b))] for a natural [a] and positive [b]. *)
Definition ceil_div (a b : nat) : nat := (a + (b - 1)) / b.
