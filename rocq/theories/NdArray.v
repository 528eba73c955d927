(** Two-dimensional NumPy arrays over a scalar field: shape and entries. *)
From Coq Require Import List Arith Lia Bool ZArith.
Import ListNotations.
From Verif Require Import Prelude Field Matrix.
Open Scope nat_scope.

Section Arr.
Context {F : sfield}.
Open Scope k_scope.

Record arr := Arr { nr : nat; nc : nat; ent : mat F }.

(** Same shape, same entries. *)
Definition aeq (A B : arr) : Prop :=
  nr A = nr B /\ nc A = nc B /\ meq (nr A) (nc A) (ent A) (ent B).

(** [np.dot] / [A.dot(B)] of two-dimensional arrays: ValueError unless the inner
    dimensions agree. *)
Definition dot (A B : arr) : res arr :=
  if (nc A =? nr B)%nat then Ok (Arr (nr A) (nc B) (mmul (nc A) (ent A) (ent B)))
  else Raise ValueError.

(** [A.conj().T], [A.T], [A.conj()]. *)
Definition conj_T (A : arr) : arr := Arr (nc A) (nr A) (madj (ent A)).
Definition transp (A : arr) : arr := Arr (nc A) (nr A) (mtr (ent A)).
Definition conj_a (A : arr) : arr := Arr (nr A) (nc A) (mconj (ent A)).

(** One-dimensional arrays are lists; [np.diag] of one. *)
Definition at1 (l : list F) (i : nat) : F := nth i l 0.
Definition diag (l : list F) : arr := Arr (length l) (length l) (mdiag (at1 l)).
(** [np.diag(A)] of a square array: its diagonal. *)
Definition diag_of (A : arr) : list F :=
  map (fun i => ent A i i) (seq 0 (Nat.min (nr A) (nc A))).
(** [np.eye(n)]. *)
Definition eye (n : nat) : arr := Arr n n mid.
Definition zeros (m n : nat) : arr := Arr m n mzero.

(** [A[:, :k]]: slices stop at the array's edge. *)
Definition first_cols (k : nat) (A : arr) : arr := Arr (nr A) (Nat.min k (nc A)) (ent A).

(** An index counts from the end when negative. *)
Definition wrap_index (n : nat) (z : Z) : option nat :=
  if (0 <=? z)%Z && (z <? Z.of_nat n)%Z then Some (Z.to_nat z)
  else if (- Z.of_nat n <=? z)%Z && (z <? 0)%Z then Some (Z.to_nat (z + Z.of_nat n))
  else None.
Fixpoint wrap_all (n : nat) (l : list Z) : res (list nat) :=
  match l with
  | [] => Ok []
  | z :: l =>
      match wrap_index n z with
      | None => Raise IndexError
      | Some i => match wrap_all n l with Ok is => Ok (i :: is) | Raise e => Raise e end
      end
  end.
(** [A[:, idx]] with a list of indices. *)
Definition pick_cols (A : arr) (idx : list Z) : res arr :=
  match wrap_all (nc A) idx with
  | Ok is => Ok (Arr (nr A) (length is) (mcols (ent A) (fun j => nth j is O)))
  | Raise e => Raise e
  end.
(** The same when the indices may be None: all columns. *)
Definition pick_opt (A : arr) (idx : option (list Z)) : res arr :=
  match idx with None => Ok A | Some l => pick_cols A l end.

(** [np.hstack] and [np.vstack] of lists of two-dimensional arrays: ValueError for
    an empty list and for unequal numbers of rows (columns). *)
Definition hcat (A B : arr) : arr :=
  Arr (nr A) (nc A + nc B)%nat (fun i j => if (j <? nc A)%nat then ent A i j else ent B i (j - nc A)%nat).
Definition vcat (A B : arr) : arr :=
  Arr (nr A + nr B)%nat (nc A) (fun i j => if (i <? nr A)%nat then ent A i j else ent B (i - nr A)%nat j).
Fixpoint hstack (l : list arr) : res arr :=
  match l with
  | [] => Raise ValueError
  | A :: l =>
      match l with
      | [] => Ok A
      | _ => match hstack l with
             | Ok B => if (nr A =? nr B)%nat then Ok (hcat A B) else Raise ValueError
             | Raise e => Raise e
             end
      end
  end.
Fixpoint vstack (l : list arr) : res arr :=
  match l with
  | [] => Raise ValueError
  | A :: l =>
      match l with
      | [] => Ok A
      | _ => match vstack l with
             | Ok B => if (nc A =? nc B)%nat then Ok (vcat A B) else Raise ValueError
             | Raise e => Raise e
             end
      end
  end.

(** An array given by its rows, for examples. *)
Definition of_rows (n : nat) (l : list (list F)) : arr :=
  Arr (length l) n (fun i j => nth j (nth i l []) 0).

(** Decision procedures, for examples. *)
Definition keqb (x y : F) : bool := if k_dec F x y then true else false.
Lemma keqb_true x y : keqb x y = true -> x = y.
Proof. unfold keqb. destruct (k_dec F x y); [auto|discriminate]. Qed.
Lemma keqb_false x y : keqb x y = false -> x <> y.
Proof. unfold keqb. destruct (k_dec F x y); [discriminate|auto]. Qed.
Definition meqb (m n : nat) (A B : mat F) : bool :=
  forallb (fun i => forallb (fun j => keqb (A i j) (B i j)) (seq 0 n)) (seq 0 m).
Lemma meqb_true m n A B : meqb m n A B = true -> meq m n A B.
Proof.
  intros H. split. intros i j Hi Hj. unfold meqb in H.
  rewrite forallb_forall in H. specialize (H i). rewrite in_seq in H.
  specialize (H ltac:(lia)). rewrite forallb_forall in H. apply keqb_true.
  apply H. apply in_seq. lia.
Qed.

End Arr.
Arguments arr : clear implicits.
