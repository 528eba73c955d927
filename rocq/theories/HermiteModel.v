(** Model of /repo/modred/examples/hermite.py: spectral differentiation arrays.

    Simplified: entries are elements of a field, so dividing by a zero difference of nodes
    gives some element and not inf or nan with a warning (the theorems ask for distinct
    nodes). *)
From Coq Require Import List Arith Lia Bool ZArith.
Import ListNotations.
From Verif Require Import Prelude Field Matrix NdArray.
Open Scope nat_scope.

Section Model.
Context {F : sfield}.
Open Scope k_scope.
Open Scope res_scope.

(** Natural numbers in the field, and powers. *)
Fixpoint num (n : nat) : F := match n with O => 0 | S n => num n + 1 end.
Fixpoint kpow (b : F) (n : nat) : F := match n with O => 1 | S n => b * kpow b n end.
(** [np.prod] of f 0 ... f (n - 1). *)
Fixpoint prod (n : nat) (f : nat -> F) : F := match n with O => 1 | S n => prod n f * f n end.

(** hermite.py:94-100: differences with ones on the diagonal. *)
Definition DX (x : list F) : mat F := fun k j => if (k =? j)%nat then 1 else at1 x k - at1 x j.
(** hermite.py:103: [alpha] with one entry is broadcast. *)
Definition wt (alpha : list F) (k : nat) : F := if (length alpha =? 1)%nat then at1 alpha 0 else at1 alpha k.
(** hermite.py:103-105: quotients c[k] / c[j]. *)
Definition cs (x alpha : list F) (k : nat) : F := wt alpha k * prod (length x) (DX x k).
Definition Cq (x alpha : list F) : mat F := fun k j => cs x alpha k / cs x alpha j.
(** hermite.py:108-109. *)
Definition Zq (x : list F) : mat F := fun k j => if (k =? j)%nat then 0 else 1 / DX x k j.
(** hermite.py:112-113: row r of X holds, for every k, the r-th entry of row k of Z without
    its diagonal entry ([compressed] and [reshape] go through the rows in order). *)
Definition skip (k r : nat) : nat := if (r <? k)%nat then r else S r.
Definition Xq (x : list F) : mat F := fun r k => Zq x k (skip k r).

(** hermite.py:122-125: cumulative sums down the columns. *)
Definition next_Y (x : list F) (B Y : mat F) (i : nat) : mat F := fun r k =>
  sum (S r) (fun s => match s with O => B (i - 1)%nat k | S s => num i * Y s k * Xq x s k end).
(** hermite.py:128-131. *)
Definition next_D (x alpha : list F) (Y D : mat F) (i : nat) : mat F := fun k j =>
  if (k =? j)%nat then Y (length x - 1)%nat k
  else num i * Zq x k j * (Cq x alpha k j * D k k - D k j).
(** hermite.py:116-132: the passes i, i + 1, ..., i + steps - 1. *)
Fixpoint derivs (x alpha : list F) (B Y D : mat F) (i steps : nat) : list (arr F) :=
  match steps with
  | O => []
  | S steps =>
      let Y := next_Y x B Y i in
      let D := next_D x alpha Y D i in
      Arr (length x) (length x) D :: derivs x alpha B Y D (S i) steps
  end.
(** hermite.py:83-134. The branches on the keyword arguments; [alpha] and [B] of a length
    other than that of x (or one, for alpha) do not fit.  Without nodes X cannot be reshaped.
    Not modelled: several weights with a single node. *)
Definition poldif (x : list F) (m : option nat) (alpha : option (list F)) (B : option (arr F)) : res (list (arr F)) :=
  let n := length x in
  let go (m : nat) (alpha : list F) (B : arr F) :=
    if (n =? 0)%nat then Raise ValueError
    else if negb ((length alpha =? n)%nat || (length alpha =? 1)%nat) then Raise ValueError
    else if negb (m =? 0)%nat && negb (nc B =? n)%nat then Raise ValueError
    else Ok (derivs x alpha (ent B) (fun _ _ => 1) mid 1 m) in
  match m, B, alpha with
  | Some m, None, None => go m (repeat 1 n) (zeros m n)
  | None, Some B, Some alpha => go (nr B) alpha B
  | _, _, _ => Raise RuntimeError
  end.

(** [np.sort]. *)
Fixpoint insert_sorted (a : F) (l : list F) : list F :=
  match l with
  | [] => [a]
  | b :: l => if klt F b a then b :: insert_sorted a l else a :: b :: l
  end.
Fixpoint np_sort (l : list F) : list F := match l with [] => [] | a :: l => insert_sorted a (np_sort l) end.

Section Roots.
(** [sqrt]: [** 0.5]; [exp]: np.exp; [eigvalsh]: numpy.linalg.eigvalsh. *)
Variables (sqrt exp : F -> F) (eigvalsh : arr F -> res (list F)).

(** hermite.py:13: [np.diag] of an empty array with offset 1 is a 1 x 1 array. *)
Definition jacobi (n : nat) : arr F := Arr (S (n - 1)) (S (n - 1)) (fun i j =>
  if (j =? S i)%nat then sqrt (num (S i)) else if (i =? S j)%nat then sqrt (num (S j)) else 0).
(** hermite.py:10-14. *)
Definition herroots (n : nat) : res (list F) :=
  w <-? eigvalsh (jacobi n) ;
  Ok (map (fun v => v / sqrt (1 + 1)) (np_sort w)).

(** hermite.py:38-42: row i of beta at a node. *)
Fixpoint beta (x : F) (i : nat) : F :=
  match i with
  | O => 1
  | S i' => match i' with O => - x | S i'' => - x * beta x i' - num i' * beta x i'' end
  end.
(** hermite.py:31-57: [beta[1]] does not exist for m = 0. *)
Definition herdif (n m : nat) (b : F) : res (list F * list (arr F)) :=
  x <-? herroots n ;
  let alpha := map (fun v => exp (- (v * v) / (1 + 1))) x in
  if (m =? 0)%nat then Raise IndexError else
  let B := Arr m (length x) (fun i k => beta (at1 x k) (S i)) in
  Dm <-? poldif x None (Some alpha) (Some B) ;
  Ok (map (fun v => v / b) x,
      map (fun iD => Arr (nr (snd iD)) (nc (snd iD)) (mscale (kpow b (fst iD)) (ent (snd iD))))
        (combine (seq 1 m) Dm)).

(** main_CGL.py:40, 53-54: the operator of the linearized Ginzburg-Landau equation. *)
Definition cgl_operator (x : list F) (Ds : list (arr F)) (nu gamma mu_c mu_2 : F) : res (arr F) :=
  match Ds with
  | D1 :: D2 :: _ =>
      Ok (Arr (length x) (length x) (madd (madd (mscale (- nu) (ent D1)) (mscale gamma (ent D2)))
        (mdiag (fun k => mu_c + mu_2 * (at1 x k * at1 x k) / (1 + 1)))))
  | _ => Raise IndexError
  end.
End Roots.
End Model.
