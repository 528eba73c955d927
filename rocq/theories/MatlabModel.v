(** Model of the MATLAB version of OKID, /repo/matlab/OKID.m, and of what
    testOKID_python.m makes of its result.  MATLAB arrays are numbered from one; here rows
    and columns are numbered from zero, the loop variables are MATLAB's. *)
From Coq Require Import List Arith Lia Bool ZArith.
Import ListNotations.
From Verif Require Import Prelude Field Matrix NdArray DecompModel EraModel.
Open Scope nat_scope.

Section Model.
Context {F : sfield}.
Open Scope k_scope.
Open Scope res_scope.

(** [H(r0+1:r0+p, c0+1:c0+m) = B] within the bounds of H.  A real array becomes complex
    when a complex one is assigned to a part of it. *)
Definition set_cells (r0 p c0 m : nat) (B H : mat F) : mat F := fun i j =>
  if ((r0 <=? i) && (i <? r0 + p) && (c0 <=? j) && (j <? c0 + m))%nat
  then B (i - r0)%nat (j - c0)%nat else H i j.

(** [[u(:,j); y(:,j)]], OKID.m:39. *)
Definition stacked (u y : arr F) (j : nat) : mat F :=
  fun a _ => if (a <? nr u)%nat then ent u a (j - 1)%nat else ent y (a - nr u)%nat (j - 1)%nat.
(** The array V, OKID.m:33-43. *)
Definition matlab_V (y u : arr F) (p : nat) : arr F :=
  let m := nr u in let q := nr y in let l := nc y in
  let V := fold_left (fun V i => set_cells 0 m (i - 1) 1 (fun a _ => ent u a (i - 1)%nat) V) (seq 1 l) mzero in
  Arr (m + (m + q) * p) l
    (fold_left (fun V i => fold_left (fun V j =>
       set_cells (m + (i - 2) * (m + q)) (m + q) (i + j - 2) 1 (stacked u y j) V) (seq 1 (l + 1 - i)) V) (seq 2 p) V).

(** The tolerance 1e-5 of OKID.m:45. *)
Definition ten : F := let two := 1 + 1 in two * (two * two + 1).
Definition cutoff : F := 1 / (ten * ten * ten * ten * ten).

(** [Y(:,:,k)] for k = 1, 2, ..., OKID.m:59-65; [Y] holds those of smaller k. *)
Definition matlab_step (q : nat) (D : mat F) (Y1 Y2 : nat -> mat F) (Y : list (mat F)) (k : nat) : list (mat F) :=
  Y ++ [fold_left (fun S i => madd S (mmul q (Y2 i) (nth (k - i - 1) Y mzero))) (seq 1 (k - 1))
          (madd (Y1 k) (mmul q (Y2 k) D))].
(** [H = [H Y]], OKID.m:69-72, for H with [n] columns. *)
Definition append_cols (n : nat) (H Y : mat F) : mat F :=
  fun i j => if (j <? n)%nat then H i j else Y i (j - n)%nat.

(** OKID(y,u,r), OKID.m: the first output (the second is the constant 0).  [pinv tol A] is
    pinv(A,tol).  A failed assert and an index out of range (Ybar1 is empty for r = 0) are
    MATLAB errors; printing size(Y) is left out.  At least one input and output. *)
Definition OKID_m (pinv : F -> arr F -> res (arr F)) (y u : arr F) (r : nat) : res (arr F) :=
  let q := nr y in let m := nr u in let p := r in
  if negb (nc y =? nc u)%nat then Raise RuntimeError else
  P <-? pinv cutoff (matlab_V y u p) ;
  Ybar <-? dot y P ;
  let D : mat F := ent Ybar in
  let Y1 i : mat F := fun a b => ent Ybar a (m + ((m + q) * (i - 1) + b))%nat in
  let Y2 i : mat F := fun a b => ent Ybar a (m + ((m + q) * (i - 1) + m + b))%nat in
  if (p =? 0)%nat then Raise IndexError else
  let Y := fold_left (matlab_step q D Y1 Y2) (seq 1 p) [] in
  Ok (Arr q (m * (p + 1))
    (fold_left (fun H k => append_cols (m * k) H (nth (k - 1) Y mzero)) (seq 1 p) D)).

(** testOKID_python.m:43-47: H as a three-dimensional array [output, input, time], here
    indexed by time first; the last block of H is not used. *)
Definition matlab_Markovs (m r : nat) (H : arr F) : arr3 F :=
  Arr3 r (nr H) m (fun k i j => ent H i (m * k + j)%nat).

(** [pinv(A,tol)]: singular values up to the tolerance count as zero. *)
Definition pinv_value (tol s : F) : F := if klt F tol s then 1 / s else 0.
Record pinv_contract (tol : F) (A P U : arr F) (S : list F) (Vh : arr F) : Prop := {
  pi_svd : svd_contract A U S Vh;
  pi_nr : nr P = nc A;
  pi_nc : nc P = nr A;
  pi_eq : meq (nc A) (nr A) (ent P)
    (mmul (length S) (madj (ent Vh))
      (mmul (length S) (mdiag (fun i => pinv_value tol (at1 S i))) (madj (ent U))))
}.
End Model.
