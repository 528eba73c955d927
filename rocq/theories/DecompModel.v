(** Model of util.svd, util.eigh and util.eig_biorthog, /repo/modred/util.py:195-334.
    The LAPACK routines they wrap are parameters ([lapack] functions); what the
    theorems assume of their results is in DecompContracts below. *)
From Coq Require Import List Arith Lia Bool ZArith.
Import ListNotations.
From Verif Require Import Prelude Field Matrix NdArray.
Open Scope nat_scope.

Section Model.
Context {F : sfield}.
Open Scope k_scope.
Open Scope res_scope.

(** [(abs(l) > tol).sum()], util.py:224, 285 (entries real). *)
Definition count_above (tol : F) (l : list F) : nat :=
  length (filter (fun x => klt F tol (kabs x)) l).

(** One comparison [x / y > rtol] of util.py:228-229 and 289-290 for non-negative
    [x], [y]: with [y = 0] the quotient is inf or nan. *)
Definition ratio_above (rtol y x : F) : bool :=
  if k_dec F y 0 then (if k_dec F x 0 then false else true)
  else klt F rtol (x / y).

(** The number of values kept, util.py:223-232 and 284-293. *)
Definition num_kept (atol rtol : option F) (l : list F) : res nat :=
  let n_atol := match atol with Some t => count_above t l | None => length l end in
  match rtol with
  | None => Ok n_atol
  | Some r =>
      x0 <-? py_nth l 0 ;
      let n_rtol := length (filter (fun x => ratio_above r (kabs x0) (kabs x))
                              (firstn n_atol l)) in
      Ok (Nat.min n_atol n_rtol)
  end.

(** util.svd, util.py:195-239. [lapack A] is numpy.linalg.svd(A, full_matrices=False). *)
Definition svd (lapack : arr F -> res (arr F * list F * arr F)) (A : arr F)
    (atol rtol : option F) : res (arr F * list F * arr F) :=
  usv <-? lapack A ;
  let U := fst (fst usv) in let S := snd (fst usv) in
  let V := conj_T (snd usv) in
  k <-? num_kept atol rtol S ;
  Ok (first_cols k U, firstn k S, first_cols k V).

(** Smallest entry of a one-dimensional array of reals ([l.min()], ValueError
    when empty). *)
Fixpoint min_from (m : F) (l : list F) : F :=
  match l with [] => m | x :: l => min_from (if klt F x m then x else m) l end.
Definition min1 (l : list F) : res F :=
  match l with [] => Raise ValueError | x :: l => Ok (min_from x l) end.

(** The tolerance raised for positive definite arrays, util.py:280-281.
    [abs(min) > None] is a TypeError. *)
Definition raise_atol (pd : bool) (atol : option F) (l : list F) : res (option F) :=
  if negb pd then Ok atol
  else
    m <-? min1 l ;
    if klt F m 0 then
      match atol with
      | None => Raise TypeError
      | Some t => if klt F t (kabs m) then Ok (Some (kabs m)) else Ok atol
      end
    else Ok atol.

(** util.eigh, util.py:242-293. [lapack A] is numpy.linalg.eigh(A); [argsort] is
    numpy.argsort, whose order among equal entries is unspecified. *)
Definition eigh (lapack : arr F -> res (list F * arr F)) (argsort : list F -> list nat)
    (A : arr F) (atol rtol : option F) (pd : bool) : res (list F * arr F) :=
  ev <-? lapack A ;
  let idx := rev (argsort (map kabs (fst ev))) in
  let vals := map (at1 (fst ev)) idx in
  let vecs := Arr (nr (snd ev)) (length idx) (mcols (ent (snd ev)) (fun j => nth j idx O)) in
  atol' <-? raise_atol pd atol vals ;
  k <-? num_kept atol' rtol vals ;
  Ok (firstn k vals, first_cols k vecs).

(** [scale_choice.lower()] compared with 'left' and 'right'. *)
Inductive scale_choice := SLeft | SRight | SOther.

(** [A / s], dividing column j by s[j] (equal lengths). *)
Definition div_cols (A : arr F) (s : list F) : arr F :=
  Arr (nr A) (nc A) (fun i j => ent A i j / at1 s j).

(** util.eig_biorthog, util.py:299-334. [lapack A] is
    scipy.linalg.eig(A, left=True, right=True): eigenvalues, left, right vectors. *)
Definition eig_biorthog (lapack : arr F -> res (list F * arr F * arr F)) (A : arr F)
    (choice : scale_choice) : res (list F * arr F * arr F) :=
  wlr <-? lapack A ;
  let w := fst (fst wlr) in let L := snd (fst wlr) in let R := snd wlr in
  D <-? dot (conj_T L) R ;
  let s := diag_of D in
  match choice with
  | SLeft => Ok (w, R, div_cols L (map (kconj F) s))
  | SRight => Ok (w, div_cols R s, L)
  | SOther => Raise ValueError
  end.

(** ** Contracts of the wrapped routines *)

(** Columns 0..k-1 of an m-row matrix are orthonormal. *)
Definition orthonormal (m k : nat) (U : mat F) : Prop := meq k k (mmul m (madj U) U) mid.
Definition decreasing (l : list F) : Prop :=
  forall i j, i <= j -> j < length l -> kle (at1 l j) (at1 l i).
Definition all_real (l : list F) : Prop := Forall (fun x => real x) l.

(** numpy.linalg.svd(A, full_matrices=False). *)
Record svd_contract (A U : arr F) (S : list F) (Vh : arr F) : Prop := {
  svd_len : length S = Nat.min (nr A) (nc A);
  svd_Ur : nr U = nr A; svd_Uc : nc U = length S;
  svd_Vr : nr Vh = length S; svd_Vc : nc Vh = nc A;
  svd_U : orthonormal (nr A) (length S) (ent U);
  svd_V : orthonormal (nc A) (length S) (madj (ent Vh));
  svd_eq : meq (nr A) (nc A) (ent A)
             (mmul (length S) (ent U) (mmul (length S) (mdiag (at1 S)) (ent Vh)));
  svd_real : all_real S;
  svd_nonneg : Forall (kle 0) S;
  svd_sorted : decreasing S
}.

(** numpy.linalg.eigh(A) (A Hermitian): real eigenvalues, orthonormal vectors. *)
Record eigh_contract (A : arr F) (w : list F) (V : arr F) : Prop := {
  eigh_sq : nr A = nc A; eigh_len : length w = nr A;
  eigh_r : nr V = nr A; eigh_c : nc V = nr A;
  eigh_V : orthonormal (nr A) (nr A) (ent V);
  eigh_eq : meq (nr A) (nr A) (mmul (nr A) (ent A) (ent V)) (mmul (nr A) (ent V) (mdiag (at1 w)));
  eigh_real : all_real w
}.

(** numpy.argsort: a permutation of the indices that sorts increasingly. *)
Record argsort_contract (l : list F) (p : list nat) : Prop := {
  as_len : length p = length l;
  as_nodup : NoDup p;
  as_range : Forall (fun i => i < length l) p;
  as_sorted : forall i j, i <= j -> j < length p -> kle (at1 l (nth i p O)) (at1 l (nth j p O))
}.

(** scipy.linalg.eig(A, left=True, right=True): unit (so non-zero) right
    eigenvectors and left eigenvectors. *)
Record eig_contract (A : arr F) (w : list F) (L R : arr F) : Prop := {
  eig_sq : nr A = nc A; eig_len : length w = nr A;
  eig_Lr : nr L = nr A; eig_Lc : nc L = nr A;
  eig_Rr : nr R = nr A; eig_Rc : nc R = nr A;
  eig_R : meq (nr A) (nr A) (mmul (nr A) (ent A) (ent R)) (mmul (nr A) (ent R) (mdiag (at1 w)));
  eig_L : meq (nr A) (nr A) (mmul (nr A) (madj (ent L)) (ent A))
              (mmul (nr A) (mdiag (at1 w)) (madj (ent L)));
  eig_Rn : forall j, j < nr A -> exists i, i < nr A /\ ent R i j <> 0;
  eig_Ln : forall j, j < nr A -> exists i, i < nr A /\ ent L i j <> 0
}.

End Model.
