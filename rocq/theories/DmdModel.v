(** Model of compute_DMD_arrays_snaps_method and compute_DMD_arrays_direct_method,
    /repo/modred/dmd.py:11-481. *)
From Coq Require Import List Arith Lia Bool ZArith.
Import ListNotations.
From Verif Require Import Prelude Field Matrix NdArray DecompModel VSArraysModel PodModel BpodModel.
Open Scope nat_scope.

Section Model.
Context {F : sfield}.
Open Scope k_scope.
Open Scope res_scope.

(** [A.dot(v)] with a one-dimensional [v]. *)
Definition dot1 (A : arr F) (v : list F) : res (list F) :=
  if (nc A =? length v)%nat
  then Ok (map (fun i => sum (nc A) (fun j => ent A i j * at1 v j)) (seq 0 (nr A)))
  else Raise ValueError.
(** [A[i, :]] and [A[:, j]] with a non-negative index. *)
Definition row (A : arr F) (i : nat) : res (list F) :=
  if (i <? nr A)%nat then Ok (map (ent A i) (seq 0 (nc A))) else Raise IndexError.
Definition col (A : arr F) (j : nat) : res (list F) :=
  if (j <? nc A)%nat then Ok (map (fun i => ent A i j) (seq 0 (nr A))) else Raise IndexError.
(** util.atleast_2d_col of a one-dimensional array, util.py:24-30. *)
Definition as_col (v : list F) : arr F := Arr (length v) 1 (fun i _ => at1 v i).
(** [A[:-1, :]], [A[1:, :]], [A[:, :-1]], [A[:, 1:]]. *)
Definition but_last_row (A : arr F) : arr F := row_slice 0 (nr A - 1)%nat A.
Definition but_first_row (A : arr F) : arr F := row_slice 1 (nr A) A.
Definition but_last_col (A : arr F) : arr F := col_slice 0 (nc A - 1)%nat A.
Definition but_first_col (A : arr F) : arr F := col_slice 1 (nc A) A.

(** [np.abs] of a complex number. *)
Definition cabs (sqrt : F -> F) (x : F) : F := sqrt (x^* * x).

(** The namedtuples DMD_results, dmd.py:212-233, 463-481; the direct method does not
    return the two correlation arrays. *)
Record dmd_results := Dmd {
  d_eigvals : list F; d_spectral : nd F;
  d_exact : arr F; d_proj : arr F; d_adjoint : arr F;
  d_proj_coeffs : arr F; d_adv_proj_coeffs : arr F;
  d_R : arr F; d_L : arr F; d_cvals : list F; d_cvecs : arr F;
  d_corr : option (arr F * arr F)
}.

(** Truncation to [max_num_eigvals] (not negative), dmd.py:146-150, 343-348, 371-376. *)
Definition max_list {A} (m : option nat) (l : list A) : list A :=
  match m with
  | Some m => if (m <? length l)%nat then firstn m l else l
  | None => l
  end.
Definition max_cols (m : option nat) (size : nat) (A : arr F) : arr F :=
  match m with
  | Some m => if (m <? size)%nat then first_cols m A else A
  | None => A
  end.

(** Building the modes, dmd.py:184-209, 436-461. The second branch needs advanced
    vectors, None has no [dot] (unreachable). *)
Definition DMD_modes (vecs : arr F) (adv_vecs : option (arr F)) (idx : option (list Z))
    (exact proj adjoint : arr F) : res (arr F * arr F * arr F) :=
  if (nc vecs =? nr exact + 1)%nat then
    e <-? lin_combine (but_first_col vecs) exact idx ;
    p <-? lin_combine (but_last_col vecs) proj idx ;
    a <-? lin_combine (but_last_col vecs) adjoint idx ;
    Ok (e, p, a)
  else if (nc vecs =? nr exact)%nat then
    match adv_vecs with
    | None => Raise AttributeError
    | Some adv =>
        e <-? lin_combine adv exact idx ;
        p <-? lin_combine vecs proj idx ;
        a <-? lin_combine vecs adjoint idx ;
        Ok (e, p, a)
    end
  else Raise ValueError.

(** From the low-order linear map to the results, dmd.py:152-233 and 397-481 (the
    same text). [E]: correlation_array_eigvals, [Einv]: the diagonal of
    correlation_array_eigvals_sqrt_inv. [eigvals ** -1.] is [1 / x]; for an
    eigenvalue zero NumPy yields inf or nan, here an unspecified number. *)
Definition DMD_core (eig_lapack : arr F -> res (list F * arr F * arr F)) (sqrt : F -> F)
    (vecs : arr F) (adv_vecs : option (arr F)) (idx : option (list Z))
    (E Einv : list F) (V cross : arr F) (corr : option (arr F * arr F)) : res dmd_results :=
  VD <-? dot V (diag Einv) ;
  KVD <-? dot cross VD ;
  VKVD <-? dot (conj_T V) KVD ;
  M <-? dot (diag Einv) VKVD ;
  wrl <-? eig_biorthog eig_lapack M SLeft ;
  let w := fst (fst wrl) in let R := snd (fst wrl) in let L := snd wrl in
  DR <-? dot (diag Einv) R ;
  proj <-? dot V DR ;
  exact <-? dot proj (diag (map (fun x => 1 / x) w)) ;
  DL <-? dot (diag Einv) L ;
  adjoint <-? dot V DL ;
  v0 <-? row V 0 ;
  sv0 <-? dot1 (diag (map sqrt E)) (map (kconj F) v0) ;
  spec <-? dot1 (conj_T L) sv0 ;
  SVh <-? dot (diag (map sqrt E)) (conj_T V) ;
  pc <-? dot (conj_T L) SVh ;
  VhK <-? dot (conj_T V) cross ;
  SVhK <-? dot (diag (map (inv_sqrt sqrt) E)) VhK ;
  apc <-? dot (conj_T L) SVhK ;
  modes <-? DMD_modes vecs adv_vecs idx exact proj adjoint ;
  Ok (Dmd w (squeeze (Nd [length spec] (map (cabs sqrt) spec)))
        (fst (fst modes)) (snd (fst modes)) (snd modes) pc apc R L E V corr).

Definition same_shape2 (A B : arr F) : bool := (nr A =? nr B)%nat && (nc A =? nc B)%nat.

(** The correlation and cross-correlation arrays, dmd.py:115-139. *)
Definition DMD_correlations (ws : weights F) (vecs : arr F) (adv_vecs : option (arr F))
    : res (arr F * arr F) :=
  match adv_vecs with
  | None =>
      expanded <-? symm_inner_product_array ws vecs ;
      Ok (but_last_col (but_last_row expanded), but_first_col (but_last_row expanded))
  | Some adv =>
      if negb (same_shape2 vecs adv) then Raise ValueError else
      C <-? symm_inner_product_array ws vecs ;
      K <-? inner_product_array ws vecs adv ;
      Ok (C, K)
  end.

(** compute_DMD_arrays_snaps_method, dmd.py:108-233. *)
Definition DMD_snaps (eigh_lapack : arr F -> res (list F * arr F)) (argsort : list F -> list nat)
    (eig_lapack : arr F -> res (list F * arr F * arr F)) (sqrt : F -> F) (distributed : bool)
    (vecs : arr F) (adv_vecs : option (arr F)) (idx : option (list Z))
    (inner_product_weights : option (nd F)) (atol rtol : option F) (max_num : option nat)
    : res dmd_results :=
  if distributed then Raise RuntimeError else
  ws <-? set_weights inner_product_weights ;
  CK <-? DMD_correlations ws vecs adv_vecs ;
  ev <-? eigh eigh_lapack argsort (fst CK) atol rtol true ;
  let E := max_list max_num (fst ev) in
  let V := max_cols max_num (length (fst ev)) (snd ev) in
  DMD_core eig_lapack sqrt vecs adv_vecs idx E (map (inv_sqrt sqrt) E) V (snd CK) (Some CK).

(** Multiplying data by the square root of the weights, dmd.py:318-337. The number
    of dimensions is that of the argument, not squeezed; for others no branch is
    taken and the first use of [vecs_weighted] raises UnboundLocalError. *)
Definition sqrt_weights (cholesky : arr F -> res (arr F)) (sqrt : F -> F) (w : option (nd F))
    : res (arr F -> res (arr F)) :=
  match w with
  | None => Ok (fun A => Ok A)
  | Some (Nd [n] w) => Ok (fun A => dot (diag (map sqrt w)) A)
  | Some (Nd [a; b] w) => L <-? cholesky (as_2d a b w) ; Ok (fun A => dot (conj_T L) A)
  | Some _ => Raise UndefinedError
  end.

(** compute_DMD_arrays_direct_method, dmd.py:306-481. *)
Definition DMD_direct (svd_lapack : arr F -> res (arr F * list F * arr F))
    (cholesky : arr F -> res (arr F))
    (eig_lapack : arr F -> res (list F * arr F * arr F)) (sqrt : F -> F) (distributed : bool)
    (vecs : arr F) (adv_vecs : option (arr F)) (idx : option (list Z))
    (inner_product_weights : option (nd F)) (atol rtol : option F) (max_num : option nat)
    : res dmd_results :=
  if distributed then Raise RuntimeError else
  _ <-? set_weights inner_product_weights ;
  weigh <-? sqrt_weights cholesky sqrt inner_product_weights ;
  vecs_weighted <-? weigh vecs ;
  match adv_vecs with
  | None =>
      usv <-? svd svd_lapack (but_last_col vecs_weighted) atol rtol ;
      let S := max_list max_num (snd (fst usv)) in
      let V := max_cols max_num (length (snd (fst usv))) (snd usv) in
      let E := map (fun s => s * s) S in
      EVh <-? dot (diag E) (conj_T V) ;
      corr <-? dot V EVh ;
      x <-? col vecs_weighted (nc vecs_weighted - 1)%nat ;
      c <-? dot1 (conj_T (but_last_col vecs_weighted)) x ;
      cross <-? hstack [but_first_col corr; as_col c] ;
      DMD_core eig_lapack sqrt vecs adv_vecs idx E (map (fun s => 1 / s) S) V cross None
  | Some adv =>
      adv_weighted <-? weigh adv ;
      if negb (same_shape2 vecs adv) then Raise ValueError else
      usv <-? svd svd_lapack vecs_weighted atol rtol ;
      let S := max_list max_num (snd (fst usv)) in
      let V := max_cols max_num (length (snd (fst usv))) (snd usv) in
      let E := map (fun s => s * s) S in
      cross <-? dot (conj_T vecs_weighted) adv_weighted ;
      DMD_core eig_lapack sqrt vecs adv_vecs idx E (map (fun s => 1 / s) S) V cross None
  end.

End Model.
Arguments dmd_results : clear implicits.
