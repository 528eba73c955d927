(** Model of the array functions of /repo/modred/pod.py:11-208. *)
From Coq Require Import List Arith Lia Bool ZArith.
Import ListNotations.
From Verif Require Import Prelude Field Matrix NdArray DecompModel VSArraysModel.
Open Scope nat_scope.

Section Model.
Context {F : sfield}.
Open Scope k_scope.
Open Scope res_scope.

(** The namedtuple POD_results, pod.py:93-99, 203-208. *)
Record pod_results := Pod {
  p_eigvals : list F; p_modes : arr F; p_coeffs : arr F; p_eigvecs : arr F;
  p_corr : option (arr F)
}.

(** [x ** 0.5] is the parameter [sqrt]; [x ** -0.5] is its inverse. *)
Definition inv_sqrt (sqrt : F -> F) (x : F) : F := 1 / sqrt x.

(** compute_POD_arrays_snaps_method, pod.py:68-99. *)
Definition POD_snaps (eigh_lapack : arr F -> res (list F * arr F)) (argsort : list F -> list nat)
    (sqrt : F -> F) (distributed : bool) (vecs : arr F) (mode_indices : option (list Z))
    (inner_product_weights : option (nd F)) (atol rtol : option F) : res pod_results :=
  if distributed then Raise RuntimeError else
  ws <-? set_weights inner_product_weights ;
  correlation_array <-? symm_inner_product_array ws vecs ;
  ev <-? eigh eigh_lapack argsort correlation_array atol rtol true ;
  let eigvals := fst ev in let eigvecs := snd ev in
  build_coeffs <-? dot eigvecs (diag (map (inv_sqrt sqrt) eigvals)) ;
  modes <-? lin_combine vecs build_coeffs mode_indices ;
  proj_coeffs <-? dot (diag (map sqrt eigvals)) (conj_T eigvecs) ;
  Ok (Pod eigvals modes proj_coeffs eigvecs (Some correlation_array)).

(** compute_POD_arrays_direct_method, pod.py:154-208. [cholesky] and [inv] are
    numpy.linalg.cholesky and numpy.linalg.inv. The weights must be an array (the
    code uses its [ndim]); with more dimensions no branch is taken and the first
    use of [sing_vals] raises UnboundLocalError. *)
Definition POD_direct (svd_lapack : arr F -> res (arr F * list F * arr F))
    (cholesky inv : arr F -> res (arr F)) (sqrt : F -> F) (distributed : bool)
    (vecs : arr F) (mode_indices : option (list Z)) (inner_product_weights : option (nd F))
    (atol rtol : option F) : res pod_results :=
  if distributed then Raise RuntimeError else
  (* mode_indices = range(sing_vals.size) when None *)
  let pick M S := pick_cols M match mode_indices with
                              | Some l => l
                              | None => map Z.of_nat (seq 0 (length S))
                              end in
  r <-? match inner_product_weights with
        | None =>
            usv <-? svd svd_lapack vecs atol rtol ;
            modes <-? pick (fst (fst usv)) (snd (fst usv)) ;
            Ok (modes, snd (fst usv), snd usv)
        | Some (Nd [n] w) =>
            let sqrt_weights := map sqrt w in
            vecs_weighted <-? dot (diag sqrt_weights) vecs ;
            usv <-? svd svd_lapack vecs_weighted atol rtol ;
            m <-? pick (fst (fst usv)) (snd (fst usv)) ;
            modes <-? dot (diag (map (fun x => 1 / x) sqrt_weights)) m ;
            Ok (modes, snd (fst usv), snd usv)
        | Some (Nd [a; b] w) =>
            L <-? cholesky (as_2d a b w) ;
            let sqrt_weights := conj_T L in
            vecs_weighted <-? dot sqrt_weights vecs ;
            usv <-? svd svd_lapack vecs_weighted atol rtol ;
            inv_sqrt_weights <-? inv sqrt_weights ;
            m <-? pick (fst (fst usv)) (snd (fst usv)) ;
            modes <-? dot inv_sqrt_weights m ;
            Ok (modes, snd (fst usv), snd usv)
        | Some _ => Raise UndefinedError
        end ;
  let sing_vals := snd (fst r) in
  let eigvals := map (fun s => s * s) sing_vals in
  proj_coeffs <-? dot (diag (map sqrt eigvals)) (conj_T (snd r)) ;
  Ok (Pod eigvals (fst (fst r)) proj_coeffs (snd r) None).

(** What is assumed of [sqrt] at a value. *)
Definition sqrt_ok (sqrt : F -> F) (x : F) : Prop :=
  real (sqrt x) /\ kle 0 (sqrt x) /\ sqrt x * sqrt x = x.

(** numpy.linalg.cholesky and numpy.linalg.inv. *)
Definition cholesky_contract (W L : arr F) : Prop :=
  nr L = nr W /\ nc L = nr W /\ nc W = nr W /\
  meq (nr W) (nr W) (mmul (nr W) (ent L) (madj (ent L))) (ent W).
Definition inv_contract (A B : arr F) : Prop :=
  nr B = nr A /\ nc B = nr A /\ nc A = nr A /\
  meq (nr A) (nr A) (mmul (nr A) (ent B) (ent A)) mid.

End Model.
Arguments pod_results : clear implicits.
