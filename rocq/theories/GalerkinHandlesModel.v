(** Model of LTIGalerkinProjectionHandles, /repo/modred/ltigalerkinproj.py:299-480, with
    the commands of HandlesModel.v.  The inverse is computed by every rank, without a
    broadcast. *)
From stdpp Require Import gmap list.
From Verif Require Import Prelude Field Matrix NdArray ParallelModel Spmd HandlesModel GalerkinModel.
Open Scope nat_scope.

Section Model.
Context {F : sfield}.
Open Scope h_scope.

(** The attributes, 77-83 and 341-358; put_array, verbosity and vec_space are left out. *)
Record gh := Gh {
  gh_basis : list loc; gh_adjoint : list loc; gh_symmetric : bool; gh_orthonormal : bool;
  gh_proj : option (arr F); gh_A : option (arr F); gh_B : option (arr F); gh_C : option (arr F)
}.

(** __init__, 338-361. *)
Definition gh_new (basis : list loc) (adjoint : option (list loc)) (orthonormal : bool) : res gh :=
  match adjoint with
  | None => Ok (Gh basis basis true orthonormal None None None None)
  | Some adj =>
      if length adj =? length basis then Ok (Gh basis adj false orthonormal None None None None)
      else Raise ValueError
  end.

Definition set_proj (o : gh) (T : arr F) : gh :=
  Gh (gh_basis o) (gh_adjoint o) (gh_symmetric o) (gh_orthonormal o) (Some T) (gh_A o) (gh_B o) (gh_C o).
Definition set_A (o : gh) (X : arr F) : gh :=
  Gh (gh_basis o) (gh_adjoint o) (gh_symmetric o) (gh_orthonormal o) (gh_proj o) (Some X) (gh_B o) (gh_C o).
Definition set_B (o : gh) (X : arr F) : gh :=
  Gh (gh_basis o) (gh_adjoint o) (gh_symmetric o) (gh_orthonormal o) (gh_proj o) (gh_A o) (Some X) (gh_C o).
Definition set_C (o : gh) (X : arr F) : gh :=
  Gh (gh_basis o) (gh_adjoint o) (gh_symmetric o) (gh_orthonormal o) (gh_proj o) (gh_A o) (gh_B o) (Some X).

Section Inv.
(** [inv]: numpy.linalg.inv. *)
Variable inv : arr F -> res (arr F).

(** _get_proj_array, 469-480. *)
Definition gh_get_proj (o : gh) : hprog F (gh * arr F) :=
  match gh_proj o with
  | Some T => HRet (o, T)
  | None =>
      G <== (if gh_symmetric o then symm_inner_products (gh_basis o)
             else inner_products (gh_adjoint o) (gh_basis o)) ;
      T <== hlift (inv G) ;
      HRet (set_proj o T, T)
  end.

(** reduce_A (364-382) and reduce_B (385-418): [set] sets the attribute, before and
    after the projection. *)
Definition gh_reduce (set : gh -> arr F -> gh) (o : gh) (X : list loc) : hprog F (gh * arr F) :=
  R <== inner_products (gh_adjoint o) X ;
  let o := set o R in
  if gh_orthonormal o then HRet (o, R)
  else
    p <== gh_get_proj o ;
    R' <== hlift (dot (snd p) R) ;
    HRet (set (fst p) R', R').
Definition gh_reduce_A := gh_reduce set_A.
Definition gh_reduce_B := gh_reduce set_B.
(** reduce_C, 421-432: the transpose, since C_on_basis_vecs lists the outputs of each
    basis vector. *)
Definition gh_reduce_C (o : gh) (C : data F) : gh * arr F :=
  let R := transp (ndmin2 C) in (set_C o R, R).

(** compute_model, 435-466. *)
Definition gh_compute_model (o : gh) (X Y : list loc) (C : data F) : hprog F (gh * (arr F * arr F * arr F)) :=
  p <== gh_reduce_A o X ;
  p <== gh_reduce_B (fst p) Y ;
  let o := fst (gh_reduce_C (fst p) C) in
  a <== need AttributeError (gh_A o) ;
  b <== need AttributeError (gh_B o) ;
  c <== need AttributeError (gh_C o) ;
  HRet (o, (a, b, c)).

(** A history of calls on one object, with the results of all calls. *)
Inductive hcall := GA (X : list loc) | GB (X : list loc) | GC (C : data F) | GModel (X Y : list loc) (C : data F).
Definition do_hcall (o : gh) (c : hcall) : hprog F (gh * list (arr F)) :=
  match c with
  | GA X => p <== gh_reduce_A o X ; HRet (fst p, [snd p])
  | GB X => p <== gh_reduce_B o X ; HRet (fst p, [snd p])
  | GC C => HRet (fst (gh_reduce_C o C), [snd (gh_reduce_C o C)])
  | GModel X Y C =>
      p <== gh_compute_model o X Y C ;
      HRet (fst p, [fst (fst (snd p)); snd (fst (snd p)); snd (snd p)])
  end.
Fixpoint do_hcalls (o : gh) (cs : list hcall) : hprog F (list (list (arr F))) :=
  match cs with
  | [] => HRet []
  | c :: cs => p <== do_hcall o c ; l <== do_hcalls (fst p) cs ; HRet (snd p :: l)
  end.

End Inv.
End Model.
Arguments gh : clear implicits.
Arguments hcall : clear implicits.
