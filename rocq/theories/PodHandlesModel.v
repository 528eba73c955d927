(** Model of the class PODHandles, /repo/modred/pod.py:211-427: its attributes and the
    methods that compute.  Getting and putting arrays in files is in DecompIOModel.v. *)
From stdpp Require Import gmap list.
From Coq Require Import ZArith.
From Verif Require Import Prelude Field Matrix NdArray DecompModel PodModel Spmd LinCombModel
  HandlesModel.
Open Scope nat_scope.

Section Model.
Context {F : sfield}.
Open Scope h_scope.

(** The attributes, None before they are set, pod.py:241-254 ([proj_coeffs] does not
    exist before compute_proj_coeffs, 425). *)
Record pod_obj := PodObj {
  ph_eigvals : option (list F); ph_eigvecs : option (arr F);
  ph_vecs : option (list loc); ph_corr : option (arr F); ph_coeffs : option (arr F)
}.
(** PODHandles.__init__, pod.py:241-254. *)
Definition POD_new : pod_obj := PodObj None None None None None.

(** compute_eigendecomp, pod.py:345-366.  The call is made on rank zero only; LAPACK
    rejects None. An object's state after an exception: LeftModel.v. *)
Definition POD_eigendecomp (eigh_lapack : arr F -> res (list F * arr F))
    (argsort : list F -> list nat) (o : pod_obj) (atol rtol : option F) : hprog F pod_obj :=
  ev <== bcast_eigh (match ph_corr o with
                     | Some C => eigh eigh_lapack argsort C atol rtol true
                     | None => Raise LinAlgError
                     end) ;
  HRet (PodObj (Some (fst ev)) (Some (snd ev)) (ph_vecs o) (ph_corr o) (ph_coeffs o)).

(** compute_decomp, pod.py:369-393. *)
Definition POD_decomp (eigh_lapack : arr F -> res (list F * arr F))
    (argsort : list F -> list nat) (o : pod_obj) (vec_handles : list loc) (atol rtol : option F)
    : hprog F pod_obj :=
  C <== symm_inner_products vec_handles ;
  POD_eigendecomp eigh_lapack argsort
    (PodObj (ph_eigvals o) (ph_eigvecs o) (Some vec_handles) (Some C) (ph_coeffs o)) atol rtol.

(** compute_modes, pod.py:396-414.  [None ** -0.5] raises TypeError before [np.dot] is
    called.  Without vectors lin_combine makes a list of None (vectorspace.py:868,
    util.py:33-40) and, if the coefficients fit one vector, fails on [None.get] (906). *)
Definition POD_compute_modes (sqrt : F -> F) (o : pod_obj) (mode_indices : option col_index)
    (mode_handles : list loc) (vec_handles : option (list loc)) : hprog F pod_obj :=
  let o := match vec_handles with
           | Some h => PodObj (ph_eigvals o) (ph_eigvecs o) (Some h) (ph_corr o) (ph_coeffs o)
           | None => o
           end in
  E <== need TypeError (ph_eigvals o) ;
  V <== need TypeError (ph_eigvecs o) ;
  B <== hlift (dot V (diag (map (inv_sqrt sqrt) E))) ;
  _ <== match ph_vecs o with
        | Some h => combine mode_handles h B mode_indices
        | None => _ <== hlift (lin_coeffs 1 (length mode_handles) (Arr2 (nr B) (nc B) (to_lists B)) mode_indices) ;
                  HFail AttributeError
        end ;
  HRet o.

(** compute_proj_coeffs, pod.py:417-427. *)
Definition POD_proj_coeffs (sqrt : F -> F) (o : pod_obj) : hprog F (pod_obj * arr F) :=
  E <== need TypeError (ph_eigvals o) ;
  V <== need AttributeError (ph_eigvecs o) ;
  pc <== hlift (dot (diag (map sqrt E)) (conj_T V)) ;
  HRet (PodObj (ph_eigvals o) (ph_eigvecs o) (ph_vecs o) (ph_corr o) (Some pc), pc).

End Model.
Arguments pod_obj : clear implicits.
