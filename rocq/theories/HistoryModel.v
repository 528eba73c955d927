(** Model of sequences of calls on one object of a handle class: the methods of
    PodHandlesModel.v, BpodHandlesModel.v and DmdHandlesModel.v and the get methods, which
    assign what the caller's [get_array] returns. *)
From stdpp Require Import gmap list.
From Coq Require Import ZArith.
From Verif Require Import Prelude Field Matrix NdArray DecompModel VSArraysModel PodModel BpodModel HankelModel DmdModel Spmd
  LinCombModel HandlesModel PodHandlesModel BpodHandlesModel DmdHandlesModel.
Open Scope nat_scope.

Section Model.
Context {F : sfield} (sqrt : F -> F).
Open Scope h_scope.

(** A call on a PODHandles object: compute_decomp, pod.py:369-393, compute_eigendecomp,
    345-366, compute_modes, 396-414, compute_proj_coeffs, 417-427, get_decomp, 257-269,
    get_correlation_array, 272-278, and get_proj_coeffs, 281-287. *)
Inductive pod_call :=
| PDecomp (vec_handles : list loc) (atol rtol : option F)
| PEigen (atol rtol : option F)
| PModes (mode_indices : option col_index) (mode_handles : list loc) (vec_handles : option (list loc))
| PCoeffs
| PGet (eigvals : list F) (eigvecs : arr F)
| PGetCorr (correlation_array : arr F)
| PGetCoeffs (proj_coeffs : arr F).
(** The call, and the coefficients that it returns or that it is given by get_array. *)
Definition pod_do (eigh_lapack : arr F -> res (list F * arr F)) (argsort : list F -> list nat)
    (o : pod_obj F) (c : pod_call) : hprog F (pod_obj F * option (arr F)) :=
  match c with
  | PDecomp v atol rtol => o <== POD_decomp eigh_lapack argsort o v atol rtol ; HRet (o, None)
  | PEigen atol rtol => o <== POD_eigendecomp eigh_lapack argsort o atol rtol ; HRet (o, None)
  | PModes i m v => o <== POD_compute_modes sqrt o i m v ; HRet (o, None)
  | PCoeffs => p <== POD_proj_coeffs sqrt o ; HRet (fst p, Some (snd p))
  | PGet E V => HRet (PodObj (Some E) (Some V) (ph_vecs o) (ph_corr o) (ph_coeffs o), None)
  | PGetCorr C => HRet (PodObj (ph_eigvals o) (ph_eigvecs o) (ph_vecs o) (Some C) (ph_coeffs o), None)
  | PGetCoeffs c => HRet (PodObj (ph_eigvals o) (ph_eigvecs o) (ph_vecs o) (ph_corr o) (Some c), Some c)
  end.

(** A call on a BPODHandles object: compute_decomp, bpod.py:336-419, compute_SVD, 312-333,
    compute_direct_modes and compute_adjoint_modes, 422-469, compute_direct_proj_coeffs
    and compute_adjoint_proj_coeffs, 472-499, and the get methods, 200-248. *)
Inductive bpod_call :=
| BDecomp (direct adjoint : list loc) (num_inputs num_outputs : nat) (atol rtol : option F)
| BSVD (atol rtol : option F)
| BDirect (mode_indices : option col_index) (mode_handles : list loc) (vec_handles : option (list loc))
| BAdjoint (mode_indices : option col_index) (mode_handles : list loc) (vec_handles : option (list loc))
| BDirectCoeffs
| BAdjointCoeffs
| BGet (sing_vals : list F) (L R : arr F)
| BGetHankel (H : arr F)
| BGetDirect (c : arr F)
| BGetAdjoint (c : arr F).
(** The call, and the direct and adjoint coefficients. *)
Definition bpod_do (svd_lapack : arr F -> res (arr F * list F * arr F)) (o : bpod_obj F) (c : bpod_call)
    : hprog F (bpod_obj F * (option (arr F) * option (arr F))) :=
  match c with
  | BDecomp d a p q atol rtol => o <== BPOD_decomp svd_lapack o d a p q atol rtol ; HRet (o, (None, None))
  | BSVD atol rtol => o <== BPOD_SVD svd_lapack o atol rtol ; HRet (o, (None, None))
  | BDirect i m v => o <== BPOD_direct_modes sqrt o i m v ; HRet (o, (None, None))
  | BAdjoint i m v => o <== BPOD_adjoint_modes sqrt o i m v ; HRet (o, (None, None))
  | BDirectCoeffs => p <== BPOD_direct_coeffs sqrt o ; HRet (fst p, (Some (snd p), None))
  | BAdjointCoeffs => p <== BPOD_adjoint_coeffs sqrt o ; HRet (fst p, (None, Some (snd p)))
  | BGet E L R => HRet (BpodObj (Some L) (Some R) (Some E) (bh_Hankel o) (bh_direct o) (bh_adjoint o)
                          (bh_direct_coeffs o) (bh_adjoint_coeffs o), (None, None))
  | BGetHankel H => HRet (BpodObj (bh_L o) (bh_R o) (bh_sing_vals o) (Some H) (bh_direct o) (bh_adjoint o)
                            (bh_direct_coeffs o) (bh_adjoint_coeffs o), (None, None))
  | BGetDirect c => HRet (BpodObj (bh_L o) (bh_R o) (bh_sing_vals o) (bh_Hankel o) (bh_direct o) (bh_adjoint o)
                            (Some c) (bh_adjoint_coeffs o), (Some c, None))
  | BGetAdjoint c => HRet (BpodObj (bh_L o) (bh_R o) (bh_sing_vals o) (bh_Hankel o) (bh_direct o) (bh_adjoint o)
                             (bh_direct_coeffs o) (Some c), (None, Some c))
  end.

(** A call on a DMDHandles or TLSqrDMDHandles object: compute_decomp, dmd.py:813-900 and
    1817-1922, compute_eigendecomp, 724-810 and 1694-1814, the three methods for modes,
    925-1057, compute_spectrum, 1060-1083 and 2138-2155, compute_proj_coeffs, 1086-1108 and
    2158-2187, and the get methods, 539-612 and 1953-2028 ([sum]: the eigenvalues and
    eigenvectors that only TLSqrDMDHandles has). Left out: get_sum_correlation_array and
    get_proj_correlation_array, whose attributes no method reads. A single eigenvalue,
    which np.squeeze turns into an array of no dimension, is a list here. *)
Inductive dmd_call :=
| DDecomp (vec_handles : list loc) (adv_vec_handles : option (list loc)) (atol rtol : option F) (max_num : option nat)
| DEigen (atol rtol : option F) (max_num : option nat)
| DExact (mode_indices : option col_index) (mode_handles : list loc) (adv_vec_handles : option (list loc))
| DProj (mode_indices : option col_index) (mode_handles : list loc) (vec_handles : option (list loc))
| DAdjoint (mode_indices : option col_index) (mode_handles : list loc) (vec_handles : option (list loc))
| DSpectrum
| DCoeffs
| DGet (eigvals : list F) (R L : arr F) (E : list F) (V : arr F) (sum : list F * arr F)
| DGetCorr (C : arr F)
| DGetCross (K : arr F)
| DGetAdvCorr (G : arr F)
| DGetSpectral (s : nd F)
| DGetCoeffs (c : arr F * arr F).
(** The call, and the spectral and projection coefficients. *)
Definition dmd_do (tls : bool) (eigh_lapack : arr F -> res (list F * arr F)) (argsort : list F -> list nat)
    (eig_lapack : arr F -> res (list F * arr F * arr F)) (o : dmd_obj F) (c : dmd_call)
    : hprog F (dmd_obj F * (option (nd F) * option (arr F * arr F))) :=
  match c with
  | DDecomp v a atol rtol mx =>
      o <== (if tls then TLS_decomp else DMD_decomp) eigh_lapack argsort eig_lapack sqrt o v a atol rtol mx ;
      HRet (o, (None, None))
  | DEigen atol rtol mx =>
      o <== (if tls then TLS_eigendecomp else DMD_eigendecomp) eigh_lapack argsort eig_lapack sqrt o atol rtol mx ;
      HRet (o, (None, None))
  | DExact i m a => o <== DMD_exact_modes tls sqrt o i m a ; HRet (o, (None, None))
  | DProj i m v => o <== DMD_proj_modes tls sqrt o i m v ; HRet (o, (None, None))
  | DAdjoint i m v => o <== DMD_adjoint_modes tls sqrt o i m v ; HRet (o, (None, None))
  | DSpectrum => p <== DMD_spectrum sqrt o ; HRet (fst p, (Some (snd p), None))
  | DCoeffs => p <== DMD_proj_coeffs tls sqrt o ; HRet (fst p, (None, Some (snd p)))
  | DGet w R L E V sum =>
      HRet (if tls then set_decomp o w R L E V (Some (fst sum)) (Some (snd sum))
            else set_decomp o w R L E V (dh_svals o) (dh_svecs o), (None, None))
  | DGetCorr C => HRet (DmdObj (dh_eigvals o) (dh_R o) (dh_L o) (dh_cvals o) (dh_cvecs o) (dh_svals o) (dh_svecs o)
      (Some C) (dh_cross o) (dh_adv_corr o) (dh_vecs o) (dh_adv o) (dh_spec o) (dh_coeffs o), (None, None))
  | DGetCross K => HRet (DmdObj (dh_eigvals o) (dh_R o) (dh_L o) (dh_cvals o) (dh_cvecs o) (dh_svals o) (dh_svecs o)
      (dh_corr o) (Some K) (dh_adv_corr o) (dh_vecs o) (dh_adv o) (dh_spec o) (dh_coeffs o), (None, None))
  | DGetAdvCorr G => HRet (DmdObj (dh_eigvals o) (dh_R o) (dh_L o) (dh_cvals o) (dh_cvecs o) (dh_svals o) (dh_svecs o)
      (dh_corr o) (dh_cross o) (Some G) (dh_vecs o) (dh_adv o) (dh_spec o) (dh_coeffs o), (None, None))
  | DGetSpectral s => HRet (set_spec o s, (Some s, None))
  | DGetCoeffs c => HRet (set_coeffs o c, (None, Some c))
  end.

(** Calls one after the other; the results, the last first. *)
Fixpoint history {O C R : Type} (do : O -> C -> hprog F (O * R)) (calls : list C) (o : O) (log : list (C * R))
    : hprog F (O * list (C * R)) :=
  match calls with
  | [] => HRet (o, log)
  | c :: calls => p <== do o c ; history do calls (fst p) ((c, snd p) :: log)
  end.

End Model.
Arguments pod_call : clear implicits.
Arguments bpod_call : clear implicits.
Arguments dmd_call : clear implicits.
