(** Model of sequences of calls on one object of a handle class in which exceptions are
    caught by the caller: HistoryModel.v with the states of LeftModel.v.  Covers exceptions
    that are raised on every rank and, with [distributed] false, all of them. *)
From stdpp Require Import gmap list.
From Coq Require Import ZArith.
From Verif Require Import Prelude Field Matrix NdArray DecompModel VSArraysModel PodModel BpodModel HankelModel DmdModel TlsModel EraModel Spmd
  LinCombModel HandlesModel PodHandlesModel BpodHandlesModel DmdHandlesModel LeftModel HistoryModel.
Open Scope nat_scope.

Section Model.
Context {F : sfield} (sqrt : F -> F).
Open Scope h_scope.

(** [try: ... except Exception] around a method without call_and_bcast: lin_combine raises
    before it sends messages or reads vectors (vectorspace.py:868-898). *)
Fixpoint attempt {A B} (failed : exn -> B) (done : A -> B) (h : hprog F A) : hprog F B :=
  match h with
  | HRet a => HRet (done a)
  | HFail e => HRet (failed e)
  | HIp rows cols k => HIp rows cols (fun m => attempt failed done (k m))
  | HSymm vecs k => HSymm vecs (fun m => attempt failed done (k m))
  | HCall call k => HCall call (fun l => attempt failed done (k l))
  | HLin sums basis coeff idx k =>
      match lin_coeffs (length basis) (length sums) (Arr2 (nr coeff) (nc coeff) (to_lists coeff)) idx with
      | Raise e => HRet (failed e)
      | Ok _ => HLin sums basis coeff idx (attempt failed done k)
      end
  end.

(** A call on a PODHandles object, pod.py:257-287 and 345-427, with the object left and what
    the call returned, or its exception.  compute_modes assigns the vectors first (409). *)
Definition pod_try (distributed : bool) (eigh_lapack : arr F -> res (list F * arr F)) (argsort : list F -> list nat)
    (o : pod_obj F) (c : pod_call F) : hprog F (pod_obj F * res (option (arr F))) :=
  match c with
  | PDecomp v atol rtol =>
      p <== POD_decomp_left distributed eigh_lapack argsort o v atol rtol ; HRet (fst p, rmap (fun _ => None) (snd p))
  | PEigen atol rtol =>
      catch_call distributed bcast_eigh
        (match ph_corr o with Some C => eigh eigh_lapack argsort C atol rtol true | None => Raise LinAlgError end)
        (fun ev => match ev with
         | Raise e => HRet (o, Raise e)
         | Ok ev => HRet (PodObj (Some (fst ev)) (Some (snd ev)) (ph_vecs o) (ph_corr o) (ph_coeffs o), Ok None)
         end)
  | PModes i m v =>
      let o1 := match v with
                | Some h => PodObj (ph_eigvals o) (ph_eigvecs o) (Some h) (ph_corr o) (ph_coeffs o)
                | None => o
                end in
      attempt (fun e => (o1, Raise e)) (fun o => (o, Ok None)) (POD_compute_modes sqrt o i m v)
  | PCoeffs => attempt (fun e => (o, Raise e)) (fun p => (fst p, Ok (Some (snd p)))) (POD_proj_coeffs sqrt o)
  | PGet _ _ | PGetCorr _ | PGetCoeffs _ =>
      p <== pod_do sqrt eigh_lapack argsort o c ; HRet (fst p, Ok (snd p))
  end.

(** A call on a BPODHandles object, bpod.py:200-248 and 312-499. *)
Definition bpod_try (distributed : bool) (svd_lapack : arr F -> res (arr F * list F * arr F)) (o : bpod_obj F) (c : bpod_call F)
    : hprog F (bpod_obj F * res (option (arr F) * option (arr F))) :=
  match c with
  | BDecomp d a p q atol rtol =>
      r <== BPOD_decomp_left distributed svd_lapack o d a p q atol rtol ; HRet (fst r, rmap (fun _ => (None, None)) (snd r))
  | BSVD atol rtol =>
      catch_call distributed bcast_svd
        (match bh_Hankel o with Some H => svd svd_lapack H atol rtol | None => Raise LinAlgError end)
        (fun usv => match usv with
         | Raise e => HRet (o, Raise e)
         | Ok usv => HRet (BpodObj (Some (fst (fst usv))) (Some (snd usv)) (Some (snd (fst usv))) (bh_Hankel o)
                             (bh_direct o) (bh_adjoint o) (bh_direct_coeffs o) (bh_adjoint_coeffs o), Ok (None, None))
         end)
  | BDirect i m v =>
      let o1 := match v with
                | Some h => BpodObj (bh_L o) (bh_R o) (bh_sing_vals o) (bh_Hankel o) (Some h) (bh_adjoint o)
                              (bh_direct_coeffs o) (bh_adjoint_coeffs o)
                | None => o
                end in
      attempt (fun e => (o1, Raise e)) (fun o => (o, Ok (None, None))) (BPOD_direct_modes sqrt o i m v)
  | BAdjoint i m v =>
      let o1 := match v with
                | Some h => BpodObj (bh_L o) (bh_R o) (bh_sing_vals o) (bh_Hankel o) (bh_direct o) (Some h)
                              (bh_direct_coeffs o) (bh_adjoint_coeffs o)
                | None => o
                end in
      attempt (fun e => (o1, Raise e)) (fun o => (o, Ok (None, None))) (BPOD_adjoint_modes sqrt o i m v)
  | BDirectCoeffs =>
      attempt (fun e => (o, Raise e)) (fun p => (fst p, Ok (Some (snd p), None))) (BPOD_direct_coeffs sqrt o)
  | BAdjointCoeffs =>
      attempt (fun e => (o, Raise e)) (fun p => (fst p, Ok (None, Some (snd p)))) (BPOD_adjoint_coeffs sqrt o)
  | BGet _ _ _ | BGetHankel _ | BGetDirect _ | BGetAdjoint _ =>
      p <== bpod_do sqrt svd_lapack o c ; HRet (fst p, Ok (snd p))
  end.

(** DMDHandles.compute_eigendecomp, dmd.py:782-810, whatever attributes are set. *)
Definition DMD_eigen_try (distributed : bool) (eigh_lapack : arr F -> res (list F * arr F))
    (argsort : list F -> list nat) (eig_lapack : arr F -> res (list F * arr F * arr F))
    (o : dmd_obj F) (atol : option F) (max_num : option nat) : hprog F (dmd_obj F * res unit) :=
  match dh_corr o, dh_cross o with
  | Some C, Some K => DMD_eigendecomp_left distributed eigh_lapack argsort eig_lapack sqrt o C K atol max_num
  | corr, _ =>
      catch_call distributed bcast_eigh (eigh_of eigh_lapack argsort corr atol None) (fun ev =>
      match ev with
      | Raise e => HRet (o, Raise e)
      | Ok ev => HRet (set_cvals o (max_list max_num (fst ev)) (max_cols max_num (length (fst ev)) (snd ev)),
                       Raise AttributeError)
      end)
  end.
(** TLSqrDMDHandles.compute_eigendecomp, dmd.py:1761-1814, likewise. *)
Definition TLS_eigen_try (distributed : bool) (eigh_lapack : arr F -> res (list F * arr F))
    (argsort : list F -> list nat) (eig_lapack : arr F -> res (list F * arr F * arr F))
    (o : dmd_obj F) (atol : option F) (max_num : option nat) : hprog F (dmd_obj F * res unit) :=
  match dh_corr o, dh_adv_corr o, dh_cross o with
  | Some C, Some G, Some K => TLS_eigendecomp_left distributed eigh_lapack argsort eig_lapack sqrt o C K G atol max_num
  | Some C, Some G, None =>
      match add_arr C G with
      | Raise e => HRet (o, Raise e)
      | Ok sum =>
          catch_call distributed bcast_eigh (eigh_of eigh_lapack argsort (Some sum) atol None) (fun ev =>
          match ev with
          | Raise e => HRet (o, Raise e)
          | Ok ev =>
              let Vs := max_cols max_num (length (fst ev)) (snd ev) in
              let o := set_svals o (max_list max_num (fst ev)) Vs in
              match TLS_proj_corr Vs C with
              | Raise e => HRet (o, Raise e)
              | Ok PC =>
                  catch_call distributed bcast_eigh (eigh_of eigh_lapack argsort (Some PC) atol None) (fun ev' =>
                  match ev' with
                  | Raise e => HRet (o, Raise e)
                  | Ok ev' => HRet (set_cvals o (max_list max_num (fst ev')) (max_cols max_num (length (fst ev')) (snd ev')),
                                    Raise AttributeError)
                  end)
              end
          end)
      end
  | _, _, _ => HRet (o, Raise TypeError)
  end.

(** compute_proj_coeffs, dmd.py:1086-1108 and 2158-2187, assigns proj_coeffs before it computes
    adv_proj_coeffs: the two attributes left, [c] before the call, and the outcome.  An
    attribute that is not set: as in DMD_proj_coeffs. *)
Definition DMD_coeffs_left (tls : bool) (o : dmd_obj F) (c : option (arr F) * option (arr F))
    : (option (arr F) * option (arr F)) * res (arr F * arr F) :=
  let first := match dh_L o, dh_cvals o, dh_cvecs o with
               | Some L, Some E, Some V => SVh <-? dot (diag (map sqrt E)) (conj_T V) ; dot (conj_T L) SVh
               | None, _, _ => Raise AttributeError
               | _, None, _ => Raise TypeError
               | _, _, None => Raise AttributeError
               end%res in
  match first with
  | Raise e => (c, Raise e)
  | Ok pc =>
      match DMD_proj_coeffs tls sqrt o with
      | HRet (_, (_, apc)) => ((Some pc, Some apc), Ok (pc, apc))
      | HFail e => ((Some pc, snd c), Raise e)
      | _ => ((Some pc, snd c), Raise RuntimeError)
      end
  end.

(** A call on a DMDHandles or TLSqrDMDHandles object.  When compute_proj_coeffs raises, both
    coefficient arrays stay as they were here; DMD_coeffs_left has what is left of them. *)
Definition dmd_try (distributed tls : bool) (eigh_lapack : arr F -> res (list F * arr F)) (argsort : list F -> list nat)
    (eig_lapack : arr F -> res (list F * arr F * arr F)) (o : dmd_obj F) (c : dmd_call F)
    : hprog F (dmd_obj F * res (option (nd F) * option (arr F * arr F))) :=
  let o1 v := match v with Some v => set_handles o (Some v) (dh_adv o) | None => o end in
  match c with
  | DDecomp v a atol rtol mx =>
      r <== (if tls then TLS_decomp_left else DMD_decomp_left) distributed eigh_lapack argsort eig_lapack sqrt o v a atol mx ;
      HRet (fst r, rmap (fun _ => (None, None)) (snd r))
  | DEigen atol rtol mx =>
      r <== (if tls then TLS_eigen_try else DMD_eigen_try) distributed eigh_lapack argsort eig_lapack o atol mx ;
      HRet (fst r, rmap (fun _ => (None, None)) (snd r))
  | DExact i m a =>
      attempt (fun e => (match a with Some a => set_handles o (dh_vecs o) (Some a) | None => o end, Raise e))
        (fun o => (o, Ok (None, None))) (DMD_exact_modes tls sqrt o i m a)
  | DProj i m v => attempt (fun e => (o1 v, Raise e)) (fun o => (o, Ok (None, None))) (DMD_proj_modes tls sqrt o i m v)
  | DAdjoint i m v => attempt (fun e => (o1 v, Raise e)) (fun o => (o, Ok (None, None))) (DMD_adjoint_modes tls sqrt o i m v)
  | DSpectrum => attempt (fun e => (o, Raise e)) (fun p => (fst p, Ok (Some (snd p), None))) (DMD_spectrum sqrt o)
  | DCoeffs => attempt (fun e => (o, Raise e)) (fun p => (fst p, Ok (None, Some (snd p)))) (DMD_proj_coeffs tls sqrt o)
  | DGet _ _ _ _ _ _ | DGetCorr _ | DGetCross _ | DGetAdvCorr _ | DGetSpectral _ | DGetCoeffs _ =>
      p <== dmd_do sqrt tls eigh_lapack argsort eig_lapack o c ; HRet (fst p, Ok (snd p))
  end.
End Model.
