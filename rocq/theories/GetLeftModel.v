(** The get methods of the handle classes when a source cannot be read, and sequences of
    calls with them (pod.py, bpod.py, dmd.py). The attributes are assigned one after
    another, each after its own call of get_array, so that the exception of one source
    leaves the attributes of the sources before it new, and the others as they were.
    The exception is that of one process: with more, the others wait for ever (DESIGN.md
    section 5, C38_get_missing). *)
From stdpp Require Import gmap list.
From Coq Require Import ZArith.
From Verif Require Import Prelude Field Matrix NdArray DecompModel PodModel VSArraysModel BpodModel HankelModel DmdModel TlsModel EraModel Spmd LinCombModel HandlesModel
  PodHandlesModel BpodHandlesModel DmdHandlesModel LeftModel HistoryModel CaughtModel.
Open Scope nat_scope.

Section Model.
Context {F : sfield} (sqrt : F -> F).

(** [self.attribute = parallel.call_and_bcast(self.get_array, src)], pod.py:267-269,
    bpod.py:213-218, dmd.py:560-570: [r] is what get_array does with the source, [p] the
    object and whether an earlier statement of the method raised. *)
Definition get_into {O X} (assign : O -> X -> O) (r : res X) (p : O * res unit) : O * res unit :=
  match p with
  | (o, Ok _) => match r with Ok x => (assign o x, Ok tt) | Raise e => (o, Raise e) end
  | (o, Raise e) => (o, Raise e)
  end.

(** The get methods of PODHandles, pod.py:257-287: get_decomp, get_correlation_array and
    get_proj_coeffs, with the results of get_array. *)
Inductive pod_get :=
| PRead (eigvals : res (list F)) (eigvecs : res (arr F))
| PReadCorr (r : res (arr F))
| PReadCoeffs (r : res (arr F)).
(** pod.py:267-269, 278, 287. *)
Definition pod_get_left (o : pod_obj F) (g : pod_get) : pod_obj F * res unit :=
  match g with
  | PRead a b =>
      get_into (fun o V => PodObj (ph_eigvals o) (Some V) (ph_vecs o) (ph_corr o) (ph_coeffs o)) b
        (get_into (fun o w => PodObj (Some w) (ph_eigvecs o) (ph_vecs o) (ph_corr o) (ph_coeffs o)) a (o, Ok tt))
  | PReadCorr r => get_into (fun o C => PodObj (ph_eigvals o) (ph_eigvecs o) (ph_vecs o) (Some C) (ph_coeffs o)) r (o, Ok tt)
  | PReadCoeffs r => get_into (fun o c => PodObj (ph_eigvals o) (ph_eigvecs o) (ph_vecs o) (ph_corr o) (Some c)) r (o, Ok tt)
  end.
(** A call of either kind, pod.py:257-427, with its exception caught. *)
Definition pod_try_get (distributed : bool) (eigh_lapack : arr F -> res (list F * arr F)) (argsort : list F -> list nat)
    (o : pod_obj F) (c : pod_call F + pod_get) : hprog F (pod_obj F * res (option (arr F))) :=
  match c with
  | inl c => pod_try sqrt distributed eigh_lapack argsort o c
  | inr g => let p := pod_get_left o g in
      HRet (fst p, match snd p with Ok _ => Ok None | Raise e => Raise e end)
  end.

(** The get methods of BPODHandles, bpod.py:200-248. *)
Inductive bpod_get :=
| BRead (sing_vals : res (list F)) (L R : res (arr F))
| BReadHankel (r : res (arr F))
| BReadDirect (r : res (arr F))
| BReadAdjoint (r : res (arr F)).
(** bpod.py:213-218, 227, 237, 248. *)
Definition bpod_get_left (o : bpod_obj F) (g : bpod_get) : bpod_obj F * res unit :=
  match g with
  | BRead a b c =>
      get_into (fun o R => BpodObj (bh_L o) (Some R) (bh_sing_vals o) (bh_Hankel o) (bh_direct o) (bh_adjoint o)
                             (bh_direct_coeffs o) (bh_adjoint_coeffs o)) c
        (get_into (fun o L => BpodObj (Some L) (bh_R o) (bh_sing_vals o) (bh_Hankel o) (bh_direct o) (bh_adjoint o)
                                (bh_direct_coeffs o) (bh_adjoint_coeffs o)) b
          (get_into (fun o s => BpodObj (bh_L o) (bh_R o) (Some s) (bh_Hankel o) (bh_direct o) (bh_adjoint o)
                                  (bh_direct_coeffs o) (bh_adjoint_coeffs o)) a (o, Ok tt)))
  | BReadHankel r =>
      get_into (fun o H => BpodObj (bh_L o) (bh_R o) (bh_sing_vals o) (Some H) (bh_direct o) (bh_adjoint o)
                             (bh_direct_coeffs o) (bh_adjoint_coeffs o)) r (o, Ok tt)
  | BReadDirect r =>
      get_into (fun o c => BpodObj (bh_L o) (bh_R o) (bh_sing_vals o) (bh_Hankel o) (bh_direct o) (bh_adjoint o)
                             (Some c) (bh_adjoint_coeffs o)) r (o, Ok tt)
  | BReadAdjoint r =>
      get_into (fun o c => BpodObj (bh_L o) (bh_R o) (bh_sing_vals o) (bh_Hankel o) (bh_direct o) (bh_adjoint o)
                             (bh_direct_coeffs o) (Some c)) r (o, Ok tt)
  end.
(** A call of either kind, bpod.py:200-499, with its exception caught. *)
Definition bpod_try_get (distributed : bool) (svd_lapack : arr F -> res (arr F * list F * arr F))
    (o : bpod_obj F) (c : bpod_call F + bpod_get) : hprog F (bpod_obj F * res (option (arr F) * option (arr F))) :=
  match c with
  | inl c => bpod_try sqrt distributed svd_lapack o c
  | inr g => let p := bpod_get_left o g in
      HRet (fst p, match snd p with Ok _ => Ok (None, None) | Raise e => Raise e end)
  end.

(** get_decomp of DMDHandles, dmd.py:560-570, and of TLSqrDMDHandles, 1982-1997, where the
    eigenvalues and eigenvectors of the sum come before those of the projected array
    ([E], [V]). *)
Definition dmd_get_left (tls : bool) (o : dmd_obj F) (w : res (list F)) (R L : res (arr F)) (Es : res (list F)) (Vs : res (arr F))
    (E : res (list F)) (V : res (arr F)) : dmd_obj F * res unit :=
  let p := get_into (fun o w => DmdObj (Some w) (dh_R o) (dh_L o) (dh_cvals o) (dh_cvecs o) (dh_svals o) (dh_svecs o)
             (dh_corr o) (dh_cross o) (dh_adv_corr o) (dh_vecs o) (dh_adv o) (dh_spec o) (dh_coeffs o)) w (o, Ok tt) in
  let p := get_into (fun o R => DmdObj (dh_eigvals o) (Some R) (dh_L o) (dh_cvals o) (dh_cvecs o) (dh_svals o) (dh_svecs o)
             (dh_corr o) (dh_cross o) (dh_adv_corr o) (dh_vecs o) (dh_adv o) (dh_spec o) (dh_coeffs o)) R p in
  let p := get_into (fun o L => DmdObj (dh_eigvals o) (dh_R o) (Some L) (dh_cvals o) (dh_cvecs o) (dh_svals o) (dh_svecs o)
             (dh_corr o) (dh_cross o) (dh_adv_corr o) (dh_vecs o) (dh_adv o) (dh_spec o) (dh_coeffs o)) L p in
  let p := if tls then
      get_into (fun o V => DmdObj (dh_eigvals o) (dh_R o) (dh_L o) (dh_cvals o) (dh_cvecs o) (dh_svals o) (Some V)
             (dh_corr o) (dh_cross o) (dh_adv_corr o) (dh_vecs o) (dh_adv o) (dh_spec o) (dh_coeffs o)) Vs
        (get_into (fun o E => DmdObj (dh_eigvals o) (dh_R o) (dh_L o) (dh_cvals o) (dh_cvecs o) (Some E) (dh_svecs o)
             (dh_corr o) (dh_cross o) (dh_adv_corr o) (dh_vecs o) (dh_adv o) (dh_spec o) (dh_coeffs o)) Es p)
    else p in
  let p := get_into (fun o E => DmdObj (dh_eigvals o) (dh_R o) (dh_L o) (Some E) (dh_cvecs o) (dh_svals o) (dh_svecs o)
             (dh_corr o) (dh_cross o) (dh_adv_corr o) (dh_vecs o) (dh_adv o) (dh_spec o) (dh_coeffs o)) E p in
  get_into (fun o V => DmdObj (dh_eigvals o) (dh_R o) (dh_L o) (dh_cvals o) (Some V) (dh_svals o) (dh_svecs o)
             (dh_corr o) (dh_cross o) (dh_adv_corr o) (dh_vecs o) (dh_adv o) (dh_spec o) (dh_coeffs o)) V p.
(** get_proj_coeffs of the DMD classes, dmd.py:611-612: the attributes proj_coeffs and
    adv_proj_coeffs. *)
Definition dmd_get_coeffs_left (c : option (arr F) * option (arr F)) (a b : res (arr F))
    : option (arr F) * option (arr F) * res unit :=
  get_into (fun c x => (fst c, Some x)) b (get_into (fun c x => (Some x, snd c)) a (c, Ok tt)).

(** The get methods of the DMD classes: get_decomp, dmd.py:539-570 and 1953-1997, with the
    results of get_array, and any of the methods with one source, 573-598 and 2000-2028,
    or get_proj_coeffs, 601-612, when its first source raises [e]. Where they do not raise,
    they are calls of HistoryModel.v. Left out of the sequences: get_proj_coeffs whose
    second source raises. *)
Inductive dmd_get :=
| DRead (w : res (list F)) (R L : res (arr F)) (Es : res (list F)) (Vs : res (arr F)) (E : res (list F)) (V : res (arr F))
| DReadRaises (e : exn).
(** A call of either kind, dmd.py:539-1108 and 1694-2187, with its exception caught. *)
Definition dmd_try_get (distributed tls : bool) (eigh_lapack : arr F -> res (list F * arr F)) (argsort : list F -> list nat)
    (eig_lapack : arr F -> res (list F * arr F * arr F)) (o : dmd_obj F) (c : dmd_call F + dmd_get)
    : hprog F (dmd_obj F * res (option (nd F) * option (arr F * arr F))) :=
  match c with
  | inl c => dmd_try sqrt distributed tls eigh_lapack argsort eig_lapack o c
  | inr (DRead w R L Es Vs E V) => let p := dmd_get_left tls o w R L Es Vs E V in
      HRet (fst p, match snd p with Ok _ => Ok (None, None) | Raise e => Raise e end)
  | inr (DReadRaises e) => HRet (o, Raise e)
  end.
End Model.
Arguments pod_get : clear implicits.
Arguments bpod_get : clear implicits.
Arguments dmd_get : clear implicits.
