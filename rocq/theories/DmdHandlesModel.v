(** Model of the classes DMDHandles, /repo/modred/dmd.py:484-1108, and TLSqrDMDHandles,
    dmd.py:1611-2187: the attributes and the methods that compute.  Getting and putting
    arrays in files is in DecompIOModel.v. *)
From stdpp Require Import gmap list.
From Coq Require Import ZArith.
From Verif Require Import Prelude Field Matrix NdArray DecompModel VSArraysModel PodModel BpodModel DmdModel TlsModel
  Spmd LinCombModel HandlesModel.
Open Scope nat_scope.

Section Model.
Context {F : sfield}.
Open Scope h_scope.
Open Scope k_scope.

(** The attributes, None before they are set, dmd.py:514-536 and 1665-1691.
    [dh_cvals], [dh_cvecs]: correlation_array_eigvals and -eigvecs in DMDHandles,
    proj_correlation_array_eigvals and -eigvecs in TLSqrDMDHandles; [dh_svals],
    [dh_svecs]: sum_correlation_array_eigvals and -eigvecs, TLSqrDMDHandles only, like
    [dh_adv_corr]. Left out, as no method reads them: low_order_linear_map,
    expanded_correlation_array, sum_correlation_array, proj_correlation_array. *)
Record dmd_obj := DmdObj {
  dh_eigvals : option (list F); dh_R : option (arr F); dh_L : option (arr F);
  dh_cvals : option (list F); dh_cvecs : option (arr F);
  dh_svals : option (list F); dh_svecs : option (arr F);
  dh_corr : option (arr F); dh_cross : option (arr F); dh_adv_corr : option (arr F);
  dh_vecs : option (list loc); dh_adv : option (list loc);
  dh_spec : option (nd F); dh_coeffs : option (arr F * arr F)
}.
(** DMDHandles.__init__ and TLSqrDMDHandles.__init__. *)
Definition DMD_new : dmd_obj :=
  DmdObj None None None None None None None None None None None None None None.

Definition set_handles (o : dmd_obj) (v a : option (list loc)) : dmd_obj :=
  DmdObj (dh_eigvals o) (dh_R o) (dh_L o) (dh_cvals o) (dh_cvecs o) (dh_svals o) (dh_svecs o)
    (dh_corr o) (dh_cross o) (dh_adv_corr o) v a (dh_spec o) (dh_coeffs o).
Definition set_corr (o : dmd_obj) (C K : arr F) (G : option (arr F)) : dmd_obj :=
  DmdObj (dh_eigvals o) (dh_R o) (dh_L o) (dh_cvals o) (dh_cvecs o) (dh_svals o) (dh_svecs o)
    (Some C) (Some K) G (dh_vecs o) (dh_adv o) (dh_spec o) (dh_coeffs o).
Definition set_decomp (o : dmd_obj) (w : list F) (R L : arr F) (E : list F) (V : arr F)
    (Es : option (list F)) (Vs : option (arr F)) : dmd_obj :=
  DmdObj (Some w) (Some R) (Some L) (Some E) (Some V) Es Vs
    (dh_corr o) (dh_cross o) (dh_adv_corr o) (dh_vecs o) (dh_adv o) (dh_spec o) (dh_coeffs o).
Definition set_spec (o : dmd_obj) (s : nd F) : dmd_obj :=
  DmdObj (dh_eigvals o) (dh_R o) (dh_L o) (dh_cvals o) (dh_cvecs o) (dh_svals o) (dh_svecs o)
    (dh_corr o) (dh_cross o) (dh_adv_corr o) (dh_vecs o) (dh_adv o) (Some s) (dh_coeffs o).
Definition set_coeffs (o : dmd_obj) (c : arr F * arr F) : dmd_obj :=
  DmdObj (dh_eigvals o) (dh_R o) (dh_L o) (dh_cvals o) (dh_cvecs o) (dh_svals o) (dh_svecs o)
    (dh_corr o) (dh_cross o) (dh_adv_corr o) (dh_vecs o) (dh_adv o) (dh_spec o) (Some c).

(** util.eigh called on rank zero; LAPACK rejects None. *)
Definition eigh_of (eigh_lapack : arr F -> res (list F * arr F)) (argsort : list F -> list nat)
    (C : option (arr F)) (atol rtol : option F) : res (list F * arr F) :=
  match C with
  | Some C => eigh eigh_lapack argsort C atol rtol true
  | None => Raise LinAlgError
  end.

(** The low-order linear map of DMDHandles, dmd.py:796-804. *)
Definition DMD_low (sqrt : F -> F) (E : list F) (V K : arr F) : res (arr F) :=
  let D := diag (map (inv_sqrt sqrt) E) in
  (VD <-? dot V D ;
   KVD <-? dot K VD ;
   VKVD <-? dot (conj_T V) KVD ;
   dot D VKVD)%res.

(** DMDHandles.compute_eigendecomp, dmd.py:782-810.  [rtol] is not used: util.eigh is
    called with [rtol=None] (786).  An object's state after an exception:
    LeftModel.v. *)
Definition DMD_eigendecomp (eigh_lapack : arr F -> res (list F * arr F))
    (argsort : list F -> list nat) (eig_lapack : arr F -> res (list F * arr F * arr F))
    (sqrt : F -> F) (o : dmd_obj) (atol rtol : option F) (max_num : option nat) : hprog F dmd_obj :=
  ev <== bcast_eigh (eigh_of eigh_lapack argsort (dh_corr o) atol None) ;
  let E := max_list max_num (fst ev) in
  let V := max_cols max_num (length (fst ev)) (snd ev) in
  K <== need AttributeError (dh_cross o) ;
  M <== hlift (DMD_low sqrt E V K) ;
  wrl <== bcast_eig (eig_biorthog eig_lapack M SLeft) ;
  HRet (set_decomp o (fst (fst wrl)) (snd (fst wrl)) (snd wrl) E V (dh_svals o) (dh_svecs o)).

(** The beginning of compute_decomp, dmd.py:858-863 and 1874-1879. *)
Definition DMD_set_handles (o : dmd_obj) (vec_handles : list loc) (adv_vec_handles : option (list loc))
    : hprog F dmd_obj :=
  match adv_vec_handles with
  | None => HRet (set_handles o (Some vec_handles) (dh_adv o))
  | Some a => if (length vec_handles =? length a)%nat
              then HRet (set_handles o (Some vec_handles) (Some a))
              else HFail ValueError
  end.

(** DMDHandles.compute_decomp, dmd.py:813-900. *)
Definition DMD_decomp (eigh_lapack : arr F -> res (list F * arr F))
    (argsort : list F -> list nat) (eig_lapack : arr F -> res (list F * arr F * arr F))
    (sqrt : F -> F) (o : dmd_obj) (vec_handles : list loc) (adv_vec_handles : option (list loc))
    (atol rtol : option F) (max_num : option nat) : hprog F dmd_obj :=
  o <== DMD_set_handles o vec_handles adv_vec_handles ;
  o <== match adv_vec_handles with
        | None =>
            expanded <== symm_inner_products vec_handles ;
            HRet (set_corr o (but_last_col (but_last_row expanded)) (but_first_col (but_last_row expanded))
                    (dh_adv_corr o))
        | Some adv =>
            C <== symm_inner_products vec_handles ;
            K <== inner_products vec_handles adv ;
            HRet (set_corr o C K (dh_adv_corr o))
        end ;
  DMD_eigendecomp eigh_lapack argsort eig_lapack sqrt o atol rtol max_num.

(** The low-order linear map of TLSqrDMDHandles, dmd.py:1796-1810. *)
Definition TLS_low (sqrt : F -> F) (Vs : arr F) (E : list F) (V K : arr F) : res (arr F) :=
  let D := diag (map (inv_sqrt sqrt) E) in
  (VD <-? dot V D ;
   PVD <-? onto Vs VD ;
   KPVD <-? dot K PVD ;
   PKPVD <-? onto Vs KPVD ;
   VPK <-? dot (conj_T V) PKPVD ;
   dot D VPK)%res.

(** TLSqrDMDHandles.compute_eigendecomp, dmd.py:1761-1814; both calls of util.eigh have
    [rtol=None] (1767, 1786). *)
Definition TLS_eigendecomp (eigh_lapack : arr F -> res (list F * arr F))
    (argsort : list F -> list nat) (eig_lapack : arr F -> res (list F * arr F * arr F))
    (sqrt : F -> F) (o : dmd_obj) (atol rtol : option F) (max_num : option nat) : hprog F dmd_obj :=
  C <== need TypeError (dh_corr o) ;
  G <== need TypeError (dh_adv_corr o) ;
  sum <== hlift (add_arr C G) ;
  ev <== bcast_eigh (eigh_of eigh_lapack argsort (Some sum) atol None) ;
  let Es := max_list max_num (fst ev) in
  let Vs := max_cols max_num (length (fst ev)) (snd ev) in
  PC <== hlift (TLS_proj_corr Vs C) ;
  ev' <== bcast_eigh (eigh_of eigh_lapack argsort (Some PC) atol None) ;
  let E := max_list max_num (fst ev') in
  let V := max_cols max_num (length (fst ev')) (snd ev') in
  K <== need AttributeError (dh_cross o) ;
  M <== hlift (TLS_low sqrt Vs E V K) ;
  wrl <== bcast_eig (eig_biorthog eig_lapack M SLeft) ;
  HRet (set_decomp o (fst (fst wrl)) (snd (fst wrl)) (snd wrl) E V (Some Es) (Some Vs)).

(** TLSqrDMDHandles.compute_decomp, dmd.py:1817-1922. *)
Definition TLS_decomp (eigh_lapack : arr F -> res (list F * arr F))
    (argsort : list F -> list nat) (eig_lapack : arr F -> res (list F * arr F * arr F))
    (sqrt : F -> F) (o : dmd_obj) (vec_handles : list loc) (adv_vec_handles : option (list loc))
    (atol rtol : option F) (max_num : option nat) : hprog F dmd_obj :=
  o <== DMD_set_handles o vec_handles adv_vec_handles ;
  o <== match adv_vec_handles with
        | None =>
            expanded <== symm_inner_products vec_handles ;
            HRet (set_corr o (but_last_col (but_last_row expanded)) (but_first_col (but_last_row expanded))
                    (Some (but_first_col (but_first_row expanded))))
        | Some adv =>
            C <== symm_inner_products vec_handles ;
            K <== inner_products vec_handles adv ;
            G <== symm_inner_products adv ;
            HRet (set_corr o C K (Some G))
        end ;
  TLS_eigendecomp eigh_lapack argsort eig_lapack sqrt o atol rtol max_num.

(** The build coefficients; [tls] tells the class.
    _compute_build_coeffs_exact, dmd.py:903-908, 1925-1932. *)
Definition build_exact (tls : bool) (sqrt : F -> F) (o : dmd_obj) : hprog F (arr F) :=
  Vs <== (if tls then need AttributeError (dh_svecs o) else HRet (eye 0)) ;
  V <== need AttributeError (dh_cvecs o) ;
  E <== need TypeError (dh_cvals o) ;
  R <== need AttributeError (dh_R o) ;
  w <== need TypeError (dh_eigvals o) ;
  hlift (let D := diag (map (inv_sqrt sqrt) E) in
    if tls
    then VD <-? dot V D ;
         Rw <-? dot R (diag (map (fun x => 1 / x) w)) ;
         VDRw <-? dot VD Rw ;
         onto Vs VDRw
    else Rw <-? dot R (diag (map (fun x => 1 / x) w)) ;
         DRw <-? dot D Rw ;
         dot V DRw)%res.
(** _compute_build_coeffs_proj, dmd.py:911-915, 1935-1941, and
    _compute_build_coeffs_adjoint, 918-922, 1944-1950: [B] is R or L. *)
Definition build_coeffs (tls : bool) (sqrt : F -> F) (o : dmd_obj) (B : option (arr F)) : hprog F (arr F) :=
  Vs <== (if tls then need AttributeError (dh_svecs o) else HRet (eye 0)) ;
  V <== need AttributeError (dh_cvecs o) ;
  E <== need TypeError (dh_cvals o) ;
  B <== need TypeError B ;
  hlift (DB <-? dot (diag (map (inv_sqrt sqrt) E)) B ;
         VDB <-? dot V DB ;
         if tls then onto Vs VDB else Ok VDB)%res.

(** compute_exact_modes, dmd.py:925-968.  [raise(ValueError, ...)] with a tuple (959,
    965) raises TypeError. *)
Definition DMD_exact_modes (tls : bool) (sqrt : F -> F) (o : dmd_obj) (mode_indices : option col_index)
    (mode_handles : list loc) (adv_vec_handles : option (list loc)) : hprog F dmd_obj :=
  let o := match adv_vec_handles with Some a => set_handles o (dh_vecs o) (Some a) | None => o end in
  B <== build_exact tls sqrt o ;
  match dh_adv o, dh_vecs o with
  | Some a, _ => _ <== combine mode_handles a B mode_indices ; HRet o
  | None, Some v =>
      if (length v =? nr B + 1)%nat
      then _ <== combine mode_handles (tl v) B mode_indices ; HRet o
      else HFail TypeError
  | None, None => HFail TypeError
  end.

(** compute_proj_modes, dmd.py:971-1012, and compute_adjoint_modes, 1015-1057. *)
Definition DMD_modes_of (tls : bool) (sqrt : F -> F) (o : dmd_obj) (B : option (arr F))
    (mode_indices : option col_index) (mode_handles : list loc) : hprog F dmd_obj :=
  B <== build_coeffs tls sqrt o B ;
  v <== need TypeError (dh_vecs o) ;
  if (length v =? nr B + 1)%nat
  then _ <== combine mode_handles (removelast v) B mode_indices ; HRet o
  else if (length v =? nr B)%nat
  then _ <== combine mode_handles v B mode_indices ; HRet o
  else HFail ValueError.
Definition DMD_proj_modes (tls : bool) (sqrt : F -> F) (o : dmd_obj) (mode_indices : option col_index)
    (mode_handles : list loc) (vec_handles : option (list loc)) : hprog F dmd_obj :=
  let o := match vec_handles with Some v => set_handles o (Some v) (dh_adv o) | None => o end in
  DMD_modes_of tls sqrt o (dh_R o) mode_indices mode_handles.
Definition DMD_adjoint_modes (tls : bool) (sqrt : F -> F) (o : dmd_obj) (mode_indices : option col_index)
    (mode_handles : list loc) (vec_handles : option (list loc)) : hprog F dmd_obj :=
  let o := match vec_handles with Some v => set_handles o (Some v) (dh_adv o) | None => o end in
  DMD_modes_of tls sqrt o (dh_L o) mode_indices mode_handles.

(** compute_spectrum, dmd.py:1060-1080 and 2138-2152 (the conjugate is of the product). *)
Definition DMD_spectrum (sqrt : F -> F) (o : dmd_obj) : hprog F (dmd_obj * nd F) :=
  L <== need AttributeError (dh_L o) ;
  E <== need TypeError (dh_cvals o) ;
  V <== need TypeError (dh_cvecs o) ;
  s <== hlift (v0 <-? row V 0 ;
               sv0 <-? dot1 (diag (map sqrt E)) v0 ;
               spec <-? dot1 (conj_T L) (map (kconj F) sv0) ;
               Ok (squeeze (Nd [length spec] (map (cabs sqrt) spec))))%res ;
  HRet (set_spec o s, s).

(** compute_proj_coeffs, dmd.py:1086-1108 and 2158-2187. *)
Definition DMD_proj_coeffs (tls : bool) (sqrt : F -> F) (o : dmd_obj) : hprog F (dmd_obj * (arr F * arr F)) :=
  L <== need AttributeError (dh_L o) ;
  E <== need TypeError (dh_cvals o) ;
  V <== need AttributeError (dh_cvecs o) ;
  pc <== hlift (SVh <-? dot (diag (map sqrt E)) (conj_T V) ; dot (conj_T L) SVh)%res ;
  Vs <== (if tls then need AttributeError (dh_svecs o) else HRet (eye 0)) ;
  K <== need (if tls then AttributeError else TypeError) (dh_cross o) ;
  apc <== hlift (PKP <-? (if tls then P <-? dot Vs (conj_T Vs) ; KP <-? dot K P ; onto Vs KP else Ok K) ;
                 VhK <-? dot (conj_T V) PKP ;
                 DVhK <-? dot (diag (map (inv_sqrt sqrt) E)) VhK ;
                 dot (conj_T L) DVhK)%res ;
  HRet (set_coeffs o (pc, apc), (pc, apc)).

End Model.
Arguments dmd_obj : clear implicits.
