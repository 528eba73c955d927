(** Model of compute_TLSqrDMD_arrays_snaps_method and
    compute_TLSqrDMD_arrays_direct_method, /repo/modred/dmd.py:1111-1608. *)
From Coq Require Import List Arith Lia Bool ZArith.
Import ListNotations.
From Verif Require Import Prelude Field Matrix NdArray DecompModel VSArraysModel PodModel BpodModel DmdModel.
Open Scope nat_scope.

Section Model.
Context {F : sfield}.
Open Scope k_scope.
Open Scope res_scope.

(** [A + B] of two arrays of one shape. The shapes agree at the only use,
    dmd.py:1263-1267; other shapes (broadcasting) are not modelled. *)
Definition add_arr (A B : arr F) : res (arr F) :=
  if same_shape2 A B then Ok (Arr (nr A) (nc A) (madd (ent A) (ent B))) else Raise ValueError.

(** The namedtuples TLSqrDMD_results, dmd.py:1372-1395, 1584-1608: the fields shared
    with DMD_results ([d_cvals], [d_cvecs]: proj_correlation_array_eigvals and
    -eigvecs), and the eigenpairs of the sum of the correlation arrays; the snapshot
    method also returns correlation_array, adv_correlation_array and
    cross_correlation_array. *)
Record tls_results := Tls {
  t_dmd : dmd_results F; t_sum_vals : list F; t_sum_vecs : arr F;
  t_corr : option (arr F * arr F * arr F)
}.

(** correlation_array, cross_correlation_array, adv_correlation_array, dmd.py:1242-1261. *)
Definition TLS_correlations (ws : weights F) (vecs : arr F) (adv_vecs : option (arr F))
    : res (arr F * arr F * arr F) :=
  match adv_vecs with
  | None =>
      expanded <-? symm_inner_product_array ws vecs ;
      Ok (but_last_col (but_last_row expanded), but_first_col (but_last_row expanded),
          but_first_col (but_first_row expanded))
  | Some adv =>
      if negb (same_shape2 vecs adv) then Raise ValueError else
      C <-? symm_inner_product_array ws vecs ;
      K <-? inner_product_array ws vecs adv ;
      G <-? symm_inner_product_array ws adv ;
      Ok (C, K, G)
  end.

(** [Vs.dot(Vs.conj().T.dot(B))]. *)
Definition onto (Vs B : arr F) : res (arr F) := VhB <-? dot (conj_T Vs) B ; dot Vs VhB.

(** proj_correlation_array, dmd.py:1279-1283. *)
Definition TLS_proj_corr (Vs C : arr F) : res (arr F) :=
  P <-? dot Vs (conj_T Vs) ; CP <-? dot C P ; onto Vs CP.

(** From the eigenpairs (E, V) of the projected correlation array to the results,
    dmd.py:1295-1370. The spectral coefficients use [V[0, :].T], not its conjugate
    (1329-1330; DMD_core and the handles version, 2149-2151, conjugate). *)
Definition TLS_core (eig_lapack : arr F -> res (list F * arr F * arr F)) (sqrt : F -> F)
    (vecs : arr F) (adv_vecs : option (arr F)) (idx : option (list Z))
    (Vs : arr F) (E : list F) (V cross : arr F) : res (dmd_results F) :=
  let Einv := map (inv_sqrt sqrt) E in
  VD <-? dot V (diag Einv) ;
  PVD <-? onto Vs VD ;
  KPVD <-? dot cross PVD ;
  PKPVD <-? onto Vs KPVD ;
  VPK <-? dot (conj_T V) PKPVD ;
  M <-? dot (diag Einv) VPK ;
  wrl <-? eig_biorthog eig_lapack M SLeft ;
  let w := fst (fst wrl) in let R := snd (fst wrl) in let L := snd wrl in
  DR <-? dot (diag Einv) R ;
  VDR <-? dot V DR ;
  proj <-? onto Vs VDR ;
  exact <-? dot proj (diag (map (fun x => 1 / x) w)) ;
  DL <-? dot (diag Einv) L ;
  VDL <-? dot V DL ;
  adjoint <-? onto Vs VDL ;
  v0 <-? row V 0 ;
  sv0 <-? dot1 (diag (map sqrt E)) v0 ;
  spec <-? dot1 (conj_T L) sv0 ;
  SVh <-? dot (diag (map sqrt E)) (conj_T V) ;
  pc <-? dot (conj_T L) SVh ;
  P <-? dot Vs (conj_T Vs) ;
  KP <-? dot cross P ;
  PKP <-? onto Vs KP ;
  VhK <-? dot (conj_T V) PKP ;
  SVhK <-? dot (diag Einv) VhK ;
  apc <-? dot (conj_T L) SVhK ;
  modes <-? DMD_modes vecs adv_vecs idx exact proj adjoint ;
  Ok (Dmd w (squeeze (Nd [length spec] (map (cabs sqrt) spec)))
        (fst (fst modes)) (snd (fst modes)) (snd modes) pc apc R L E V None).

(** compute_TLSqrDMD_arrays_snaps_method, dmd.py:1231-1395. The second
    eigendecomposition is called with [rtol=None] (1285). *)
Definition TLS_snaps (eigh_lapack : arr F -> res (list F * arr F)) (argsort : list F -> list nat)
    (eig_lapack : arr F -> res (list F * arr F * arr F)) (sqrt : F -> F) (distributed : bool)
    (vecs : arr F) (adv_vecs : option (arr F)) (idx : option (list Z))
    (inner_product_weights : option (nd F)) (atol rtol : option F) (max_num : option nat)
    : res tls_results :=
  if distributed then Raise RuntimeError else
  ws <-? set_weights inner_product_weights ;
  CKG <-? TLS_correlations ws vecs adv_vecs ;
  let C := fst (fst CKG) in let K := snd (fst CKG) in let G := snd CKG in
  sum <-? add_arr C G ;
  ev <-? eigh eigh_lapack argsort sum atol rtol true ;
  let Es := max_list max_num (fst ev) in
  let Vs := max_cols max_num (length (fst ev)) (snd ev) in
  PC <-? TLS_proj_corr Vs C ;
  ev' <-? eigh eigh_lapack argsort PC atol None true ;
  let E := max_list max_num (fst ev') in
  let V := max_cols max_num (length (fst ev')) (snd ev') in
  d <-? TLS_core eig_lapack sqrt vecs adv_vecs idx Vs E V K ;
  Ok (Tls d Es Vs (Some (C, G, K))).

(** compute_TLSqrDMD_arrays_direct_method, dmd.py:1504-1608. The left singular vectors
    are truncated too but not used again. *)
Definition TLS_direct (svd_lapack : arr F -> res (arr F * list F * arr F))
    (cholesky : arr F -> res (arr F))
    (eig_lapack : arr F -> res (list F * arr F * arr F)) (sqrt : F -> F) (distributed : bool)
    (vecs : arr F) (adv_vecs : option (arr F)) (idx : option (list Z))
    (inner_product_weights : option (nd F)) (atol rtol : option F) (max_num : option nat)
    : res tls_results :=
  if distributed then Raise RuntimeError else
  _ <-? set_weights inner_product_weights ;
  weigh <-? sqrt_weights cholesky sqrt inner_product_weights ;
  vecs_weighted <-? weigh vecs ;
  data <-? match adv_vecs with
  | None =>
      Z <-? vstack [but_last_col vecs_weighted; but_first_col vecs_weighted] ;
      Ok (Z, but_last_col vecs, but_first_col vecs)
  | Some adv =>
      adv_weighted <-? weigh adv ;
      if negb (same_shape2 vecs adv) then Raise ValueError else
      Z <-? vstack [vecs_weighted; adv_weighted] ;
      Ok (Z, vecs, adv)
  end ;
  usv <-? svd svd_lapack (fst (fst data)) atol rtol ;
  let S := max_list max_num (snd (fst usv)) in
  let Vs := max_cols max_num (length (snd (fst usv))) (snd usv) in
  P <-? dot Vs (conj_T Vs) ;
  vecs_proj <-? dot (snd (fst data)) P ;
  P' <-? dot Vs (conj_T Vs) ;
  adv_proj <-? dot (snd data) P' ;
  d <-? DMD_direct svd_lapack cholesky eig_lapack sqrt distributed vecs_proj (Some adv_proj) idx
          inner_product_weights atol rtol max_num ;
  Ok (Tls d (map (fun s => s * s) S) Vs None).

End Model.
Arguments tls_results : clear implicits.
