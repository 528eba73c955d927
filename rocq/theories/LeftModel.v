(** Model of what an object is left with when a method raises: attributes assigned before
    the exception keep their new values.  A method here gives the object and its result,
    an exception being a result that the caller's [try] statement catches. *)
From stdpp Require Import gmap list.
From Coq Require Import ZArith.
From Verif Require Import Prelude Field Matrix NdArray DecompModel VSArraysModel PodModel BpodModel HankelModel DmdModel TlsModel EraModel Spmd
  LinCombModel HandlesModel PodHandlesModel BpodHandlesModel DmdHandlesModel.
Open Scope nat_scope.

Section Model.
Context {F : sfield}.
Open Scope h_scope.

(** parallel.call_and_bcast, parallel.py:136-153, with the exception caught.  On one
    process the function is just called.  With more ([distributed]) an exception on rank
    zero is left as it is in HandlesModel.v: the other ranks wait for the broadcast. *)
Definition catch_call {A B} (distributed : bool) (bcast : res A -> hprog F A) (call : res A)
    (k : res A -> hprog F B) : hprog F B :=
  match call with
  | Raise e => if distributed then x <== bcast call ; k (Ok x) else k (Raise e)
  | Ok _ => x <== bcast call ; k (Ok x)
  end.

(** PODHandles.compute_decomp, pod.py:369-393 and 364-366. *)
Definition POD_decomp_left (distributed : bool) (eigh_lapack : arr F -> res (list F * arr F))
    (argsort : list F -> list nat) (o : pod_obj F) (vec_handles : list loc) (atol rtol : option F)
    : hprog F (pod_obj F * res unit) :=
  C <== symm_inner_products vec_handles ;
  let o := PodObj (ph_eigvals o) (ph_eigvecs o) (Some vec_handles) (Some C) (ph_coeffs o) in
  catch_call distributed bcast_eigh (eigh eigh_lapack argsort C atol rtol true) (fun ev =>
    match ev with
    | Raise e => HRet (o, Raise e)
    | Ok ev => HRet (PodObj (Some (fst ev)) (Some (snd ev)) (ph_vecs o) (ph_corr o) (ph_coeffs o), Ok tt)
    end).

(** BPODHandles.compute_decomp, bpod.py:348-418 and 331-333.  The numbers of chunks are
    computed on every rank (403, 406): division by zero is raised on all. *)
Definition BPOD_decomp_left (distributed : bool) (svd_lapack : arr F -> res (arr F * list F * arr F))
    (o : bpod_obj F) (direct_vec_handles adjoint_vec_handles : list loc) (num_inputs num_outputs : nat)
    (atol rtol : option F) : hprog F (bpod_obj F * res unit) :=
  let o := BpodObj (bh_L o) (bh_R o) (bh_sing_vals o) (bh_Hankel o) (Some direct_vec_handles)
             (Some adjoint_vec_handles) (bh_direct_coeffs o) (bh_adjoint_coeffs o) in
  first <== inner_products adjoint_vec_handles (firstn num_inputs direct_vec_handles) ;
  last <== inner_products (last_handles num_outputs adjoint_vec_handles) direct_vec_handles ;
  match range_div (nr first) num_outputs, range_div (nc last) num_inputs with
  | Raise e, _ | _, Raise e => HRet (o, Raise e)
  | Ok ri, Ok rj =>
      catch_call distributed bcast_arr (Hankel_chunks
        (map (fun i => col_slice 0 num_inputs (row_slice (i * num_outputs) ((i + 1) * num_outputs) first)) ri)
        (Some (map (fun j => col_slice (j * num_inputs) ((j + 1) * num_inputs) last) rj))) (fun H =>
      match H with
      | Raise e => HRet (o, Raise e)
      | Ok H =>
          let o := BpodObj (bh_L o) (bh_R o) (bh_sing_vals o) (Some H) (bh_direct o) (bh_adjoint o)
                     (bh_direct_coeffs o) (bh_adjoint_coeffs o) in
          catch_call distributed bcast_svd (svd svd_lapack H atol rtol) (fun usv =>
          match usv with
          | Raise e => HRet (o, Raise e)
          | Ok usv => HRet (BpodObj (Some (fst (fst usv))) (Some (snd usv)) (Some (snd (fst usv))) (bh_Hankel o)
                              (bh_direct o) (bh_adjoint o) (bh_direct_coeffs o) (bh_adjoint_coeffs o), Ok tt)
          end)
      end)
  end.

(** The eigenvalues and eigenvectors of the correlation array, dmd.py:784-795. *)
Definition set_cvals (o : dmd_obj F) (E : list F) (V : arr F) : dmd_obj F :=
  DmdObj (dh_eigvals o) (dh_R o) (dh_L o) (Some E) (Some V) (dh_svals o) (dh_svecs o)
    (dh_corr o) (dh_cross o) (dh_adv_corr o) (dh_vecs o) (dh_adv o) (dh_spec o) (dh_coeffs o).

(** DMDHandles.compute_eigendecomp, dmd.py:782-810, when both correlation arrays are set. *)
Definition DMD_eigendecomp_left (distributed : bool) (eigh_lapack : arr F -> res (list F * arr F))
    (argsort : list F -> list nat) (eig_lapack : arr F -> res (list F * arr F * arr F))
    (sqrt : F -> F) (o : dmd_obj F) (C K : arr F) (atol : option F) (max_num : option nat)
    : hprog F (dmd_obj F * res unit) :=
  catch_call distributed bcast_eigh (eigh_of eigh_lapack argsort (Some C) atol None) (fun ev =>
  match ev with
  | Raise e => HRet (o, Raise e)
  | Ok ev =>
      let E := max_list max_num (fst ev) in
      let V := max_cols max_num (length (fst ev)) (snd ev) in
      let o := set_cvals o E V in
      match DMD_low sqrt E V K with
      | Raise e => HRet (o, Raise e)
      | Ok M =>
          catch_call distributed bcast_eig (eig_biorthog eig_lapack M SLeft) (fun wrl =>
          match wrl with
          | Raise e => HRet (o, Raise e)
          | Ok wrl => HRet (set_decomp o (fst (fst wrl)) (snd (fst wrl)) (snd wrl) E V (dh_svals o) (dh_svecs o), Ok tt)
          end)
      end
  end).

(** DMDHandles.compute_decomp, dmd.py:813-900: both lists of handles are assigned before
    their lengths are compared (858-863). *)
Definition DMD_decomp_left (distributed : bool) (eigh_lapack : arr F -> res (list F * arr F))
    (argsort : list F -> list nat) (eig_lapack : arr F -> res (list F * arr F * arr F))
    (sqrt : F -> F) (o : dmd_obj F) (vec_handles : list loc) (adv_vec_handles : option (list loc))
    (atol : option F) (max_num : option nat) : hprog F (dmd_obj F * res unit) :=
  match adv_vec_handles with
  | None =>
      let o := set_handles o (Some vec_handles) (dh_adv o) in
      expanded <== symm_inner_products vec_handles ;
      let C := but_last_col (but_last_row expanded) in
      let K := but_first_col (but_last_row expanded) in
      DMD_eigendecomp_left distributed eigh_lapack argsort eig_lapack sqrt
        (set_corr o C K (dh_adv_corr o)) C K atol max_num
  | Some adv =>
      let o := set_handles o (Some vec_handles) (Some adv) in
      if (length vec_handles =? length adv)%nat then
        C <== symm_inner_products vec_handles ;
        K <== inner_products vec_handles adv ;
        DMD_eigendecomp_left distributed eigh_lapack argsort eig_lapack sqrt
          (set_corr o C K (dh_adv_corr o)) C K atol max_num
      else HRet (o, Raise ValueError)
  end.

(** The eigenvalues and eigenvectors of the sum of the correlation arrays, dmd.py:1764-1775. *)
Definition set_svals (o : dmd_obj F) (E : list F) (V : arr F) : dmd_obj F :=
  DmdObj (dh_eigvals o) (dh_R o) (dh_L o) (dh_cvals o) (dh_cvecs o) (Some E) (Some V)
    (dh_corr o) (dh_cross o) (dh_adv_corr o) (dh_vecs o) (dh_adv o) (dh_spec o) (dh_coeffs o).

(** TLSqrDMDHandles.compute_eigendecomp, dmd.py:1761-1814, when the three correlation arrays
    are set. *)
Definition TLS_eigendecomp_left (distributed : bool) (eigh_lapack : arr F -> res (list F * arr F))
    (argsort : list F -> list nat) (eig_lapack : arr F -> res (list F * arr F * arr F))
    (sqrt : F -> F) (o : dmd_obj F) (C K G : arr F) (atol : option F) (max_num : option nat)
    : hprog F (dmd_obj F * res unit) :=
  match add_arr C G with
  | Raise e => HRet (o, Raise e)
  | Ok sum =>
      catch_call distributed bcast_eigh (eigh_of eigh_lapack argsort (Some sum) atol None) (fun ev =>
      match ev with
      | Raise e => HRet (o, Raise e)
      | Ok ev =>
          let Es := max_list max_num (fst ev) in
          let Vs := max_cols max_num (length (fst ev)) (snd ev) in
          let o := set_svals o Es Vs in
          match TLS_proj_corr Vs C with
          | Raise e => HRet (o, Raise e)
          | Ok PC =>
              catch_call distributed bcast_eigh (eigh_of eigh_lapack argsort (Some PC) atol None) (fun ev' =>
              match ev' with
              | Raise e => HRet (o, Raise e)
              | Ok ev' =>
                  let E := max_list max_num (fst ev') in
                  let V := max_cols max_num (length (fst ev')) (snd ev') in
                  let o := set_cvals o E V in
                  match TLS_low sqrt Vs E V K with
                  | Raise e => HRet (o, Raise e)
                  | Ok M =>
                      catch_call distributed bcast_eig (eig_biorthog eig_lapack M SLeft) (fun wrl =>
                      match wrl with
                      | Raise e => HRet (o, Raise e)
                      | Ok wrl =>
                          HRet (set_decomp o (fst (fst wrl)) (snd (fst wrl)) (snd wrl) E V (Some Es) (Some Vs), Ok tt)
                      end)
                  end
              end)
          end
      end)
  end.

(** TLSqrDMDHandles.compute_decomp, dmd.py:1817-1922: the handles as in DMDHandles
    (1874-1879). *)
Definition TLS_decomp_left (distributed : bool) (eigh_lapack : arr F -> res (list F * arr F))
    (argsort : list F -> list nat) (eig_lapack : arr F -> res (list F * arr F * arr F))
    (sqrt : F -> F) (o : dmd_obj F) (vec_handles : list loc) (adv_vec_handles : option (list loc))
    (atol : option F) (max_num : option nat) : hprog F (dmd_obj F * res unit) :=
  match adv_vec_handles with
  | None =>
      let o := set_handles o (Some vec_handles) (dh_adv o) in
      expanded <== symm_inner_products vec_handles ;
      let C := but_last_col (but_last_row expanded) in
      let K := but_first_col (but_last_row expanded) in
      let G := but_first_col (but_first_row expanded) in
      TLS_eigendecomp_left distributed eigh_lapack argsort eig_lapack sqrt
        (set_corr o C K (Some G)) C K G atol max_num
  | Some adv =>
      let o := set_handles o (Some vec_handles) (Some adv) in
      if (length vec_handles =? length adv)%nat then
        C <== symm_inner_products vec_handles ;
        K <== inner_products vec_handles adv ;
        G <== symm_inner_products adv ;
        TLS_eigendecomp_left distributed eigh_lapack argsort eig_lapack sqrt
          (set_corr o C K (Some G)) C K G atol max_num
      else HRet (o, Raise ValueError)
  end.

End Model.

Section Era.
Context {F : sfield}.
Open Scope res_scope.

(** A [for] loop over a list, with the state when an exception ends it. *)
Fixpoint loop_left {S A} (f : S -> A -> S * res unit) (l : list A) (s : S) : S * res unit :=
  match l with
  | [] => (s, Ok tt)
  | a :: l => match f s a with (s', Ok _) => loop_left f l s' | (s', Raise e) => (s', Raise e) end
  end.
(** The body of the loops, era.py:336-349: the block of Hankel_array is assigned before
    that of Hankel_array2 is looked up. *)
Definition Hankel_step_left (M : arr3 F) (row : nat) (HH : mat F * mat F) (col : nat)
    : (mat F * mat F) * res unit :=
  match index3 M (2 * (row + col)) with
  | Raise e => (HH, Raise e)
  | Ok B1 =>
      let HH := (set_block (row * a3_p M) (a3_p M) (col * a3_m M) (a3_m M) B1 (fst HH), snd HH) in
      match index3 M (2 * (row + col) + 1) with
      | Raise e => (HH, Raise e)
      | Ok B2 => ((fst HH, set_block (row * a3_p M) (a3_p M) (col * a3_m M) (a3_m M) B2 (snd HH)), Ok tt)
      end
  end.
(** ERA._assemble_Hankel, era.py:308-349: the arrays assigned, if any, and the result. *)
Definition assemble_Hankel_left (M : arr3 F) (mc mo : option Z) : option (arr F * arr F) * res unit :=
  let o := fst (era_sizes (a3_t M) mc mo) in let c := snd (era_sizes (a3_t M) mc mo) in
  if (Z.of_nat (a3_t M) <? o + c + 2)%Z then (None, Raise ValueError) else
  let rows := (Z.of_nat (a3_p M) * o)%Z in let cols := (Z.of_nat (a3_m M) * c)%Z in
  if (rows <? 0)%Z || (cols <? 0)%Z then (None, Raise ValueError) else
  let p := loop_left (fun HH row => loop_left (Hankel_step_left M row) (seq 0 (Z.to_nat c)) HH)
             (seq 0 (Z.to_nat o)) (mzero, mzero) in
  (Some (Arr (Z.to_nat rows) (Z.to_nat cols) (fst (fst p)), Arr (Z.to_nat rows) (Z.to_nat cols) (snd (fst p))),
   snd p).

(** ERA.compute_model, era.py:164-220: [self.Markovs] (280-305, not an attribute that the
    put methods use) first, then mc and mo, both replaced if one is None (323-326), the
    two Hankel arrays, the singular values and vectors, and A, B, C one after the other.
    An exception between the assignments of A and C would be a shape error; that does not
    happen and is not told apart. *)
Definition compute_model_left (svd_lapack : arr F -> res (arr F * list F * arr F))
    (eigvals : arr F -> res (list F)) (sqrt : F -> F) (self : era F)
    (Markovs : nd F) (num_states : nat) (mc mo : option Z) : era F * res (arr F * arr F * arr F) :=
  match set_Markovs Markovs with
  | Raise e => (self, Raise e)
  | Ok M =>
      let sz := era_sizes (a3_t M) mc mo in
      let self := Era (Some (snd sz)) (Some (fst sz)) (e_Hankel self) (e_decomp self) (e_model self) in
      match assemble_Hankel_left M mc mo with
      | (None, Raise e) => (self, Raise e)
      | (Some HH, Raise e) => (Era (e_mc self) (e_mo self) (Some HH) (e_decomp self) (e_model self), Raise e)
      | (None, Ok _) => (self, Raise AttributeError)
      | (Some HH, Ok _) =>
          let self := Era (e_mc self) (e_mo self) (Some HH) (e_decomp self) (e_model self) in
          match svd svd_lapack (fst HH) None None with
          | Raise e => (self, Raise e)
          | Ok usv =>
              let self := Era (e_mc self) (e_mo self) (Some HH) (Some usv) (e_model self) in
              let Ur := first_cols num_states (fst (fst usv)) in
              let Er := firstn num_states (snd (fst usv)) in
              let Vr := first_cols num_states (snd usv) in
              let Einv := map (inv_sqrt sqrt) Er in
              match (VD <-? dot Vr (diag Einv) ;
                     HVD <-? dot (snd HH) VD ;
                     UHVD <-? dot (conj_T Ur) HVD ;
                     A <-? dot (diag Einv) UHVD ;
                     B <-? dot (diag (map sqrt Er)) (col_slice 0 (a3_m M) (conj_T Vr)) ;
                     C <-? dot (row_slice 0 (a3_p M) Ur) (diag (map sqrt Er)) ;
                     Ok (A, B, C)) with
              | Raise e => (self, Raise e)
              | Ok (A, B, C) =>
                  let self := Era (e_mc self) (e_mo self) (Some HH) (Some usv) (Some (A, B, C)) in
                  match eigvals A with
                  | Raise e => (self, Raise e)
                  | Ok _ => (self, Ok (A, B, C))
                  end
              end
          end
      end
  end.

End Era.
