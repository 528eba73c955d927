(** Model of the class BPODHandles, /repo/modred/bpod.py:150-499: its attributes and the
    methods that compute. *)
From stdpp Require Import gmap list.
From Coq Require Import ZArith.
From Verif Require Import Prelude Field Matrix NdArray HankelModel DecompModel PodModel BpodModel Spmd
  LinCombModel HandlesModel.
Open Scope nat_scope.

Section Model.
Context {F : sfield}.
Open Scope h_scope.

(** The attributes, bpod.py:182-197, and the coefficients set at 482, 497. *)
Record bpod_obj := BpodObj {
  bh_L : option (arr F); bh_R : option (arr F); bh_sing_vals : option (list F);
  bh_Hankel : option (arr F); bh_direct : option (list loc); bh_adjoint : option (list loc);
  bh_direct_coeffs : option (arr F); bh_adjoint_coeffs : option (arr F)
}.
Definition BPOD_new : bpod_obj := BpodObj None None None None None None None None.

(** [l[-k:]]: [-0] is the start. *)
Definition last_handles (k : nat) (l : list loc) : list loc :=
  if k =? 0 then l else skipn (length l - k) l.

(** compute_SVD, bpod.py:312-333; None is rejected by LAPACK on rank zero. *)
Definition BPOD_SVD (svd_lapack : arr F -> res (arr F * list F * arr F)) (o : bpod_obj)
    (atol rtol : option F) : hprog F bpod_obj :=
  usv <== bcast_svd (match bh_Hankel o with
                     | Some H => svd svd_lapack H atol rtol
                     | None => Raise LinAlgError
                     end) ;
  HRet (BpodObj (Some (fst (fst usv))) (Some (snd usv)) (Some (snd (fst usv))) (bh_Hankel o)
          (bh_direct o) (bh_adjoint o) (bh_direct_coeffs o) (bh_adjoint_coeffs o)).

(** compute_decomp, bpod.py:348-410.  The lists of chunks are made on every rank,
    Hankel_chunks is called on rank zero. *)
Definition BPOD_decomp (svd_lapack : arr F -> res (arr F * list F * arr F)) (o : bpod_obj)
    (direct_vec_handles adjoint_vec_handles : list loc) (num_inputs num_outputs : nat)
    (atol rtol : option F) : hprog F bpod_obj :=
  first <== inner_products adjoint_vec_handles (firstn num_inputs direct_vec_handles) ;
  last <== inner_products (last_handles num_outputs adjoint_vec_handles) direct_vec_handles ;
  ri <== hlift (range_div (nr first) num_outputs) ;
  rj <== hlift (range_div (nc last) num_inputs) ;
  H <== bcast_arr (Hankel_chunks
    (map (fun i => col_slice 0 num_inputs (row_slice (i * num_outputs) ((i + 1) * num_outputs) first)) ri)
    (Some (map (fun j => col_slice (j * num_inputs) ((j + 1) * num_inputs) last) rj))) ;
  BPOD_SVD svd_lapack
    (BpodObj (bh_L o) (bh_R o) (bh_sing_vals o) (Some H) (Some direct_vec_handles)
       (Some adjoint_vec_handles) (bh_direct_coeffs o) (bh_adjoint_coeffs o)) atol rtol.

(** compute_direct_modes, bpod.py:422-444; attribute None: UndefinedError when there
    are no vectors (428-429), AttributeError from [None.dot]. *)
Definition BPOD_direct_modes (sqrt : F -> F) (o : bpod_obj) (mode_indices : option col_index)
    (mode_handles : list loc) (direct_vec_handles : option (list loc)) : hprog F bpod_obj :=
  let o := match direct_vec_handles with
           | Some h => BpodObj (bh_L o) (bh_R o) (bh_sing_vals o) (bh_Hankel o) (Some h) (bh_adjoint o)
                         (bh_direct_coeffs o) (bh_adjoint_coeffs o)
           | None => o
           end in
  h <== need UndefinedError (bh_direct o) ;
  R <== need AttributeError (bh_R o) ;
  E <== need TypeError (bh_sing_vals o) ;
  B <== hlift (dot R (diag (map (inv_sqrt sqrt) E))) ;
  _ <== combine mode_handles h B mode_indices ;
  HRet o.

(** compute_adjoint_modes, bpod.py:447-469. *)
Definition BPOD_adjoint_modes (sqrt : F -> F) (o : bpod_obj) (mode_indices : option col_index)
    (mode_handles : list loc) (adjoint_vec_handles : option (list loc)) : hprog F bpod_obj :=
  let o := match adjoint_vec_handles with
           | Some h => BpodObj (bh_L o) (bh_R o) (bh_sing_vals o) (bh_Hankel o) (bh_direct o) (Some h)
                         (bh_direct_coeffs o) (bh_adjoint_coeffs o)
           | None => o
           end in
  h <== need UndefinedError (bh_adjoint o) ;
  L <== need AttributeError (bh_L o) ;
  E <== need TypeError (bh_sing_vals o) ;
  B <== hlift (dot L (diag (map (inv_sqrt sqrt) E))) ;
  _ <== combine mode_handles h B mode_indices ;
  HRet o.

(** compute_direct_proj_coeffs and compute_adjoint_proj_coeffs, bpod.py:472-499. *)
Definition BPOD_direct_coeffs (sqrt : F -> F) (o : bpod_obj) : hprog F (bpod_obj * arr F) :=
  E <== need TypeError (bh_sing_vals o) ;
  R <== need AttributeError (bh_R o) ;
  c <== hlift (dot (diag (map sqrt E)) (conj_T R)) ;
  HRet (BpodObj (bh_L o) (bh_R o) (bh_sing_vals o) (bh_Hankel o) (bh_direct o) (bh_adjoint o)
          (Some c) (bh_adjoint_coeffs o), c).
Definition BPOD_adjoint_coeffs (sqrt : F -> F) (o : bpod_obj) : hprog F (bpod_obj * arr F) :=
  E <== need TypeError (bh_sing_vals o) ;
  L <== need AttributeError (bh_L o) ;
  c <== hlift (dot (diag (map sqrt E)) (conj_T L)) ;
  HRet (BpodObj (bh_L o) (bh_R o) (bh_sing_vals o) (bh_Hankel o) (bh_direct o) (bh_adjoint o)
          (bh_direct_coeffs o) (Some c), c).

End Model.
Arguments bpod_obj : clear implicits.
