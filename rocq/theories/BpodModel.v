(** Model of compute_BPOD_arrays, /repo/modred/bpod.py:11-147. *)
From Coq Require Import List Arith Lia Bool ZArith.
Import ListNotations.
From Verif Require Import Prelude Field Matrix NdArray HankelModel DecompModel VSArraysModel PodModel.
Open Scope nat_scope.

Section Model.
Context {F : sfield}.
Open Scope k_scope.
Open Scope res_scope.

(** [A[r0:r1, :]] and [A[:, c0:c1]] with non-negative bounds: slices stop at the
    array's edge. *)
Definition row_slice (r0 r1 : nat) (A : arr F) : arr F :=
  Arr (Nat.min r1 (nr A) - r0)%nat (nc A) (fun i j => ent A (r0 + i)%nat j).
Definition col_slice (c0 c1 : nat) (A : arr F) : arr F :=
  Arr (nr A) (Nat.min c1 (nc A) - c0)%nat (fun i j => ent A i (c0 + j)%nat).
(** [A[:, -k:]]: [-0] is the start. *)
Definition last_cols (k : nat) (A : arr F) : arr F :=
  col_slice (if (k =? 0)%nat then 0%nat else (nc A - k)%nat) (nc A) A.

(** [range(n // d)]. *)
Definition range_div (n d : nat) : res (list nat) :=
  if (d =? 0)%nat then Raise ZeroDivisionError else Ok (seq 0 (n / d)).

(** The namedtuple BPOD_results, bpod.py:136-147. *)
Record bpod_results := Bpod {
  b_sing_vals : list F; b_direct : arr F; b_adjoint : arr F;
  b_direct_coeffs : arr F; b_adjoint_coeffs : arr F;
  b_L : arr F; b_R : arr F; b_Hankel : arr F
}.

(** The Hankel array from its first column and last row of chunks, bpod.py:94-115
    (array functions) and 378-404 (handles), given all inner products with the
    first [p] direct vectors and of the last [q] adjoint vectors. *)
Definition BPOD_Hankel (p q : nat) (all_adjoint_first_direct last_adjoint_all_direct : arr F)
    : res (arr F) :=
  ri <-? range_div (nr all_adjoint_first_direct) q ;
  rj <-? range_div (nc last_adjoint_all_direct) p ;
  Hankel_chunks
    (map (fun i => col_slice 0 p (row_slice (i * q) ((i + 1) * q) all_adjoint_first_direct)) ri)
    (Some (map (fun j => col_slice (j * p) ((j + 1) * p) last_adjoint_all_direct) rj)).

(** compute_BPOD_arrays, bpod.py:83-147. The two ZeroDivisionErrors of
    [BPOD_Hankel] are raised between the inner products here; nothing else
    observes the order. *)
Definition BPOD_arrays (svd_lapack : arr F -> res (arr F * list F * arr F)) (sqrt : F -> F)
    (distributed : bool) (direct_vecs adjoint_vecs : arr F) (num_inputs num_outputs : nat)
    (direct_idx adjoint_idx : option (list Z)) (inner_product_weights : option (nd F))
    (atol rtol : option F) : res bpod_results :=
  if distributed then Raise RuntimeError else
  ws <-? set_weights inner_product_weights ;
  first <-? inner_product_array ws adjoint_vecs (first_cols num_inputs direct_vecs) ;
  last <-? inner_product_array ws (last_cols num_outputs adjoint_vecs) direct_vecs ;
  Hankel_array <-? BPOD_Hankel num_inputs num_outputs first last ;
  usv <-? svd svd_lapack Hankel_array atol rtol ;
  let L := fst (fst usv) in let E := snd (fst usv) in let R := snd usv in
  let sqrt_inv := diag (map (inv_sqrt sqrt) E) in
  direct_build <-? dot R sqrt_inv ;
  direct_modes <-? lin_combine direct_vecs direct_build direct_idx ;
  adjoint_build <-? dot L sqrt_inv ;
  adjoint_modes <-? lin_combine adjoint_vecs adjoint_build adjoint_idx ;
  dc <-? dot (diag (map sqrt E)) (conj_T R) ;
  ac <-? dot (diag (map sqrt E)) (conj_T L) ;
  Ok (Bpod E direct_modes adjoint_modes dc ac L R Hankel_array).

End Model.
Arguments bpod_results : clear implicits.
