(** Model of the methods that save and load decompositions, as SPMD programs on text files:
    get_decomp, put_decomp and the other get_* and put_* methods of PODHandles
    (/repo/modred/pod.py:257-331), BPODHandles (/repo/modred/bpod.py:200-309), DMDHandles
    (/repo/modred/dmd.py:539-709) and TLSqrDMDHandles (/repo/modred/dmd.py:1953-2136), with
    the default get_array = util.load_array_text and put_array = util.save_array_text.

    The shared store maps paths to texts; messages are arrays ([None] is Python's None). *)
From stdpp Require Import gmap list.
From Verif Require Import Prelude Spmd ReductionsModel TextModel.
Open Scope prog_scope.

(** [np.squeeze]: drops the axes of length one. *)
Definition squeeze {T I} (a : array T I) : array T I :=
  Array (List.filter (fun n => negb (n =? 1)) (dims a)) (fortran a) (elems a).

Section Model.
Context {T I O : Type} (show : T -> text) (read : text -> option T) (bits : I -> T).
Context (P : nat).
Notation prog := (prog (option (array T I)) text O).

(** [self.put_array(a, dest)] and [self.get_array(src)] with the default functions,
    /repo/modred/util.py:48-123. *)
Definition put_array (a : array T I) (dest : loc) : prog unit :=
  t <- lift (save_array_text show bits a None) ;; put dest t.
Definition get_array (src : loc) : prog (option (array T I)) :=
  t <- get src ;; a <- lift (load_array_text read t None false) ;; ret (Some a).

(** One of the put_* methods, e.g. put_eigvals, pod.py:305-309: rank zero writes, then all
    wait.  (DMDHandles.put_proj_coeffs, dmd.py:703-709, writes two files before the
    barrier.) *)
Definition put_method (rank : nat) (a : array T I) (dest : loc) : prog unit :=
  (if rank =? 0 then put_array a dest else ret tt) ;;; barrier P.
Definition put_two_method (rank : nat) (a b : array T I) (dest dest' : loc) : prog unit :=
  (if rank =? 0 then put_array a dest ;;; put_array b dest' else ret tt) ;;; barrier P.
(** One of the get_* methods, e.g. get_correlation_array, pod.py:272-278, and the
    assignments of get_decomp; [sq] when the result goes through np.squeeze(np.array(.)). *)
Definition get_method (rank : nat) (src : loc) (sq : bool) : prog (option (array T I)) :=
  a <- call_and_bcast P None rank (get_array src) ;;
  ret (if sq then squeeze <$> a else a).

(** Several put_* or get_* methods in turn; the results are the attributes set. *)
Fixpoint put_each (rank : nat) (l : list (array T I * loc)) : prog unit :=
  match l with
  | [] => ret tt
  | (a, dest) :: l => put_method rank a dest ;;; put_each rank l
  end.
Fixpoint get_each (rank : nat) (l : list (loc * bool)) : prog (list (option (array T I))) :=
  match l with
  | [] => ret []
  | (src, sq) :: l => a <- get_method rank src sq ;; r <- get_each rank l ;; ret (a :: r)
  end.

(** pod.py:290-302 (the eigenvectors first) and 257-269. *)
Definition pod_put_decomp rank eigvals eigvecs eigvals_dest eigvecs_dest : prog unit :=
  put_each rank [(eigvecs, eigvecs_dest); (eigvals, eigvals_dest)].
Definition pod_get_decomp rank eigvals_src eigvecs_src :=
  get_each rank [(eigvals_src, true); (eigvecs_src, false)].

(** bpod.py:251-267 and 200-218. *)
Definition bpod_put_decomp rank sing_vals L_sing_vecs R_sing_vecs
    sing_vals_dest L_sing_vecs_dest R_sing_vecs_dest : prog unit :=
  put_each rank [(sing_vals, sing_vals_dest); (L_sing_vecs, L_sing_vecs_dest);
    (R_sing_vecs, R_sing_vecs_dest)].
Definition bpod_get_decomp rank sing_vals_src L_sing_vecs_src R_sing_vecs_src :=
  get_each rank [(sing_vals_src, true); (L_sing_vecs_src, false); (R_sing_vecs_src, false)].

(** dmd.py:615-642 and 539-570. *)
Definition dmd_put_decomp rank eigvals R_low_order_eigvecs L_low_order_eigvecs
    correlation_array_eigvals correlation_array_eigvecs
    eigvals_dest R_dest L_dest corr_eigvals_dest corr_eigvecs_dest : prog unit :=
  put_each rank [(eigvals, eigvals_dest); (R_low_order_eigvecs, R_dest);
    (L_low_order_eigvecs, L_dest); (correlation_array_eigvals, corr_eigvals_dest);
    (correlation_array_eigvecs, corr_eigvecs_dest)].
Definition dmd_get_decomp rank eigvals_src R_src L_src corr_eigvals_src corr_eigvecs_src :=
  get_each rank [(eigvals_src, true); (R_src, false); (L_src, false); (corr_eigvals_src, true);
    (corr_eigvecs_src, false)].

(** dmd.py:2031-2070 and 1953-1997. *)
Definition tls_put_decomp rank eigvals R_low_order_eigvecs L_low_order_eigvecs
    sum_eigvals sum_eigvecs proj_eigvals proj_eigvecs
    eigvals_dest R_dest L_dest sum_eigvals_dest sum_eigvecs_dest
    proj_eigvals_dest proj_eigvecs_dest : prog unit :=
  put_each rank [(eigvals, eigvals_dest); (R_low_order_eigvecs, R_dest);
    (L_low_order_eigvecs, L_dest); (sum_eigvals, sum_eigvals_dest);
    (sum_eigvecs, sum_eigvecs_dest); (proj_eigvals, proj_eigvals_dest);
    (proj_eigvecs, proj_eigvecs_dest)].
Definition tls_get_decomp rank eigvals_src R_src L_src sum_eigvals_src sum_eigvecs_src
    proj_eigvals_src proj_eigvecs_src :=
  get_each rank [(eigvals_src, true); (R_src, false); (L_src, false); (sum_eigvals_src, true);
    (sum_eigvecs_src, false); (proj_eigvals_src, true); (proj_eigvecs_src, false)].
(** dmd.py:2073-2086: the inherited methods raise on every rank. *)
Definition tls_put_correlation_array_eigvals (rank : nat) (dest : loc) : prog unit :=
  fail NotImplementedError.
Definition tls_put_correlation_array_eigvecs (rank : nat) (dest : loc) : prog unit :=
  fail NotImplementedError.

End Model.
