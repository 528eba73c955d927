(** Model of the methods that save reduced-order models and the remaining put methods, as
    SPMD programs on text files:
    - LTIGalerkinProjectionBase.put_A_reduced, put_B_reduced, put_C_reduced and put_model,
      /repo/modred/ltigalerkinproj.py:87-120;
    - ERA.put_model, put_decomp and put_sing_vals, /repo/modred/era.py:223-277;
    - DMDHandles.put_proj_coeffs, /repo/modred/dmd.py:703-709;
    with the default put_array = util.save_array_text. Printing (era.py:240-244) is left out.
    A put is one step: two ranks writing one file at a time do not mix their texts. *)
From stdpp Require Import gmap list.
From Verif Require Import Prelude Spmd ReductionsModel TextModel DecompIOModel.
Open Scope prog_scope.

Section Model.
Context {T I O : Type} (show : T -> text) (read : text -> option T) (bits : I -> T).
Context (P : nat).
Notation prog := (prog (option (array T I)) text O).

(** [self.put_array(attribute, dest)]. The attributes are None until computed
    (ltigalerkinproj.py:82-84, era.py:149-159); save_array_text then has an array of
    objects, of which no view of floats can be made (util.py:87). *)
Definition put_attr (a : option (array T I)) (dest : loc) : prog unit :=
  match a with
  | None => fail TypeError
  | Some a => put_array show bits a dest
  end.

(** put_A_reduced, put_B_reduced, put_C_reduced, ltigalerkinproj.py:87-102: all
    [call_from_rank_zero] and a barrier. *)
Definition put_reduced (rank : nat) (a : option (array T I)) (dest : loc) : prog unit :=
  (if rank =? 0 then put_attr a dest else ret tt) ;;; barrier P.
(** LTIGalerkinProjectionBase.put_model, ltigalerkinproj.py:105-120. *)
Fixpoint put_reduced_each (rank : nat) (l : list (option (array T I) * loc)) : prog unit :=
  match l with
  | [] => ret tt
  | (a, dest) :: l => put_reduced rank a dest ;;; put_reduced_each rank l
  end.
Definition galerkin_put_model (rank : nat) (A B C : option (array T I)) (A_dest B_dest C_dest : loc) : prog unit :=
  put_reduced_each rank [(A, A_dest); (B, B_dest); (C, C_dest)].

(** The puts of ERA, era.py:237-239, 268-272 and 277: on every rank, no barrier. *)
Fixpoint put_attrs (l : list (option (array T I) * loc)) : prog unit :=
  match l with
  | [] => ret tt
  | (a, dest) :: l => put_attr a dest ;;; put_attrs l
  end.
Definition era_put_model (A B C : option (array T I)) (A_dest B_dest C_dest : loc) : prog unit :=
  put_attrs [(A, A_dest); (B, B_dest); (C, C_dest)].
Definition era_put_decomp (sing_vals L R H H2 : option (array T I))
    (sing_vals_dest L_dest R_dest H_dest H2_dest : loc) : prog unit :=
  put_attrs [(H, H_dest); (H2, H2_dest); (L, L_dest); (sing_vals, sing_vals_dest); (R, R_dest)].
Definition era_put_sing_vals (sing_vals : option (array T I)) (dest : loc) : prog unit :=
  put_attrs [(sing_vals, dest)].

(** DMDHandles.put_proj_coeffs, dmd.py:703-709. *)
Definition dmd_put_proj_coeffs (rank : nat) (proj_coeffs adv_proj_coeffs : array T I)
    (dest adv_dest : loc) : prog unit :=
  put_two_method show bits P rank proj_coeffs adv_proj_coeffs dest adv_dest.

(** Files read back with util.load_array_text (util.py:92-123), by each rank for itself. *)
Fixpoint load_files (l : list loc) : prog (list (option (array T I))) :=
  match l with
  | [] => ret []
  | src :: l => a <- get_array read src ;; r <- load_files l ;; ret (a :: r)
  end.

(** np.diag of a loaded array, where compute_modes starts (pod.py:411, bpod.py:441): it takes
    one or two dimensions. Only the dimensions of the result are modelled. *)
Definition np_diag (a : array T I) : res (list nat) :=
  match dims a with
  | [n] => Ok [n; n]
  | [m; n] => Ok [Nat.min m n]
  | _ => Raise ValueError
  end.

End Model.
