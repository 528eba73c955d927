(** Model of OKID, /repo/modred/okid.py. *)
From Coq Require Import List Arith Lia Bool ZArith.
Import ListNotations.
From Verif Require Import Prelude Field Matrix NdArray DecompModel VSArraysModel EraModel.
Open Scope nat_scope.

Section Model.
Context {F : sfield}.
Open Scope k_scope.
Open Scope res_scope.

(** [rows, cols = util.atleast_2d_row(np.array(a)).shape], util.py:15-21, okid.py:39-44:
    other than two dimensions fail to unpack. *)
Definition row_2d (a : nd F) : res (arr F) :=
  match shape a with
  | [] => Ok (as_2d 1 1 (flat a))
  | [n] => Ok (as_2d 1 n (flat a))
  | [m; n] => Ok (as_2d m n (flat a))
  | _ => Raise ValueError
  end.

(** The array V, okid.py:53-59. For shift i the target has max(0, num_samples - i)
    columns; the source [:, :num_samples - i] has as many, except that a negative end
    counts from the back: max(0, 2 num_samples - i) columns then, which NumPy can only
    assign to no columns if they are none or one (broadcasting). *)
Definition okid_V (inputs outputs : arr F) (num_Markovs : nat) : res (arr F) :=
  let m := nr inputs in let ns := nc inputs in let q := (m + nr outputs)%nat in
  let inputs_outputs : mat F := fun i j => if (i <? m)%nat then ent inputs i j else ent outputs (i - m)%nat j in
  V <-? foldM (fun V i =>
          if (ns <? i)%nat && (2 <=? 2 * ns - i)%nat then Raise ValueError else
          Ok (set_block (m + (i - 1) * q) q i (ns - i) inputs_outputs V))
        (seq 1 num_Markovs) (set_block 0 m 0 ns (ent inputs) mzero) ;
  Ok (Arr (m + q * num_Markovs) ns V).

(** The estimates, okid.py:88-98. [ain k], [aout k], k >= 1: the lists
    Markov_aug_input, Markov_aug_output. Stored in a float array. *)
Definition okid_step (p : nat) (ain aout : nat -> mat F) (est : list (mat F)) (k : nat) : list (mat F) :=
  est ++ [fun i j => kre (ain k i j -
            sum k (fun l => mmul p (aout (l + 1)%nat) (nth (k - (l + 1)) est mzero) i j))].

(** OKID, okid.py:8-99. num_Markovs: non-negative. [lstsq]: the first component of
    np.linalg.lstsq. Real data is assumed in one respect: adding a complex array to
    summation_term in place would raise. *)
Definition OKID (lstsq : arr F -> arr F -> res (arr F)) (inputs outputs : nd F) (num_Markovs : nat)
    : res (arr3 F) :=
  inputs <-? row_2d inputs ;
  outputs <-? row_2d outputs ;
  if negb (nc inputs =? nc outputs)%nat then Raise ValueError else
  let m := nr inputs in let p := nr outputs in let q := (m + p)%nat in
  V <-? okid_V inputs outputs num_Markovs ;
  X <-? lstsq (conj_T V) (transp outputs) ;
  let aug := ent (conj_T X) in
  let D : mat F := aug in
  let ain k : mat F := fun i j => aug i (m + (k - 1) * q + j)%nat in
  let aout k : mat F := fun i j => - aug i (m + (k - 1) * q + m + j)%nat in
  if (num_Markovs =? 0)%nat then Raise IndexError else
  let est := fold_left (okid_step p ain aout) (seq 1 (num_Markovs - 1)) [fun i j => kre (D i j)] in
  Ok (Arr3 num_Markovs p m (fun t => nth t est mzero)).

(** What the solver of linear least squares problems guarantees: the residual is
    orthogonal to the columns of A; real data gives a real solution. *)
Record lstsq_contract (A B X : arr F) : Prop := {
  ls_nr : nr X = nc A;
  ls_nc : nc X = nc B;
  ls_normal : meq (nc A) (nc B) (mmul (nr A) (madj (ent A)) (msub (mmul (nc A) (ent A) (ent X)) (ent B))) mzero;
  ls_real : (forall i j, i < nr A -> j < nc A -> real (ent A i j)) ->
    (forall i j, i < nr B -> j < nc B -> real (ent B i j)) ->
    forall i j, i < nr X -> j < nc X -> real (ent X i j)
}.
End Model.
