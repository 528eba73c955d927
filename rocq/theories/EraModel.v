(** Model of the eigensystem realization algorithm, /repo/modred/era.py. *)
From Coq Require Import List Arith Lia Bool ZArith.
Import ListNotations.
From Verif Require Import Prelude Field Matrix NdArray DecompModel VSArraysModel PodModel BpodModel.
Open Scope nat_scope.

Section Model.
Context {F : sfield}.
Open Scope k_scope.
Open Scope res_scope.

(** Three-dimensional arrays [time, output, input]: [a3 t] is the two-dimensional
    array at time index t. *)
Record arr3 := Arr3 { a3_t : nat; a3_p : nat; a3_m : nat; a3 : nat -> mat F }.
(** [array.reshape((a, b, c))] of the entries in row-major order. *)
Definition as_3d (a b c : nat) (l : list F) : arr3 :=
  Arr3 a b c (fun t i j => at1 l ((t * b + i) * c + j)%nat).

(** The array object with those entries. *)
Definition of_3d (M : arr3) : nd F :=
  Nd [a3_t M; a3_p M; a3_m M]
     (map (fun x => a3 M (x / (a3_p M * a3_m M)) ((x / a3_m M) mod a3_p M) (x mod a3_m M))
          (seq 0 (a3_t M * a3_p M * a3_m M)))%nat.

(** Storing a number in an array made by [np.zeros(shape)], which has dtype float: the
    imaginary part is discarded (NumPy prints a ComplexWarning). *)
Definition kre (x : F) : F := (x + x^*) / (1 + 1).

(** era.make_sampled_format, era.py:8-52. [round] is np.round followed by the
    conversion to int that storing in [time_steps_corr] does. np.amax raises
    ValueError for the empty array of differences, but at least two times exist then.
    Division by a zero time step (nan in NumPy) is left to [round]. *)
Definition amax1 (l : list F) : res F :=
  match l with
  | [] => Raise ValueError
  | x :: l => Ok (fold_left (fun m y => if klt F m y then y else m) l x)
  end.
Definition diffs (l : list F) : list F := map (fun p => snd p - fst p) (combine l (tl l)).
Definition make_sampled_format (round : F -> Z) (times : list F) (Markovs : nd F) (dt_tol : F)
    : res (list Z * arr3) :=
  match shape Markovs with
  | [num_time_steps; num_Markovs; num_inputs] =>
      let M := as_3d num_time_steps num_Markovs num_inputs (flat Markovs) in
      if negb (num_time_steps =? length times)%nat then Raise RuntimeError else
      t1 <-? py_nth times 1 ; t0 <-? py_nth times 0 ;
      let dt := t1 - t0 in
      dev <-? amax1 (map (fun d => kabs (d - dt)) (diffs times)) ;
      if klt F dt_tol dev then Raise ValueError else
      let time_steps := map (fun t => round ((t - t0) / dt)) times in
      let n := ((num_time_steps - 1) * 2)%nat in
      Ok (map (fun k => nth (k / 2 + k mod 2)%nat time_steps 0%Z) (seq 0 n),
          Arr3 n num_Markovs num_inputs (fun k i j => kre (a3 M (k / 2 + k mod 2)%nat i j)))
  | _ => Raise ValueError
  end.

(** ERA._set_Markovs, era.py:280-305. A zero-dimensional array passes the checks and
    fails to unpack its shape (ValueError). *)
Definition set_Markovs (Markovs : nd F) : res arr3 :=
  M <-? match shape Markovs with
        | [] => Raise ValueError
        | [a] => Ok (as_3d a 1 1 (flat Markovs))
        | [a; b] => Ok (as_3d a b 1 (flat Markovs))
        | [a; b; c] => Ok (as_3d a b c (flat Markovs))
        | _ => Raise RuntimeError
        end ;
  Ok (if Nat.odd (a3_t M) then Arr3 (a3_t M - 1) (a3_p M) (a3_m M) (a3 M) else M).

(** [H[r0:r0+p, c0:c0+m] = B] within the bounds of H, a float array. *)
Definition set_block (r0 p c0 m : nat) (B H : mat F) : mat F := fun i j =>
  if ((r0 <=? i) && (i <? r0 + p) && (c0 <=? j) && (j <? c0 + m))%nat
  then kre (B (i - r0) (j - c0))%nat else H i j.
(** [Markovs[k]]. *)
Definition index3 (M : arr3) (k : nat) : res (mat F) :=
  if (k <? a3_t M)%nat then Ok (a3 M k) else Raise IndexError.

(** A [for] loop over a list. *)
Fixpoint foldM {S A} (f : S -> A -> res S) (l : list A) (s : S) : res S :=
  match l with
  | [] => Ok s
  | a :: l => s' <-? f s a ; foldM f l s'
  end.

(** The body of the loops, era.py:336-349. *)
Definition Hankel_step (M : arr3) (row : nat) (HH : mat F * mat F) (col : nat) : res (mat F * mat F) :=
  B1 <-? index3 M (2 * (row + col))%nat ;
  B2 <-? index3 M (2 * (row + col) + 1)%nat ;
  Ok (set_block (row * a3_p M) (a3_p M) (col * a3_m M) (a3_m M) B1 (fst HH),
      set_block (row * a3_p M) (a3_p M) (col * a3_m M) (a3_m M) B2 (snd HH)).

(** The numbers of blocks used, era.py:323-326. *)
Definition era_sizes (nt : nat) (mc mo : option Z) : Z * Z :=
  match mo, mc with
  | Some o, Some c => (o, c)
  | _, _ => let d := ((Z.of_nat nt - 2) / 4)%Z in (d, d)
  end.

(** ERA._assemble_Hankel, era.py:308-349: Hankel_array, Hankel_array2. np.zeros raises
    ValueError for negative sizes. *)
Definition assemble_Hankel (M : arr3) (mc mo : option Z) : res (arr F * arr F) :=
  let o := fst (era_sizes (a3_t M) mc mo) in let c := snd (era_sizes (a3_t M) mc mo) in
  if (Z.of_nat (a3_t M) <? o + c + 2)%Z then Raise ValueError else
  let rows := (Z.of_nat (a3_p M) * o)%Z in let cols := (Z.of_nat (a3_m M) * c)%Z in
  if (rows <? 0)%Z || (cols <? 0)%Z then Raise ValueError else
  HH <-? foldM (fun HH row => foldM (Hankel_step M row) (seq 0 (Z.to_nat c)) HH)
           (seq 0 (Z.to_nat o)) (mzero, mzero) ;
  Ok (Arr (Z.to_nat rows) (Z.to_nat cols) (fst HH), Arr (Z.to_nat rows) (Z.to_nat cols) (snd HH)).

(** The attributes of an ERA object that matter, era.py:141-161; of those set by
    compute_model: Hankel_array, Hankel_array2; L_sing_vecs, sing_vals, R_sing_vecs;
    A, B, C. *)
Record era := Era {
  e_mc : option Z; e_mo : option Z;
  e_Hankel : option (arr F * arr F);
  e_decomp : option (arr F * list F * arr F);
  e_model : option (arr F * arr F * arr F)
}.
(** The constructor. *)
Definition ERA (mc mo : option Z) : era := Era mc mo None None None.

(** ERA.compute_model, era.py:164-220. num_states: non-negative. The eigenvalues of A
    are computed for a printed warning. [self.mc], [self.mo] after the call are the
    sizes used (_assemble_Hankel replaces both when one is None). The state of the
    object after an exception: LeftModel.v. *)
Definition compute_model (svd_lapack : arr F -> res (arr F * list F * arr F))
    (eigvals : arr F -> res (list F)) (sqrt : F -> F) (self : era)
    (Markovs : nd F) (num_states : nat) (mc mo : option Z) : res (era * (arr F * arr F * arr F)) :=
  M <-? set_Markovs Markovs ;
  let self := Era mc mo (e_Hankel self) (e_decomp self) (e_model self) in
  HH <-? assemble_Hankel M (e_mc self) (e_mo self) ;
  usv <-? svd svd_lapack (fst HH) None None ;
  let Ur := first_cols num_states (fst (fst usv)) in
  let Er := firstn num_states (snd (fst usv)) in
  let Vr := first_cols num_states (snd usv) in
  let Einv := map (inv_sqrt sqrt) Er in
  VD <-? dot Vr (diag Einv) ;
  HVD <-? dot (snd HH) VD ;
  UHVD <-? dot (conj_T Ur) HVD ;
  A <-? dot (diag Einv) UHVD ;
  B <-? dot (diag (map sqrt Er)) (col_slice 0 (a3_m M) (conj_T Vr)) ;
  C <-? dot (row_slice 0 (a3_p M) Ur) (diag (map sqrt Er)) ;
  _ <-? eigvals A ;
  let sz := era_sizes (a3_t M) mc mo in
  Ok (Era (Some (snd sz)) (Some (fst sz)) (Some HH) (Some usv) (Some (A, B, C)), (A, B, C)).

(** compute_ERA_model, era.py:55-87. *)
Definition compute_ERA_model svd_lapack eigvals sqrt (Markovs : nd F) (num_states : nat)
    : res (arr F * arr F * arr F) :=
  rmap snd (compute_model svd_lapack eigvals sqrt (ERA None None) Markovs num_states None None).

End Model.
Arguments arr3 : clear implicits.
Arguments era : clear implicits.
