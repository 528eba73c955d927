(** Model of /repo/modred/examples/main_CGL.py and tutorial_ex2.py, which use arrays on
    one process.

    Simplified: the random data, the grid and the operator of the Ginzburg-Landau equation
    (main_CGL.py:16-40, 53-67) are arguments; printing and plots are left out; the
    one-dimensional arrays B and C are arrays with one column and one row. *)
From Coq Require Import List Arith Lia Bool ZArith.
Import ListNotations.
From Verif Require Import Prelude Field Matrix NdArray DecompModel VSArraysModel PodModel BpodModel GalerkinModel.
Open Scope nat_scope.

Section Model.
Context {F : sfield}.
Open Scope k_scope.
Open Scope res_scope.

Definition half : F := 1 / (1 + 1).

(** tutorial_ex2.py:13-15: [np.diff], then the sums of neighbours between the first and
    the last difference. *)
Definition diff (x : list F) : list F := map (fun i => at1 x (i + 1) - at1 x i) (seq 0 (length x - 1)).
Definition ex2_weights (x : list F) : res (list F) :=
  match diff x with
  | [] => Raise IndexError
  | d0 :: d => 
      let l := d0 :: d in
      Ok (map (kmul F half) (([d0] ++ map (fun ab => fst ab + snd ab) (combine (removelast l) (tl l))) ++ [last l 0]))
  end.
(** tutorial_ex2.py:11-22. *)
Definition tutorial_ex2 lapack chol inv sqrt (vecs : arr F) (x : list F) (num_modes : nat) atol rtol : res (pod_results F) :=
  weights <-? ex2_weights x ;
  POD_direct lapack chol inv sqrt false vecs (Some (map Z.of_nat (seq 0 num_modes))) (Some (Nd [length weights] weights)) atol rtol.

(** main_CGL.py:43-46. *)
Definition cgl_weights (x : list F) : res (list F) :=
  let nx := length x in
  if (nx <? 2)%nat then Raise IndexError
  else Ok (map (fun i =>
    if (i =? 0)%nat then half * (at1 x 1 - at1 x 0)
    else if (i =? nx - 1)%nat then half * (at1 x (nx - 1) - at1 x (nx - 2))
    else half * (at1 x (i + 1) - at1 x (i - 1))) (seq 0 nx)).

Section Solve.
(** [inv]: numpy.linalg.inv; [solve]: numpy.linalg.solve. *)
Variables (inv : arr F -> res (arr F)) (solve : arr F -> arr F -> res (arr F)).

(** main_CGL.py:97-100, 161-162. *)
Definition cn_LHS (dt : F) (A : arr F) : arr F := Arr (nr A) (nr A) (msub mid (mscale (dt / (1 + 1)) (ent A))).
Definition cn_RHS (dt : F) (A : arr F) : arr F := Arr (nr A) (nr A) (madd mid (mscale (dt / (1 + 1)) (ent A))).

(** main_CGL.py:103-111, 159-164: the columns are the states. *)
Fixpoint march (LHS RHS q : arr F) (steps : nat) : res (list (arr F)) :=
  match steps with
  | O => Ok []
  | S steps => b <-? dot RHS q ; q <-? solve LHS b ; qs <-? march LHS RHS q steps ; Ok (q :: qs)
  end.
Definition simulate (dt : F) (A q0 : arr F) (nt : nat) : res (arr F) :=
  if (nt =? 0)%nat then Raise IndexError else
  qs <-? march (cn_LHS dt A) (cn_RHS dt A) q0 (nt - 1) ;
  Ok (Arr (nr q0) nt (fun i j => ent (nth j (q0 :: qs) q0) i 0%nat)).

(** main_CGL.py:42-50, 68-69, 97-111, 131-166: the modes, the reduced arrays and the
    outputs of both systems. *)
Definition main_CGL svd_lapack (sqrt : F -> F) (x : list F) (A B C : arr F) (dt : F) (nt r : nat) atol rtol
    : res (bpod_results F * (arr F * arr F * arr F) * (arr F * arr F)) :=
  weights <-? cgl_weights x ;
  let M := diag weights in
  inv_M <-? inv M ;
  AM <-? dot (conj_T A) M ;
  A_adj <-? dot inv_M AM ;
  C_adj <-? dot inv_M (conj_T C) ;
  q <-? simulate dt A B nt ;
  q_adj <-? simulate dt A_adj C_adj nt ;
  let idx := map Z.of_nat (seq 0 r) in
  let w := Some (Nd [length weights] weights) in
  BPOD_res <-? BPOD_arrays svd_lapack sqrt false q q_adj 1 1 (Some idx) (Some idx) w atol rtol ;
  projection <-? ga_new false (b_direct BPOD_res) (Some (b_adjoint BPOD_res)) true w ;
  A_direct_modes <-? dot A (b_direct BPOD_res) ;
  C_direct_modes <-? dot C (b_direct BPOD_res) ;
  abc <-? snd (compute_model inv projection A_direct_modes B (D2 C_direct_modes)) ;
  qr <-? simulate dt (fst (fst abc)) (snd (fst abc)) nt ;
  y <-? dot C q ;
  yr <-? dot (snd abc) qr ;
  Ok (BPOD_res, abc, (y, yr)).
End Solve.

(** Contract of numpy.linalg.solve: it solves regular systems. *)
Definition solve_contract (solve : arr F -> arr F -> res (arr F)) (A : arr F) : Prop :=
  (exists T : mat F, meq (nr A) (nr A) (mmul (nr A) T (ent A)) mid) ->
  forall b, nr b = nr A -> exists z, solve A b = Ok z /\ nr z = nr A /\ nc z = nc b /\
    meq (nr A) (nc b) (mmul (nr A) (ent A) (ent z)) (ent b).
End Model.
