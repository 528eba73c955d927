(** Model of /repo/modred/examples/main_CGL.py:40-67: the optimal disturbance, and the
    arrays the rest of main_CGL (CglModel.v) starts from. *)
From Coq Require Import List Arith Lia Bool ZArith.
Import ListNotations.
From Verif Require Import Prelude Field Matrix NdArray DecompModel VSArraysModel PodModel HermiteModel CglModel.
Open Scope nat_scope.

Section Model.
Context {F : sfield}.
Open Scope k_scope.
Open Scope res_scope.

(** [svd]: numpy.linalg.svd (of square arrays). *)
Variable svd : arr F -> res (arr F * list F * arr F).

(** main_CGL.py:60-65. [best] is max_sing_val and, once it is set, optimal_dist (one column). *)
Fixpoint growth_loop (M_sqrt inv_M_sqrt Ad exp_array : arr F) (best : F * option (arr F)) (steps : nat) : res (F * option (arr F)) :=
  match steps with
  | O => Ok best
  | S steps =>
      exp_array <-? dot exp_array Ad ;
      r <-? dot exp_array inv_M_sqrt ;
      G <-? dot M_sqrt r ;
      uev <-? svd G ;
      let E := snd (fst uev) in
      let VH := snd uev in
      match E with
      | [] => Raise IndexError
      | e :: _ =>
          growth_loop M_sqrt inv_M_sqrt Ad exp_array
            (if klt F (fst best) e then (e, Some (Arr (nc VH) 1 (fun i _ => (ent VH 0%nat i)^*))) else best) steps
      end
  end.
(** main_CGL.py:49-50, 58-66, with the number of times as argument; None: NameError, because
    optimal_dist was never set. *)
Definition optimal_disturbance (sqrt : F -> F) (weights : list F) (Ad : arr F) (steps : nat) : res (option (arr F)) :=
  let M_sqrt := diag (map sqrt weights) in
  let inv_M_sqrt := diag (map (inv_sqrt sqrt) weights) in
  best <-? growth_loop M_sqrt inv_M_sqrt Ad (eye (length weights)) (0, None) steps ;
  match snd best with
  | None => Ok None
  | Some v => b <-? dot inv_M_sqrt v ; Ok (Some (Arr (nr b) (nc b) (fun i j => - ent b i j)))
  end.

(** main_CGL.py:67: a row. *)
Definition cgl_output (exp : F -> F) (x weights : list F) (x_s s : F) : res (arr F) :=
  dot (Arr 1 (length x) (fun _ j => let z := (at1 x j - x_s) / s in exp (- (z * z)))) (diag weights).

(** main_CGL.py:40-67: grid, A, B and C. [expm]: scipy.linalg.expm. *)
Definition cgl_setup (sqrt exp : F -> F) (eigvalsh : arr F -> res (list F)) (expm : arr F -> res (arr F))
    (nx : nat) (b nu gamma mu_c mu_2 dt x_s s : F) : res (list F * arr F * option (arr F) * arr F) :=
  xD <-? herdif sqrt exp eigvalsh nx 2 b ;
  let x := fst xD in
  weights <-? cgl_weights x ;
  A <-? cgl_operator x (snd xD) nu gamma mu_c mu_2 ;
  Ad <-? expm (Arr (nr A) (nc A) (mscale dt (ent A))) ;
  B <-? optimal_disturbance sqrt weights Ad 99 ;
  C <-? cgl_output exp x weights x_s s ;
  Ok (x, A, B, C).
End Model.
