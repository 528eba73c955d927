(** Model of the linear system functions of /repo/modred/util.py. *)
From Coq Require Import List Arith Lia Bool ZArith.
Import ListNotations.
From Verif Require Import Prelude Field Matrix NdArray DecompModel VSArraysModel PodModel EraModel Lti.
Open Scope nat_scope.

Section Model.
Context {F : sfield}.
Open Scope k_scope.
Open Scope res_scope.

(** scipy.signal.StateSpace(A, B, C, D, dt=1): shapes must fit. *)
Definition state_space (A B C : arr F) : res unit :=
  if (nr A =? nc A)%nat && (nr B =? nr A)%nat && (nc C =? nr A)%nat then Ok tt else Raise ValueError.

(** scipy.signal.dlsim with D = 0, as documented, storing states and outputs in float
    arrays: x(0) = x0, x(t+1) = A x(t) + B u(t), y(t) = C x(t) for the samples of u. It
    fails when there are none (IndexError), when u does not have a column per input, and
    when the initial condition does not fit (one entry is broadcast). *)
Fixpoint dlsim_x (n m : nat) (A B : mat F) (u : mat F) (x0 : nat -> F) (t : nat) : nat -> F :=
  match t with
  | O => fun l => kre (x0 l)
  | S t => fun l => kre (mv n A (dlsim_x n m A B u x0 t) l + mv m B (u t) l)
  end.
Definition dlsim_x0 (n : nat) (x0 : option (list F)) : res (nat -> F) :=
  match x0 with
  | None => Ok (fun _ => 0)
  | Some [x] => Ok (fun _ => x)
  | Some l => if (length l =? n)%nat then Ok (at1 l) else Raise ValueError
  end.
Definition dlsim (A B C : arr F) (u : arr F) (x0 : option (list F)) : res (arr F) :=
  let n := nr A in
  if (nr u =? 0)%nat then Raise IndexError else
  x <-? dlsim_x0 n x0 ;
  if negb (nc u =? nc B)%nat then Raise ValueError else
  Ok (Arr (nr u) (nr C) (fun t i => kre (mv n (ent C) (dlsim_x n (nc B) (ent A) (ent B) (ent u) x t) i))).

(** lsim, util.py:436-465. One-dimensional inputs become a column (in dlsim); [inputs]
    here has two dimensions. *)
Definition lsim (A B C : arr F) (inputs : arr F) (initial_condition : option (list F)) : res (arr F) :=
  _ <-? state_space A B C ;
  dlsim A B C inputs initial_condition.

(** scipy.signal.dimpulse(ss, n): a list with, for each input, the response to the unit
    impulse at time 0 over n samples (100 if None). *)
Definition unit_impulse (n m i : nat) : arr F :=
  Arr n m (fun t j => if (t =? 0)%nat && (j =? i)%nat then 1 else 0).
Fixpoint mapM {A B} (f : A -> res B) (l : list A) : res (list B) :=
  match l with
  | [] => Ok []
  | a :: l => b <-? f a ; bs <-? mapM f l ; Ok (b :: bs)
  end.
Definition dimpulse (A B C : arr F) (n : option nat) : res (list (arr F)) :=
  let n := match n with None => 100%nat | Some n => n end in
  mapM (fun i => dlsim A B C (unit_impulse n (nc B) i) None) (seq 0 (nc B)).

(** impulse, util.py:468-492. The array of the responses [input, time, output] is
    rearranged to [time, output, input] and its first time dropped. Without inputs
    [np.array(Markovs)] has one dimension and swapaxes fails (AxisError, a
    ValueError). num_time_steps: non-negative. *)
Definition impulse (A B C : arr F) (num_time_steps : option nat) : res (arr3 F) :=
  _ <-? state_space A B C ;
  ys <-? match num_time_steps with
         | Some n => dimpulse A B C (Some (n + 1)%nat)
         | None => dimpulse A B C None
         end ;
  match ys with
  | [] => Raise ValueError
  | y :: _ => Ok (Arr3 (nr y - 1) (nc y) (length ys)
                    (fun t i j => ent (nth j ys (zeros 0 0)) (t + 1)%nat i))
  end.

(** balanced_truncation, util.py:337-384. [lyap]: scipy.linalg.solve_lyapunov. order:
    non-negative. *)
Definition balanced_truncation (lyap : arr F -> arr F -> res (arr F))
    (svd_lapack : arr F -> res (arr F * list F * arr F)) (sqrt : F -> F)
    (A B C : arr F) (order : option nat) : res (arr F * arr F * arr F * list F) :=
  BB <-? dot B (conj_T B) ;
  gram_cont <-? lyap A BB ;
  CC <-? dot (conj_T C) C ;
  gram_obsv <-? lyap (conj_T A) CC ;
  c <-? svd svd_lapack gram_cont None None ;
  o <-? svd svd_lapack gram_obsv None None ;
  Lc <-? dot (fst (fst c)) (diag (map sqrt (snd (fst c)))) ;
  Lo <-? dot (fst (fst o)) (diag (map sqrt (snd (fst o)))) ;
  LL <-? dot (transp Lo) Lc ;
  h <-? svd svd_lapack LL None None ;
  let E := snd (fst h) in
  let order := match order with None => length E | Some k => k end in
  let Einv := diag (map (inv_sqrt sqrt) (firstn order E)) in
  LU <-? dot Lo (first_cols order (fst (fst h))) ;
  SL <-? dot LU Einv ;
  LV <-? dot Lc (first_cols order (snd h)) ;
  SR <-? dot LV Einv ;
  SA <-? dot (transp SL) A ;
  Ar <-? dot SA SR ;
  Br <-? dot (transp SL) B ;
  Cr <-? dot C SR ;
  Ok (Ar, Br, Cr, E).

(** scipy.linalg.solve_lyapunov(A, Q): A X + X A^H = Q. *)
Definition lyap_contract (A Q X : arr F) : Prop :=
  nr X = nr A /\ nc X = nr A /\
  meq (nr A) (nr A) (madd (mmul (nr A) (ent A) (ent X)) (mmul (nr A) (ent X) (madj (ent A)))) (ent Q).
End Model.
