(** Model of /repo/modred/examples/tutorial_ex1.py and rom_ex1.py, which use arrays on one
    process.  Simplified: the random data are arguments; making the directory and writing
    the files (rom_ex1.py:8-11, 29-31) are left out, see C49 for put_model. *)
From Coq Require Import List Arith Lia Bool ZArith.
Import ListNotations.
From Verif Require Import Prelude Field Matrix NdArray DecompModel VSArraysModel PodModel GalerkinModel.
Open Scope nat_scope.

Section Model.
Context {F : sfield}.
Open Scope res_scope.

(** tutorial_ex1.py:11-13: no weights; the tolerances are the default values. *)
Definition tutorial_ex1 eigh_lapack argsort sqrt (vecs : arr F) (num_modes : nat) atol rtol : res (pod_results F) :=
  POD_snaps eigh_lapack argsort sqrt false vecs (Some (map Z.of_nat (seq 0 num_modes))) None atol rtol.

(** rom_ex1.py:26-28. *)
Definition rom_ex1 inv (A B C basis_vecs : arr F) : res (arr F * arr F * arr F) :=
  o <-? ga_new false basis_vecs None false None ;
  X <-? dot A basis_vecs ;
  Z <-? dot C basis_vecs ;
  snd (compute_model inv o X B (D2 Z)).
End Model.
