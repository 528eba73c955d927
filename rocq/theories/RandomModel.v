(** Model of the random systems, /repo/modred/util.py:387-433. The random draws are
    arguments: [eig_vecs], [transformation], [B] and [C] are any arrays, [r] any numbers.
    [inv]: numpy.linalg.inv (contract [inv_contract], PodModel.v). *)
From Coq Require Import List Arith.
Import ListNotations.
From Verif Require Import Prelude Field Matrix NdArray EraModel.
Open Scope nat_scope.

Section Model.
Context {F : sfield}.
Open Scope k_scope.
Open Scope res_scope.

Fixpoint k_nat (n : nat) : F := match n with O => 0 | S n => k_nat n + 1 end.

(** numpy.linspace(a, b, n): n evenly spaced numbers from a to b; only a if n is 1. The last
    is computed like the others: arithmetic is exact. *)
Definition linspace (a b : F) (n : nat) : list F :=
  map (fun j => a + k_nat j * ((b - a) / k_nat (n - 1)%nat)) (seq 0 n).

(** numpy.real of an array. *)
Definition real_a (A : arr F) : arr F := Arr (nr A) (nc A) (fun i j => kre (ent A i j)).

Section Inv.
Variable inv : arr F -> res (arr F).

(** The eigenvalues, util.py:404: from .2 to .95. *)
Definition drss_vals (num_states : nat) : list F :=
  linspace (k_nat 1 / k_nat 5) (k_nat 19 / k_nat 20) num_states.
(** drss, util.py:387-410; the draws are those of 405, 408 and 409. *)
Definition drss (num_states : nat) (eig_vecs B C : arr F) : res (arr F * arr F * arr F) :=
  Vi <-? inv eig_vecs ;
  DV <-? dot (diag (drss_vals num_states)) eig_vecs ;
  A <-? dot Vi DV ;
  Ok (real_a A, B, C).

(** rss, util.py:413-433; [r]: the draws of numpy.random.random(num_states) in 428, the
    others those of 429, 431 and 432. *)
Definition rss (r : list F) (transformation B C : arr F) : res (arr F * arr F * arr F) :=
  let e_vals := map (fun x => - x) r in
  Ti <-? inv transformation ;
  TD <-? dot Ti (diag e_vals) ;
  A <-? dot TD transformation ;
  Ok (A, B, C).
End Inv.
End Model.
