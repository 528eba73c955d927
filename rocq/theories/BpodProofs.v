(** Algebra of balanced POD. *)
From Coq Require Import List Arith Lia Bool ZArith Field Ring Setoid Morphisms.
Import ListNotations.
From Verif Require Import Prelude Field Matrix NdArray HankelModel HankelProps DecompModel
  DecompProofs VSArraysModel VSArraysProofs PodModel PodProofs BpodModel.
Open Scope nat_scope.
Open Scope k_scope.

Section Alg.
Context {F : sfield}.
Add Field Bpodfield : (k_field F).

(** With H = Y^H W X (M x N) and its leading singular triples. *)
Section Modes.
Context (n M N k : nat) (X Y W U V : mat F) (e s : nat -> F).
Notation H := (wip n W Y X).
Context (HU : meq k k (mmul M (madj U) U) mid) (HV : meq k k (mmul N (madj V) V) mid).
Context (HV' : meq M k (mmul N H V) (mmul k U (mdiag e))).
Context (HU' : meq N k (mmul M (madj H) U) (mmul k V (mdiag e))).
Context (Hs : forall i, i < k -> s i * s i = e i) (Rs : forall i, i < k -> real (s i))
  (Ns : forall i, i < k -> s i <> 0).
Notation D := (mdiag (fun i => 1 / s i)).
Notation Phi := (mmul N X (mmul k V D)).
Notation Psi := (mmul M Y (mmul k U D)).

Lemma bpod_inv_real : meq k k (madj D) D.
Proof.
  apply madj_diag_real. intros i Hi. rewrite conj_div by auto. rewrite conj_1, Rs by auto. reflexivity.
Qed.
Lemma bpod_eD : meq k k (mmul k (mdiag e) D) (mdiag s).
Proof.
  rewrite mmul_diag_diag. apply mdiag_ext. intros i Hi. rewrite <- Hs by auto. field. auto.
Qed.
Lemma bpod_biorthogonal : meq k k (wip n W Psi Phi) mid.
Proof.
  rewrite wip_mul_l, <- wip_mul_r, <- (mmul_assoc M k N k), HV', mmul_assoc, bpod_eD, madj_mmul.
  rewrite bpod_inv_real, mmul_assoc, <- (mmul_assoc k k M k (madj U) U), HU, mmul_id_l, mmul_diag_diag.
  apply mdiag_1. intros i Hi. field. auto.
Qed.
Lemma bpod_direct_coeffs : meq k N (wip n W Psi X) (mmul k (mdiag s) (madj V)).
Proof.
  rewrite wip_mul_l, madj_mmul, bpod_inv_real, mmul_assoc.
  assert (E : meq k N (mmul M (madj U) H) (mmul k (mdiag e) (madj V))).
  { transitivity (madj (mmul M (madj H) U)).
    - rewrite (madj_mmul k N M), madj_madj. reflexivity.
    - rewrite HU', madj_mmul, madj_diag_real; [reflexivity|].
      intros i Hi. rewrite <- Hs by auto. apply real_mul; auto. }
  rewrite E, <- mmul_assoc, mmul_diag_diag.
  rewrite (mdiag_ext k _ s); [reflexivity|]. intros i Hi. rewrite <- Hs by auto. field. auto.
Qed.
Lemma bpod_adjoint_coeffs : hermitian n W ->
  meq k M (wip n W Phi Y) (mmul k (mdiag s) (madj U)).
Proof.
  intros HW. rewrite wip_mul_l, madj_mmul, bpod_inv_real, mmul_assoc.
  rewrite <- (wip_adj N M n W Y X HW).
  assert (E : meq k M (mmul N (madj V) (madj H)) (mmul k (mdiag e) (madj U))).
  { rewrite <- madj_mmul, HV', madj_mmul, madj_diag_real; [reflexivity|].
    intros i Hi. rewrite <- Hs by auto. apply real_mul; auto. }
  rewrite E, <- mmul_assoc, mmul_diag_diag.
  rewrite (mdiag_ext k _ s); [reflexivity|]. intros i Hi. rewrite <- Hs by auto. field. auto.
Qed.
Lemma bpod_direct_span : meq n k (mmul k Phi (mdiag s)) (mmul N X V).
Proof.
  rewrite !mmul_assoc, mmul_diag_diag.
  rewrite (mdiag_1 k); [|intros; field; auto]. rewrite mmul_id_r. reflexivity.
Qed.
Lemma bpod_adjoint_span : meq n k (mmul k Psi (mdiag s)) (mmul M Y U).
Proof.
  rewrite !mmul_assoc, mmul_diag_diag.
  rewrite (mdiag_1 k); [|intros; field; auto]. rewrite mmul_id_r. reflexivity.
Qed.
End Modes.

(** Powers of the adjoint operator: A+^H W = W A. *)
Lemma adjoint_powers n (A Ap W : mat F) :
  meq n n (mmul n (madj Ap) W) (mmul n W A) ->
  forall i, meq n n (mmul n (madj (mpow n Ap i)) W) (mmul n W (mpow n A i)).
Proof.
  intros H i. induction i as [|i IH].
  - simpl. rewrite madj_mid, mmul_id_l, mmul_id_r. reflexivity.
  - rewrite (mpow_S_r n n Ap i) by auto. rewrite madj_mmul, mmul_assoc, IH, <- mmul_assoc, H.
    rewrite mmul_assoc. reflexivity.
Qed.
End Alg.
