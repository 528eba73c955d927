(** Algebra of proper orthogonal decomposition. *)
From Coq Require Import List Arith Lia Bool ZArith Field Ring Setoid Morphisms Permutation.
Import ListNotations.
From Verif Require Import Prelude Field Matrix NdArray DecompModel DecompProofs VSArraysModel
  VSArraysProofs PodModel.
Open Scope nat_scope.
Open Scope k_scope.

Section Alg.
Context {F : sfield}.
Add Field Podfield : (k_field F).

Lemma sqrt_ok_neq (sqrt : F -> F) x : sqrt_ok sqrt x -> x <> 0 -> sqrt x <> 0.
Proof. intros (_ & _ & E) H E'. apply H. rewrite <- E, E'. ring. Qed.

(** Square roots of non-negative numbers are unique. *)
Lemma sqrt_square (sqrt : F -> F) (s : F) : real s -> kle 0 s -> sqrt_ok sqrt (s * s) -> sqrt (s * s) = s.
Proof.
  intros Rs Hs (Rr & Hr & E). set (r := sqrt (s * s)) in *.
  assert (D : (r - s) * (r + s) = 0).
  { replace ((r - s) * (r + s)) with (r * r - s * s) by ring. rewrite E. ring. }
  destruct (mul_eq_0 _ _ D) as [H|H].
  - transitivity (r - s + s); [ring|]. rewrite H. ring.
  - assert (r = 0) by (apply (add_eq_0 r s); auto).
    assert (s = 0) by (transitivity (r + s - r); [ring|]; rewrite H, H0; ring).
    congruence.
Qed.

(** Method of snapshots: X is n x N, U the N x k eigenvectors of X^H W X. *)
Section Snaps.
Context (n N k : nat) (X W U : mat F) (e s : nat -> F).
Context (HW : hermitian n W).
Notation C := (wip n W X X).
Context (HU : meq k k (mmul N (madj U) U) mid).
Context (HE : meq N k (mmul N C U) (mmul k U (mdiag e))).
Context (Hs : forall i, i < k -> s i * s i = e i) (Rs : forall i, i < k -> real (s i))
  (Ns : forall i, i < k -> s i <> 0).
Notation D := (mdiag (fun i => 1 / s i)).
Notation Phi := (mmul N X (mmul k U D)).

Lemma inv_s_real : meq k k (madj D) D.
Proof.
  apply madj_diag_real. intros i Hi. rewrite conj_div by auto. rewrite conj_1, Rs by auto. reflexivity.
Qed.
Lemma snaps_C_UD : meq N k (mmul N C (mmul k U D)) (mmul k U (mdiag s)).
Proof.
  rewrite <- mmul_assoc, HE, mmul_assoc, mmul_diag_diag.
  rewrite (mdiag_ext k _ s); [reflexivity|]. intros i Hi. rewrite <- Hs by auto. field. auto.
Qed.
Lemma snaps_orthonormal : meq k k (wip n W Phi Phi) mid.
Proof.
  rewrite wip_mul_l, <- wip_mul_r, snaps_C_UD, madj_mmul, inv_s_real, mmul_assoc.
  rewrite <- (mmul_assoc k k N k (madj U) U), HU, mmul_id_l, mmul_diag_diag.
  apply mdiag_1. intros i Hi. field. auto.
Qed.
Lemma snaps_coeffs : meq k N (wip n W Phi X) (mmul k (mdiag s) (madj U)).
Proof.
  rewrite <- (wip_adj k N n W X Phi HW). rewrite <- wip_mul_r, snaps_C_UD, madj_mmul.
  rewrite madj_diag_real by auto. reflexivity.
Qed.
Lemma snaps_modes : meq n k (mmul k Phi (mdiag s)) (mmul N X U).
Proof.
  rewrite !mmul_assoc, mmul_diag_diag.
  rewrite (mdiag_1 k); [|intros; field; auto]. rewrite mmul_id_r. reflexivity.
Qed.
(** When the kept pairs make up the correlation array, the modes reproduce X. *)
Lemma snaps_exact : definite n W ->
  meq N N C (mmul k U (mmul k (mdiag e) (madj U))) ->
  meq n N X (mmul k Phi (mmul k (mdiag s) (madj U))).
Proof.
  intros HD HC.
  assert (E1 : meq n N (mmul k Phi (mmul k (mdiag s) (madj U))) (mmul N X (mmul k U (madj U)))).
  { rewrite !mmul_assoc. rewrite <- (mmul_assoc k N k k (mdiag (fun i => 1 / s i))), mmul_diag_diag.
    rewrite (mdiag_1 k); [|intros; field; auto]. rewrite mmul_id_l. reflexivity. }
  rewrite E1. clear E1.
  set (P := msub mid (mmul k U (madj U))).
  assert (E2 : meq N N (mmul N C P) mzero).
  { unfold P. rewrite mmul_sub_r, mmul_id_r, <- mmul_assoc, HE, mmul_assoc, <- HC.
    apply msub_zero. reflexivity. }
  assert (E3 : meq n N (mmul N X P) mzero).
  { apply (wgram_zero N n W); auto. rewrite wip_mul_l, <- wip_mul_r, E2, mmul_zero_r. reflexivity. }
  unfold P in E3. rewrite mmul_sub_r, mmul_id_r in E3. apply (proj1 (msub_zero n N _ _)) in E3. exact E3.
Qed.
End Snaps.

(** Direct method: R^H R = W, R X = U S V^H (leading k), T R = 1. *)
Section Direct.
Context (n N k : nat) (X W R T U V : mat F) (s : nat -> F).
Context (HR : meq n n (mmul n (madj R) R) W) (HT : meq n n (mmul n T R) mid).
Context (HU : meq k k (mmul n (madj U) U) mid) (HV : meq k k (mmul N (madj V) V) mid).
Context (HAV : meq n k (mmul N (mmul n R X) V) (mmul k U (mdiag s))).
Context (HAU : meq N k (mmul n (madj (mmul n R X)) U) (mmul k V (mdiag s))).
Context (Rs : forall i, i < k -> real (s i)).
Notation Phi := (mmul n T U).

Lemma direct_RT : meq n n (mmul n R T) mid.
Proof. apply left_inverse_right. auto. Qed.
Lemma direct_RPhi : meq n k (mmul n R Phi) U.
Proof. rewrite <- mmul_assoc, direct_RT, mmul_id_l. reflexivity. Qed.
Lemma direct_wip m m' A B :
  meq m m' (wip n W A B) (mmul n (madj (mmul n R A)) (mmul n R B)).
Proof.
  unfold wip. rewrite <- HR, madj_mmul, !mmul_assoc. reflexivity.
Qed.
Lemma direct_orthonormal : meq k k (wip n W Phi Phi) mid.
Proof. rewrite direct_wip, direct_RPhi. auto. Qed.
Lemma direct_coeffs : meq k N (wip n W Phi X) (mmul k (mdiag s) (madj V)).
Proof.
  rewrite direct_wip, direct_RPhi.
  transitivity (madj (mmul n (madj (mmul n R X)) U)).
  - rewrite (madj_mmul k N n). rewrite madj_madj. reflexivity.
  - rewrite HAU, madj_mmul, madj_diag_real by auto. reflexivity.
Qed.
Lemma direct_eig : meq N k (mmul N (wip n W X X) V) (mmul k V (mdiag (fun i => s i * s i))).
Proof.
  rewrite direct_wip, mmul_assoc, HAV, <- mmul_assoc, HAU, mmul_assoc, mmul_diag_diag. reflexivity.
Qed.
Lemma direct_modes : meq n k (mmul k Phi (mdiag s)) (mmul N X V).
Proof.
  rewrite mmul_assoc, <- HAV, mmul_assoc, <- (mmul_assoc n k n n T R), HT, mmul_id_l. reflexivity.
Qed.
Lemma direct_exact :
  meq n N (mmul n R X) (mmul k U (mmul k (mdiag s) (madj V))) ->
  meq n N X (mmul k Phi (mmul k (mdiag s) (madj V))).
Proof.
  intros HX. rewrite mmul_assoc, <- HX, <- mmul_assoc, HT, mmul_id_l. reflexivity.
Qed.
End Direct.

End Alg.
