(** Algebra of dynamic mode decomposition, in terms of the correlation array [C] and
    cross-correlation array [K], then for data arrays. *)
From Coq Require Import List Arith Lia Bool ZArith Field Ring Setoid Morphisms.
Import ListNotations.
From Verif Require Import Prelude Field Matrix NdArray DecompModel DecompProofs VSArraysModel
  VSArraysProofs PodModel PodProofs BpodModel DmdModel.
Open Scope nat_scope.
Open Scope k_scope.

Section Alg.
Context {F : sfield}.
Add Field Dmdfield : (k_field F).

Section Gram.
Context (N k : nat) (C K V L R : mat F) (e s w : nat -> F).
Context (HC : meq N N (madj C) C).
Context (HV : meq k k (mmul N (madj V) V) mid).
Context (HE : meq N k (mmul N C V) (mmul k V (mdiag e))).
Context (Hs : forall i, i < k -> s i * s i = e i) (Rs : forall i, i < k -> real (s i))
  (Ns : forall i, i < k -> s i <> 0).
Notation D := (mdiag (fun i => 1 / s i)).
Notation M := (mmul k D (mmul N (madj V) (mmul N K (mmul k V D)))).
Context (HR : meq k k (mmul k M R) (mmul k R (mdiag w))).
Context (HL : meq k k (mmul k (madj L) M) (mmul k (mdiag w) (madj L))).
Notation Bp := (mmul k V (mmul k D R)).
Notation Be := (mmul k Bp (mdiag (fun i => 1 / w i))).
Notation Ba := (mmul k V (mmul k D L)).

Lemma dmd_D_real : meq k k (madj D) D.
Proof.
  apply madj_diag_real. intros i Hi. rewrite conj_div by auto. rewrite conj_1, Rs by auto. reflexivity.
Qed.
Lemma dmd_Ba_adj : meq k N (madj Ba) (mmul k (madj L) (mmul k D (madj V))).
Proof. rewrite !madj_mmul, dmd_D_real, mmul_assoc. reflexivity. Qed.
Lemma dmd_VC : meq k N (mmul N (madj V) C) (mmul k (mdiag e) (madj V)).
Proof.
  transitivity (madj (mmul N C V)).
  - rewrite madj_mmul, HC. reflexivity.
  - rewrite HE, madj_mmul, madj_diag_real; [reflexivity|].
    intros i Hi. rewrite <- Hs by auto. apply real_mul; auto.
Qed.
Lemma dmd_De : meq k k (mmul k D (mdiag e)) (mdiag s).
Proof.
  rewrite mmul_diag_diag. apply mdiag_ext. intros i Hi. rewrite <- Hs by auto. field. auto.
Qed.
Lemma dmd_proj_coeffs : meq k N (mmul N (madj Ba) C) (mmul k (madj L) (mmul k (mdiag s) (madj V))).
Proof.
  rewrite dmd_Ba_adj, !mmul_assoc, dmd_VC, <- (mmul_assoc k N k k D), dmd_De. reflexivity.
Qed.
Lemma dmd_adv_coeffs :
  meq k N (mmul N (madj Ba) K) (mmul k (madj L) (mmul k D (mmul N (madj V) K))).
Proof. rewrite dmd_Ba_adj, !mmul_assoc. reflexivity. Qed.
Lemma dmd_adj_proj : meq k k (mmul N (madj Ba) (mmul N C Bp)) (mmul k (madj L) R).
Proof.
  rewrite <- mmul_assoc, dmd_proj_coeffs, !mmul_assoc.
  rewrite <- (mmul_assoc k k N k (madj V) V), HV, mmul_id_l.
  rewrite <- (mmul_assoc k k k k (mdiag s)), mmul_diag_diag.
  rewrite (mdiag_1 k); [|intros; field; auto]. rewrite mmul_id_l. reflexivity.
Qed.
Lemma dmd_VKB : meq k k (mmul k D (mmul N (madj V) (mmul N K Be)))
  (mmul k R (mdiag (fun i => w i * (1 / w i)))).
Proof.
  transitivity (mmul k (mmul k M R) (mdiag (fun i => 1 / w i))).
  - rewrite !mmul_assoc. reflexivity.
  - rewrite HR, mmul_assoc, mmul_diag_diag. reflexivity.
Qed.
Lemma dmd_adj_exact : meq k k (mmul N (madj Ba) (mmul N K Be))
  (mmul k (mmul k (madj L) R) (mdiag (fun i => w i * (1 / w i)))).
Proof.
  rewrite dmd_Ba_adj, (mmul_assoc k k k N (madj L)), (mmul_assoc k k k N D), dmd_VKB, mmul_assoc.
  reflexivity.
Qed.
(** The fitted operator acts on the exact modes through [V D D V^H K]. *)
Lemma dmd_fit_exact : meq N k (mmul k V (mmul k D (mmul k D (mmul N (madj V) (mmul N K Be)))))
  (mmul k Bp (mdiag (fun i => w i * (1 / w i)))).
Proof. rewrite dmd_VKB, !mmul_assoc. reflexivity. Qed.
(** ... and on the adjoint modes from the right. *)
Lemma dmd_fit_adjoint : meq k N
  (mmul N (madj Ba) (mmul N K (mmul k V (mmul k D (mmul k D (madj V))))))
  (mmul k (mdiag w) (madj Ba)).
Proof.
  rewrite dmd_Ba_adj. rewrite <- (mmul_assoc k N k k (mdiag w)), <- HL, !mmul_assoc. reflexivity.
Qed.
(** Compression to the orthonormal basis: [V D] conjugates the map to M. *)
Lemma dmd_fit_basis : meq N k (mmul k V (mmul k D (mmul k D (mmul N (madj V) (mmul N C (mmul k V D))))))
  (mmul k V D).
Proof.
  rewrite <- (mmul_assoc N k N k C V), HE, mmul_assoc, <- (mmul_assoc k k N k (madj V)), HV, mmul_id_l.
  rewrite !mmul_diag_diag. apply mmul_proper; [reflexivity|]. apply mdiag_ext.
  intros i Hi. rewrite <- Hs by auto. field. auto.
Qed.
End Gram.

(** ** Weighted pseudo-inverse *)

(** [P] (N x n) is the Moore-Penrose inverse of [X] (n x N) for the inner product
    with weights [W] on the large side. *)
Record wpinv (n N : nat) (W X P : mat F) : Prop := {
  wp_XPX : meq n N (mmul N X (mmul n P X)) X;
  wp_PXP : meq N n (mmul n P (mmul N X P)) P;
  wp_XP : meq n n (madj (mmul n W (mmul N X P))) (mmul n W (mmul N X P));
  wp_PX : meq N N (madj (mmul n P X)) (mmul n P X)
}.

(** There is at most one, when the weights are definite. *)
Lemma wpinv_unique n N W X P Q : hermitian n W -> definite n W ->
  wpinv n N W X P -> wpinv n N W X Q -> meq N n P Q.
Proof.
  intros HW HD HP HQ.
  set (A := mmul N X P). set (B := mmul N X Q).
  assert (AB : meq n n (mmul n A B) B).
  { unfold A, B. rewrite <- mmul_assoc, (mmul_assoc n N N n X P X), (wp_XPX _ _ _ _ _ HP). reflexivity. }
  assert (BA : meq n n (mmul n B A) A).
  { unfold A, B. rewrite <- mmul_assoc, (mmul_assoc n N N n X Q X), (wp_XPX _ _ _ _ _ HQ). reflexivity. }
  assert (E1 : meq n n A B).
  { assert (EW : meq n n (mmul n W A) (mmul n W B)).
    { transitivity (mmul n (mmul n W A) B).
      - transitivity (madj (mmul n W (mmul n B A))).
        + rewrite BA. symmetry. apply (wp_XP _ _ _ _ _ HP).
        + rewrite <- mmul_assoc, madj_mmul. unfold B at 1. rewrite (wp_XP _ _ _ _ _ HQ). fold B.
          rewrite <- mmul_assoc.
          transitivity (mmul n (madj (mmul n W A)) B).
          * rewrite madj_mmul, HW. reflexivity.
          * unfold A at 1. rewrite (wp_XP _ _ _ _ _ HP). reflexivity.
      - rewrite mmul_assoc, AB. reflexivity. }
    apply (proj1 (msub_zero n n _ _)). apply (wgram_zero n n W); auto. unfold wip.
    rewrite mmul_sub_r, (proj2 (msub_zero n n _ _) EW), mmul_zero_r. reflexivity. }
  assert (E2 : meq N N (mmul n P X) (mmul n Q X)).
  { transitivity (madj (mmul N (mmul n P X) (mmul n Q X))).
    - rewrite mmul_assoc, (wp_XPX _ _ _ _ _ HQ). symmetry. apply (wp_PX _ _ _ _ _ HP).
    - rewrite madj_mmul, (wp_PX _ _ _ _ _ HP), (wp_PX _ _ _ _ _ HQ), mmul_assoc, (wp_XPX _ _ _ _ _ HP).
      reflexivity. }
  rewrite <- (wp_PXP _ _ _ _ _ HP), <- (wp_PXP _ _ _ _ _ HQ). fold A. fold B.
  rewrite E1. unfold B. rewrite <- !mmul_assoc, E2. reflexivity.
Qed.

(** The pseudo-inverse used by DMD: for the data restricted to the kept directions. *)
Section Pinv.
Context (n N k : nat) (X W V : mat F) (e s : nat -> F).
Context (HW : hermitian n W).
Notation C := (wip n W X X).
Context (HV : meq k k (mmul N (madj V) V) mid).
Context (HE : meq N k (mmul N C V) (mmul k V (mdiag e))).
Context (Hs : forall i, i < k -> s i * s i = e i) (Rs : forall i, i < k -> real (s i))
  (Ns : forall i, i < k -> s i <> 0).
Notation D := (mdiag (fun i => 1 / s i)).
Notation Xk := (mmul N X (mmul k V (madj V))).
Notation P := (mmul k V (mmul k D (mmul k D (mmul N (madj V) (mmul n (madj X) W))))).

Lemma pinv_PX : meq N N (mmul n P Xk) (mmul k V (madj V)).
Proof.
  rewrite !mmul_assoc.
  assert (E : meq k k (mmul N (madj V) (mmul n (madj X) (mmul n W (mmul N X V)))) (mdiag e)).
  { transitivity (mmul N (madj V) (mmul N C V)).
    - unfold wip. rewrite !mmul_assoc. reflexivity.
    - rewrite HE, <- mmul_assoc, HV, mmul_id_l. reflexivity. }
  transitivity (mmul k V (mmul k D (mmul k D (mmul k (mmul N (madj V) (mmul n (madj X) (mmul n W (mmul N X V)))) (madj V))))).
  - rewrite !mmul_assoc. reflexivity.
  - rewrite E, <- (mmul_assoc k N k k D (mdiag e)), mmul_diag_diag, <- (mmul_assoc k N k k D), mmul_diag_diag.
    rewrite (mdiag_1 k); [rewrite mmul_id_l; reflexivity|].
    intros i Hi. rewrite <- Hs by auto. field. auto.
Qed.
Lemma pinv_wpinv : wpinv n N W Xk P.
Proof.
  assert (VV : meq N N (mmul N (mmul k V (madj V)) (mmul k V (madj V))) (mmul k V (madj V))).
  { rewrite mmul_assoc, <- (mmul_assoc k N N k (madj V) V), HV, mmul_id_l. reflexivity. }
  assert (DR : meq k k (madj D) D).
  { apply madj_diag_real. intros i Hi. rewrite conj_div by auto. rewrite conj_1, Rs by auto. reflexivity. }
  split.
  - rewrite pinv_PX, mmul_assoc, VV. reflexivity.
  - rewrite <- mmul_assoc, pinv_PX, mmul_assoc, <- (mmul_assoc k n N k (madj V) V), HV, mmul_id_l.
    reflexivity.
  - assert (E : meq n n (mmul n W (mmul N Xk P))
      (mmul k (mmul n W (mmul N X (mmul k V D))) (madj (mmul n W (mmul N X (mmul k V D)))))).
    { rewrite !madj_mmul, DR, HW.
      rewrite (mmul_assoc n n N N X). rewrite (mmul_assoc N n k N V (madj V)).
      rewrite <- (mmul_assoc k n N k (madj V) V), HV, mmul_id_l, !mmul_assoc. reflexivity. }
    rewrite E, madj_mmul, madj_madj. reflexivity.
  - rewrite pinv_PX, madj_mmul, madj_madj. reflexivity.
Qed.
End Pinv.
End Alg.
