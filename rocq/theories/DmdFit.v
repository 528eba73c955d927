(** C23: exact modes are eigenvectors of the fitted operator. *)
From Coq Require Import List Arith Lia Bool ZArith Field Ring Setoid Morphisms Permutation.
Import ListNotations.
From Verif Require Import Prelude Field FieldInst Matrix NdArray DecompModel DecompProofs DecompProps
  VSArraysModel VSArraysProofs VSArraysProps PodModel PodProofs PodProps BpodModel DmdModel DmdProofs DmdCore DmdSnaps DmdProps.
Open Scope nat_scope.
Open Scope k_scope.

(** The data restricted to the kept directions: X V V^H. *)
Definition kept_data {F : sfield} (X : arr F) (k : nat) (V : mat F) : mat F :=
  mmul (nc X) (ent X) (mmul k V (madj V)).

Section Fit.
Context {F : sfield} (sqrt : F -> F) (X Y : arr F) (W : mat F) (E : list F) (V : arr F)
  (w : list F) (M R L Pe Pp Ps pc apc : arr F) (sp : nd F).
Context (HW : hermitian (nr X) W) (HK : dmd_kept sqrt X W E V).
Context (HS : dmd_spec sqrt X Y W E V w M R L Pe Pp Ps pc apc sp).
Context (Yr : nr Y = nr X) (Yc : nc Y = nc X).
Notation n := (nr X).
Notation N := (nc X).
Notation k := (length E).
Notation s := (fun i => sqrt (at1 E i)).
Notation D := (mdiag (fun i => 1 / sqrt (at1 E i))).
Notation K := (wip n W (ent X) (ent Y)).
Notation P0 := (mmul k (ent V) (mmul k D (mmul k D (mmul N (madj (ent V)) (mmul n (madj (ent X)) W))))).
Add Field Fitfield : (k_field F).

Ltac sq S1 S3 i Hi := let Q := fresh in let Z := fresh in let x := fresh in
  pose proof (S1 i Hi) as Q; pose proof (S3 i Hi) as Z; cbv beta in Q, Z |- *;
  set (x := sqrt (at1 E i)) in *; rewrite <- Q; field; auto.
Lemma fit_s : (forall i, i < k -> s i * s i = at1 E i) /\ (forall i, i < k -> real (s i)) /\
  (forall i, i < k -> s i <> 0).
Proof.
  split; [|split]; intros i Hi; destruct (kp_pos _ _ _ _ _ HK i Hi) as [H H0].
  - apply H.
  - apply H.
  - apply (sqrt_ok_neq sqrt (at1 E i)); auto.
Qed.
Lemma fit_pinv : wpinv n N W (kept_data X k (ent V)) P0.
Proof.
  destruct fit_s as (S1 & S2 & S3).
  apply (pinv_wpinv n N k (ent X) W (ent V) (at1 E) s); auto; apply HK.
Qed.
Lemma fit_D : meq k k (madj D) D.
Proof. destruct fit_s as (S1 & S2 & S3). apply dmd_D_real; auto. Qed.
Lemma fit_R : meq k k (mmul k D (mmul N (madj (ent V)) (mmul N K (mmul k (mmul k (ent V) D) (ent R)))))
  (mmul k (ent R) (mdiag (at1 w))).
Proof.
  transitivity (mmul k (low_map sqrt X Y W E (ent V)) (ent R)).
  - unfold low_map. rewrite !mmul_assoc. reflexivity.
  - rewrite <- (ds_M _ _ _ _ _ _ _ _ _ _ _ _ _ _ _ _ HS).
    pose proof (br_R _ _ _ _ (ds_pair _ _ _ _ _ _ _ _ _ _ _ _ _ _ _ _ HS)) as G.
    rewrite (ds_Mr _ _ _ _ _ _ _ _ _ _ _ _ _ _ _ _ HS) in G. exact G.
Qed.
Lemma fit_L : meq k k (mmul k (madj (ent L)) (low_map sqrt X Y W E (ent V)))
  (mmul k (mdiag (at1 w)) (madj (ent L))).
Proof.
  rewrite <- (ds_M _ _ _ _ _ _ _ _ _ _ _ _ _ _ _ _ HS).
  pose proof (br_L _ _ _ _ (ds_pair _ _ _ _ _ _ _ _ _ _ _ _ _ _ _ _ HS)) as G.
  rewrite (ds_Mr _ _ _ _ _ _ _ _ _ _ _ _ _ _ _ _ HS) in G. exact G.
Qed.
Notation YR := (mmul k (reduced sqrt Y E (ent V)) (ent R)).
Lemma fit_YR : meq n k YR (mmul N (ent Y) (mmul k (mmul k (ent V) D) (ent R))).
Proof. unfold reduced. rewrite Yc, !mmul_assoc. reflexivity. Qed.
Lemma fit_AY : meq n k (mmul N (ent Y) (mmul n P0 YR)) (mmul k YR (mdiag (at1 w))).
Proof.
  rewrite fit_YR.
  assert (G : meq N k (mmul n P0 (mmul N (ent Y) (mmul k (mmul k (ent V) D) (ent R))))
    (mmul k (ent V) (mmul k D (mmul k D (mmul N (madj (ent V)) (mmul N K (mmul k (mmul k (ent V) D) (ent R)))))))).
  { unfold wip. rewrite !mmul_assoc. reflexivity. }
  rewrite G, fit_R, !mmul_assoc. reflexivity.
Qed.
Lemma fit_cols (A : mat F) (B : mat F) j c : j < k -> c <> 0 ->
  (forall i, i < n -> c * ent Pe i j = B i j) ->
  (forall i, i < n -> mmul n A B i j = B i j * c) ->
  forall i, i < n -> mmul n A (ent Pe) i j = c * ent Pe i j.
Proof.
  intros Hj Hc HB HA i Hi. apply (mul_cancel c); auto.
  transitivity (mmul n A B i j).
  - unfold mmul. rewrite <- sum_mul_l. apply sum_ext. intros l Hl. rewrite <- HB by auto. ring.
  - rewrite HA, <- HB by auto. ring.
Qed.

(** [A = Y pinv(X V V^H)] has the exact modes (of non-zero eigenvalue) as
    eigenvectors and the adjoint modes as left eigenvectors. *)
Theorem C23_fitted_operator P : definite n W -> wpinv n N W (kept_data X k (ent V)) P ->
  let A := mmul N (ent Y) P in
  (forall i j, i < n -> j < k -> at1 w j <> 0 -> mmul n A (ent Pe) i j = at1 w j * ent Pe i j) /\
  meq k n (mmul n (mmul n (madj (ent Ps)) W) A) (mmul k (mdiag (at1 w)) (mmul n (madj (ent Ps)) W)).
Proof.
  intros HD HP A.
  assert (EP : meq N n P P0) by (apply (wpinv_unique n N W (kept_data X k (ent V))); auto using fit_pinv).
  split.
  - intros i j Hi Hj Hw. apply (fit_cols A YR); auto.
    + intros i' Hi'. apply (ds_exact _ _ _ _ _ _ _ _ _ _ _ _ _ _ _ _ HS); auto.
    + intros i' Hi'. pose proof fit_AY as G. rewrite mmul_diag_r in G.
      rewrite <- (meq_at _ _ _ _ G i' j Hi' Hj).
      assert (G' : meq n k (mmul n A YR) (mmul N (ent Y) (mmul n P0 YR))).
      { unfold A. rewrite EP. rewrite (mmul_assoc n k N n (ent Y) P0). reflexivity. }
      apply (meq_at _ _ _ _ G' i' j Hi' Hj).
  - unfold A. rewrite EP, (ds_adj _ _ _ _ _ _ _ _ _ _ _ _ _ _ _ _ HS). unfold reduced.
    rewrite !madj_mmul, fit_D.
    transitivity (mmul k (mmul k (madj (ent L)) (low_map sqrt X Y W E (ent V)))
      (mmul k D (mmul N (madj (ent V)) (mmul n (madj (ent X)) W)))).
    + unfold low_map, wip. rewrite !mmul_assoc. reflexivity.
    + rewrite fit_L, !mmul_assoc. reflexivity.
Qed.

(** The low-order map is the compression of that operator to the orthonormal basis
    Q = X V S^-1. *)
Theorem C23_compression P : definite n W -> wpinv n N W (kept_data X k (ent V)) P ->
  let Q := reduced sqrt X E (ent V) in
  meq k k (wip n W Q Q) mid /\
  meq k k (ent M) (wip n W Q (mmul n (mmul N (ent Y) P) Q)).
Proof.
  intros HD HP Q.
  assert (EP : meq N n P P0) by (apply (wpinv_unique n N W (kept_data X k (ent V))); auto using fit_pinv).
  destruct fit_s as (S1 & S2 & S3). pose proof fit_D as ED.
  pose proof (kp_eig _ _ _ _ _ HK) as HE. pose proof (kp_orth _ _ _ _ _ HK) as HV.
  assert (VCV : meq k k (mmul N (madj (ent V)) (mmul N (wip n W (ent X) (ent X)) (ent V))) (mdiag (at1 E))).
  { rewrite HE, <- mmul_assoc, HV, mmul_id_l. reflexivity. }
  split.
  - unfold Q, reduced. rewrite wip_mul_l, <- wip_mul_r, !madj_mmul, ED, !mmul_assoc.
    rewrite <- (mmul_assoc N k N k (wip n W (ent X) (ent X)) (ent V)), <- (mmul_assoc k k N k (madj (ent V))), VCV.
    rewrite !mmul_diag_diag. apply mdiag_1. intros i Hi. sq S1 S3 i Hi.
  - rewrite (ds_M _ _ _ _ _ _ _ _ _ _ _ _ _ _ _ _ HS).
    assert (PQ : meq N k (mmul n P Q) (mmul k (ent V) D)).
    { rewrite EP. unfold Q, reduced.
      transitivity (mmul k (ent V) (mmul k D (mmul k D (mmul k (mmul N (madj (ent V))
        (mmul N (wip n W (ent X) (ent X)) (ent V))) D)))).
      - unfold wip. rewrite !mmul_assoc. reflexivity.
      - rewrite VCV, !mmul_diag_diag. apply mmul_proper; [reflexivity|]. apply mdiag_ext.
        intros i Hi. sq S1 S3 i Hi. }
    rewrite mmul_assoc, PQ. unfold Q, reduced, low_map.
    rewrite wip_mul_l, <- wip_mul_r, !madj_mmul, ED, !mmul_assoc. reflexivity.
Qed.

(** For data from a linear map with invariant span, none of it truncated: exact
    eigenpairs, and the two kinds of modes coincide. *)
Theorem C23_invariant (A0 B : mat F) :
  meq n N (ent Y) (mmul n A0 (ent X)) -> meq n N (mmul n A0 (ent X)) (mmul N (ent X) B) ->
  meq n N (kept_data X k (ent V)) (ent X) ->
  meq n k (mmul n A0 (ent Pp)) (mmul k (ent Pp) (mdiag (at1 w))) /\
  (forall i j, i < n -> j < k -> at1 w j <> 0 ->
     mmul n A0 (ent Pe) i j = at1 w j * ent Pe i j /\ ent Pe i j = ent Pp i j).
Proof.
  intros HY HB HX. destruct fit_s as (S1 & S2 & S3).
  assert (HYB : meq n N (ent Y) (mmul N (ent X) B)) by (rewrite HY; auto).
  set (T := mmul k (mmul k (ent V) D) (ent R)).
  assert (EPp : meq n k (ent Pp) (mmul N (ent X) T)).
  { rewrite (ds_proj _ _ _ _ _ _ _ _ _ _ _ _ _ _ _ _ HS). unfold reduced, T. rewrite !mmul_assoc. reflexivity. }
  assert (EA : meq n k (mmul n A0 (ent Pp)) (mmul N (ent Y) T)).
  { rewrite EPp, HY, mmul_assoc. reflexivity. }
  assert (EC : meq k N (mmul N (madj (ent V)) (wip n W (ent X) (ent X))) (mmul k (mdiag (at1 E)) (madj (ent V)))).
  { apply (dmd_VC N k _ (ent V) (at1 E) s); auto; [apply wip_adj; auto|apply HK]. }
  assert (EY : meq n k (mmul N (ent Y) T) (mmul k (ent Pp) (mdiag (at1 w)))).
  { assert (G : meq k k (mmul k (ent R) (mdiag (at1 w)))
       (mmul k (mdiag s) (mmul N (madj (ent V)) (mmul N B T)))).
    { rewrite <- fit_R. change (mmul k (mmul k (ent V) D) (ent R)) with T.
      assert (EKB : meq N N K (mmul N (wip n W (ent X) (ent X)) B)).
      { rewrite HYB, wip_mul_r. reflexivity. }
      rewrite EKB. rewrite (mmul_assoc N k N N (wip n W (ent X) (ent X)) B).
      rewrite <- (mmul_assoc k k N N (madj (ent V)) (wip n W (ent X) (ent X))), EC, mmul_assoc.
      rewrite <- (mmul_assoc k k k k D), mmul_diag_diag.
      apply mmul_proper; [|reflexivity]. apply mdiag_ext. intros i Hi. sq S1 S3 i Hi. }
    rewrite EPp. unfold T at 2.
    rewrite (mmul_assoc n k N k (ent X)), (mmul_assoc N k k k (mmul k (ent V) D)), G.
    rewrite (mmul_assoc N k k k (ent V) D), <- (mmul_assoc k k k k D (mdiag s)), mmul_diag_diag.
    rewrite (mdiag_1 k); [|intros; field; auto]. rewrite mmul_id_l.
    rewrite <- (mmul_assoc N k k N (ent V) (madj (ent V))).
    rewrite <- (mmul_assoc n k N N (ent X) (mmul k (ent V) (madj (ent V)))).
    change (mmul N (ent X) (mmul k (ent V) (madj (ent V)))) with (kept_data X k (ent V)). rewrite HX.
    rewrite <- mmul_assoc, <- HYB. reflexivity. }
  assert (EAP : meq n k (mmul n A0 (ent Pp)) (mmul k (ent Pp) (mdiag (at1 w)))).
  { rewrite EA. exact EY. }
  split; [exact EAP|]. intros i j Hi Hj Hw.
  assert (EPe : forall i, i < n -> ent Pe i j = ent Pp i j).
  { intros i' Hi'. apply (mul_cancel (at1 w j)); auto.
    rewrite (ds_exact _ _ _ _ _ _ _ _ _ _ _ _ _ _ _ _ HS i' j Hi' Hj Hw).
    rewrite (meq_at _ _ _ _ fit_YR i' j Hi' Hj).
    pose proof EY as G. rewrite mmul_diag_r in G. unfold T in G. rewrite (meq_at _ _ _ _ G i' j Hi' Hj). ring. }
  split; [|auto].
  transitivity (mmul n A0 (ent Pp) i j).
  - unfold mmul. apply sum_ext. intros l Hl. rewrite EPe by auto. reflexivity.
  - pose proof EAP as G. rewrite mmul_diag_r in G. rewrite (meq_at _ _ _ _ G i j Hi Hj), EPe by auto. ring.
Qed.

(** Nothing is truncated when the kept pairs make up the correlation array. *)
Theorem C23_untruncated : definite n W ->
  meq N N (wip n W (ent X) (ent X)) (mmul k (ent V) (mmul k (mdiag (at1 E)) (madj (ent V)))) ->
  meq n N (kept_data X k (ent V)) (ent X).
Proof.
  intros HD HC. destruct fit_s as (S1 & S2 & S3).
  assert (G : meq n N (ent X) (mmul k (mmul N (ent X) (mmul k (ent V) D)) (mmul k (mdiag s) (madj (ent V))))).
  { apply (snaps_exact n N k (ent X) W (ent V) (at1 E) s); auto; apply HK. }
  unfold kept_data. rewrite G at 2. rewrite !mmul_assoc.
  rewrite <- (mmul_assoc k N k k D (mdiag s)), mmul_diag_diag.
  rewrite (mdiag_1 k); [|intros; field; auto]. rewrite mmul_id_l. reflexivity.
Qed.
End Fit.
