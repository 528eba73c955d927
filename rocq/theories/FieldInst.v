(** Instances of the scalar field: real and complex numbers over any ordered
    field, with rational and (standard library) real parts. *)
From Coq Require Import List Arith Lia Bool Field Ring QArith Qcanon Reals Lra.
Import ListNotations.
From Verif Require Import Field.

Record ofield := OField {
  OK :> Type;
  o0 : OK; o1 : OK;
  oadd : OK -> OK -> OK; omul : OK -> OK -> OK; osub : OK -> OK -> OK; odiv : OK -> OK -> OK;
  oopp : OK -> OK; oinv : OK -> OK;
  olt : OK -> OK -> bool;
  o_field : field_theory o0 o1 oadd omul osub oopp odiv oinv eq;
  o_dec : forall x y : OK, {x = y} + {x <> y};
  olt_irrefl : forall x, olt x x = false;
  olt_trans : forall x y z, olt x y = true -> olt y z = true -> olt x z = true;
  olt_total : forall x y, x <> y -> olt x y = true \/ olt y x = true;
  olt_add : forall x y z, olt x y = true -> olt (oadd x z) (oadd y z) = true;
  olt_mul : forall x y, olt o0 x = true -> olt o0 y = true -> olt o0 (omul x y) = true
}.

Section Build.
Context (R : ofield).
Notation "0" := (o0 R). Notation "1" := (o1 R).
Notation "x + y" := (oadd R x y). Notation "x * y" := (omul R x y).
Notation "x - y" := (osub R x y). Notation "- x" := (oopp R x).
Notation "x / y" := (odiv R x y).
Notation inv := (oinv R).
Add Field Rfield : (o_field R).

Lemma o_square x : x <> 0 -> olt R 0 (x * x) = true.
Proof.
  intros H. destruct (olt_total R x 0 H) as [G|G].
  - replace (x * x) with ((- x) * (- x)) by ring.
    assert (E : olt R 0 (- x) = true).
    { pose proof (olt_add R x 0 (- x) G) as E.
      replace (x + - x) with 0 in E by ring. replace (0 + - x) with (- x) in E by ring. auto. }
    apply olt_mul; auto.
  - apply olt_mul; auto.
Qed.
Lemma o_add_pos x y : olt R 0 x = true -> olt R 0 y = true -> olt R 0 (x + y) = true.
Proof.
  intros H G. apply (olt_trans R 0 y (x + y)); auto.
  pose proof (olt_add R 0 x y H) as E. replace (0 + y) with y in E by ring. auto.
Qed.
Lemma o_sum_squares x y : x <> 0 \/ y <> 0 -> olt R 0 (x * x + y * y) = true.
Proof.
  intros H. destruct (o_dec R x 0) as [-> |Hx].
  - replace (0 * 0 + y * y) with (y * y) by ring. apply o_square. tauto.
  - destruct (o_dec R y 0) as [-> |Hy].
    + replace (x * x + 0 * 0) with (x * x) by ring. apply o_square. auto.
    + apply o_add_pos; apply o_square; auto.
Qed.
Lemma o_pos_neq x : olt R 0 x = true -> x <> 0.
Proof. intros H ->. rewrite olt_irrefl in H. discriminate. Qed.

(** Real numbers as a scalar field with trivial conjugation. *)
Definition real_field : sfield.
Proof.
  refine (SField (OK R) 0 1 (oadd R) (omul R) (osub R) (odiv R) (oopp R) (oinv R) (fun x => x)
    (olt R) (o_field R) (o_dec R) _ _ _ _ _ _ _ _ _); auto.
  - intros; apply olt_irrefl.
  - intros x y z _ _ _. apply olt_trans.
  - intros x y _ _. apply olt_total.
  - intros x y z _ _ _. apply olt_add.
  - intros x y _ _. apply olt_mul.
  - intros x H. apply o_square; auto.
Defined.

(** Complex numbers as pairs. *)
Definition cx : Type := (R * R)%type.
Definition cadd (x y : cx) : cx := (fst x + fst y, snd x + snd y).
Definition csub (x y : cx) : cx := (fst x - fst y, snd x - snd y).
Definition copp (x : cx) : cx := (- fst x, - snd x).
Definition cmul (x y : cx) : cx := (fst x * fst y - snd x * snd y, fst x * snd y + snd x * fst y).
Definition cinv (x : cx) : cx :=
  let n := fst x * fst x + snd x * snd x in (fst x / n, - snd x / n).
Definition cdiv (x y : cx) : cx := cmul x (cinv y).
Definition cconj (x : cx) : cx := (fst x, - snd x).
Definition clt (x y : cx) : bool := olt R (fst x) (fst y).

Lemma cx_field : field_theory (0, 0) (1, 0) cadd cmul csub copp cdiv cinv eq.
Proof.
  split.
  - split; intros; unfold cadd, cmul, csub, copp; try destruct x as [x x']; try destruct y as [y y'];
      try destruct z as [z z']; simpl; f_equal; ring.
  - intros E. injection E as E. apply (F_1_neq_0 (o_field R)). auto.
  - reflexivity.
  - intros [a b] H. unfold cmul, cinv. simpl.
    assert (N : a * a + b * b <> 0).
    { apply o_pos_neq, o_sum_squares. destruct (o_dec R a 0) as [-> |]; auto.
      destruct (o_dec R b 0) as [-> |]; auto. }
    f_equal; field; auto.
Qed.

Lemma cconj_real (x : cx) : cconj x = x -> snd x = 0.
Proof.
  destruct x as [a b]. unfold cconj. simpl. intros E. injection E as E.
  destruct (o_dec R b 0) as [|N]; auto. exfalso.
  assert (D : b + b = 0) by (rewrite <- E at 1; ring).
  destruct (olt_total R b 0 N) as [H|H].
  - pose proof (olt_add R b 0 b H) as G. rewrite D in G. replace (0 + b) with b in G by ring.
    pose proof (olt_trans R 0 b 0 G H) as T.
    rewrite olt_irrefl in T. discriminate.
  - pose proof (olt_add R 0 b b H) as G. rewrite D in G. replace (0 + b) with b in G by ring.
    pose proof (olt_trans R 0 b 0 H G) as T. rewrite olt_irrefl in T. discriminate.
Qed.

Definition complex_field : sfield.
Proof.
  refine (SField cx (0, 0) (1, 0) cadd cmul csub cdiv copp cinv cconj clt cx_field
    _ _ _ _ _ _ _ _ _ _).
  - intros x y. destruct (o_dec R (fst x) (fst y)) as [Ef|N].
    + destruct (o_dec R (snd x) (snd y)) as [Es|N].
      * left. abstract (destruct x, y; simpl in *; congruence).
      * right. abstract congruence.
    + right. abstract congruence.
  - intros [a b] [c d]. unfold cconj, cadd. simpl. f_equal. ring.
  - intros [a b] [c d]. unfold cconj, cmul. simpl. f_equal; ring.
  - intros [a b]. unfold cconj. simpl. f_equal. ring.
  - intros x _. apply olt_irrefl.
  - intros x y z _ _ _. apply olt_trans.
  - intros [a b] [c d] Hx Hy N. apply cconj_real in Hx, Hy. simpl in *. subst.
    apply olt_total. simpl. intros E. apply N. f_equal. exact E.
  - intros [a b] [c d] [e f] _ _ _. unfold clt. simpl. apply olt_add.
  - intros [a b] [c d] Hx Hy. apply cconj_real in Hx, Hy. simpl in *. subst.
    unfold clt, cmul. simpl. intros. replace (a * c - 0 * 0) with (a * c) by ring.
    apply olt_mul; auto.
  - intros [a b] N. unfold clt, cmul, cconj. simpl.
    replace (a * a - - b * b) with (a * a + b * b) by ring. apply o_sum_squares.
    destruct (o_dec R a 0) as [-> |]; auto. destruct (o_dec R b 0) as [-> |]; auto.
Defined.
End Build.

(** ** Rational numbers *)
Definition qlt (x y : Qc) : bool := negb (Qle_bool y x).
Lemma qlt_spec x y : qlt x y = true <-> (x < y)%Qc.
Proof.
  unfold qlt. rewrite negb_true_iff. unfold Qclt. split.
  - intros H. apply Qnot_le_lt. intros G. apply Qle_bool_iff in G. congruence.
  - intros H. destruct (Qle_bool y x) eqn:E; auto.
    apply Qle_bool_iff in E. exfalso. apply (Qlt_not_le _ _ H); auto.
Qed.
Definition rat : ofield.
Proof.
  refine (OField Qc 0%Qc 1%Qc Qcplus Qcmult Qcminus Qcdiv Qcopp Qcinv qlt Qcft Qc_eq_dec
    _ _ _ _ _).
  - intros x. destruct (qlt x x) eqn:E; auto. apply qlt_spec in E.
    exfalso. apply (Qlt_irrefl x); auto.
  - intros x y z. rewrite !qlt_spec. apply Qclt_trans.
  - intros x y N. rewrite !qlt_spec. destruct (Qc_dec x y) as [[H|H]|H]; auto. contradiction.
  - intros x y z. rewrite !qlt_spec. intros H.
    apply (Qlt_compat _ _ (Qred_correct (x + z)%Q) _ _ (Qred_correct (y + z)%Q)).
    apply Qplus_lt_le_compat; [auto|apply Qle_refl].
  - intros x y. rewrite !qlt_spec. intros H G.
    apply (Qlt_compat _ _ (Qeq_refl 0) _ _ (Qred_correct (x * y)%Q)). apply Qmult_lt_0_compat; auto.
Defined.

(** Gaussian rationals: the field used in computed examples. *)
Definition QI : sfield := complex_field rat.
Definition QR : sfield := real_field rat.
(** The Gaussian rational (a + b i) / d. *)
Definition qi (a b : Z) (d : positive) : QI := (Q2Qc (a # d), Q2Qc (b # d)).

(** ** Real and complex numbers of the standard library *)
Definition rlt (x y : R) : bool := if Rlt_dec x y then true else false.
Lemma rlt_spec x y : rlt x y = true <-> (x < y)%R.
Proof. unfold rlt. destruct (Rlt_dec x y); split; auto; discriminate. Qed.
Lemma R_ft : field_theory 0%R 1%R Rplus Rmult Rminus Ropp Rdiv Rinv eq.
Proof.
  split; auto.
  - split; intros; ring.
  - intros p H. apply Rinv_l; auto.
Qed.
Definition reals : ofield.
Proof.
  refine (OField R 0%R 1%R Rplus Rmult Rminus Rdiv Ropp Rinv rlt R_ft Req_EM_T _ _ _ _ _).
  - intros x. destruct (rlt x x) eqn:E; auto. apply rlt_spec in E. lra.
  - intros x y z. rewrite !rlt_spec. lra.
  - intros x y N. rewrite !rlt_spec. lra.
  - intros x y z. rewrite !rlt_spec. lra.
  - intros x y. rewrite !rlt_spec. apply Rmult_lt_0_compat.
Defined.
Definition RR : sfield := real_field reals.
Definition CC : sfield := complex_field reals.
