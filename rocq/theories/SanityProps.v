(** C35: sanity_check has no false alarms and catches wrong factors. *)
From Coq Require Import List Arith Lia Bool ZArith Field Ring.
Import ListNotations.
From Verif Require Import Prelude Field Matrix NdArray FieldInst SanityModel DecompProps.
Open Scope nat_scope.

Section Props.
Context {F : sfield} {H R : Type}.
Open Scope k_scope.
Add Field Ffield_sanity : (k_field F).
Notation "x <-! m ; k" := (mbind m (fun x => k)) (at level 60, m at level 55, right associativity).

(** Magnitude at most [tol]. *)
Definition small (z : F) : Prop := exceeds z = false.

Lemma real_two : real (two : F). Proof. apply real_add; apply real_1. Qed.
Lemma two_pos : klt_p 0 (two : F).
Proof.
  assert (P := lt_0_1 (F := F)). apply (lt_trans F 0 1 two); auto using real_0, real_1, real_two.
  apply (proj2 (lt_sub 1 two real_1 real_two)). unfold two. replace (1 + 1 - 1) with (1 : F) by ring. auto.
Qed.
Lemma ten_pos : real (ten : F) /\ klt_p 0 (ten : F).
Proof.
  assert (Rq : real (two * two + 1 : F)) by (apply real_add; [apply real_mul; apply real_two|apply real_1]).
  assert (P2 : klt F 0 two = true) by exact two_pos.
  split; [apply real_mul; auto using real_two|]. apply lt_mul; auto using real_two.
  assert (P : klt F 0 (two * two) = true) by (apply lt_mul; auto using real_two).
  apply (lt_trans F 0 (two * two)); auto using real_0, real_mul, real_two.
  apply (proj2 (lt_sub (two * two) (two * two + 1) (real_mul _ _ real_two real_two) Rq)).
  replace (two * two + 1 - two * two) with (1 : F) by ring. apply lt_0_1.
Qed.
Lemma power_pos (x : F) n : real x -> klt_p 0 x -> real (power x n) /\ klt_p 0 (power x n).
Proof.
  intros Hx Px. induction n as [|n [IH1 IH2]]; simpl; [split; [apply real_1|apply lt_0_1]|].
  split; [apply real_mul; auto|apply lt_mul; auto].
Qed.
Lemma tol_pos : real (tol : F) /\ klt_p 0 (tol : F).
Proof.
  destruct ten_pos as [R1 P1]. destruct (power_pos ten 12 R1 P1) as [R2 P2].
  assert (N : power ten 12 <> (0 : F)) by (intros E; rewrite E in P2; red in P2; rewrite (lt_irrefl F 0 real_0) in P2; discriminate).
  unfold tol. rewrite div_def. replace (1 * kinv F (power ten 12)) with (kinv F (power ten 12)) by ring.
  split; [apply real_inv; auto|apply lt_inv; auto].
Qed.
Lemma small_0 : small 0.
Proof.
  destruct tol_pos as [R1 P1]. unfold small, exceeds.
  replace ((0 : F)^* * 0) with (0 : F) by ring. apply lt_asym; auto using real_0, real_mul. apply lt_mul; auto.
Qed.
(** A real number whose absolute value is larger than [tol] is not small. *)
Lemma not_small (z : F) : real z -> klt_p tol z \/ klt_p tol (- z) -> ~ small z.
Proof.
  destruct tol_pos as [R1 P1].
  assert (G : forall z : F, real z -> klt_p tol z -> ~ small z).
  { clear z. intros z Hz L S. unfold small, exceeds in S. rewrite Hz in S.
    assert (Pz : klt_p 0 z) by (apply (lt_trans F 0 tol z); auto using real_0).
    assert (L1 : klt_p (tol * tol) (z * tol)) by (apply lt_mul_r; auto).
    assert (L2 : klt_p (tol * z) (z * z)) by (apply lt_mul_r; auto).
    assert (L3 : klt_p (tol * tol) (z * z)).
    { apply (lt_trans F (tol * tol) (z * tol)); auto using real_mul. replace (z * tol) with (tol * z) by ring. auto. }
    red in L3. congruence. }
  intros Hz [L|L]; [apply G; auto|]. intros S. apply (G (- z) (real_opp z Hz) L).
  unfold small, exceeds in *. rewrite conj_opp. replace (- z^* * - z) with (z^* * z) by ring. auto.
Qed.

(** All the inner products that are compared, in order, without any comparison. *)
Definition observe (O : vector_ops F H R) (ip : R -> R -> M H F) (get : M H R) : M H (F * list F) :=
  test_vec <-! get ; vec_copy <-! deepcopy O test_vec ; mag <-! ip vec_copy vec_copy ;
  vec_mult <-! mul O test_vec two ; a <-! ip vec_mult vec_mult ;
  b <-! ip test_vec test_vec ;
  vec_add <-! add O test_vec test_vec ; c <-! ip vec_add vec_add ;
  d <-! ip test_vec test_vec ;
  t <-! mul O test_vec two ; vec_add_mult <-! add O t test_vec ; e <-! ip vec_add_mult vec_add_mult ;
  f <-! ip test_vec test_vec ;
  mret (mag, [a; b; c; d; e; f]).
(** The factors by which the inner products should differ from the copy's. *)
Definition factors : list F := [two * two; 1; two * two; 1; (two + 1) * (two + 1); 1].
Definition passes (mag : F) (obs : list F) : Prop :=
  Forall2 (fun a k => small (a - k * mag)) obs factors.

Lemma bind_ok {A B} (m : M H A) (k : A -> M H B) s s' b :
  mbind m k s = (s', Ok b) -> exists s1 a, m s = (s1, Ok a) /\ k a s1 = (s', Ok b).
Proof. unfold mbind. destruct (m s) as [s1 [a|e]] eqn:E; intros G; [eauto|discriminate]. Qed.

(** For every implementation whose operations do not raise, whatever else they do: the
    check passes if all inner products differ from the copy's by the right factors, up to
    the tolerance, and otherwise raises ValueError. *)
Theorem C35_exact (O : vector_ops F H R) ip get s s' mag obs :
  inner_product O = Some ip -> observe O ip get s = (s', Ok (mag, obs)) ->
  (passes mag obs -> sanity_check O get s = (s', Ok tt)) /\
  (~ passes mag obs -> snd (sanity_check O get s) = Raise ValueError).
Proof.
  intros Hip Hobs. remember (sanity_check O get s) as r eqn:Er.
  unfold sanity_check in Er. rewrite Hip in Er. unfold observe in Hobs.
  apply bind_ok in Hobs as (s1 & tv & E1 & Hobs).
  apply bind_ok in Hobs as (s2 & vc & E2 & Hobs).
  apply bind_ok in Hobs as (s3 & mg & E3 & Hobs).
  apply bind_ok in Hobs as (s4 & vm & E4 & Hobs).
  apply bind_ok in Hobs as (s5 & a & E5 & Hobs).
  apply bind_ok in Hobs as (s6 & b & E6 & Hobs).
  apply bind_ok in Hobs as (s7 & va & E7 & Hobs).
  apply bind_ok in Hobs as (s8 & c & E8 & Hobs).
  apply bind_ok in Hobs as (s9 & d & E9 & Hobs).
  apply bind_ok in Hobs as (s10 & t & E10 & Hobs).
  apply bind_ok in Hobs as (s11 & vam & E11 & Hobs).
  apply bind_ok in Hobs as (s12 & e & E12 & Hobs).
  apply bind_ok in Hobs as (s13 & f & E13 & Hobs).
  injection Hobs as <- <- <-.
  unfold mbind, check, mraise, mret in Er. rewrite E1, E2, E3, E4, E5 in Er.
  replace (mg * power two 2) with (two * two * mg) in Er by (simpl; ring).
  assert (X : forall x, x - mg = x - 1 * mg) by (intros; ring).
  unfold passes, factors.
  destruct (exceeds (a - two * two * mg)) eqn:Ea.
  { subst r. split; [intros P; inversion P; unfold small in *; congruence|intros _; reflexivity]. }
  rewrite E6, (X b) in Er. destruct (exceeds (b - 1 * mg)) eqn:Eb.
  { subst r. split; [intros P; inversion P as [|? ? ? ? _ P1]; inversion P1; unfold small in *; congruence|intros _; reflexivity]. }
  rewrite E7, E8 in Er. replace (mg * (two * two)) with (two * two * mg) in Er by ring.
  destruct (exceeds (c - two * two * mg)) eqn:Ec.
  { subst r. split; [intros P; inversion P as [|? ? ? ? _ P1]; inversion P1 as [|? ? ? ? _ P2]; inversion P2; unfold small in *; congruence|intros _; reflexivity]. }
  rewrite E9, (X d) in Er. destruct (exceeds (d - 1 * mg)) eqn:Ed.
  { subst r. split; [intros P; inversion P as [|? ? ? ? _ P1]; inversion P1 as [|? ? ? ? _ P2]; inversion P2 as [|? ? ? ? _ P3]; inversion P3;
      unfold small in *; congruence|intros _; reflexivity]. }
  rewrite E10, E11, E12 in Er. replace (mg * power (two + 1) 2) with ((two + 1) * (two + 1) * mg) in Er by (simpl; ring).
  destruct (exceeds (e - (two + 1) * (two + 1) * mg)) eqn:Ee.
  { subst r. split; [intros P; inversion P as [|? ? ? ? _ P1]; inversion P1 as [|? ? ? ? _ P2]; inversion P2 as [|? ? ? ? _ P3];
      inversion P3 as [|? ? ? ? _ P4]; inversion P4; unfold small in *; congruence|intros _; reflexivity]. }
  rewrite E13, (X f) in Er. destruct (exceeds (f - 1 * mg)) eqn:Ef.
  { subst r. split; [intros P; inversion P as [|? ? ? ? _ P1]; inversion P1 as [|? ? ? ? _ P2]; inversion P2 as [|? ? ? ? _ P3];
      inversion P3 as [|? ? ? ? _ P4]; inversion P4 as [|? ? ? ? _ P5]; inversion P5; unfold small in *; congruence|intros _; reflexivity]. }
  split; [auto|]. intros N. exfalso. apply N. repeat constructor; auto.
Qed.

(** No inner product: RuntimeError, before anything is done. *)
Theorem C35_no_inner_product (O : vector_ops F H R) get s :
  inner_product O = None -> sanity_check O get s = (s, Raise RuntimeError).
Proof. intros E. unfold sanity_check. rewrite E. reflexivity. Qed.

(** ** Vectors as values: [val s r] is the vector that [r] refers to *)
Section Values.
Context {V : Type} (val : H -> R -> option V) (vmul : V -> F -> V) (vadd : V -> V -> V) (vip : V -> V -> F).
Definition keeps (s s' : H) : Prop := forall r v, val s r = Some v -> val s' r = Some v.
(** A step that leaves all vectors as they are and returns a reference to [v]. *)
Definition makes (m : M H R) (s : H) (v : V) : Prop :=
  exists s' r, m s = (s', Ok r) /\ val s' r = Some v /\ keeps s s'.

(** The operations compute the given functions and do not change existing vectors. *)
Record honest (O : vector_ops F H R) (ip : R -> R -> M H F) : Prop := {
  copy_ok : forall s r v, val s r = Some v -> makes (deepcopy O r) s v;
  mul_ok : forall s r v c, val s r = Some v -> makes (mul O r c) s (vmul v c);
  add_ok : forall s r u t v, val s r = Some u -> val s t = Some v -> makes (add O r t) s (vadd u v);
  ip_ok : forall s r u t v, val s r = Some u -> val s t = Some v ->
    exists s', ip r t s = (s', Ok (vip u v)) /\ keeps s s'
}.

Lemma observe_honest O ip get s v : honest O ip -> makes get s v ->
  exists s', keeps s s' /\ observe O ip get s = (s', Ok (vip v v,
    [vip (vmul v two) (vmul v two); vip v v; vip (vadd v v) (vadd v v); vip v v;
     vip (vadd (vmul v two) v) (vadd (vmul v two) v); vip v v])).
Proof.
  intros HO (s1 & tv & E1 & V1 & K1). unfold observe. unfold mbind at 1. rewrite E1.
  assert (T : forall sa sb sc : H, keeps sa sb -> keeps sb sc -> keeps sa sc) by (unfold keeps; eauto).
  destruct (copy_ok O ip HO s1 tv v V1) as (s2 & vc & E2 & V2 & K2). unfold mbind at 1. rewrite E2.
  destruct (ip_ok O ip HO s2 vc v vc v V2 V2) as (s3 & E3 & K3). unfold mbind at 1. rewrite E3.
  assert (W : val s3 tv = Some v) by auto.
  destruct (mul_ok O ip HO s3 tv v two W) as (s4 & vm & E4 & V4 & K4). unfold mbind at 1. rewrite E4.
  destruct (ip_ok O ip HO s4 vm _ vm _ V4 V4) as (s5 & E5 & K5). unfold mbind at 1. rewrite E5.
  apply K4 in W. apply K5 in W.
  destruct (ip_ok O ip HO s5 tv v tv v W W) as (s6 & E6 & K6). unfold mbind at 1. rewrite E6. apply K6 in W.
  destruct (add_ok O ip HO s6 tv v tv v W W) as (s7 & va & E7 & V7 & K7). unfold mbind at 1. rewrite E7.
  destruct (ip_ok O ip HO s7 va _ va _ V7 V7) as (s8 & E8 & K8). unfold mbind at 1. rewrite E8.
  apply K7 in W. apply K8 in W.
  destruct (ip_ok O ip HO s8 tv v tv v W W) as (s9 & E9 & K9). unfold mbind at 1. rewrite E9. apply K9 in W.
  destruct (mul_ok O ip HO s9 tv v two W) as (s10 & t & E10 & V10 & K10). unfold mbind at 1. rewrite E10. apply K10 in W.
  destruct (add_ok O ip HO s10 t _ tv v V10 W) as (s11 & vam & E11 & V11 & K11). unfold mbind at 1. rewrite E11. apply K11 in W.
  destruct (ip_ok O ip HO s11 vam _ vam _ V11 V11) as (s12 & E12 & K12). unfold mbind at 1. rewrite E12. apply K12 in W.
  destruct (ip_ok O ip HO s12 tv v tv v W W) as (s13 & E13 & K13). unfold mbind at 1. rewrite E13.
  exists s13. split; [|reflexivity]. eauto 20.
Qed.

(** Laws of a vector space with an inner product: additive and homogeneous in both
    arguments, conjugate in the first. *)
Record laws : Prop := {
  ip_add_r : forall u v w, vip u (vadd v w) = vip u v + vip u w;
  ip_add_l : forall u v w, vip (vadd u v) w = vip u w + vip v w;
  ip_mul_r : forall u v c, vip u (vmul v c) = c * vip u v;
  ip_mul_l : forall u v c, vip (vmul u c) v = c^* * vip u v
}.

(** No false alarms; existing vectors are left as they were. *)
Theorem C35_no_false_alarm O ip get s v : inner_product O = Some ip -> honest O ip -> laws -> makes get s v ->
  exists s', sanity_check O get s = (s', Ok tt) /\ keeps s s'.
Proof.
  intros Hip HO HL Hg. destruct (observe_honest O ip get s v HO Hg) as (s' & K & E). exists s'. split; [|auto].
  destruct (C35_exact O ip get s s' _ _ Hip E) as [G _]. apply G. clear G E.
  assert (Z : forall x y : F, x = y -> small (x - y)).
  { intros x y ->. replace (y - y) with (0 : F) by ring. apply small_0. }
  unfold passes, factors.
  repeat constructor; apply Z;
    repeat rewrite ?(ip_add_r HL), ?(ip_add_l HL), ?(ip_mul_r HL), ?(ip_mul_l HL), ?real_two; unfold two; ring.
Qed.

(** Operations that do what they say, with any functions: the check passes exactly when
    scaling by two, adding and both together give the factors 4, 4 and 9. *)
Theorem C35_factors O ip get s v : inner_product O = Some ip -> honest O ip -> makes get s v ->
  snd (sanity_check O get s) = Ok tt <->
  small (vip (vmul v two) (vmul v two) - two * two * vip v v) /\
  small (vip (vadd v v) (vadd v v) - two * two * vip v v) /\
  small (vip (vadd (vmul v two) v) (vadd (vmul v two) v) - (two + 1) * (two + 1) * vip v v).
Proof.
  intros Hip HO Hg. destruct (observe_honest O ip get s v HO Hg) as (s' & K & E).
  destruct (C35_exact O ip get s s' _ _ Hip E) as [G1 G2].
  assert (Z : forall x : F, small (x - 1 * x)).
  { intros x. replace (x - 1 * x) with (0 : F) by ring. apply small_0. }
  assert (P : passes (vip v v) [vip (vmul v two) (vmul v two); vip v v; vip (vadd v v) (vadd v v); vip v v;
     vip (vadd (vmul v two) v) (vadd (vmul v two) v); vip v v] <->
    small (vip (vmul v two) (vmul v two) - two * two * vip v v) /\
    small (vip (vadd v v) (vadd v v) - two * two * vip v v) /\
    small (vip (vadd (vmul v two) v) (vadd (vmul v two) v) - (two + 1) * (two + 1) * vip v v)).
  { unfold passes, factors. split.
    - intros P. inversion P as [|? ? ? ? A1 P1]. inversion P1 as [|? ? ? ? _ P2]. inversion P2 as [|? ? ? ? A2 P3].
      inversion P3 as [|? ? ? ? _ P4]. inversion P4 as [|? ? ? ? A3 P5]. auto.
    - intros (A1 & A2 & A3). repeat constructor; auto. }
  rewrite <- P. split; [|intros Q; rewrite (G1 Q); reflexivity].
  intros Ho. assert (D : forall z, {small z} + {~ small z}) by (intros z; unfold small; destruct (exceeds z); auto; right; discriminate).
  assert (DP : {small (vip (vmul v two) (vmul v two) - two * two * vip v v) /\
    small (vip (vadd v v) (vadd v v) - two * two * vip v v) /\
    small (vip (vadd (vmul v two) v) (vadd (vmul v two) v) - (two + 1) * (two + 1) * vip v v)} +
   {~ (small (vip (vmul v two) (vmul v two) - two * two * vip v v) /\
    small (vip (vadd v v) (vadd v v) - two * two * vip v v) /\
    small (vip (vadd (vmul v two) v) (vadd (vmul v two) v) - (two + 1) * (two + 1) * vip v v))}).
  { destruct (D (vip (vmul v two) (vmul v two) - two * two * vip v v)); [|right; tauto].
    destruct (D (vip (vadd v v) (vadd v v) - two * two * vip v v)); [|right; tauto].
    destruct (D (vip (vadd (vmul v two) v) (vadd (vmul v two) v) - (two + 1) * (two + 1) * vip v v)); [left|right]; tauto. }
  destruct DP as [Q|Q]; [apply P; auto|].
  rewrite (G2 ltac:(rewrite P; auto)) in Ho. discriminate.
Qed.
End Values.

(** A scaling that changes the tested vector: if the vector's inner product with itself is
    another one afterwards, ValueError, whatever the rest does. *)
Theorem C35_changed (O : vector_ops F H R) ip get s s1 tv s2 vc s3 mag s4 vm s5 a s6 b :
  inner_product O = Some ip -> get s = (s1, Ok tv) -> deepcopy O tv s1 = (s2, Ok vc) -> ip vc vc s2 = (s3, Ok mag) ->
  mul O tv two s3 = (s4, Ok vm) -> ip vm vm s4 = (s5, Ok a) -> ip tv tv s5 = (s6, Ok b) ->
  ~ small (b - mag) -> snd (sanity_check O get s) = Raise ValueError.
Proof.
  intros Hip E1 E2 E3 E4 E5 E6 N. unfold sanity_check. rewrite Hip. unfold mbind, check.
  rewrite E1, E2, E3, E4, E5. destruct (exceeds (a - mag * power two 2)); [reflexivity|].
  unfold mret at 1. rewrite E6. unfold small in N. destruct (exceeds (b - mag)); [reflexivity|congruence].
Qed.

(** An operation that raises: its exception comes out, and what was changed before, by this
    operation or the ones before it, stays changed. *)
Theorem C35_raises (O : vector_ops F H R) ip get s : inner_product O = Some ip ->
  (forall s1 e, get s = (s1, Raise e) -> sanity_check O get s = (s1, Raise e)) /\
  (forall s1 tv s2 e, get s = (s1, Ok tv) -> deepcopy O tv s1 = (s2, Raise e) -> sanity_check O get s = (s2, Raise e)) /\
  forall s1 tv s2 vc, get s = (s1, Ok tv) -> deepcopy O tv s1 = (s2, Ok vc) ->
  (forall s3 e, ip vc vc s2 = (s3, Raise e) -> sanity_check O get s = (s3, Raise e)) /\
  forall s3 mag, ip vc vc s2 = (s3, Ok mag) ->
  (forall s4 e, mul O tv two s3 = (s4, Raise e) -> sanity_check O get s = (s4, Raise e)) /\
  forall s4 vm, mul O tv two s3 = (s4, Ok vm) ->
  (forall s5 e, ip vm vm s4 = (s5, Raise e) -> sanity_check O get s = (s5, Raise e)) /\
  forall s5 a, ip vm vm s4 = (s5, Ok a) ->
  (~ small (a - mag * (two * two)) -> sanity_check O get s = (s5, Raise ValueError)) /\
  (small (a - mag * (two * two)) -> forall s6 e, ip tv tv s5 = (s6, Raise e) -> sanity_check O get s = (s6, Raise e)).
Proof.
  intros Hip. unfold sanity_check. rewrite Hip. unfold mbind, check, small.
  replace (power two 2) with (two * two : F) by (simpl; ring).
  split; [intros s1 e ->; reflexivity|]. split; [intros s1 tv s2 e -> ->; reflexivity|].
  intros s1 tv s2 vc -> ->. split; [intros s3 e ->; reflexivity|]. intros s3 mag ->.
  split; [intros s4 e ->; reflexivity|]. intros s4 vm ->. split; [intros s5 e ->; reflexivity|]. intros s5 a ->.
  destruct (exceeds (a - mag * (two * two))); split; try congruence; try reflexivity.
  intros _ s6 e. unfold mret at 1. intros ->. reflexivity.
Qed.

End Props.

(** ** Examples: complex numbers as vectors, kept in cells that are referred to by number *)
Definition cell_val (s : list QI) (r : nat) : option QI := nth_error s r.
Definition new_cell (v : QI) : M (list QI) nat := fun s => (s ++ [v], Ok (length s)).
Definition read_cell {A} (r : nat) (k : QI -> M (list QI) A) : M (list QI) A := fun s =>
  match nth_error s r with Some v => k v s | None => (s, Raise IndexError) end.
Definition write_cell (r : nat) (v : QI) : M (list QI) nat := fun s =>
  (firstn r s ++ v :: skipn (S r) s, Ok r).
Definition cells (vmul : QI -> QI -> QI) (vadd vip : QI -> QI -> QI) : vector_ops QI (list QI) nat :=
  VectorOps (fun r => read_cell r new_cell) (fun r c => read_cell r (fun v => new_cell (vmul v c)))
    (fun r t => read_cell r (fun u => read_cell t (fun v => new_cell (vadd u v))))
    (Some (fun r t => read_cell r (fun u => read_cell t (fun v => mret (vip u v))))).

Lemma cells_honest vmul vadd vip : forall ip, inner_product (cells vmul vadd vip) = Some ip ->
  honest cell_val vmul vadd vip (cells vmul vadd vip) ip.
Proof.
  intros ip [= <-].
  assert (N : forall v s, makes cell_val (new_cell v) s v).
  { intros v s. exists (s ++ [v]), (length s). split; [reflexivity|]. unfold cell_val, keeps. split.
    - rewrite nth_error_app2, Nat.sub_diag by auto. reflexivity.
    - intros r w Hr. rewrite nth_error_app1; auto. apply nth_error_Some. congruence. }
  split; unfold cell_val; cbn [deepcopy mul add cells]; intros.
  - unfold makes, read_cell. cbv beta. rewrite H. apply N.
  - unfold makes, read_cell. cbv beta. rewrite H. apply N.
  - unfold makes, read_cell. cbv beta. rewrite H, H0. apply N.
  - unfold read_cell. rewrite H, H0. exists s. split; [reflexivity|]. intros r' w Hw. exact Hw.
Qed.
Definition qmul (v c : QI) : QI := (c * v)%K.
Definition qip (u v : QI) : QI := (u^* * v)%K.
Lemma cell_get : makes cell_val (new_cell (qi 3 4 1)) [q 7] (qi 3 4 1).
Proof.
  exists [q 7; qi 3 4 1], 1. split; [reflexivity|]. split; [reflexivity|].
  intros r v Hv. destruct r as [|r]; [exact Hv|]. destruct r; discriminate.
Qed.
Add Field QIfield_sanity : (k_field QI).
Example C35_no_false_alarm_example :
  exists s', sanity_check (cells qmul (kadd QI) qip) (new_cell (qi 3 4 1)) [q 7] = (s', Ok tt) /\ keeps cell_val [q 7] s'.
Proof.
  eapply C35_no_false_alarm; [reflexivity|apply cells_honest; reflexivity| |apply cell_get].
  split; intros; unfold qip, qmul; rewrite ?conj_add, ?conj_mul; ring.
Qed.

(** A bilinear product, without conjugation, is no inner product but passes for every
    vector: only real factors are tried. *)
Definition qbilinear (u v : QI) : QI := (u * v)%K.
Theorem C35_bilinear_refuted : exists (O : vector_ops QI (list QI) nat) ip vip,
  inner_product O = Some ip /\ honest cell_val qmul (kadd QI) vip O ip /\
  (forall get s v, makes cell_val get s v -> snd (sanity_check O get s) = Ok tt) /\
  (exists u v c, vip (qmul u c) v <> (c^* * vip u v)%K) /\ (exists v, klt QI (vip v v) (k0 QI) = true).
Proof.
  exists (cells qmul (kadd QI) qbilinear). eexists. exists qbilinear. split; [reflexivity|].
  split; [apply cells_honest; reflexivity|]. split; [|split].
  - intros get s v Hg.
    apply (C35_factors cell_val qmul (kadd QI) qbilinear (cells qmul (kadd QI) qbilinear) _ get s v eq_refl
             (cells_honest qmul (kadd QI) qbilinear _ eq_refl) Hg).
    assert (Z : forall x y : QI, x = y -> small (x - y)%K).
    { intros x y ->. replace (y - y)%K with (k0 QI) by ring. apply small_0. }
    unfold qbilinear, qmul. repeat split; apply Z; unfold two; ring.
  - exists (q 1), (q 1), (qi 0 1 1). apply keqb_false. vm_compute. reflexivity.
  - exists (qi 0 1 1). vm_compute. reflexivity.
Qed.
(** A sum instead of an inner product: the factor is 2 instead of 4. *)
Example C35_factors_example : snd (sanity_check (cells qmul (kadd QI) (kadd QI)) (new_cell (qi 3 4 1)) [q 7]) <> Ok tt.
Proof.
  intros E.
  apply (C35_factors cell_val qmul (kadd QI) (kadd QI) (cells qmul (kadd QI) (kadd QI)) _ _ _ (qi 3 4 1) eq_refl (cells_honest _ _ _ _ eq_refl) cell_get) in E.
  destruct E as [E _]. assert (X : exceeds (kadd QI (qmul (qi 3 4 1) two) (qmul (qi 3 4 1) two) - two * two * kadd QI (qi 3 4 1) (qi 3 4 1))%K = false) by exact E.
  revert X. vm_compute. discriminate.
Qed.
(** Scaling in place: the multiple is right, but the tested vector has changed. *)
Definition in_place : vector_ops QI (list QI) nat :=
  VectorOps (fun r => read_cell r new_cell) (fun r c => read_cell r (fun v => write_cell r (qmul v c)))
    (fun r t => read_cell r (fun u => read_cell t (fun v => new_cell (u + v)%K)))
    (Some (fun r t => read_cell r (fun u => read_cell t (fun v => mret (qip u v))))).
Example C35_changed_example : snd (sanity_check in_place (new_cell (qi 3 4 1)) [q 7]) = Raise ValueError.
Proof.
  eapply C35_changed; try reflexivity. intros X. revert X. vm_compute. discriminate.
Qed.
Example C35_exact_example : exists s mag obs, observe in_place (fun r t => read_cell r (fun u => read_cell t (fun v => mret (qip u v))))
    (new_cell (qi 3 4 1)) [q 7] = (s, Ok (mag, obs)) /\ ~ passes mag obs.
Proof.
  do 3 eexists. split; [reflexivity|]. intros P. inversion P as [|? ? ? ? _ P1]. inversion P1 as [|? ? ? ? A _].
  revert A. vm_compute. discriminate.
Qed.
Example C35_no_inner_product_example : sanity_check (VectorOps (F := QI) (fun r => read_cell r new_cell)
    (fun r c => read_cell r (fun v => new_cell (qmul v c))) (fun r t => read_cell r new_cell) None) (new_cell (q 2)) [q 7] = ([q 7], Raise RuntimeError).
Proof. apply C35_no_inner_product. reflexivity. Qed.
(** A product that writes before it fails: what it wrote stays. *)
Definition failing_mul : vector_ops QI (list QI) nat :=
  VectorOps (fun r => read_cell r new_cell) (fun r c s => (fst (write_cell r (q 0) s), Raise TypeError))
    (fun r t => read_cell r (fun u => read_cell t (fun v => new_cell (u + v)%K)))
    (Some (fun r t => read_cell r (fun u => read_cell t (fun v => mret (qip u v))))).
Example C35_raises_example : sanity_check failing_mul (new_cell (qi 3 4 1)) [q 7] = ([q 7; q 0; qi 3 4 1], Raise TypeError).
Proof.
  destruct (C35_raises failing_mul _ (new_cell (qi 3 4 1)) [q 7] eq_refl) as (_ & _ & H).
  destruct (H [q 7; qi 3 4 1] 1 [q 7; qi 3 4 1; qi 3 4 1] 2 eq_refl eq_refl) as (_ & H2).
  destruct (H2 _ _ eq_refl) as (H3 & _). apply H3. reflexivity.
Qed.

Print Assumptions C35_exact.
Print Assumptions C35_no_inner_product.
Print Assumptions C35_no_false_alarm.
Print Assumptions C35_factors.
Print Assumptions C35_changed.
Print Assumptions C35_bilinear_refuted.
Print Assumptions C35_raises.
