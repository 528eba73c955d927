(** C31: OKID. *)
From Coq Require Import List Arith Lia Bool ZArith Field Ring Setoid Morphisms.
Import ListNotations.
From Verif Require Import Prelude Field FieldInst Matrix NdArray DecompModel DecompProofs DecompProps VSArraysModel
  EraModel EraProofs Lti OkidModel OkidProofs DmdExamples TlsExamples.
Open Scope nat_scope.
Open Scope k_scope.

Section C31.
Context {F : sfield}.
Add Field C31_F : (k_field F).

Lemma F_mulc (x y : F) : x * y = y * x.
Proof. ring. Qed.

(** The signals: sample t of channel j of an array of shape (channels, ns). *)
Definition signal (ns : nat) (a : nd F) (t j : nat) : F := at1 (flat a) (j * ns + t)%nat.
Definition real_signal (m ns : nat) (u : nat -> nat -> F) : Prop :=
  forall t j, t < ns -> j < m -> real (u t j).

(** The answer, for any real data: with M = [D, a_0, b_0, a_1, b_1, ...] a least squares
    fit y(t) = D u(t) + sum over k < N of a_k u(t-1-k) + b_k y(t-1-k), the estimates are
    the Markov parameters of that model (arx_Markov). *)
Theorem C31_observer lstsq (inputs outputs : nd F) m p ns N :
  shape inputs = [m; ns] -> shape outputs = [p; ns] -> 0 < N -> (N <= ns \/ ns <= 2)%nat ->
  let u := signal ns inputs in let y := signal ns outputs in
  real_signal m ns u -> real_signal p ns y ->
  let R := (m + (m + p) * N)%nat in
  exists V, nr V = R /\ nc V = ns /\ meq R ns (ent V) (regressor m p u y) /\
    forall X, lstsq (conj_T V) (transp (as_2d p ns (flat outputs))) = Ok X ->
      lstsq_contract (conj_T V) (transp (as_2d p ns (flat outputs))) X ->
      exists Y (M : mat F), OKID lstsq inputs outputs N = Ok Y /\ a3_t Y = N /\ a3_p Y = p /\ a3_m Y = m /\
        meq p R M (madj (ent X)) /\ (forall i r, i < p -> r < R -> real (M i r)) /\
        meq p R (mmul ns (msub (mmul R M (regressor m p u y)) (fun i t => y t i)) (madj (regressor m p u y))) mzero /\
        (forall Z, meq p ns (mmul R Z (regressor m p u y)) (fun i t => y t i) ->
           meq p ns (mmul R M (regressor m p u y)) (fun i t => y t i)) /\
        arx_Markov p M (co_a m p N M) (co_b m p N M) (a3 Y) m N.
Proof.
  intros Hi Ho PN HN u y Ru Ry R.
  destruct (okid_V_ok (as_2d m ns (flat inputs)) (as_2d p ns (flat outputs)) N HN) as (V & EV & V1 & V2 & V3).
  cbn [nr nc as_2d ent] in V1, V2, V3. rewrite V1 in V3.
  assert (Rr : forall r t, r < R -> t < ns -> real (regressor m p u y r t)).
  { intros r t Hr Ht. unfold regressor. destruct (Nat.ltb_spec r m) as [L|L]; [apply Ru; auto|].
    assert (Q : (m + p <> 0)%nat) by (unfold R in Hr; lia).
    pose proof (Nat.mod_upper_bound (r - m) (m + p) Q) as Um.
    destruct (Nat.ltb_spec t (S ((r - m) / (m + p)))); [apply real_0|].
    destruct (Nat.ltb_spec ((r - m) mod (m + p)) m); [apply Ru|apply Ry]; lia. }
  assert (Ev : meq R ns (ent V) (regressor m p u y)).
  { split. intros r t Hr Ht. rewrite V3 by auto. apply (kre_real (regressor m p u y r t)). apply Rr; auto. }
  exists V. split; [exact V1|]. split; [exact V2|]. split; [exact Ev|].
  intros X HL HC.
  assert (Xr : nr X = R) by (rewrite (ls_nr _ _ _ HC); cbn; auto).
  assert (Xc : nc X = p) by (rewrite (ls_nc _ _ _ HC); reflexivity).
  set (M := ent (conj_T X)).
  assert (RX : forall i j, i < R -> j < p -> real (ent X i j)).
  { intros i j Hi' Hj. apply (ls_real _ _ _ HC); try lia.
    - cbn. rewrite V1, V2. intros a b Ha Hb. unfold madj. rewrite conj_conj. rewrite (meq_at _ _ _ _ Ev) by auto. symmetry. apply Rr; auto.
    - cbn. intros a b Ha Hb. unfold mtr. apply (Ry a b); auto. }
  assert (RM : forall i r, i < p -> r < R -> real (M i r)).
  { intros i r Hi' Hr. unfold M. cbn. unfold madj. rewrite conj_conj. symmetry. apply RX; auto. }
  assert (ME : forall i t, i < p -> t < ns -> mmul R M (regressor m p u y) i t = (mmul R (madj (ent V)) (ent X) t i)^*).
  { intros i t Hi' Ht. unfold mmul. rewrite sum_conj. apply sum_ext. intros r Hr. unfold M, madj. cbn. unfold madj.
    rewrite <- (meq_at _ _ _ _ Ev) by auto. rewrite conj_mul, conj_conj. ring. }
  eexists. exists M. split.
  { unfold OKID, row_2d. rewrite Hi, Ho. cbn [rbind]. cbn [nc as_2d]. rewrite Nat.eqb_refl. cbn [negb].
    rewrite EV. cbn [rbind]. rewrite HL. cbn [rbind]. rewrite (proj2 (Nat.eqb_neq N 0)) by lia. reflexivity. }
  cbn [a3_t a3_p a3_m a3 nr as_2d]. do 4 (split; [reflexivity|]). split; [exact RM|]. split; [|split].
  - pose proof (ls_normal _ _ _ HC) as NE. cbn [conj_T transp nr nc ent as_2d] in NE. rewrite V1, V2 in NE.
    split. intros i r Hi' Hr. pose proof (meq_at _ _ _ _ NE r i Hr Hi') as G. unfold mzero in *.
    set (E := msub (mmul R M (regressor m p u y)) (fun i t => y t i)).
    rewrite <- (conj_conj F (mmul ns E (madj (regressor m p u y)) i r)). rewrite <- conj_0. f_equal. rewrite <- G.
    unfold mmul at 1. unfold mmul at 1. rewrite sum_conj. apply sum_ext. intros t Ht. rewrite conj_mul.
    rewrite (F_mulc _ (_^*)). f_equal.
    + unfold madj. rewrite !conj_conj. symmetry. apply (meq_at _ _ _ _ Ev); auto.
    + unfold E, msub. rewrite ME by auto. rewrite conj_sub, conj_conj. f_equal.
      unfold mtr. apply (Ry t i); auto.
  - intros Z HZ.
    assert (G : meq ns p (mmul R (ent (conj_T V)) (ent X)) (ent (transp (as_2d p ns (flat outputs))))).
    { pose proof (ls_exact _ _ _ (madj Z) HC) as L. cbn [conj_T transp nr nc ent as_2d] in L. rewrite V1, V2 in L. apply L.
      assert (E : meq ns p (madj (mmul R Z (ent V))) (madj (fun i t => y t i))) by (rewrite Ev, HZ; reflexivity).
      rewrite madj_mmul in E. fold R. rewrite E. split. intros t i Ht Hi'. unfold madj, mtr. apply (Ry t i); auto. }
    split. intros i t Hi' Ht. rewrite ME by auto. cbn [ent conj_T] in G. rewrite (meq_at _ _ _ _ G t i) by auto.
    cbn [ent transp as_2d]. unfold mtr. apply (Ry t i); auto.
  - apply (est_arx m p N M RM PN).
Qed.

(** The input determines the first N terms of a convolution. *)
Definition informative (m N ns : nat) (u : nat -> nat -> F) : Prop :=
  forall d : nat -> nat -> F,
    (forall t, t < ns -> sum (S t) (fun k => sum m (fun j => d k j * u (t - k)%nat j)) = 0) ->
    forall k j, k < N -> j < m -> d k j = 0.
(** The regressors are linearly independent. *)
Definition independent (m p N ns : nat) (u y : nat -> nat -> F) : Prop :=
  let R := (m + (m + p) * N)%nat in exists W, meq R R (mmul ns (regressor m p u y) W) mid.

(** A single input with nonzero first sample is informative. *)
Lemma informative_single N ns (u : nat -> nat -> F) : N <= ns -> u O O <> 0 -> informative 1 N ns u.
Proof.
  intros HN Hu d Hd. assert (G : forall k, k < N -> d k O = 0).
  { intros k. induction k as [k IH] using (well_founded_induction lt_wf). intros Hk.
    specialize (Hd k ltac:(lia)). cbn [sum] in Hd. rewrite sum_0 in Hd.
    - rewrite Nat.sub_diag in Hd. assert (E : d k O * u O O = 0) by (rewrite <- Hd; ring).
      apply mul_eq_0 in E. tauto.
    - intros i Hi. rewrite IH by lia. ring. }
  intros k j Hk Hj. destruct j as [|j]; [auto|lia].
Qed.

Theorem C31_recovered lstsq (inputs outputs : nd F) m p ns N n (A B C D G : mat F) :
  shape inputs = [m; ns] -> shape outputs = [p; ns] -> 0 < N -> (N <= ns)%nat ->
  let u := signal ns inputs in let y := signal ns outputs in
  real_signal m ns u -> real_signal p ns y ->
  (* data of a system with an observer that is deadbeat within the window *)
  responds n m p A B C D u y ns ->
  meq n n (mpow n (madd A (mmul p G C)) N) mzero ->
  (* that determines it *)
  informative m N ns u \/ independent m p N ns u y ->
  exists V, nr V = (m + (m + p) * N)%nat /\ nc V = ns /\ meq (nr V) ns (ent V) (regressor m p u y) /\
    forall X, lstsq (conj_T V) (transp (as_2d p ns (flat outputs))) = Ok X ->
      lstsq_contract (conj_T V) (transp (as_2d p ns (flat outputs))) X ->
      exists Y, OKID lstsq inputs outputs N = Ok Y /\ a3_t Y = N /\ a3_p Y = p /\ a3_m Y = m /\
        forall k, k < N -> meq p m (a3 Y k) (Markov n A B C D k).
Proof.
  intros Hi Ho PN HN u y Ru Ry Hresp Hdb Hinf. set (R := (m + (m + p) * N)%nat).
  destruct (C31_observer lstsq inputs outputs m p ns N Hi Ho PN (or_introl HN) Ru Ry) as (V & V1 & V2 & V3 & Res).
  exists V. split; [exact V1|]. split; [exact V2|]. split; [rewrite V1; exact V3|]. intros X HL HC.
  destruct (Res X HL HC) as (Y & M & EY & Y1 & Y2 & Y3 & _ & RM & _ & Hfit & HY). exists Y. do 4 (split; [auto|]).
  fold R u y in Hfit, RM.
  (* the observer's coefficients *)
  set (Z := fun i r => if (r <? m)%nat then D i r else
    let k := ((r - m) / (m + p))%nat in let j := ((r - m) mod (m + p))%nat in
    if (j <? m)%nat then obs_a n p A B C D G k i j else obs_b n p A C G k i (j - m)%nat).
  assert (ZD : forall i j, j < m -> Z i j = D i j) by (intros i j Hj; unfold Z; rewrite (proj2 (Nat.ltb_lt j m)) by auto; reflexivity).
  assert (Zb : forall i k j, j < m + p -> Z i (m + k * (m + p) + j)%nat =
    if (j <? m)%nat then obs_a n p A B C D G k i j else obs_b n p A C G k i (j - m)%nat).
  { intros i k j Hj. unfold Z. rewrite (proj2 (Nat.ltb_ge (m + k * (m + p) + j) m)) by lia.
    destruct (block_pos m (m + p) k j Hj) as [-> ->]. reflexivity. }
  assert (Za : forall k i j, k < N -> j < m -> co_a m p N Z k i j = obs_a n p A B C D G k i j).
  { intros k i j Hk Hj. unfold co_a. rewrite (proj2 (Nat.ltb_lt k N)) by auto. rewrite Zb by lia.
    rewrite (proj2 (Nat.ltb_lt j m)) by auto. reflexivity. }
  assert (Zbb : forall k i j, k < N -> j < p -> co_b m p N Z k i j = obs_b n p A C G k i j).
  { intros k i j Hk Hj. unfold co_b. rewrite (proj2 (Nat.ltb_lt k N)) by auto. rewrite <- Nat.add_assoc, Zb by lia.
    rewrite (proj2 (Nat.ltb_ge (m + j) m)) by lia. replace (m + j - m)%nat with j by lia. reflexivity. }
  assert (HZ : meq p ns (mmul R Z (regressor m p u y)) (fun i t => y t i)).
  { split. intros i t Hi' Ht.
    transitivity (mv m Z (u t) i + sum t (fun k => mv m (co_a m p N Z k) (u (t - 1 - k)%nat) i +
      mv p (co_b m p N Z k) (y (t - 1 - k)%nat) i)); [apply fit_eq|].
    rewrite (observer_arx n m p A B C D G u y ns Hresp t i Ht Hi'). f_equal.
    - apply mv_ext; auto.
    - apply sum_ext. intros k Hk. destruct (Nat.lt_ge_cases k N) as [L|L].
      + f_equal; apply mv_ext; auto.
      + unfold co_a, co_b. rewrite (proj2 (Nat.ltb_ge k N)) by auto. f_equal; apply mv_ext; auto; intros j Hj; symmetry.
        * apply (meq_at _ _ _ _ (deadbeat_a n m p A B C D G N k Hdb L) i j); auto.
        * apply (meq_at _ _ _ _ (deadbeat_b n p A C G N k Hdb L) i j); auto. }
  specialize (Hfit Z HZ).
  assert (HMk := observer_Markov n m p A B C D G ns).
  destruct Hinf as [Hinf|(W & HW)].
  - (* both models produce the data *)
    destruct (arx_exists p m M (co_a m p N M) (co_b m p N M) ns) as (Y' & HY').
    intros k Hk.
    assert (E1 : meq p m (a3 Y k) (Y' k)).
    { apply (arx_unique p m M M (co_a m p N M) (co_a m p N M) (co_b m p N M) (co_b m p N M) (a3 Y) Y' N ns); auto; intros; reflexivity. }
    rewrite E1. split. intros i j Hi' Hj.
    assert (Hy : forall t i, t < ns -> i < p -> y t i = sum (S t) (fun k => mv m (Y' k) (u (t - k)%nat) i)).
    { apply (arx_conv p m M (co_a m p N M) (co_b m p N M) Y' u y ns HY'). intros t a Ht Ha.
      rewrite <- (meq_at _ _ _ _ Hfit a t Ha Ht). apply fit_eq. }
    pose proof (responds_conv n m p A B C D u y ns Hresp) as Hy2.
    assert (Z0 : Y' k i j - Markov n A B C D k i j = 0).
    { apply (Hinf (fun k j => Y' k i j - Markov n A B C D k i j)); auto. intros t Ht.
      transitivity (sum (S t) (fun k => mv m (Y' k) (u (t - k)%nat) i) - sum (S t) (fun k => mv m (Markov n A B C D k) (u (t - k)%nat) i)).
      - rewrite <- sum_sub. apply sum_ext. intros l Hl. unfold mv. rewrite <- sum_sub. apply sum_ext. intros c Hc. ring.
      - rewrite <- Hy, <- Hy2 by auto. ring. }
    transitivity (Y' k i j - Markov n A B C D k i j + Markov n A B C D k i j); [ring|rewrite Z0; ring].
  - (* the coefficients are the observer's *)
    fold R in HW.
    assert (EM : meq p R M Z).
    { rewrite <- (mmul_id_r p R M), <- (mmul_id_r p R Z). rewrite <- HW, <- !mmul_assoc, Hfit, HZ. reflexivity. }
    assert (CL : forall k j, k < N -> j < m + p -> (m + k * (m + p) + j < R)%nat).
    { intros k j Hk Hj. unfold R. assert ((k + 1) * (m + p) <= N * (m + p))%nat by (apply Nat.mul_le_mono_r; lia). lia. }
    intros k Hk.
    apply (arx_unique p m M D (co_a m p N M) (obs_a n p A B C D G) (co_b m p N M) (obs_b n p A C G) (a3 Y) (Markov n A B C D) N ns); auto.
    + split. intros i j Hi' Hj. rewrite (meq_at _ _ _ _ EM) by (auto; unfold R; lia). apply ZD; auto.
    + intros l Hl. split. intros i j Hi' Hj. rewrite <- Za by lia. unfold co_a. rewrite (proj2 (Nat.ltb_lt l N)) by lia.
      apply EM; auto. apply CL; lia.
    + intros l Hl. split. intros i j Hi' Hj. rewrite <- Zbb by lia. unfold co_b. rewrite (proj2 (Nat.ltb_lt l N)) by lia.
      apply EM; auto. rewrite <- Nat.add_assoc. apply CL; lia.
Qed.

(** The failures, and the shapes taken as two-dimensional. *)
Theorem C31_mismatch lstsq (inputs outputs : nd F) m p ns ns' N :
  shape inputs = [m; ns] -> shape outputs = [p; ns'] -> ns <> ns' -> OKID lstsq inputs outputs N = Raise ValueError.
Proof.
  intros Hi Ho H. unfold OKID, row_2d. rewrite Hi, Ho. cbn [rbind nc as_2d].
  rewrite (proj2 (Nat.eqb_neq ns ns')) by auto. reflexivity.
Qed.
Theorem C31_too_many lstsq (inputs outputs : nd F) m p ns N :
  shape inputs = [m; ns] -> shape outputs = [p; ns] -> 3 <= ns -> ns < N -> OKID lstsq inputs outputs N = Raise ValueError.
Proof.
  intros Hi Ho H1 H2. unfold OKID, row_2d. rewrite Hi, Ho. cbn [rbind nc as_2d]. rewrite Nat.eqb_refl. cbn [negb].
  rewrite okid_V_bad by auto. reflexivity.
Qed.
Theorem C31_none (lstsq : arr F -> arr F -> res (arr F)) (inputs outputs : nd F) m p ns :
  shape inputs = [m; ns] -> shape outputs = [p; ns] -> (forall A B, exists X, lstsq A B = Ok X) ->
  OKID lstsq inputs outputs 0 = Raise IndexError.
Proof.
  intros Hi Ho HL. unfold OKID, row_2d. rewrite Hi, Ho. cbn [rbind nc as_2d]. rewrite Nat.eqb_refl. cbn [negb].
  unfold okid_V. cbn [seq foldM rbind].
  match goal with |- context [lstsq ?A ?B] => destruct (HL A B) as (X & ->) end. reflexivity.
Qed.
Theorem C31_one_dim lstsq (a b : list F) x N n n' :
  OKID lstsq (Nd [n] a) (Nd [n'] b) N = OKID lstsq (Nd [1%nat; n] a) (Nd [1%nat; n'] b) N /\
  OKID lstsq (Nd [] [x]) (Nd [n'] b) N = OKID lstsq (Nd [1%nat; 1%nat] [x]) (Nd [n'] b) N.
Proof. split; reflexivity. Qed.
Theorem C31_bad_dims lstsq (inputs outputs : nd F) N : 3 <= length (shape inputs) ->
  OKID lstsq inputs outputs N = Raise ValueError.
Proof.
  intros H. unfold OKID, row_2d. destruct (shape inputs) as [|a [|b [|c l]]]; simpl in H; try lia. reflexivity.
Qed.
End C31.

(** ** Instances: x' = x / 2 + u, y = x + 2 u with the gain - 1/2 *)
Definition ok_A : mat QI := fun _ _ => qi 1 0 2.
Definition ok_B : mat QI := fun _ _ => q 1.
Definition ok_D : mat QI := fun _ _ => q 2.
Definition ok_G : mat QI := fun _ _ => qi (-1) 0 2.
Definition ok_in : nd QI := Nd [1; 4]%nat [q 1; q 0; q 1; q 0].
Definition ok_out : nd QI := Nd [1; 4]%nat [q 2; q 1; qi 5 0 2; qi 5 0 4].
Definition ok_x (t l : nat) : QI := nth t [q 0; q 1; qi 1 0 2; qi 5 0 4] 0.
(** The solution: D, then - G for the output one sample earlier. *)
Definition ok_X : arr QI := of_rows 1 [[q 2]; [q 0]; [qi 1 0 2]; [q 0]; [q 0]].
Lemma exact_contract (A B X : arr QI) : nr X = nc A -> nc X = nc B ->
  meq (nr A) (nc B) (mmul (nc A) (ent A) (ent X)) (ent B) ->
  (forall i j, i < nr X -> j < nc X -> real (ent X i j)) -> lstsq_contract A B X.
Proof.
  intros H1 H2 H3 H4. split; auto. rewrite H3.
  assert (E : meq (nr A) (nc B) (msub (ent B) (ent B)) mzero) by (apply msub_zero; reflexivity).
  rewrite E, mmul_zero_r. reflexivity.
Qed.
Example C31_recovered_instance :
  responds 1 1 1 ok_A ok_B ok_B ok_D (signal 4 ok_in) (signal 4 ok_out) 4 /\
  informative 1 2 4 (signal 4 ok_in) /\
  exists Y, OKID (fun _ _ => Ok ok_X) ok_in ok_out 2 = Ok Y /\ a3_t Y = 2%nat /\
    (forall k, k < 2 -> meq 1 1 (a3 Y k) (Markov 1 ok_A ok_B ok_B ok_D k)) /\
    a3 Y 0%nat 0%nat 0%nat = q 2 /\ a3 Y 1%nat 0%nat 0%nat = q 1.
Proof.
  assert (H1 : responds 1 1 1 ok_A ok_B ok_B ok_D (signal 4 ok_in) (signal 4 ok_out) 4).
  { exists ok_x. split; [|split].
    - intros l Hl. reflexivity.
    - intros t l Ht Hl. destruct l as [|l]; [|lia]. apply keqb_true.
      destruct t as [|[|[|t]]]; try lia; vm_compute; reflexivity.
    - intros t l Ht Hl. destruct l as [|l]; [|lia]. apply keqb_true.
      destruct t as [|[|[|[|t]]]]; try lia; vm_compute; reflexivity. }
  assert (H2 : informative 1 2 4 (signal 4 ok_in)).
  { apply informative_single; [lia|]. neq_solve. }
  split; [exact H1|]. split; [exact H2|].
  destruct (C31_recovered (fun _ _ => Ok ok_X) ok_in ok_out 1 1 4 2 1 ok_A ok_B ok_B ok_D ok_G) as (V & V1 & V2 & V3 & Res).
  - reflexivity.
  - reflexivity.
  - lia.
  - lia.
  - intros t j Ht Hj. destruct j as [|j]; [|lia]. do 4 (destruct t as [|t]; [real_solve|]). lia.
  - intros t j Ht Hj. destruct j as [|j]; [|lia]. do 4 (destruct t as [|t]; [real_solve|]). lia.
  - exact H1.
  - eqb_solve.
  - left. exact H2.
  - rewrite V1 in V3. destruct (Res ok_X eq_refl) as (Y & EY & Y1 & Y2 & Y3 & HY).
    + apply exact_contract; cbn [conj_T transp nr nc ent as_2d ok_X of_rows length].
      * rewrite V1. reflexivity.
      * reflexivity.
      * rewrite V1, V2. change (1 + (1 + 1) * 2)%nat with 5%nat in *. rewrite V3. eqb_solve.
      * intros i j Hi Hj. destruct j as [|j]; [|lia]. do 5 (destruct i as [|i]; [real_solve|]). lia.
    + exists Y. split; [exact EY|]. split; [exact Y1|]. split; [exact HY|]. split.
      * rewrite (meq_at _ _ _ _ (HY O ltac:(lia)) O O) by lia. reflexivity.
      * rewrite (meq_at _ _ _ _ (HY 1%nat ltac:(lia)) O O) by lia. apply keqb_true. vm_compute. reflexivity.
Qed.
(** With one Markov parameter and the impulse as input the regressors are independent. *)
Example C31_independent_instance :
  independent 1 1 1 3 (signal 3 (Nd [1; 3]%nat [q 1; q 0; q 0])) (signal 3 (Nd [1; 3]%nat [q 2; q 1; qi 1 0 2])).
Proof.
  exists (ent (of_rows 3 [[q 1; q 0; q 0]; [q 0; q 1; q 0]; [q 0; q (-2); q 1]])). eqb_solve.
Qed.
Example C31_mismatch_instance : OKID (fun _ _ => Ok ok_X) ok_in (Nd [1; 3]%nat [q 1; q 2; q 3]) 2 = Raise ValueError.
Proof. apply (C31_mismatch _ _ _ 1 1 4 3); auto. Qed.
Example C31_too_many_instance : OKID (fun _ _ => Ok ok_X) ok_in ok_out 5 = Raise ValueError.
Proof. apply (C31_too_many _ _ _ 1 1 4); auto; lia. Qed.

(* the observer of the data above: y(t) = 2 u(t) + u(t-1) / 2 + ... fits the data exactly *)
Example C31_observer_example :
  exists Y (M : mat QI), OKID (fun _ _ => Ok ok_X) ok_in ok_out 2 = Ok Y /\ a3_t Y = 2%nat /\
    meq 1 5 M (madj (ent ok_X)) /\
    meq 1 4 (mmul 5 M (regressor 1 1 (signal 4 ok_in) (signal 4 ok_out))) (fun i t => signal 4 ok_out t i) /\
    arx_Markov 1 M (co_a 1 1 2 M) (co_b 1 1 2 M) (a3 Y) 1 2.
Proof.
  destruct (C31_observer (fun _ _ => Ok ok_X) ok_in ok_out 1 1 4 2) as (V & V1 & V2 & V3 & Res).
  - reflexivity.
  - reflexivity.
  - lia.
  - lia.
  - intros t j Ht Hj. destruct j as [|j]; [|lia]. do 4 (destruct t as [|t]; [real_solve|]). lia.
  - intros t j Ht Hj. destruct j as [|j]; [|lia]. do 4 (destruct t as [|t]; [real_solve|]). lia.
  - destruct (Res ok_X eq_refl) as (Y & M & EY & Y1 & _ & _ & HM & _ & _ & Ex & Ax).
    + apply exact_contract; cbn [conj_T transp nr nc ent as_2d ok_X of_rows length].
      * rewrite V1. reflexivity.
      * reflexivity.
      * rewrite V1, V2. change (1 + (1 + 1) * 2)%nat with 5%nat in *. rewrite V3. eqb_solve.
      * intros i j Hi Hj. destruct j as [|j]; [|lia]. do 5 (destruct i as [|i]; [real_solve|]). lia.
    + exists Y, M. split; [exact EY|]. split; [exact Y1|]. split; [exact HM|]. split; [|exact Ax].
      apply (Ex (madj (ent ok_X))). change (1 + (1 + 1) * 2)%nat with 5%nat. eqb_solve.
Qed.
Example C31_none_example : OKID (fun _ _ => Ok ok_X) ok_in ok_out 0 = Raise IndexError.
Proof. apply (C31_none (fun _ _ => Ok ok_X) ok_in ok_out 1 1 4); eauto. Qed.
Example C31_one_dim_example :
  OKID (fun _ _ => Ok ok_X) (Nd [4]%nat (flat ok_in)) (Nd [4]%nat (flat ok_out)) 2 =
  OKID (fun _ _ => Ok ok_X) ok_in ok_out 2.
Proof. apply (C31_one_dim (fun _ _ => Ok ok_X) (flat ok_in) (flat ok_out) (q 0) 2 4 4). Qed.
Example C31_bad_dims_example :
  OKID (fun _ _ => Ok ok_X) (Nd [1; 4; 1]%nat (flat ok_in)) ok_out 2 = Raise ValueError.
Proof. apply C31_bad_dims. simpl. lia. Qed.

Print Assumptions C31_observer.
Print Assumptions C31_recovered.
Print Assumptions C31_mismatch.
Print Assumptions C31_too_many.
Print Assumptions C31_none.
Print Assumptions C31_one_dim.
Print Assumptions C31_bad_dims.
