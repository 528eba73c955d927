(** C58: OKID.m and OKID agree. *)
From Coq Require Import List Arith Lia Bool ZArith Field Ring Setoid Morphisms.
Import ListNotations.
From Verif Require Import Prelude Field FieldInst Matrix NdArray DecompModel DecompProofs DecompProps VSArraysModel
  EraModel EraProofs Lti OkidModel OkidProofs OkidProps MatlabModel MatlabProofs DmdExamples TlsExamples.
Open Scope nat_scope.
Open Scope k_scope.

Section C58.
Context {F : sfield}.
Add Field C58_F : (k_field F).

(** Sample t of channel j of an array with a row for each channel; the blocks of H. *)
Definition channel (a : arr F) (t j : nat) : F := ent a j t.
Definition block (m : nat) (H : arr F) (k : nat) : mat F := fun i j => ent H i (m * k + j)%nat.
(** [M] fits y(t) = D u(t) + sum of a_k u(t-1-k) + b_k y(t-1-k) by least squares, and is
    the least of all that do: it is a combination of the regressors. *)
Definition least_fit (m p ns N : nat) (u y : nat -> nat -> F) (M : mat F) : Prop :=
  let R := (m + (m + p) * N)%nat in let V := regressor m p u y in
  meq p R (mmul ns (msub (mmul R M V) (fun i t => y t i)) (madj V)) mzero /\
  exists Z, meq p R M (mmul ns Z (madj V)).
(** The tolerance drops singular values zero only. *)
Definition only_zeros (tol : F) (S : list F) : Prop :=
  forall i, i < length S -> at1 S i = 0 \/ klt_p tol (at1 S i).

Lemma pos_add (x y : F) : real x -> real y -> klt_p 0 x -> klt_p 0 y -> klt_p 0 (x + y).
Proof.
  intros Hx Hy H1 H2. apply (lt_trans F 0 y (x + y)); auto using real_0, real_add.
  pose proof (lt_add F 0 x y real_0 Hx Hy H1) as G. replace (0 + y) with y in G by ring. auto.
Qed.
Lemma cutoff_nonneg : real (cutoff : F) /\ kle 0 (cutoff : F).
Proof.
  assert (T : real (ten : F) /\ klt_p 0 (ten : F)).
  { unfold ten. assert (A : real (1 + 1 : F) /\ klt_p 0 (1 + 1 : F)).
    { split; [auto using real_add, real_1|]. apply pos_add; auto using real_1, lt_0_1. }
    destruct A as [A1 A2]. assert (B : real ((1 + 1) * (1 + 1) + 1 : F) /\ klt_p 0 ((1 + 1) * (1 + 1) + 1 : F)).
    { split; [auto using real_add, real_mul, real_1|]. apply pos_add; auto using real_mul, real_1, lt_0_1. apply lt_mul; auto. }
    split; [apply real_mul; tauto|apply lt_mul; tauto]. }
  destruct T as [T1 T2]. unfold cutoff.
  assert (MP : forall x : F, real x /\ klt_p 0 x -> real (x * ten) /\ klt_p 0 (x * ten)).
  { intros x [X1 X2]. split; [apply real_mul; auto|apply lt_mul; auto]. }
  destruct (MP _ (MP _ (MP _ (MP _ (conj T1 T2))))) as [R5 L5]. pose proof (lt_neq 0 ten real_0 T2) as TN.
  replace (1 / (ten * ten * ten * ten * ten)) with (kinv F (ten * ten * ten * ten * ten : F)).
  - split; [apply real_inv; auto|left; apply lt_inv; auto]. intros E. apply (lt_neq _ _ real_0 L5). auto.
  - field. auto.
Qed.

(** The answer of OKID.m, for any data (complex too): the N + 1 first Markov parameters of
    the least fit. *)
Theorem C58_fit pinv (y u : arr F) m p ns N :
  nr u = m -> nr y = p -> nc u = ns -> nc y = ns -> 0 < N ->
  exists V, nr V = (m + (m + p) * N)%nat /\ nc V = ns /\ meq (nr V) ns (ent V) (regressor m p (channel u) (channel y)) /\
    forall P U S Vh, pinv cutoff V = Ok P -> pinv_contract cutoff V P U S Vh -> only_zeros cutoff S ->
    exists H M, OKID_m pinv y u N = Ok H /\ nr H = p /\ nc H = (m * (N + 1))%nat /\
      least_fit m p ns N (channel u) (channel y) M /\
      arx_Markov p M (co_a m p N M) (co_b m p N M) (block m H) m (N + 1).
Proof.
  intros Hm Hp Hu Hy HN. destruct (matlab_V_ok y u N) as (V1 & V2 & V3); [congruence|].
  rewrite Hm, Hp in V1, V3. rewrite Hy in V2, V3. set (R := (m + (m + p) * N)%nat) in *.
  exists (matlab_V y u N). split; [exact V1|]. split; [exact V2|]. rewrite V1. split; [exact V3|].
  intros P U S Vh EP HP HS.
  assert (ED : dot y P = Ok (Arr p R (mmul ns (ent y) (ent P)))).
  { unfold dot. rewrite (pi_nr _ _ _ _ _ _ HP), V2, Hy, Nat.eqb_refl. rewrite (pi_nc _ _ _ _ _ _ HP), V1, Hp. reflexivity. }
  set (M := mmul ns (ent y) (ent P)). eexists. exists M. split.
  { unfold OKID_m. rewrite Hy, Hu, Nat.eqb_refl. cbn [negb]. rewrite EP. cbn [rbind]. rewrite ED. cbn [rbind].
    rewrite (proj2 (Nat.eqb_neq N 0)) by lia. reflexivity. }
  cbn [nr nc]. split; [exact Hp|]. split; [rewrite Hm; reflexivity|]. split.
  - pose proof (pinv_fit cutoff p (matlab_V y u N) P U S Vh (ent y) HP (proj1 cutoff_nonneg) (proj2 cutoff_nonneg) HS) as [N1 (Z & N2)].
    rewrite V1, V2 in N1, N2. fold R M in N1, N2. unfold least_fit. fold R. split.
    + transitivity (mmul ns (msub (mmul R M (ent (matlab_V y u N))) (ent y)) (madj (ent (matlab_V y u N)))); [|exact N1].
      rewrite V3. reflexivity.
    + exists Z. rewrite N2, V3. reflexivity.
  - cbn [ent]. apply (matlab_arx p m N M). rewrite Hm, Hp. reflexivity.
Qed.

(** Least fits are unique; so is any fit when the regressors are independent. *)
Lemma least_unique m p ns N u y M M' : let R := (m + (m + p) * N)%nat in let V := regressor m p u y in
  least_fit m p ns N u y M ->
  meq p R (mmul ns (msub (mmul R M' V) (fun i t => y t i)) (madj V)) mzero ->
  (exists Z, meq p R M' (mmul ns Z (madj V))) \/ independent m p N ns u y -> meq p R M M'.
Proof.
  intros R V [H1 (Z & HZ)] H2 [(Z' & HZ')|(W & HW)]; fold R V in H1, HZ.
  - apply (fit_unique p R ns V (fun i t => y t i) M M' Z Z'); auto.
  - fold R V in HW. apply (fit_unique p R ns V (fun i t => y t i) M M' Z (mmul R M' (madj W))); auto.
    rewrite mmul_assoc.
    assert (E : meq R R (mmul ns (madj W) (madj V)) mid) by (rewrite <- madj_mmul, HW, madj_mid; reflexivity).
    rewrite E, mmul_id_r. reflexivity.
Qed.

(** Both versions on the same real data: the same Markov parameters.  [lstsq] returns the
    least solution, or the regressors are independent. *)
Theorem C58_agree lstsq pinv (inputs outputs : nd F) m p ns N :
  shape inputs = [m; ns] -> shape outputs = [p; ns] -> 0 < N -> (N <= ns \/ ns <= 2)%nat ->
  let u := signal ns inputs in let y := signal ns outputs in
  let U := as_2d m ns (flat inputs) in let Y := as_2d p ns (flat outputs) in
  real_signal m ns u -> real_signal p ns y ->
  let R := (m + (m + p) * N)%nat in
  exists V V' : arr F, nr V = R /\ nc V = ns /\ nr V' = R /\ nc V' = ns /\
    meq R ns (ent V) (regressor m p u y) /\ meq R ns (ent V') (regressor m p u y) /\
    forall X P Us S Vh,
      lstsq (conj_T V) (transp Y) = Ok X -> lstsq_contract (conj_T V) (transp Y) X ->
      (exists W, meq R p (ent X) (mmul ns (ent V) W)) \/ independent m p N ns u y ->
      pinv cutoff V' = Ok P -> pinv_contract cutoff V' P Us S Vh -> only_zeros cutoff S ->
      exists A H, OKID lstsq inputs outputs N = Ok A /\ OKID_m pinv Y U N = Ok H /\
        let B := matlab_Markovs m N H in
        a3_t A = a3_t B /\ a3_p A = a3_p B /\ a3_m A = a3_m B /\
        forall k, k < N -> meq p m (a3 A k) (a3 B k).
Proof.
  intros Hi Ho HN HNs u y U Y Ru Ry R.
  destruct (C31_observer lstsq inputs outputs m p ns N Hi Ho HN HNs Ru Ry) as (V & V1 & V2 & V3 & Res).
  destruct (C58_fit pinv Y U m p ns N eq_refl eq_refl eq_refl eq_refl HN) as (V' & W1 & W2 & W3 & Res').
  exists V, V'. split; [exact V1|]. split; [exact V2|]. split; [exact W1|]. split; [exact W2|]. split; [exact V3|].
  rewrite W1 in W3. split; [exact W3|]. intros X P Us S Vh EX HX Hmin EP HP HS.
  destruct (Res X EX HX) as (A & M & EA & A1 & A2 & A3 & MX & RM & NM & _ & AM).
  destruct (Res' P Us S Vh EP HP HS) as (H & M' & EH & H1 & H2 & LM & BM).
  exists A, H. split; [exact EA|]. split; [exact EH|]. cbn [matlab_Markovs a3_t a3_p a3_m a3]. split; [exact A1|].
  split; [congruence|]. split; [exact A3|].
  assert (EM : meq p R M' M).
  { apply (least_unique m p ns N u y); auto. destruct Hmin as [(W & HW)|I]; [left|right; exact I].
    exists (madj W). fold R. fold R u y in V3, MX. rewrite MX, HW, madj_mmul, V3. reflexivity. }
  intros k Hk.
  assert (CL : forall l j, l < N -> j < m + p -> (m + l * (m + p) + j < R)%nat).
  { intros l j Hl Hj. unfold R. assert ((l + 1) * (m + p) <= N * (m + p))%nat by (apply Nat.mul_le_mono_r; lia). lia. }
  apply (arx_unique p m M M' (co_a m p N M) (co_a m p N M') (co_b m p N M) (co_b m p N M') (a3 A) (block m H) N (N + 1)); auto.
  - symmetry. apply (meq_sub p R); auto; unfold R; lia.
  - intros l Hl. unfold co_a. rewrite (proj2 (Nat.ltb_lt l N)) by lia. split. intros i j Hi' Hj. symmetry. apply EM; auto. apply CL; lia.
  - intros l Hl. unfold co_b. rewrite (proj2 (Nat.ltb_lt l N)) by lia. split. intros i j Hi' Hj. symmetry. apply EM; auto.
    rewrite <- Nat.add_assoc. apply CL; lia.
  - lia.
Qed.

(** Data of a system with an observer deadbeat within the window: all N + 1 blocks are its
    Markov parameters, one more than OKID gives. *)
Theorem C58_recovered pinv (y u : arr F) m p ns N n (A B C D G : mat F) :
  nr u = m -> nr y = p -> nc u = ns -> nc y = ns -> 0 < N ->
  responds n m p A B C D (channel u) (channel y) ns ->
  meq n n (mpow n (madd A (mmul p G C)) N) mzero ->
  informative m (N + 1) ns (channel u) \/ independent m p N ns (channel u) (channel y) ->
  exists V, nr V = (m + (m + p) * N)%nat /\ nc V = ns /\ meq (nr V) ns (ent V) (regressor m p (channel u) (channel y)) /\
    forall P U S Vh, pinv cutoff V = Ok P -> pinv_contract cutoff V P U S Vh -> only_zeros cutoff S ->
    exists H, OKID_m pinv y u N = Ok H /\ nr H = p /\ nc H = (m * (N + 1))%nat /\
      forall k, k <= N -> meq p m (block m H k) (Markov n A B C D k).
Proof.
  intros Hm Hp Hu Hy HN Hresp Hdb Hinf.
  destruct (C58_fit pinv y u m p ns N Hm Hp Hu Hy HN) as (V & V1 & V2 & V3 & Res).
  exists V. split; [exact V1|]. split; [exact V2|]. split; [exact V3|]. intros P U S Vh EP HP HS.
  destruct (Res P U S Vh EP HP HS) as (H & M & EH & H1 & H2 & (NM & (Zm & HZm)) & HY).
  exists H. split; [exact EH|]. split; [exact H1|]. split; [exact H2|].
  set (R := (m + (m + p) * N)%nat) in *. set (us := channel u) in *. set (ys := channel y) in *.
  set (Z := fun i r => if (r <? m)%nat then D i r else
    let k := ((r - m) / (m + p))%nat in let j := ((r - m) mod (m + p))%nat in
    if (j <? m)%nat then obs_a n p A B C D G k i j else obs_b n p A C G k i (j - m)%nat).
  assert (ZD : forall i j, j < m -> Z i j = D i j) by (intros i j Hj; unfold Z; rewrite (proj2 (Nat.ltb_lt j m)) by auto; reflexivity).
  assert (Zb : forall i k j, j < m + p -> Z i (m + k * (m + p) + j)%nat =
    if (j <? m)%nat then obs_a n p A B C D G k i j else obs_b n p A C G k i (j - m)%nat).
  { intros i k j Hj. unfold Z. rewrite (proj2 (Nat.ltb_ge (m + k * (m + p) + j) m)) by lia.
    destruct (block_pos m (m + p) k j Hj) as [-> ->]. reflexivity. }
  assert (Za : forall k i j, k < N -> j < m -> co_a m p N Z k i j = obs_a n p A B C D G k i j).
  { intros k i j Hk Hj. unfold co_a. rewrite (proj2 (Nat.ltb_lt k N)) by auto. rewrite Zb by lia.
    rewrite (proj2 (Nat.ltb_lt j m)) by auto. reflexivity. }
  assert (Zbb : forall k i j, k < N -> j < p -> co_b m p N Z k i j = obs_b n p A C G k i j).
  { intros k i j Hk Hj. unfold co_b. rewrite (proj2 (Nat.ltb_lt k N)) by auto. rewrite <- Nat.add_assoc, Zb by lia.
    rewrite (proj2 (Nat.ltb_ge (m + j) m)) by lia. replace (m + j - m)%nat with j by lia. reflexivity. }
  assert (HZ : meq p ns (mmul R Z (regressor m p us ys)) (fun i t => ys t i)).
  { split. intros i t Hi' Ht.
    transitivity (mv m Z (us t) i + sum t (fun k => mv m (co_a m p N Z k) (us (t - 1 - k)%nat) i +
      mv p (co_b m p N Z k) (ys (t - 1 - k)%nat) i)); [apply fit_eq|].
    rewrite (observer_arx n m p A B C D G us ys ns Hresp t i Ht Hi'). f_equal.
    - apply mv_ext; auto.
    - apply sum_ext. intros k Hk. destruct (Nat.lt_ge_cases k N) as [L|L].
      + f_equal; apply mv_ext; auto.
      + unfold co_a, co_b. rewrite (proj2 (Nat.ltb_ge k N)) by auto. f_equal; apply mv_ext; auto; intros j Hj; symmetry.
        * apply (meq_at _ _ _ _ (deadbeat_a n m p A B C D G N k Hdb L) i j); auto.
        * apply (meq_at _ _ _ _ (deadbeat_b n p A C G N k Hdb L) i j); auto. }
  assert (Hfit : meq p ns (mmul R M (regressor m p us ys)) (fun i t => ys t i)).
  { set (Vr := regressor m p us ys) in *. set (E := msub (mmul R M Vr) (fun i t => ys t i)) in *.
    assert (EE : meq p ns E (mmul R (msub M Z) Vr)) by (unfold E; rewrite mmul_sub_l, HZ; reflexivity).
    apply (proj1 (msub_zero _ _ _ _)). fold E.
    assert (G0 : meq p p (mmul ns (madj (madj E)) (madj E)) mzero).
    { rewrite madj_madj.
      assert (EA : meq ns p (madj E) (mmul R (madj Vr) (madj (msub M Z)))) by (rewrite EE, madj_mmul; reflexivity).
      rewrite EA, <- mmul_assoc. fold R in NM. fold E in NM. rewrite NM. apply mmul_zero_l. }
    apply gram_zero in G0. split. intros i j Hi Hj. pose proof (meq_at _ _ _ _ G0 j i Hj Hi) as Q. unfold madj, mzero in Q.
    rewrite <- (conj_conj F (E i j)), Q, conj_0. reflexivity. }
  assert (HMk := observer_Markov n m p A B C D G (N + 1)).
  destruct Hinf as [Hinf|(W & HW)].
  - destruct (arx_exists p m M (co_a m p N M) (co_b m p N M) (ns + (N + 1))) as (Y' & HY').
    assert (HY2 : arx_Markov p M (co_a m p N M) (co_b m p N M) Y' m ns).
    { destruct HY' as [A1 A2]. split; [exact A1|]. intros k Hk. apply A2. lia. }
    intros k Hk.
    assert (E1 : meq p m (block m H k) (Y' k)).
    { apply (arx_unique p m M M (co_a m p N M) (co_a m p N M) (co_b m p N M) (co_b m p N M) (block m H) Y' (N + 1) (ns + (N + 1)));
        auto; try (intros; reflexivity); lia. }
    rewrite E1. split. intros i j Hi' Hj.
    assert (Hy2 : forall t i, t < ns -> i < p -> ys t i = sum (Datatypes.S t) (fun k => mv m (Y' k) (us (t - k)%nat) i)).
    { apply (arx_conv p m M (co_a m p N M) (co_b m p N M) Y' us ys ns HY2). intros t a Ht Ha.
      rewrite <- (meq_at _ _ _ _ Hfit a t Ha Ht). apply fit_eq. }
    pose proof (responds_conv n m p A B C D us ys ns Hresp) as Hy3.
    assert (Z0 : Y' k i j - Markov n A B C D k i j = 0).
    { apply (Hinf (fun k j => Y' k i j - Markov n A B C D k i j)); auto; [|lia]. intros t Ht.
      transitivity (sum (Datatypes.S t) (fun k => mv m (Y' k) (us (t - k)%nat) i) - sum (Datatypes.S t) (fun k => mv m (Markov n A B C D k) (us (t - k)%nat) i)).
      - rewrite <- sum_sub. apply sum_ext. intros l Hl. unfold mv. rewrite <- sum_sub. apply sum_ext. intros c Hc. ring.
      - rewrite <- Hy2, <- Hy3 by auto. ring. }
    transitivity (Y' k i j - Markov n A B C D k i j + Markov n A B C D k i j); [ring|rewrite Z0; ring].
  - fold R in HW.
    assert (EM : meq p R M Z).
    { rewrite <- (mmul_id_r p R M), <- (mmul_id_r p R Z). rewrite <- HW, <- !mmul_assoc, Hfit, HZ. reflexivity. }
    assert (CL : forall k j, k < N -> j < m + p -> (m + k * (m + p) + j < R)%nat).
    { intros k j Hk Hj. unfold R. assert ((k + 1) * (m + p) <= N * (m + p))%nat by (apply Nat.mul_le_mono_r; lia). lia. }
    intros k Hk.
    apply (arx_unique p m M D (co_a m p N M) (obs_a n p A B C D G) (co_b m p N M) (obs_b n p A C G) (block m H) (Markov n A B C D) (N + 1) (N + 1)); auto; try lia.
    + split. intros i j Hi' Hj. rewrite (meq_at _ _ _ _ EM) by (auto; unfold R; lia). apply ZD; auto.
    + intros l Hl. split. intros i j Hi' Hj. rewrite <- Za by lia. unfold co_a. rewrite (proj2 (Nat.ltb_lt l N)) by lia.
      apply EM; auto. apply CL; lia.
    + intros l Hl. split. intros i j Hi' Hj. rewrite <- Zbb by lia. unfold co_b. rewrite (proj2 (Nat.ltb_lt l N)) by lia.
      apply EM; auto. rewrite <- Nat.add_assoc. apply CL; lia.
Qed.

(** Errors: data of different lengths; no parameters asked for. *)
Theorem C58_mismatch pinv (y u : arr F) N : nc y <> nc u -> OKID_m pinv y u N = Raise RuntimeError.
Proof. intros H. unfold OKID_m. rewrite (proj2 (Nat.eqb_neq _ _) H). reflexivity. Qed.
Theorem C58_none pinv (y u : arr F) : nc y = nc u ->
  (forall V, exists P, pinv cutoff V = Ok P /\ nr P = nc V /\ nc P = nr V) ->
  OKID_m pinv y u 0 = Raise IndexError.
Proof.
  intros H HP. unfold OKID_m. rewrite H, Nat.eqb_refl. cbn [negb].
  destruct (HP (matlab_V y u 0)) as (P & -> & P1 & _). cbn [rbind]. unfold dot. rewrite P1. cbn [matlab_V nc].
  rewrite Nat.eqb_refl. reflexivity.
Qed.
(** More parameters than samples: OKID.m answers (C58_fit), OKID raises. *)
Theorem C58_too_many lstsq pinv (inputs outputs : nd F) m p ns N P :
  shape inputs = [m; ns] -> shape outputs = [p; ns] -> 3 <= ns -> ns < N ->
  let U := as_2d m ns (flat inputs) in let Y := as_2d p ns (flat outputs) in
  pinv cutoff (matlab_V Y U N) = Ok P -> nr P = ns ->
  OKID lstsq inputs outputs N = Raise ValueError /\ exists H, OKID_m pinv Y U N = Ok H.
Proof.
  intros Hi Ho H3 HN U Y EP P1. split; [apply (C31_too_many _ _ _ m p ns); auto|].
  unfold OKID_m. cbn [nr nc as_2d U Y]. rewrite Nat.eqb_refl. cbn [negb]. fold U Y. rewrite EP. cbn [rbind].
  unfold dot. rewrite P1. cbn [nc as_2d Y]. rewrite Nat.eqb_refl. cbn [rbind].
  rewrite (proj2 (Nat.eqb_neq N 0)) by lia. eauto.
Qed.
End C58.
