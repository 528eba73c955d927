(** C50: the systems made by drss and rss have the stated eigenvalues and are stable. *)
From Coq Require Import List Arith Lia Bool ZArith Field Ring Setoid Morphisms.
Import ListNotations.
From Verif Require Import Prelude Field FieldInst Matrix NdArray EraModel EraProofs PodModel Lti LtiModel LtiProps OptimalProofs.
From Verif Require Import RandomModel RandomProofs.
Open Scope nat_scope.
Open Scope k_scope.

Section Props.
Context {F : sfield}.
Add Field RandPropsField : (k_field F).
Context (inv : arr F -> res (arr F)).
Notation N := (@k_nat F).

(** The draws of drss: an invertible real array and real arrays of the right shapes. *)
Definition drss_draws (n m p : nat) (V Vi B C : arr F) : Prop :=
  nr V = n /\ nc V = n /\ real_mat n n (ent V) /\ inv V = Ok Vi /\ inv_contract V Vi /\
  nr B = n /\ nc B = m /\ real_mat n m (ent B) /\ nr C = p /\ nc C = n /\ real_mat p n (ent C).

Lemma vals_real n j : j < n -> real (at1 (drss_vals (F := F) n) j).
Proof. intros H. apply linspace_real; auto; apply frac_real; lia. Qed.
Lemma vals_range n j : j < n ->
  kle (N 1 / N 5) (at1 (drss_vals n) j) /\ kle (at1 (drss_vals n) j) (N 19 / N 20).
Proof. intros H. apply linspace_range; auto; [apply frac_real; lia|apply frac_real; lia|apply frac_lt; lia]. Qed.

Lemma drss_ok n m p V Vi B C : drss_draws n m p V Vi B C ->
  exists A, drss inv n V B C = Ok (A, B, C) /\ real_system n m p A B C /\
    meq n n (mmul n (ent Vi) (ent V)) mid /\ real_mat n n (ent Vi) /\
    meq n n (ent A) (mmul n (ent Vi) (mmul n (mdiag (at1 (drss_vals n))) (ent V))).
Proof.
  intros (h1 & h2 & RV & E & (i1 & i2 & i3 & i4) & h3 & h4 & RB & h5 & h6 & RC).
  rewrite h1 in i1, i2, i4.
  assert (RVi : real_mat n n (ent Vi)).
  { intros i j Hi Hj. apply (inverse_real n (ent V) (ent Vi) i4); auto. }
  assert (RA : real_mat n n (mmul n (ent Vi) (mmul n (mdiag (at1 (drss_vals n))) (ent V)))).
  { intros i j Hi Hj. unfold mmul at 1. apply sum_real. intros l Hl. apply real_mul; [apply RVi; auto|].
    rewrite (meq_at _ _ _ _ (mmul_diag_l n n _ (ent V)) l j Hl Hj). apply real_mul; [apply vals_real; auto|apply RV; auto]. }
  assert (Ld : length (drss_vals (F := F) n) = n) by apply linspace_len.
  eexists. split.
  { unfold drss. rewrite E. cbn [rbind]. unfold dot at 1. cbn [diag nc nr ent]. rewrite Ld, h1, Nat.eqb_refl. cbn [rbind].
    unfold dot. cbn [nr nc ent]. rewrite i2, Nat.eqb_refl. cbn [rbind]. rewrite h2, i1. reflexivity. }
  unfold real_a. cbn [nr nc ent].
  assert (EA : meq n n (fun i j => kre (mmul n (ent Vi) (mmul n (mdiag (at1 (drss_vals n))) (ent V)) i j))
    (mmul n (ent Vi) (mmul n (mdiag (at1 (drss_vals n))) (ent V)))).
  { split. intros i j Hi Hj. apply kre_real. apply RA; auto. }
  split; [|split; [exact i4|split; [exact RVi|exact EA]]].
  unfold real_system. cbn [nr nc ent]. do 6 (split; [auto|]). split; [|split; auto].
  intros i j Hi Hj. apply real_kre.
Qed.

(** The eigenvalues are the evenly spaced numbers from 1/5 to 19/20. *)
Theorem C50_drss n m p V Vi B C : drss_draws n m p V Vi B C ->
  exists A, drss inv n V B C = Ok (A, B, C) /\ real_system n m p A B C /\
    forall lam, eigenvalue n (ent A) lam <->
      exists j, j < n /\ lam = N 1 / N 5 + N j * ((N 19 / N 20 - N 1 / N 5) / N (n - 1)).
Proof.
  intros H. destruct (drss_ok _ _ _ _ _ _ _ H) as (A & E & S & HV & _ & HA). exists A. split; [auto|]. split; [auto|].
  intros lam. rewrite (spectrum n _ _ _ _ HV HA).
  split; intros (j & Hj & ->); exists j; (split; [auto|]); [|symmetry]; apply linspace_at; auto.
Qed.
(** They are real, in the unit disc, and distinct. *)
Theorem C50_drss_stable n m p V Vi B C A : drss_draws n m p V Vi B C -> drss inv n V B C = Ok (A, B, C) ->
  (forall lam, eigenvalue n (ent A) lam -> real lam /\ klt_p 0 lam /\ klt_p lam 1) /\
  (forall i j, i < j < n -> exists x y, klt_p x y /\ eigenvalue n (ent A) x /\ eigenvalue n (ent A) y /\
     x = at1 (drss_vals n) i /\ y = at1 (drss_vals n) j).
Proof.
  intros H E'. destruct (drss_ok _ _ _ _ _ _ _ H) as (A' & E & S & HV & _ & HA). rewrite E in E'. injection E' as <-.
  split.
  - intros lam Hl. apply (spectrum n _ _ _ _ HV HA) in Hl. destruct Hl as (j & Hj & ->).
    pose proof (vals_real n j Hj) as R. destruct (vals_range n j Hj) as [L U]. split; auto.
    assert (R1 : real (N 1 / N 5)) by (apply frac_real; lia). assert (R2 : real (N 19 / N 20)) by (apply frac_real; lia).
    assert (D : forall x : F, x / N 1 = x) by (intros x; simpl; field; simpl; replace (0 + 1 : F) with (1 : F) by ring; apply one_neq_zero).
    split.
    + apply (lt_le_trans 0 (N 1 / N 5)); auto using real_0.
      pose proof (frac_lt (F := F) 0 1 1 5 ltac:(lia) ltac:(lia) ltac:(lia)) as G. rewrite (D (N 0)) in G. exact G.
    + apply (le_lt_trans _ (N 19 / N 20)); auto using real_1.
      pose proof (frac_lt (F := F) 19 20 1 1 ltac:(lia) ltac:(lia) ltac:(lia)) as G. rewrite (D (N 1)) in G.
      replace 1 with (N 1) by (simpl; ring). exact G.
  - intros i j Hj. exists (at1 (drss_vals n) i), (at1 (drss_vals n) j). split; [|split; [|split; [|auto]]].
    + apply linspace_mono; auto; [apply frac_real; lia|apply frac_real; lia|apply frac_lt; lia].
    + apply (spectrum n _ _ _ _ HV HA). exists i. split; [lia|auto].
    + apply (spectrum n _ _ _ _ HV HA). exists j. split; [lia|auto].
Qed.

(** One constant for all entries. *)
Lemma le_term n (f : nat -> F) i : (forall i, i < n -> real (f i)) -> (forall i, i < n -> kle 0 (f i)) -> i < n -> kle (f i) (sum n f).
Proof.
  intros R H Hi. induction n as [|n IH]; [lia|]. simpl.
  assert (Rs : real (sum n f)) by (apply sum_real; auto).
  destruct (Nat.eq_dec i n) as [->|Hn].
  - apply le_sub_2; auto using real_add. replace (sum n f + f n - f n) with (sum n f) by ring. apply sum_nonneg; auto.
  - apply (le_trans _ (sum n f)); auto using real_add; [apply IH; auto; lia|].
    apply le_sub_2; auto using real_add. replace (sum n f + f n - sum n f) with (f n) by ring. auto.
Qed.
Lemma uniform n m (b : nat -> nat -> F) : (forall i j, i < n -> j < m -> real (b i j)) -> (forall i j, i < n -> j < m -> kle 0 (b i j)) ->
  exists c, real c /\ kle 0 c /\ forall i j, i < n -> j < m -> kle (b i j) c.
Proof.
  intros R H. exists (sum n (fun i => sum m (b i))).
  assert (R1 : forall i, i < n -> real (sum m (b i))) by (intros; apply sum_real; auto).
  assert (H1 : forall i, i < n -> kle 0 (sum m (b i))) by (intros; apply sum_nonneg; auto).
  split; [apply sum_real; auto|]. split; [apply sum_nonneg; auto|]. intros i j Hi Hj.
  apply (le_trans _ (sum m (b i))); auto using sum_real.
  - apply le_term; auto.
  - apply (le_term n (fun i => sum m (b i))); auto.
Qed.

(** The powers of A decay at the rate 19/20. *)
Theorem C50_drss_decay n m p V Vi B C A : drss_draws n m p V Vi B C -> drss inv n V B C = Ok (A, B, C) ->
  exists c, real c /\ kle 0 c /\ forall k i j, i < n -> j < n ->
    kle (kabs (mpow n (ent A) k i j)) (c * pw (N 19 / N 20) k).
Proof.
  intros H E'. destruct (drss_ok _ _ _ _ _ _ _ H) as (A' & E & S & HV & RVi & HA). rewrite E in E'. injection E' as <-.
  assert (RV : real_mat n n (ent V)) by apply H.
  assert (Rq : real (N 19 / N 20)) by (apply frac_real; lia).
  assert (Hq : kle 0 (N 19 / N 20)).
  { left. rewrite div_def. apply lt_mul; [apply k_nat_real|apply real_inv; [apply k_nat_neq; lia|apply k_nat_real]|apply k_nat_pos; lia|].
    apply lt_inv; [apply k_nat_real|apply k_nat_pos; lia]. }
  destruct (uniform n n (fun i j => sum n (fun l => kabs (ent Vi i l * ent V l j)))) as (c & Rc & Pc & Hc).
  { intros. apply sum_real. intros. apply kabs_real, real_mul; auto. }
  { intros. apply sum_nonneg; intros; [apply kabs_real|apply kabs_nonneg]; apply real_mul; auto. }
  exists c. split; [auto|]. split; [auto|]. intros k i j Hi Hj.
  assert (RA : forall k i j, i < n -> j < n -> real (mpow n (ent A') k i j)).
  { clear - S. destruct S as (_ & _ & _ & _ & _ & _ & RA & _). induction k as [|k IH]; intros i j Hi Hj.
    - simpl. unfold mid. destruct (i =? j)%nat; [apply real_1|apply real_0].
    - simpl. unfold mmul. apply sum_real. intros. apply real_mul; auto. }
  apply (le_trans _ (sum n (fun l => kabs (ent Vi i l * ent V l j)) * pw (N 19 / N 20) k)).
  - apply kabs_real; auto.
  - apply real_mul; [|apply pw_real; auto]. apply sum_real. intros. apply kabs_real, real_mul; auto.
  - apply real_mul; auto using pw_real.
  - apply (decay n _ _ _ _ HV HA (N 19 / N 20)); auto. intros l Hl. destruct (vals_range n l Hl) as [L U].
    split; [apply vals_real; auto|]. split; [|auto].
    apply (le_trans 0 (N 1 / N 5)); auto using real_0, vals_real; [apply frac_real; lia|].
    left. rewrite div_def. apply lt_mul; [apply k_nat_real|apply real_inv; [apply k_nat_neq; lia|apply k_nat_real]|apply k_nat_pos; lia|].
    apply lt_inv; [apply k_nat_real|apply k_nat_pos; lia].
  - rewrite (kmul_comm (sum _ _)), (kmul_comm c). apply le_mul_l; auto using pw_real, pw_nonneg.
    apply sum_real. intros. apply kabs_real, real_mul; auto.
Qed.
(** So do the impulse responses, whatever their length. *)
Theorem C50_drss_impulse n m p V Vi B C A : drss_draws n m p V Vi B C -> drss inv n V B C = Ok (A, B, C) -> 0 < m ->
  exists c, real c /\ forall len, exists M, impulse A B C (Some len) = Ok M /\ a3_t M = len /\
    forall k i j, k < len -> i < p -> j < m -> kle (kabs (a3 M k i j)) (c * pw (N 19 / N 20) k).
Proof.
  intros H E' Hm. destruct (C50_drss_decay _ _ _ _ _ _ _ _ H E') as (c & Rc & Pc & Hc).
  destruct (drss_ok _ _ _ _ _ _ _ H) as (A' & E & S & _). rewrite E in E'. injection E' as <-.
  pose proof S as (_ & _ & _ & _ & _ & _ & RA & RB & RC).
  assert (RP : forall k i j, i < n -> j < n -> real (mpow n (ent A') k i j)).
  { clear - RA. induction k as [|k IH]; intros i j Hi Hj.
    - simpl. unfold mid. destruct (i =? j)%nat; [apply real_1|apply real_0].
    - simpl. unfold mmul. apply sum_real. intros. apply real_mul; auto. }
  assert (Rq : real (N 19 / N 20)) by (apply frac_real; lia).
  assert (Hq : kle 0 (N 19 / N 20)).
  { left. rewrite div_def. apply lt_mul; [apply k_nat_real|apply real_inv; [apply k_nat_neq; lia|apply k_nat_real]|apply k_nat_pos; lia|].
    apply lt_inv; [apply k_nat_real|apply k_nat_pos; lia]. }
  destruct (uniform p m (fun i j => sum n (fun a => kabs (ent C i a) * sum n (fun b => kabs (ent B b j))))) as (w & Rw & Pw & Hw).
  { intros. apply sum_real. intros. apply real_mul; [apply kabs_real; auto|]. apply sum_real. intros. apply kabs_real; auto. }
  { intros. apply sum_nonneg; intros.
    - apply real_mul; [apply kabs_real; auto|]. apply sum_real. intros. apply kabs_real; auto.
    - apply le_0_mul; [apply kabs_real; auto|apply sum_real; intros; apply kabs_real; auto|apply kabs_nonneg; auto|].
      apply sum_nonneg; intros; [apply kabs_real|apply kabs_nonneg]; auto. }
  exists (w * c). split; [apply real_mul; auto|]. intros len.
  destruct (C36_impulse n m p A' B C len S Hm) as (M & EM & M1 & _ & _ & HM).
  exists M. split; [auto|]. split; [auto|]. intros k i j Hk Hi Hj. rewrite (meq_at _ _ _ _ (HM k Hk) i j Hi Hj).
  set (Q := c * pw (N 19 / N 20) k).
  assert (RQ : real Q) by (apply real_mul; auto using pw_real).
  assert (PQ : kle 0 Q) by (apply le_0_mul; auto using pw_real, pw_nonneg).
  replace (w * c * pw (N 19 / N 20) k) with (w * Q) by (unfold Q; ring).
  assert (R2 : forall a, a < n -> real (mmul n (mpow n (ent A') k) (ent B) a j)).
  { intros a Ha. apply sum_real. intros. apply real_mul; auto. }
  assert (B2 : forall a, a < n -> kle (kabs (mmul n (mpow n (ent A') k) (ent B) a j)) (sum n (fun b => kabs (ent B b j)) * Q)).
  { intros a Ha. unfold mmul. 
    apply (le_trans _ (sum n (fun b => kabs (mpow n (ent A') k a b * ent B b j)))).
    - apply kabs_real, R2; auto.
    - apply sum_real. intros. apply kabs_real, real_mul; auto.
    - apply real_mul; auto. apply sum_real. intros; apply kabs_real; auto.
    - apply kabs_sum. intros. apply real_mul; auto.
    - rewrite <- sum_mul_r. apply sum_le.
      + intros. apply kabs_real, real_mul; auto.
      + intros. apply real_mul; auto. apply kabs_real; auto.
      + intros b Hb. rewrite kabs_mul by auto. rewrite kmul_comm.
        apply le_mul_l; auto using kabs_real, kabs_nonneg. apply Hc; auto. }
  unfold mmul at 1.
  apply (le_trans _ (sum n (fun a => kabs (ent C i a * mmul n (mpow n (ent A') k) (ent B) a j)))).
  - apply kabs_real, sum_real. intros. apply real_mul; auto.
  - apply sum_real. intros. apply kabs_real, real_mul; auto.
  - apply real_mul; auto.
  - apply kabs_sum. intros. apply real_mul; auto.
  - apply (le_trans _ (sum n (fun a => kabs (ent C i a) * sum n (fun b => kabs (ent B b j))) * Q)).
    + apply sum_real. intros. apply kabs_real, real_mul; auto.
    + apply real_mul; auto. apply sum_real. intros. apply real_mul; [apply kabs_real; auto|]. apply sum_real. intros; apply kabs_real; auto.
    + apply real_mul; auto.
    + rewrite <- sum_mul_r. apply sum_le.
      * intros. apply kabs_real, real_mul; auto.
      * intros. apply real_mul; auto. apply real_mul; [apply kabs_real; auto|]. apply sum_real. intros; apply kabs_real; auto.
      * intros a Ha. rewrite kabs_mul by auto.
        rewrite <- kmul_assoc. apply le_mul_l; auto using kabs_real, kabs_nonneg.
        apply real_mul; auto. apply sum_real. intros; apply kabs_real; auto.
    + rewrite (kmul_comm _ Q), (kmul_comm w). apply le_mul_l; auto.
      apply sum_real. intros. apply real_mul; [apply kabs_real; auto|]. apply sum_real. intros; apply kabs_real; auto.
Qed.

(** rss: the eigenvalues are the draws, negated. *)
Definition rss_draws (n : nat) (r : list F) (T Ti : arr F) : Prop :=
  length r = n /\ (forall x, In x r -> real x /\ kle 0 x /\ klt_p x 1) /\
  nr T = n /\ nc T = n /\ inv T = Ok Ti /\ inv_contract T Ti.
Theorem C50_rss n r T Ti B C : rss_draws n r T Ti ->
  exists A, rss inv r T B C = Ok (A, B, C) /\ nr A = n /\ nc A = n /\
    forall lam, eigenvalue n (ent A) lam <-> exists x, In x r /\ lam = - x.
Proof.
  intros (Lr & Hr & h1 & h2 & E & (i1 & i2 & i3 & i4)). rewrite h1 in i1, i2, i4.
  eexists. split.
  { unfold rss. rewrite E. cbn [rbind]. unfold dot at 1. cbn [diag nc nr ent]. rewrite map_length, Lr, i2, Nat.eqb_refl. cbn [rbind].
    unfold dot. cbn [nr nc ent]. rewrite h1, Nat.eqb_refl. cbn [rbind]. rewrite h2, i1. reflexivity. }
  cbn [nr nc ent]. split; [auto|]. split; [auto|].
  set (d := at1 (map (fun x => - x) r)). intros lam.
  rewrite (spectrum n d (ent T) (ent Ti) _ i4).
  - assert (Ed : forall j, j < n -> d j = - nth j r 0).
    { intros j Hj. unfold d, at1. rewrite (nth_indep _ _ (- 0)) by (rewrite map_length; lia).
      rewrite (map_nth (fun x => - x)). reflexivity. }
    split.
    + intros (j & Hj & ->). exists (nth j r 0). split; [apply nth_In; lia|auto].
    + intros (x & Hx & ->). destruct (In_nth r x 0 Hx) as (j & Hj & <-). exists j. rewrite Lr in Hj. split; [auto|]. rewrite Ed; auto.
  - rewrite mmul_assoc. reflexivity.
Qed.
(** They are in (-1, 0]. *)
Theorem C50_rss_range n r T Ti B C A lam : rss_draws n r T Ti -> rss inv r T B C = Ok (A, B, C) ->
  eigenvalue n (ent A) lam -> real lam /\ klt_p (- (1)) lam /\ kle lam 0 /\ (~ In 0 r -> klt_p lam 0).
Proof.
  intros H E' Hl. destruct (C50_rss n r T Ti B C H) as (A' & E & _ & _ & HA). rewrite E in E'. injection E' as <-.
  apply HA in Hl. destruct Hl as (x & Hx & ->). destruct H as (_ & Hr & _). destruct (Hr x Hx) as (R & L & U).
  split; [apply real_opp; auto|]. split; [|split].
  - apply lt_sub; [apply real_opp, real_1|apply real_opp; auto|].
    replace (- x - - (1)) with (1 - x) by ring. apply (proj1 (lt_sub x 1 R real_1) U).
  - rewrite <- opp_0. apply le_opp; auto using real_0.
  - intros Hn. destruct L as [L|L]; [|exfalso; apply Hn; rewrite L; auto].
    apply lt_opp; [apply real_opp; auto|]. rewrite opp_opp. exact L.
Qed.
(** "all eigenvalues are real and stable" (util.py:426): not if random() gives 0, which it
    can; A then has a rest point other than 0. *)
Theorem C50_rss_zero_refuted n r T Ti B C A : rss_draws n r T Ti -> rss inv r T B C = Ok (A, B, C) -> In 0 r ->
  exists x, (exists i, i < n /\ x i <> 0) /\ forall i, i < n -> mv n (ent A) x i = 0.
Proof.
  intros H E' H0. destruct (C50_rss n r T Ti B C H) as (A' & E & _ & _ & HA). rewrite E in E'. injection E' as <-.
  destruct (proj2 (HA 0)) as (x & Hx & Ex).
  - exists 0. split; [auto|ring].
  - exists x. split; [auto|]. intros i Hi. rewrite Ex by auto. ring.
Qed.
(** The draws can be singular. *)
Theorem C50_singular n r V B C e : inv V = Raise e ->
  drss inv n V B C = Raise e /\ rss inv r V B C = Raise e.
Proof. intros E. unfold drss, rss. rewrite E. auto. Qed.
End Props.

(** ** Examples *)
Definition rq (a : Z) (d : BinNums.positive) : QR := Qcanon.Q2Qc (QArith_base.Qmake a d).
Definition x_V : arr QR := of_rows 2 [[rq 1 1; rq 1 1]; [rq (-1) 2; rq 1 1]].
Definition x_Vi : arr QR := of_rows 2 [[rq 2 3; rq (-2) 3]; [rq 1 3; rq 2 3]].
Definition x_B : arr QR := of_rows 1 [[rq 1 1]; [rq 2 1]].
Definition x_C : arr QR := of_rows 2 [[rq 3 1; rq (-1) 1]].
Definition x_inv (_ : arr QR) : res (arr QR) := Ok x_Vi.
Lemma x_contract : inv_contract x_V x_Vi.
Proof. split; [reflexivity|]. split; [reflexivity|]. split; [reflexivity|]. apply meqb_true. vm_compute. reflexivity. Qed.
Lemma x_draws : drss_draws x_inv 2 1 1 x_V x_Vi x_B x_C.
Proof.
  split; [reflexivity|]. split; [reflexivity|]. split; [intros i j _ _; reflexivity|]. split; [reflexivity|].
  split; [apply x_contract|]. split; [reflexivity|]. split; [reflexivity|]. split; [intros i j _ _; reflexivity|].
  split; [reflexivity|]. split; [reflexivity|]. intros i j _ _; reflexivity.
Qed.
Example C50_drss_example : exists A, drss x_inv 2 x_V x_B x_C = Ok (A, x_B, x_C) /\ real_system 2 1 1 A x_B x_C /\
  forall lam, eigenvalue 2 (ent A) lam <-> lam = rq 1 5 \/ lam = rq 19 20.
Proof.
  destruct (C50_drss x_inv 2 1 1 x_V x_Vi x_B x_C x_draws) as (A & E & S & H). exists A. split; [exact E|]. split; [exact S|].
  intros lam. rewrite H.
  assert (E0 : (k_nat 1 / k_nat 5 + k_nat 0 * ((k_nat 19 / k_nat 20 - k_nat 1 / k_nat 5) / k_nat (2 - 1)))%K = rq 1 5)
    by (apply keqb_true; vm_compute; reflexivity).
  assert (E1 : (k_nat 1 / k_nat 5 + k_nat 1 * ((k_nat 19 / k_nat 20 - k_nat 1 / k_nat 5) / k_nat (2 - 1)))%K = rq 19 20)
    by (apply keqb_true; vm_compute; reflexivity).
  split.
  - intros (j & Hj & ->). destruct j as [|[|j]]; [left; exact E0|right; exact E1|lia].
  - intros [-> | ->]; [exists O|exists 1%nat]; (split; [lia|]); symmetry; [exact E0|exact E1].
Qed.
Definition x_A : arr QR :=
  match drss x_inv 2 x_V x_B x_C with Ok (A, _, _) => A | _ => zeros 0 0 end.
Lemma x_run : drss x_inv 2 x_V x_B x_C = Ok (x_A, x_B, x_C).
Proof. reflexivity. Qed.
(** The array itself. *)
Example C50_drss_array : meq 2 2 (ent x_A) (ent (of_rows 2 [[rq 9 20; rq (-1) 2]; [rq (-1) 4; rq 7 10]])).
Proof. apply meqb_true. vm_compute. reflexivity. Qed.
Example C50_drss_stable_example :
  (forall lam, eigenvalue 2 (ent x_A) lam -> real lam /\ klt_p (F := QR) 0 lam /\ klt_p lam 1) /\
  (forall i j, i < j < 2 -> exists x y, klt_p x y /\ eigenvalue 2 (ent x_A) x /\ eigenvalue 2 (ent x_A) y /\
     x = at1 (drss_vals 2) i /\ y = at1 (drss_vals 2) j).
Proof. exact (C50_drss_stable x_inv 2 1 1 x_V x_Vi x_B x_C x_A x_draws x_run). Qed.
Example C50_drss_decay_example : exists c : QR, real c /\ kle 0 c /\ forall k i j, i < 2 -> j < 2 ->
  kle (kabs (mpow 2 (ent x_A) k i j)) (c * pw (k_nat 19 / k_nat 20) k).
Proof. exact (C50_drss_decay x_inv 2 1 1 x_V x_Vi x_B x_C x_A x_draws x_run). Qed.
Example C50_drss_impulse_example : exists c : QR, real c /\ forall len, exists M, impulse x_A x_B x_C (Some len) = Ok M /\ a3_t M = len /\
  forall k i j, k < len -> i < 1 -> j < 1 -> kle (kabs (a3 M k i j)) (c * pw (k_nat 19 / k_nat 20) k).
Proof. exact (C50_drss_impulse x_inv 2 1 1 x_V x_Vi x_B x_C x_A x_draws x_run ltac:(lia)). Qed.
Lemma x_rdraws : rss_draws x_inv 2 [rq 1 2; rq 0 1] x_V x_Vi.
Proof.
  split; [reflexivity|]. split; [|split; [reflexivity|split; [reflexivity|split; [reflexivity|apply x_contract]]]].
  intros x [<-|[<-|[]]]; (split; [reflexivity|]); (split; [|reflexivity]); [left; reflexivity|right; apply keqb_true; vm_compute; reflexivity].
Qed.
Definition x_rA : arr QR :=
  match rss x_inv [rq 1 2; rq 0 1] x_V x_B x_C with Ok (A, _, _) => A | _ => zeros 0 0 end.
Lemma x_rrun : rss x_inv [rq 1 2; rq 0 1] x_V x_B x_C = Ok (x_rA, x_B, x_C).
Proof. reflexivity. Qed.
Example C50_rss_example : exists A, rss x_inv [rq 1 2; rq 0 1] x_V x_B x_C = Ok (A, x_B, x_C) /\ nr A = 2%nat /\ nc A = 2%nat /\
  forall lam, eigenvalue 2 (ent A) lam <-> exists x, In x [rq 1 2; rq 0 1] /\ lam = (- x)%K.
Proof. exact (C50_rss x_inv 2 _ x_V x_Vi x_B x_C x_rdraws). Qed.
Example C50_rss_range_example lam : eigenvalue 2 (ent x_rA) lam ->
  real lam /\ klt_p (F := QR) (- (1)) lam /\ kle lam 0 /\ (~ In (0 : QR) [rq 1 2; rq 0 1] -> klt_p lam 0).
Proof. exact (C50_rss_range x_inv 2 _ x_V x_Vi x_B x_C x_rA lam x_rdraws x_rrun). Qed.
Example C50_rss_zero_example :
  exists x : nat -> QR, (exists i, i < 2 /\ x i <> 0) /\ forall i, i < 2 -> mv 2 (ent x_rA) x i = 0.
Proof.
  apply (C50_rss_zero_refuted x_inv 2 _ x_V x_Vi x_B x_C x_rA x_rdraws x_rrun). right. left. apply keqb_true. vm_compute. reflexivity.
Qed.
Example C50_singular_example : drss (fun _ : arr QR => Raise LinAlgError) 2 x_V x_B x_C = Raise LinAlgError.
Proof. exact (proj1 (C50_singular _ 2 [] x_V x_B x_C LinAlgError eq_refl)). Qed.

Print Assumptions C50_drss.
Print Assumptions C50_drss_stable.
Print Assumptions C50_drss_decay.
Print Assumptions C50_drss_impulse.
Print Assumptions C50_rss.
Print Assumptions C50_rss_range.
Print Assumptions C50_rss_zero_refuted.
Print Assumptions C50_singular.
