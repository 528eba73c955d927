(** C56: main_CGL's input is the disturbance of unit energy that grows most, and the arrays
    it builds meet what C54_main_CGL asks for. *)
From Coq Require Import List Arith Lia Bool ZArith Field Ring Setoid Morphisms.
Import ListNotations.
From Verif Require Import Prelude Field FieldInst Matrix NdArray DecompModel DecompProofs VSArraysModel PodModel OptimalProofs
  TrapzModel TrapzProps Poly HermiteModel HermiteRoots HermiteProps CglModel CglProps CglInputModel CglInputProofs.
Open Scope nat_scope.
Open Scope k_scope.

Section Energy.
Context {F : sfield}.
Add Field Ff_energy : (k_field F).
Implicit Types u : nat -> F.

(** Energy of u in the inner product with weights w. *)
Definition energy (n : nat) (w : nat -> F) u : F := sum n (fun i => w i * ((u i)^* * u i)).
(** The state after i steps of u -> A u. *)
Definition evolve (n : nat) (A : mat F) (i : nat) u : nat -> F := Nat.iter i (fun u k => sum n (fun l => A k l * u l)) u.

Lemma evolve_mpow n A i u k : k < n -> evolve n A i u k = app n (mpow n A i) u k.
Proof.
  revert k. induction i as [|i IH]; intros k Hk.
  - symmetry. exact (app_mid n u k Hk).
  - change (sum n (fun l => A k l * evolve n A i u l) = app n (mmul n A (mpow n A i)) u k).
    rewrite app_mmul. apply sum_ext. intros l Hl. rewrite IH by auto. reflexivity.
Qed.
Lemma energy_ext n w u v : (forall i, i < n -> u i = v i) -> energy n w u = energy n w v.
Proof. intros H. apply sum_ext. intros i Hi. rewrite H by auto. reflexivity. Qed.

Lemma find_nonzero n (E T : mat F) : meq n n (mmul n T E) mid -> 0 < n -> exists i j, i < n /\ j < n /\ E i j <> 0.
Proof.
  intros H Hn. assert (D : forall m, m <= n -> (exists i, i < m /\ E i O <> 0) \/ forall i, i < m -> E i O = 0).
  { induction m as [|m IH]; intros Hm; [right; intros; lia|]. destruct (IH ltac:(lia)) as [(i & Hi & Z)|Z]; [left; exists i; auto|].
    destruct (k_dec F (E m O) 0) as [Zm|Zm]; [right|left; exists m; auto]. intros i Hi. destruct (Nat.eq_dec i m) as [->|]; auto. apply Z. lia. }
  destruct (D n (Nat.le_refl n)) as [(i & Hi & Z)|Z]; [exists i, O; auto|]. exfalso. apply (one_neq_zero (F := F)).
  transitivity (mmul n T E 0%nat 0%nat); [symmetry; apply (meq_at _ _ _ _ H); auto|]. apply sum_0. intros l Hl. rewrite Z by auto. ring.
Qed.

Section Optimal.
Variables (svd : arr F -> res (arr F * list F * arr F)) (sqrt : F -> F).
(** numpy.linalg.svd decomposes the arrays it is called on: A^i in the coordinates sqrt(w) u. *)
Definition svd_works (n : nat) (w : nat -> F) (A : mat F) (steps : nat) : Prop :=
  forall i G, 1 <= i <= steps -> nr G = n -> nc G = n ->
    (forall k l, k < n -> l < n -> ent G k l = sqrt (w k) * mpow n A i k l / sqrt (w l)) ->
    exists U S Vh, svd G = Ok (U, S, Vh) /\ svd_contract G U S Vh.

Lemma find_best weights Ad steps :
  let n := length weights in let w := at1 weights in
  (forall i, i < n -> real (w i) /\ klt_p 0 (w i) /\ sqrt_ok sqrt (w i)) -> 0 < n -> nr Ad = n -> nc Ad = n -> svd_works n w (ent Ad) steps ->
  exists e : F, real e /\ kle 0 e /\ (forall i u, 1 <= i <= steps -> kle (energy n w (evolve n (ent Ad) i u)) (e * e * energy n w u)) /\
    (optimal_disturbance svd sqrt weights Ad steps = Ok None /\ e = 0 \/
     exists B k, optimal_disturbance svd sqrt weights Ad steps = Ok (Some B) /\ klt_p 0 e /\ nr B = n /\ nc B = 1%nat /\ 1 <= k <= steps /\
       let b l := ent B l 0%nat in energy n w b = 1 /\ energy n w (evolve n (ent Ad) k b) = e * e /\
       exists e', real e' /\ kle 0 e' /\ klt_p e' e /\ forall i u, 1 <= i < k -> kle (energy n w (evolve n (ent Ad) i u)) (e' * e' * energy n w u)).
Proof.
  intros n w Hw Hn Ar Ac svd_ok. set (r i := sqrt (w i)).
  assert (Rr : forall i, i < n -> real (r i)) by (intros i Hi; apply Hw; auto).
  assert (Sr : forall i, i < n -> r i * r i = w i) by (intros i Hi; apply Hw; auto).
  assert (Nr : forall i, i < n -> r i <> 0).
  { intros i Hi E. destruct (Hw i Hi) as (R & P & _). apply (lt_neq 0 (w i)); auto using real_0. rewrite <- Sr, E by auto. ring. }
  assert (EN : forall u, energy n w u = nrm n (fun i => r i * u i)).
  { intros u. apply sum_ext. intros i Hi. rewrite conj_mul, (Rr i Hi), <- Sr by auto. ring. }
  unfold optimal_disturbance. set (Mi := diag (map (inv_sqrt sqrt) weights)).
  set (d := at1 (map sqrt weights)).
  assert (Ed : forall i, i < n -> d i = r i) by (intros i Hi; unfold d; rewrite at1_map by auto; reflexivity).
  assert (EM : diag (map sqrt weights) = Arr n n (mdiag d)) by (unfold diag; rewrite map_length; reflexivity).
  assert (EMi : forall i, i < n -> at1 (map (inv_sqrt sqrt) weights) i = 1 / r i) by (intros i Hi; rewrite at1_map by auto; reflexivity).
  assert (Mr : nr Mi = n) by apply map_length. assert (Mc : nc Mi = n) by apply map_length.
  assert (svd_ok' : forall i G, 1 <= i <= steps -> nr G = n -> nc G = n -> meq n n (ent G) (Gi n d Ad Mi i) ->
      exists U S Vh, svd G = Ok (U, S, Vh) /\ svd_contract G U S Vh).
  { intros i G Hi Gr Gc HG. apply (svd_ok i G Hi Gr Gc). intros k l Hk Hl. rewrite (meq_at _ _ _ _ HG k l Hk Hl). unfold Gi.
    change (ent Mi) with (mdiag (at1 (map (inv_sqrt sqrt) weights))).
    rewrite (meq_at _ _ _ _ (mmul_diag_l n n d _) k l Hk Hl), (meq_at _ _ _ _ (mmul_diag_r n n _ _) k l Hk Hl), Ed, EMi by auto.
    fold (r k) (r l). field. auto. }
  assert (EG : forall i u k, k < n -> app n (Gi n d Ad Mi i) (fun l => r l * u l) k = r k * evolve n (ent Ad) i u k).
  { intros i u k Hk. unfold Gi. rewrite app_mmul, app_diag, app_mmul, Ed, evolve_mpow by auto. f_equal.
    apply (app_ext n n); auto. intros l Hl. change (ent Mi) with (mdiag (at1 (map (inv_sqrt sqrt) weights))).
    rewrite app_diag, EMi by auto. field. auto. }
  assert (EE : forall i u, energy n w (evolve n (ent Ad) i u) = nrm n (app n (Gi n d Ad Mi i) (fun l => r l * u l))).
  { intros i u. rewrite EN. apply nrm_ext. intros k Hk. symmetry. apply EG. auto. }
  destruct (loop_ok svd n d Ad (diag (map sqrt weights)) Mi Hn Ar Ac EM Mr Mc steps svd_ok' steps 0 (eye n) (0, None))
    as ([e best] & EL & [I1 I2 I3 I4 I5]); auto.
  { reflexivity. }
  { split; cbn [fst snd]; auto using real_0, le_refl. - intros j Hj. lia. - discriminate. }
  cbn [fst snd Nat.add] in *. fold n. rewrite EL. cbn [rbind snd].
  exists e. do 2 (split; [auto|]). split; [intros i u Hi; rewrite EE, EN; apply (I3 i Hi)|].
  destruct best as [v|]; [right|left; auto]. destruct (I5 v eq_refl) as (V1 & V2 & V3 & V4 & k & K1 & K2 & e' & K3 & K4 & K5 & K6).
  unfold dot. rewrite Mc, V1, Nat.eqb_refl. cbn [rbind nr nc ent].
  eexists _, k. split; [reflexivity|]. cbn [nr nc ent]. do 4 (split; [auto|]).
  set (b := fun l => - mmul n (ent Mi) (ent v) l 0%nat). cbv zeta. change (fun l => - mmul n (ent Mi) (ent v) l 0%nat) with b.
  assert (Eb : forall l, l < n -> r l * b l = - ent v l 0%nat).
  { intros l Hl. unfold b. change (mmul n (ent Mi) (ent v) l 0%nat) with (app n (mdiag (at1 (map (inv_sqrt sqrt) weights))) (fun l => ent v l 0%nat) l).
    rewrite app_diag, EMi by auto. field. auto. }
  assert (NO : forall z, nrm n (fun i => - z i) = nrm (F := F) n z) by (intros z; apply sum_ext; intros; rewrite conj_opp; ring).
  split; [|split].
  - rewrite EN, (nrm_ext n _ _ Eb), NO. exact V4.
  - rewrite EE, <- K2, <- (NO (app n (Gi n d Ad Mi k) (fun l => ent v l 0%nat))). apply nrm_ext. intros i Hi.
    transitivity (app n (Gi n d Ad Mi k) (fun l => - ent v l 0%nat) i); [apply (app_ext n n); auto|].
    unfold app. rewrite <- sum_opp. apply sum_ext. intros; ring.
  - exists e'. do 3 (split; [auto|]). intros i u Hi. rewrite EE, EN. apply (K6 i Hi).
Qed.

Lemma energy_real n w u : (forall i, i < n -> real (w i)) -> real (energy n w u).
Proof. intros H. apply sum_real. intros i Hi. apply real_mul; auto using real_norm. Qed.

(** B has unit energy; no disturbance of unit energy has more energy at any of the times than
    B at some time k; before time k every one has less. *)
Theorem C56_optimal weights Ad steps :
  let n := length weights in let w := at1 weights in
  (forall i, i < n -> real (w i) /\ klt_p 0 (w i) /\ sqrt_ok sqrt (w i)) -> nr Ad = n -> nc Ad = n -> svd_works n w (ent Ad) steps ->
  0 < steps -> (exists i j, i < n /\ j < n /\ ent Ad i j <> 0) ->
  exists B k, optimal_disturbance svd sqrt weights Ad steps = Ok (Some B) /\ nr B = n /\ nc B = 1%nat /\ 1 <= k <= steps /\
    let grown := evolve n (ent Ad) in let b l := ent B l 0%nat in
    energy n w b = 1 /\
    (forall i u, 1 <= i <= steps -> kle (energy n w (grown i u)) (energy n w (grown k b) * energy n w u)) /\
    (forall i u, 1 <= i < k -> energy n w u = 1 -> klt_p (energy n w (grown i u)) (energy n w (grown k b))).
Proof.
  intros n w Hw Ar Ac svd_ok Hs (i0 & j0 & Hi0 & Hj0 & Hne).
  destruct (find_best weights Ad steps Hw ltac:(fold n; lia) Ar Ac svd_ok) as (e & Re & Pe & He & [[_ E0]|(B & k & EB & Lt & Br & Bc & Hk & E1 & E2 & e' & Re' & Pe' & Le & He')]).
  - exfalso. fold n w in He. specialize (He 1%nat (fun l => if (l =? j0)%nat then 1 else 0) ltac:(lia)). rewrite E0 in He.
    set (z := evolve _ _ _ _) in He.
    assert (R : real (energy n w z)) by (apply energy_real; intros; apply Hw; auto).
    assert (EN : energy n w z = nrm n (fun i => sqrt (w i) * z i)).
    { apply sum_ext. intros i Hi. destruct (Hw i Hi) as (_ & _ & R1 & _ & R2). rewrite conj_mul, R1, <- R2 at 1. ring. }
    assert (Z : energy n w z = 0).
    { apply le_antisym; auto using real_0.
      - replace 0 with (0 * 0 * energy n w (fun l => if (l =? j0)%nat then 1 else 0) : F) by ring. exact He.
      - rewrite EN. apply nrm_nonneg. }
    rewrite EN in Z. pose proof (nrm_0 n _ Z i0 Hi0) as Zi. cbv beta in Zi.
    apply Hne. destruct (Hw i0 Hi0) as (R1 & P1 & _ & _ & R2). apply mul_eq_0 in Zi.
    assert (Zz : z i0 = 0).
    { destruct Zi as [Zi|Zi]; [|exact Zi]. exfalso. apply (lt_neq 0 (w i0)); auto using real_0. transitivity (sqrt (w i0) * sqrt (w i0)); [rewrite Zi; ring|exact R2]. }
    rewrite <- Zz. unfold z, evolve. simpl. symmetry. rewrite (sum_delta n j0); auto.
    + rewrite Nat.eqb_refl. ring.
    + intros i Hi Hn. destruct (Nat.eqb_spec i j0); [contradiction|]. ring.
  - exists B, k. do 4 (split; [auto|]). cbv zeta in *. fold n w in E1, E2, He, He'. split; [auto|]. split.
    + intros i u Hi. rewrite E2. apply He. auto.
    + intros i u Hi Eu. rewrite E2. apply (le_lt_trans _ (e' * e')); auto using real_mul, sq_lt.
      * apply energy_real. intros; apply Hw; auto.
      * specialize (He' i u Hi). rewrite Eu in He'. replace (e' * e') with (e' * e' * 1) by ring. exact He'.
Qed.

(** No times, or nothing left after one step: optimal_dist is never set, and line 66 raises
    NameError. *)
Theorem C56_undefined weights Ad steps :
  let n := length weights in let w := at1 weights in
  (forall i, i < n -> real (w i) /\ klt_p 0 (w i) /\ sqrt_ok sqrt (w i)) -> 0 < n -> nr Ad = n -> nc Ad = n -> svd_works n w (ent Ad) steps ->
  (optimal_disturbance svd sqrt weights Ad steps = Ok None <-> steps = O \/ forall i j, i < n -> j < n -> ent Ad i j = 0).
Proof.
  intros n w Hw Hn Ar Ac svd_ok. split.
  - intros E. destruct steps as [|steps]; [left; reflexivity|right]. intros i j Hi Hj.
    destruct (k_dec F (ent Ad i j) 0) as [Z|Z]; [exact Z|exfalso].
    destruct (C56_optimal weights Ad (S steps) Hw Ar Ac svd_ok ltac:(lia)) as (B & k & E' & _); [exists i, j; auto|]. congruence.
  - intros H. destruct (find_best weights Ad steps Hw Hn Ar Ac svd_ok) as (e & Re & Pe & He & [[E _]|(B & k & EB & Lt & Br & Bc & Hk & E1 & E2 & _)]); [exact E|exfalso].
    cbv zeta in *. fold n w in E2. destruct H as [->|H]; [lia|]. destruct k as [|k]; [lia|].
    apply (lt_neq 0 (e * e)); auto using real_0, real_mul.
    + apply (lt_mul F); auto.
    + rewrite <- E2. unfold energy. symmetry. apply sum_0. intros i Hi.
      assert (Z : evolve n (ent Ad) (S k) (fun l => ent B l 0%nat) i = 0).
      { change (sum n (fun l => ent Ad i l * evolve n (ent Ad) k (fun l => ent B l 0%nat) l) = 0).
        apply sum_0. intros l Hl. rewrite H by auto. ring. }
      rewrite Z. ring.
Qed.

(** The whole set-up: the grid increases, A is the Ginzburg-Landau operator, B the optimal
    disturbance for the powers of exp(A dt), and C u the integral of u times the Gaussian at x_s.
    expm is only taken to return an invertible array. *)
Theorem C56_setup exp eigvalsh expm nx b nu gamma mu_c mu_2 dt x_s s wj V :
  (forall t, real t -> kle 0 t -> sqrt_ok sqrt t) -> (forall t, exp t <> 0) -> 2 <= nx -> real b -> klt_p 0 b ->
  eigvalsh (jacobi sqrt nx) = Ok wj -> eigh_contract (jacobi sqrt nx) wj V ->
  (forall M, nr M = nx -> nc M = nx -> exists E, expm M = Ok E /\ nr E = nx /\ nc E = nx /\ regular nx (ent E)) ->
  let g y := exp (- (b * y * (b * y)) / (1 + 1)) in
  let gaussian z := exp (- ((z - x_s) / s * ((z - x_s) / s))) in
  exists x A E, let w := weight x in
    length x = nx /\ (forall i, real (at1 x i)) /\ strictly_increasing x /\ (forall t, In t x <-> ev (hermite nx) (b * t) = 0) /\
    differentiates x (fun j => g (at1 x j))
      (fun k P => let d := wderiv (b * b) in let z := at1 x k in
        g z * (- nu * ev (d P) z + gamma * ev (d (d P)) z + (mu_c + mu_2 * (z * z) / (1 + 1)) * ev P z)) A /\
    expm (Arr nx nx (fun i j => dt * ent A i j)) = Ok E /\
    (svd_works nx w (ent E) 99 -> exists B C k,
      cgl_setup svd sqrt exp eigvalsh expm nx b nu gamma mu_c mu_2 dt x_s s = Ok (x, A, Some B, C) /\
      nr B = nx /\ nc B = 1%nat /\ nr C = 1%nat /\ nc C = nx /\ 1 <= k <= 99 /\
      let grown := evolve nx (ent E) in let beta l := ent B l 0%nat in
      energy nx w beta = 1 /\
      (forall i u, 1 <= i <= 99 -> kle (energy nx w (grown i u)) (energy nx w (grown k beta) * energy nx w u)) /\
      (forall i u, 1 <= i < k -> energy nx w u = 1 -> klt_p (energy nx w (grown i u)) (energy nx w (grown k beta))) /\
      forall u : nat -> F, sum nx (fun j => ent C 0%nat j * u j) = sum nx (fun j => w j * (gaussian (at1 x j) * u j))).
Proof.
  intros Hsq He Hnx Rb Pb Ew eig Hexpm g gaussian.
  assert (sqn : forall i, sqrt_ok sqrt (num i)) by (intros i; apply Hsq; auto using num_real, num_nonneg).
  assert (Nb : b <> 0) by (intros E; apply (lt_neq 0 b); auto using real_0).
  destruct (C55_herdif sqrt exp eigvalsh sqn nx 2 b wj V ltac:(lia) ltac:(lia) Nb He Ew eig) as (x & Ds & E1 & Lx & Nx & Rx & Ry & Inc & LD & _).
  destruct (C55_operator sqrt exp eigvalsh sqn nx 2 b wj V nu gamma mu_c mu_2 ltac:(lia) ltac:(lia) Nb He Ew eig) as (x' & Ds' & A & E2 & EA & HA).
  assert (Ex : (x', Ds') = (x, Ds)) by congruence. injection Ex as -> ->.
  assert (Ar : nr A = nx) by (rewrite <- Lx; apply HA). assert (Ac : nc A = nx) by (rewrite <- Lx; apply HA).
  destruct (Hexpm (Arr nx nx (fun i j => dt * ent A i j)) eq_refl eq_refl) as (E & EE & Er & Ec & (T & HT)).
  assert (Rat : forall i, real (at1 x i)).
  { intros i. destruct (Nat.lt_ge_cases i (length x)) as [L|L].
    - apply (Ry Rb). apply nth_In. auto.
    - unfold at1. rewrite nth_overflow by auto. apply real_0. }
  assert (SI : strictly_increasing x) by (split; [lia|intros i Hi; apply (Inc Rb Pb); lia]).
  exists x, A, E. cbv zeta. do 4 (split; [auto|]). split; [exact HA|]. split; [exact EE|]. intros Hsvd.
  destruct (proj2 (C54_weights x) ltac:(lia)) as (w & Ecw & _ & Lw & Hw).
  assert (Pw : forall i, i < nx -> real (at1 w i) /\ klt_p 0 (at1 w i) /\ sqrt_ok sqrt (at1 w i)).
  { intros i Hi. rewrite Hw by lia. assert (R : real (weight x i)) by (apply weight_real; auto).
    assert (P : kle 0 (weight x i)). { apply weight_nonneg; auto; [lia|]. intros j Hj. left. apply SI. auto. }
    split; [auto|]. split; [|auto]. destruct P as [P|P]; [exact P|]. exfalso. symmetry in P. revert P. apply weight_pos; auto. lia. }
  assert (EN : forall u, energy nx (at1 w) u = energy nx (weight x) u) by (intros u; apply sum_ext; intros i Hi; rewrite Hw by lia; reflexivity).
  destruct (C56_optimal w E 99) as (B & k & EB & Br & Bc & Hk & B1 & B2 & B3).
  { rewrite Lw, Lx. exact Pw. }
  { congruence. } { congruence. }
  { intros i G Hi Gr Gc HG. rewrite Lw, Lx in *. apply (Hsvd i G Hi Gr Gc). intros a c Ha Hc. rewrite HG, !Hw by lia. reflexivity. }
  { lia. }
  { rewrite Lw, Lx. destruct (find_nonzero nx (ent E) T HT ltac:(lia)) as (i & j & H). exists i, j. exact H. }
  rewrite Lw, Lx in *. cbv zeta in *.
  assert (EO : exists C, cgl_output exp x w x_s s = Ok C /\ nr C = 1%nat /\ nc C = nx /\ forall j, j < nx -> ent C 0%nat j = gaussian (at1 x j) * weight x j).
  { unfold cgl_output, dot. cbn [nc nr diag]. rewrite Lx, Lw, Nat.eqb_refl. eexists. split; [reflexivity|]. cbn [nr nc ent].
    split; [auto|]. split; [auto|]. intros j Hj. rewrite (meq_at _ _ _ _ (mmul_diag_r 1 nx (at1 w) _) 0%nat j Nat.lt_0_1 Hj), Hw by lia. reflexivity. }
  destruct EO as (C & EC & Cr & Cc & HC).
  exists B, C, k. split.
  { unfold cgl_setup. rewrite E1. cbn [rbind fst snd]. rewrite Ecw. cbn [rbind]. rewrite EA. cbn [rbind]. rewrite Ar, Ac.
    change (mscale dt (ent A)) with (fun i j => dt * ent A i j). rewrite EE. cbn [rbind]. rewrite EB. cbn [rbind]. rewrite EC. reflexivity. }
  do 5 (split; [auto|]). split; [rewrite <- EN; auto|].
  split; [intros i u Hi; rewrite <- !EN; auto|]. split; [intros i u Hi Hu; rewrite <- !EN in *; auto|].
  intros u. apply sum_ext. intros j Hj. rewrite HC by auto. ring.
Qed.
(** Fewer than two points. *)
Theorem C56_small exp eigvalsh expm nx b nu gamma mu_c mu_2 dt x_s s wj V :
  (forall i, sqrt_ok sqrt (num i)) -> (forall t, exp t <> 0) -> nx < 2 -> b <> 0 ->
  eigvalsh (jacobi sqrt 1) = Ok wj -> eigh_contract (jacobi sqrt 1) wj V ->
  cgl_setup svd sqrt exp eigvalsh expm nx b nu gamma mu_c mu_2 dt x_s s = Raise IndexError.
Proof.
  intros sqn He Hnx Nb Ew eig.
  assert (EH : herdif sqrt exp eigvalsh nx 2 b = herdif sqrt exp eigvalsh 1 2 b) by (destruct nx as [|[|nx]]; [reflexivity|reflexivity|lia]).
  destruct (C55_herdif sqrt exp eigvalsh sqn 1 2 b wj V ltac:(lia) ltac:(lia) Nb He Ew eig) as (x & Ds & E1 & Lx & _).
  unfold cgl_setup. rewrite EH, E1. cbn [rbind fst]. rewrite (proj1 (proj1 (C54_weights x) ltac:(lia))). reflexivity.
Qed.
End Optimal.
End Energy.
