(** C55: the differentiation arrays of examples/hermite.py. *)
From Coq Require Import List Arith Lia Bool ZArith Field Ring.
Import ListNotations.
From Verif Require Import Prelude Field FieldInst Matrix NdArray DecompModel PodModel HermiteModel Poly HermiteProofs HermiteRoots.
Open Scope nat_scope.
Open Scope k_scope.

Section Props.
Context {F : sfield}.
Add Field Ff_c55 : (k_field F).

(** The array D takes the values of weight times polynomial at the nodes to values of the
    l-th derivative, and is the only n x n array that does. *)
Definition differentiates (x : list F) (weight : nat -> F) (derivative : nat -> list F -> F) (D : arr F) : Prop :=
  let n := length x in
  let exact (E : mat F) := forall p k, length p <= n -> k < n ->
    sum n (fun j => E k j * (weight j * ev p (at1 x j))) = derivative k p in
  nr D = n /\ nc D = n /\ exact (ent D) /\ forall E : mat F, exact E -> meq n n E (ent D).

Lemma NoDup_at (x : list F) i j : NoDup x -> i < j -> j < length x -> at1 x i <> at1 x j.
Proof. intros N Hi Hj E. rewrite (NoDup_nth x 0) in N. specialize (N i j ltac:(lia) ltac:(lia) E). lia. Qed.

(** With weights: [a k i] is the i-th derivative of the weight at node k; alpha and B are
    given as the documentation asks.  Derivatives of products are by the general Leibniz
    formula. *)
Theorem C55_poldif (x alpha : list F) (B : arr F) (a : nat -> nat -> F) :
  let n := length x in
  0 < n -> NoDup x -> length alpha = n -> nc B = n ->
  (forall k, k < n -> at1 alpha k <> 0 /\ a k O = at1 alpha k /\
    forall i, i < nr B -> ent B i k = a k (S i) / a k O) ->
  exists Dm, poldif x None (Some alpha) (Some B) = Ok Dm /\ length Dm = nr B /\
    forall l, 1 <= l <= nr B ->
      differentiates x (at1 alpha) (fun k p => leibniz (a k) (fun i => ev (Nat.iter i deriv p) (at1 x k)) l) (nth (l - 1) Dm (eye 0)).
Proof.
  intros n Hn Nx La Lb H.
  assert (W : forall k, k < n -> wt alpha k = at1 alpha k).
  { intros k Hk. unfold wt. destruct (Nat.eqb_spec (length alpha) 1); [|auto]. assert (k = O) as -> by lia. auto. }
  unfold poldif. fold n. destruct (Nat.eqb_spec n 0); [lia|]. rewrite La, Lb, !Nat.eqb_refl. simpl negb. rewrite andb_false_r.
  eexists. split; [reflexivity|].
  destruct (poldif_core x alpha (ent B) (nr B) a Hn) as (El & Es).
  - intros i j Hi Hj. apply NoDup_at; auto.
  - intros k Hk. rewrite W by auto. apply H; auto.
  - intros k Hk. rewrite W by auto. apply H; auto.
  - intros i k Hi Hk. apply H; auto.
  - split; [exact El|]. intros l Hl. destruct (Es l Hl) as (E1 & E2 & E3 & E4). clear Es.
    assert (Q : forall (E : mat F) p k, sum n (fun j => E k j * (at1 alpha j * ev p (at1 x j))) = sum n (fun j => E k j * (wt alpha j * ev p (at1 x j)))).
    { intros E p k. apply sum_ext. intros j Hj. rewrite W by auto. reflexivity. }
    split; [exact E1|]. split; [exact E2|]. split.
    + intros p k Hp Hk. fold n. rewrite Q. apply E3; auto.
    + intros E HE. apply E4. intros p k Hp Hk. fold n. rewrite <- Q. apply HE; auto.
Qed.

(** Without: polynomials of degree less than the number of nodes are differentiated exactly,
    whatever the number of derivatives. *)
Theorem C55_poldif_constant (x : list F) m :
  0 < length x -> NoDup x ->
  exists Dm, poldif x (Some m) None None = Ok Dm /\ length Dm = m /\
    forall l, 1 <= l <= m ->
      differentiates x (fun _ => 1) (fun k p => ev (Nat.iter l deriv p) (at1 x k)) (nth (l - 1) Dm (eye 0)).
Proof.
  intros Hn Nx. set (n := length x) in *.
  assert (W : forall k, k < n -> wt (repeat 1 n) k = 1 :> F).
  { intros k Hk. unfold wt. rewrite repeat_length. unfold at1. destruct (Nat.eqb_spec n 1) as [->|]; [reflexivity|].
    rewrite (nth_indep _ 0 1) by (rewrite repeat_length; auto). apply nth_repeat. }
  unfold poldif. fold n. destruct (Nat.eqb_spec n 0); [lia|]. rewrite repeat_length. simpl nc. rewrite !Nat.eqb_refl. simpl negb. rewrite andb_false_r.
  eexists. split; [reflexivity|].
  set (a := fun (k i : nat) => if (i =? 0)%nat then 1 else 0 : F).
  destruct (poldif_core x (repeat 1 n) (ent (zeros m n)) m a Hn) as (El & Es).
  - intros i j Hi Hj. apply NoDup_at; auto.
  - intros k Hk. rewrite W by auto. apply one_neq_zero.
  - intros k Hk. rewrite W by auto. reflexivity.
  - intros i k Hi Hk. unfold a. simpl. unfold mzero. field. apply one_neq_zero.
  - split; [exact El|]. intros l Hl. destruct (Es l Hl) as (E1 & E2 & E3 & E4). clear Es.
    assert (J : forall k p, Jd x a k l p = ev (Nat.iter l deriv p) (at1 x k)).
    { intros k p. unfold Jd, leibniz. rewrite sum_S_l, binom_0. rewrite sum_0; [|intros; unfold a; simpl; ring].
      replace (l - 0)%nat with l by lia. unfold a, dv. simpl. ring. }
    assert (Q : forall (E : mat F) p k, sum n (fun j => E k j * (1 * ev p (at1 x j))) = sum n (fun j => E k j * (wt (repeat 1 n) j * ev p (at1 x j)))).
    { intros E p k. apply sum_ext. intros j Hj. rewrite W by auto. reflexivity. }
    split; [exact E1|]. split; [exact E2|]. split.
    + intros p k Hp Hk. fold n. rewrite Q, <- J. apply E3; auto.
    + intros E HE. apply E4. intros p k Hp Hk. fold n. rewrite <- Q, J. apply HE; auto.
Qed.

(** Other combinations of keyword arguments are refused, and so are no nodes. *)
Theorem C55_keywords (x : list F) m alpha B :
  (poldif x m alpha B = Raise RuntimeError <->
    ~ (m <> None /\ alpha = None /\ B = None) /\ ~ (m = None /\ alpha <> None /\ B <> None)) /\
  (x = [] -> poldif x m alpha B = Raise ValueError \/ poldif x m alpha B = Raise RuntimeError).
Proof.
  split.
  - destruct m as [m|], alpha as [alpha|], B as [B|]; simpl.
    all: try (split; [intros _; split; intros (H1 & H2 & H3); congruence|reflexivity]).
    all: split; [|intros (H1 & H2); exfalso; first [apply H1; repeat split; congruence|apply H2; repeat split; congruence]].
    all: repeat match goal with |- context [if ?b then _ else _] => destruct b end; discriminate.
  - intros ->. destruct m as [m|], alpha as [alpha|], B as [B|]; simpl; auto.
Qed.

Section Her.
Variables (sqrt exp : F -> F) (eigvalsh : arr F -> res (list F)).
Hypothesis sqrt_num : forall i, sqrt_ok sqrt (num i).

(** The nodes are exactly the roots of the Hermite polynomial, in increasing order. *)
Theorem C55_herroots n w V :
  0 < n -> eigvalsh (jacobi sqrt n) = Ok w -> eigh_contract (jacobi sqrt n) w V ->
  exists x, herroots sqrt eigvalsh n = Ok x /\ length x = n /\ (forall t, In t x -> real t) /\
    (forall i j, i < j -> j < n -> klt_p (at1 x i) (at1 x j)) /\
    forall t, In t x <-> ev (hermite n) t = 0.
Proof.
  intros Hn Ew eig. destruct (herroots_ok sqrt eigvalsh n w V Hn sqrt_num Ew eig) as (x & E & L & N & R & S & H).
  exists x. do 2 (split; [auto|]). split; [apply Forall_forall; exact R|]. auto.
Qed.

(** The arrays of herdif differentiate exp(-(b y)^2/2) times polynomials of degree < n at
    the roots divided by b: the derivative of that weight times P is the weight times
    P' - b^2 y P. *)
Theorem C55_herdif n m b w V :
  0 < n -> 0 < m -> b <> 0 -> (forall t, exp t <> 0) ->
  eigvalsh (jacobi sqrt n) = Ok w -> eigh_contract (jacobi sqrt n) w V ->
  let g y := exp (- (b * y * (b * y)) / (1 + 1)) in
  exists y Ds, herdif sqrt exp eigvalsh n m b = Ok (y, Ds) /\
    length y = n /\ NoDup y /\
    (forall t, In t y <-> ev (hermite n) (b * t) = 0) /\
    (real b -> forall t, In t y -> real t) /\
    (real b -> klt_p 0 b -> forall i j, i < j -> j < n -> klt_p (at1 y i) (at1 y j)) /\
    length Ds = m /\
    forall l, 1 <= l <= m ->
      differentiates y (fun j => g (at1 y j))
        (fun k P => g (at1 y k) * ev (Nat.iter l (wderiv (b * b)) P) (at1 y k)) (nth (l - 1) Ds (eye 0)).
Proof.
  intros Hn Hm Hb He Ew eig g.
  destruct (herroots_ok sqrt eigvalsh n w V Hn sqrt_num Ew eig) as (x & E & L & N & R & S & H).
  unfold herdif. rewrite E. cbn [rbind]. destruct (Nat.eqb_spec m 0); [lia|].
  set (alpha := map (fun v => exp (- (v * v) / (1 + 1))) x). set (B := Arr m (length x) (fun i k => beta (at1 x k) (Datatypes.S i))).
  assert (La : length alpha = length x) by apply map_length.
  assert (Aa : forall k, k < n -> at1 alpha k = exp (- (at1 x k * at1 x k) / (1 + 1))).
  { intros k Hk. unfold alpha. rewrite at1_map by lia. reflexivity. }
  destruct (C55_poldif x alpha B (fun k i => at1 alpha k * beta (at1 x k) i)) as (Dm & ED & LD & HD); auto; [lia| |].
  { intros k Hk. rewrite L in Hk. assert (Na : at1 alpha k <> 0) by (rewrite Aa by auto; apply He). split; [auto|].
    split; [simpl; ring|]. intros i Hi. unfold B. cbn [ent]. change (beta (at1 x k) 0) with (1 : F). field. auto. }
  rewrite ED. cbn [rbind]. set (y := map (fun v => v / b) x).
  set (Ds := map (fun iD => Arr (nr (snd iD)) (nc (snd iD)) (mscale (kpow b (fst iD)) (ent (snd iD)))) (combine (seq 1 m) Dm)).
  simpl nr in LD. exists y, Ds. split; [reflexivity|].
  assert (Ly : length y = n) by (unfold y; rewrite map_length; auto). split; [auto|].
  assert (Ay : forall k, k < n -> at1 y k = at1 x k / b) by (intros k Hk; unfold y; rewrite at1_map by lia; reflexivity).
  assert (Ax : forall k, k < n -> at1 x k = b * at1 y k) by (intros k Hk; rewrite Ay by auto; field; auto).
  split. { unfold y. apply FinFun.Injective_map_NoDup; auto. intros u v Euv. transitivity (u / b * b); [field; auto|]. rewrite Euv. field. auto. }
  split. { intros t. rewrite <- H. unfold y. rewrite in_map_iff. split.
    - intros (v & <- & Hv). replace (b * (v / b)) with v by (field; auto). auto.
    - intros Ht. exists (b * t). split; [field; auto|auto]. }
  split. { intros Rb t. unfold y. rewrite in_map_iff. intros (v & <- & Hv). rewrite Forall_forall in R. apply real_div; auto. }
  split. { intros Rb Pb i j Hi Hj. rewrite !Ay by lia. 
    assert (Rx : forall k, k < n -> real (at1 x k)) by (intros k Hk; rewrite Forall_forall in R; apply R; apply nth_In; lia).
    apply lt_div; [apply real_div; auto; apply Rx; lia|apply Rx; lia|auto|auto|].
    replace (at1 x i / b * b) with (at1 x i) by (field; auto). apply S; auto. }
  split. { unfold Ds. rewrite map_length, combine_length, seq_length. lia. }
  intros l Hl. simpl nr in HD. destruct (HD l Hl) as (E1 & E2 & E3 & E4). clear HD.
  assert (ND : nth (l - 1) Ds (eye 0) = let D := nth (l - 1) Dm (eye 0) in Arr (nr D) (nc D) (mscale (kpow b l) (ent D))).
  { unfold Ds. set (f := fun iD : nat * arr F => Arr (nr (snd iD)) (nc (snd iD)) (mscale (kpow b (fst iD)) (ent (snd iD)))).
    rewrite (nth_indep _ (eye 0) (f (O, eye 0))) by (rewrite map_length, combine_length, seq_length; lia).
    rewrite map_nth, combine_nth by (rewrite seq_length; lia). rewrite seq_nth by lia. replace (1 + (l - 1))%nat with l by lia. reflexivity. }
  rewrite ND. cbv zeta. set (D := nth (l - 1) Dm (eye 0)) in *. unfold differentiates. rewrite Ly. rewrite L in *.
  pose proof (kpow_neq_0 b l Hb) as Np.
  assert (G : forall k, k < n -> at1 alpha k = g (at1 y k)) by (intros k Hk; rewrite Aa, (Ax k) by auto; reflexivity).
  assert (V1 : forall P k, k < n -> ev (psub (1 / b) P) (at1 x k) = ev P (at1 y k)).
  { intros P k Hk. rewrite psub_ev, Ay by auto. f_equal. field. auto. }
  assert (K : forall P k, k < n -> kpow b l * leibniz (fun i => at1 alpha k * beta (at1 x k) i)
      (fun i => ev (Nat.iter i deriv (psub (1 / b) P)) (at1 x k)) l = g (at1 y k) * ev (Nat.iter l (wderiv (b * b)) P) (at1 y k)).
  { intros P k Hk. rewrite leibniz_scale_l.
    change (fun i => ev (Nat.iter i deriv (psub (1 / b) P)) (at1 x k)) with (fun i => dv i (psub (1 / b) P) (at1 x k)).
    rewrite beta_ok, G, Ay by auto. rewrite <- wderiv_scaled by auto. ring. }
  assert (S1 : forall (E0 : mat F) P k, sum n (fun j => E0 k j * (at1 alpha j * ev (psub (1 / b) P) (at1 x j))) =
      sum n (fun j => E0 k j * (g (at1 y j) * ev P (at1 y j)))).
  { intros E0 P k. apply sum_ext. intros j Hj. rewrite G, V1 by auto. reflexivity. }
  split; [exact E1|]. split; [exact E2|]. split.
  - intros P k HP Hk. cbn [ent]. rewrite <- K by auto. rewrite <- (E3 (psub (1 / b) P) k) by (rewrite ?psub_length; auto).
    rewrite S1, <- sum_mul_l. apply sum_ext. intros j Hj. unfold mscale. ring.
  - intros E0 HE0. cbn [ent].
    assert (E5 : meq n n (mscale (1 / kpow b l) E0) (ent D)).
    { apply E4. intros p k Hp Hk.
      assert (EP : exists P, length P <= n /\ psub (1 / b) P = p).
      { exists (psub b p). rewrite psub_length. split; [auto|]. clear - Hb.
        induction p as [|c p IH]; simpl; auto. rewrite psub_pscale, IH, pscale_pscale. f_equal.
        replace (1 / b * b) with (1 : F) by (field; auto). unfold pscale. rewrite <- (map_id p) at 2. apply map_ext. intros; ring. }
      destruct EP as (P & HP & <-).
      transitivity (1 / kpow b l * sum n (fun j => E0 k j * (at1 alpha j * ev (psub (1 / b) P) (at1 x j)))).
      { rewrite <- sum_mul_l. apply sum_ext. intros j Hj. unfold mscale. ring. }
      rewrite S1, HE0 by auto. rewrite <- K by auto. field. auto. }
    split. intros i j Hi Hj. unfold mscale in *. rewrite <- (meq_at _ _ _ _ E5 i j Hi Hj). field. auto.
Qed.

(** No derivatives cannot be asked for, and no nodes are one node. *)
Theorem C55_limits n m b : (forall x, herroots sqrt eigvalsh n = Ok x -> herdif sqrt exp eigvalsh n 0 b = Raise IndexError) /\
  herdif sqrt exp eigvalsh 0 m b = herdif sqrt exp eigvalsh 1 m b.
Proof. split; [|reflexivity]. intros x E. unfold herdif. rewrite E. reflexivity. Qed.

(** The operator of main_CGL is the Ginzburg-Landau operator - nu d/dx + gamma d^2/dx^2 + mu
    on such functions. *)
Theorem C55_operator n m b w V nu gamma mu_c mu_2 :
  0 < n -> 2 <= m -> b <> 0 -> (forall t, exp t <> 0) ->
  eigvalsh (jacobi sqrt n) = Ok w -> eigh_contract (jacobi sqrt n) w V ->
  let g y := exp (- (b * y * (b * y)) / (1 + 1)) in
  exists y Ds A, herdif sqrt exp eigvalsh n m b = Ok (y, Ds) /\ cgl_operator y Ds nu gamma mu_c mu_2 = Ok A /\
    differentiates y (fun j => g (at1 y j))
      (fun k P => let d := wderiv (b * b) in let z := at1 y k in
        g z * (- nu * ev (d P) z + gamma * ev (d (d P)) z + (mu_c + mu_2 * (z * z) / (1 + 1)) * ev P z)) A.
Proof.
  intros Hn Hm Hb He Ew eig g.
  destruct (C55_herdif n m b w V Hn ltac:(lia) Hb He Ew eig) as (y & Ds & E & Ly & Ny & _ & _ & _ & LD & HD).
  destruct (HD 1%nat ltac:(lia)) as (_ & _ & X1 & _). destruct (HD 2%nat ltac:(lia)) as (_ & _ & X2 & _). 
  destruct Ds as [|D1 [|D2 Ds]]; simpl in LD; try lia.
  eexists y, _, _. split; [exact E|]. split; [reflexivity|].
  simpl nth in X1, X2. rewrite Ly in *.
  change (forall P k, length P <= n -> k < n -> sum n (fun j => ent D1 k j * (g (at1 y j) * ev P (at1 y j))) = g (at1 y k) * ev (wderiv (b * b) P) (at1 y k)) in X1.
  change (forall P k, length P <= n -> k < n -> sum n (fun j => ent D2 k j * (g (at1 y j) * ev P (at1 y j))) = g (at1 y k) * ev (wderiv (b * b) (wderiv (b * b) P)) (at1 y k)) in X2.
  unfold differentiates. rewrite Ly. cbv zeta.
  set (A := madd _ _).
  assert (X : forall P k, length P <= n -> k < n -> sum n (fun j => A k j * (g (at1 y j) * ev P (at1 y j))) =
    g (at1 y k) * (- nu * ev (wderiv (b * b) P) (at1 y k) + gamma * ev (wderiv (b * b) (wderiv (b * b) P)) (at1 y k) +
      (mu_c + mu_2 * (at1 y k * at1 y k) / (1 + 1)) * ev P (at1 y k))).
  { intros P k HP Hk. specialize (X1 P k HP Hk). specialize (X2 P k HP Hk).
    set (mu := fun k => mu_c + mu_2 * (at1 y k * at1 y k) / (1 + 1)) in *. change (mu_c + mu_2 * (at1 y k * at1 y k) / (1 + 1)) with (mu k).
    transitivity (- nu * sum n (fun j => ent D1 k j * (g (at1 y j) * ev P (at1 y j))) + gamma * sum n (fun j => ent D2 k j * (g (at1 y j) * ev P (at1 y j))) +
      sum n (fun j => mdiag mu k j * (g (at1 y j) * ev P (at1 y j)))).
    - rewrite <- !sum_mul_l, <- !sum_add. apply sum_ext. intros j Hj. unfold A, madd, mscale. fold mu. ring.
    - rewrite X1, X2, (sum_delta n k); auto.
      + unfold mdiag. rewrite Nat.eqb_refl. ring.
      + intros i Hi Hne. unfold mdiag. destruct (Nat.eqb_spec k i); [congruence|ring]. }
  split; [reflexivity|]. split; [reflexivity|]. split; [exact X|].
  (* two arrays that agree on all such functions are equal, because herdif's first array is unique *)
  intros E0 HE0. cbn [ent]. 
  destruct (HD 1%nat ltac:(lia)) as (_ & _ & _ & U). rewrite Ly in U.
  assert (M : meq n n (madd (ent D1) (msub E0 A)) (ent D1)).
  { apply U. intros P k HP Hk. simpl Nat.iter.
    change (sum n (fun j => madd (ent D1) (msub E0 A) k j * (g (at1 y j) * ev P (at1 y j))) = g (at1 y k) * ev (wderiv (b * b) P) (at1 y k)).
    transitivity (sum n (fun j => ent D1 k j * (g (at1 y j) * ev P (at1 y j))) + (sum n (fun j => E0 k j * (g (at1 y j) * ev P (at1 y j))) -
      sum n (fun j => A k j * (g (at1 y j) * ev P (at1 y j))))).
    - rewrite <- sum_sub, <- sum_add. apply sum_ext. intros j Hj. unfold madd, msub. ring.
    - rewrite HE0, X, X1 by auto. ring. }
  split. intros i j Hi Hj. pose proof (meq_at _ _ _ _ M i j Hi Hj) as Eq. unfold madd at 1, msub in Eq.
  transitivity (ent D1 i j + (E0 i j - A i j) - ent D1 i j + A i j); [ring|]. rewrite Eq. ring.
Qed.
End Her.
End Props.

Print Assumptions C55_poldif.
Print Assumptions C55_poldif_constant.
Print Assumptions C55_keywords.
Print Assumptions C55_herroots.
Print Assumptions C55_herdif.
Print Assumptions C55_limits.
Print Assumptions C55_operator.
