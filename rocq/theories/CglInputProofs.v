(** Proofs for C56: singular values bound growth, and the loop finds the largest. *)
From Coq Require Import List Arith Lia Bool ZArith Field Ring Setoid Morphisms.
Import ListNotations.
From Verif Require Import Prelude Field Matrix NdArray DecompModel VSArraysModel PodModel OptimalProofs HermiteModel CglModel CglInputModel.
Open Scope nat_scope.
Open Scope k_scope.

Section Norms.
Context {F : sfield}.
Add Field Ff_nrm : (k_field F).
Implicit Types A B G : mat F.
Implicit Types u v z : nat -> F.

Definition app (n : nat) A u : nat -> F := fun i => sum n (fun l => A i l * u l).
Definition nrm (n : nat) u : F := sum n (fun i => (u i)^* * u i).
Definition col u : mat F := fun i _ => u i.

Lemma nrm_real n u : real (nrm n u). Proof. apply sum_real. intros. apply real_norm. Qed.
Lemma nrm_nonneg n u : kle 0 (nrm n u). Proof. apply sum_nonneg; intros; [apply real_norm|apply le_norm]. Qed.
Lemma nrm_ext n u v : (forall i, i < n -> u i = v i) -> nrm n u = nrm n v.
Proof. intros H. apply sum_ext. intros i Hi. rewrite H by auto. reflexivity. Qed.
Lemma nrm_0 n u : nrm n u = 0 -> forall i, i < n -> u i = 0. Proof. apply sum_norm_0. Qed.
Lemma app_ext n k A B u v : (forall i j, i < k -> j < n -> A i j = B i j) -> (forall i, i < n -> u i = v i) ->
  forall i, i < k -> app n A u i = app n B v i.
Proof. intros H G i Hi. apply sum_ext. intros l Hl. rewrite H, G by auto. reflexivity. Qed.
Lemma app_mmul m n A B u i : app n (mmul m A B) u i = app m A (app n B u) i.
Proof.
  exact (meq_at _ _ _ _ (mmul_assoc (S i) 1 m n A B (col u)) i O (Nat.lt_succ_diag_r i) Nat.lt_0_1).
Qed.
Lemma app_mid n u i : i < n -> app n mid u i = u i.
Proof. intros Hi. exact (meq_at _ _ _ _ (mmul_id_l n 1 (col u)) i O Hi Nat.lt_0_1). Qed.
Lemma app_diag n d u i : i < n -> app n (mdiag d) u i = d i * u i.
Proof. intros Hi. exact (meq_at _ _ _ _ (mmul_diag_l n 1 d (col u)) i O Hi Nat.lt_0_1). Qed.

Lemma isometry m k U y : meq k k (mmul m (madj U) U) mid -> nrm m (app k U y) = nrm k y.
Proof.
  intros H. assert (E : meq 1 1 (mmul m (madj (mmul k U (col y))) (mmul k U (col y))) (mmul k (madj (col y)) (col y))).
  { rewrite madj_mmul. rewrite mmul_assoc. rewrite <- (mmul_assoc k 1 m k (madj U) U (col y)). rewrite H, mmul_id_l. reflexivity. }
  exact (meq_at _ _ _ _ E O O Nat.lt_0_1 Nat.lt_0_1).
Qed.

(** Largest singular value: bound, and where it is attained. *)
Lemma svd_bound n G U S Vh : 0 < n -> svd_contract (Arr n n G) U S Vh ->
  let e := at1 S 0 in real e /\ kle 0 e /\ (forall z, kle (nrm n (app n G z)) (e * e * nrm n z)) /\
    let v i := (ent Vh 0%nat i)^* in nrm n v = 1 /\ nrm n (app n G v) = e * e.
Proof.
  intros Hn [Ls _ _ _ _ HU HV HG HR HP HD]. cbn [nr nc ent] in *. rewrite Nat.min_id in Ls. rewrite Ls in *.
  assert (Re : forall i, i < n -> real (at1 S i)).
  { intros i Hi. unfold all_real in HR. rewrite Forall_forall in HR. apply HR. apply nth_In. lia. }
  assert (Pe : forall i, i < n -> kle 0 (at1 S i)).
  { intros i Hi. rewrite Forall_forall in HP. apply HP. apply nth_In. lia. }
  cbv zeta. split; [auto|]. split; [auto|].
  assert (EG : forall z i, i < n -> app n G z i = app n (ent U) (fun l => at1 S l * app n (ent Vh) z l) i).
  { intros z i Hi. transitivity (app n (mmul n (ent U) (mmul n (mdiag (at1 S)) (ent Vh))) z i).
    - apply (app_ext n n); auto. intros a b Ha Hb. apply (meq_at _ _ _ _ HG); auto.
    - rewrite app_mmul. apply (app_ext n n); auto. intros j Hj. rewrite app_mmul. apply app_diag. auto. }
  assert (HV' : meq n n (mmul n (madj (ent Vh)) (ent Vh)) mid).
  { apply left_inverse_right. unfold orthonormal in HV. rewrite madj_madj in HV. exact HV. }
  assert (EN : forall z, nrm n (app n G z) = nrm n (fun l => at1 S l * app n (ent Vh) z l)).
  { intros z. rewrite (nrm_ext n _ _ (EG z)). apply isometry. exact HU. }
  split.
  - intros z. rewrite EN, <- (isometry n n (ent Vh) z HV'). unfold nrm. rewrite <- sum_mul_l.
    set (y := app n (ent Vh) z).
    assert (E : forall i, i < n -> (at1 S i * y i)^* * (at1 S i * y i) = at1 S i * at1 S i * ((y i)^* * y i)).
    { intros i Hi. rewrite conj_mul, (Re i Hi). ring. }
    rewrite (sum_ext n _ _ E). apply sum_le; intros i Hi.
    + apply real_mul; [apply real_mul; auto|apply real_norm].
    + apply real_mul; [apply real_mul; auto|apply real_norm].
    + assert (R1 : real ((y i)^* * y i)) by apply real_norm.
      apply le_sub_2; auto using real_mul.
      replace (at1 S 0 * at1 S 0 * ((y i)^* * y i) - at1 S i * at1 S i * ((y i)^* * y i))
        with ((at1 S 0 - at1 S i) * (at1 S 0 + at1 S i) * ((y i)^* * y i)) by ring.
      apply le_0_mul; auto using real_mul, real_sub, real_add, le_norm.
      apply le_0_mul; auto using real_sub, real_add, le_0_add.
      apply le_sub_1; auto. apply HD; lia.
  - assert (EV : forall i, i < n -> app n (ent Vh) (fun l => (ent Vh 0%nat l)^*) i = if (i =? 0)%nat then 1 else 0).
    { intros i Hi. unfold orthonormal in HV. rewrite madj_madj in HV. exact (meq_at _ _ _ _ HV i O Hi Hn). }
    split.
    + rewrite <- (isometry n n (ent Vh) _ HV'). rewrite (nrm_ext n _ _ EV). unfold nrm. rewrite (sum_delta n 0); auto.
      * cbn. rewrite conj_1. ring.
      * intros i Hi Hne. destruct (Nat.eqb_spec i 0); [contradiction|]. ring.
    + rewrite EN. rewrite (nrm_ext n _ (fun l => at1 S l * (if (l =? 0)%nat then 1 else 0))) by (intros i Hi; rewrite EV by auto; reflexivity).
      unfold nrm. rewrite (sum_delta n 0); auto.
      * cbn. rewrite conj_mul, conj_1, (Re O Hn). ring.
      * intros i Hi Hne. destruct (Nat.eqb_spec i 0); [contradiction|]. ring.
Qed.

Lemma sq_lt a b : real a -> real b -> kle 0 a -> klt_p a b -> @klt_p F (a * a) (b * b).
Proof.
  intros Ra Rb Ha H. assert (Pb : klt_p 0 b) by (apply (le_lt_trans 0 a b); auto using real_0).
  apply (proj2 (lt_sub (a * a) (b * b) (real_mul _ _ Ra Ra) (real_mul _ _ Rb Rb))). replace (b * b - a * a) with ((b - a) * (b + a)) by ring.
  apply lt_mul; auto using real_sub, real_add.
  - apply (proj1 (lt_sub a b Ra Rb)). auto.
  - apply (lt_le_trans 0 b (b + a)); auto using real_0, real_add. apply le_sub_2; auto using real_add.
    replace (b + a - b) with a by ring. auto.
Qed.
Lemma bound_mono a b c : real a -> real b -> real c -> kle a b -> kle 0 c -> @kle F (a * c) (b * c).
Proof.
  intros Ra Rb Rc H Hc. apply le_sub_2; auto using real_mul. replace (b * c - a * c) with ((b - a) * c) by ring.
  apply le_0_mul; auto using real_sub. apply le_sub_1; auto.
Qed.
End Norms.

Section Loop.
Context {F : sfield}.
Add Field Ff_grow : (k_field F).
Variables (svd : arr F -> res (arr F * list F * arr F)) (n : nat) (d : nat -> F) (Ad : arr F) (Ms Mi : arr F).
Hypothesis n_pos : 0 < n.
Hypotheses (Ad_r : nr Ad = n) (Ad_c : nc Ad = n).
Hypothesis Ms_eq : Ms = Arr n n (mdiag d).
Hypotheses (Mi_r : nr Mi = n) (Mi_c : nc Mi = n).

(** The array whose singular values are taken at time i. *)
Definition Gi (i : nat) : mat F := mmul n (mdiag d) (mmul n (mpow n (ent Ad) i) (ent Mi)).
Definition bounded (i : nat) (e : F) : Prop := forall z, kle (nrm n (app n (Gi i) z)) (e * e * nrm n z).

Variable total : nat.
Hypothesis svd_ok : forall i G, 1 <= i <= total -> nr G = n -> nc G = n -> meq n n (ent G) (Gi i) ->
  exists U S Vh, svd G = Ok (U, S, Vh) /\ svd_contract G U S Vh.
(** After the first i passes. *)
Record inv_best (i : nat) (best : F * option (arr F)) : Prop := {
  ib_real : real (fst best);
  ib_nonneg : kle 0 (fst best);
  ib_bound : forall j, 1 <= j <= i -> bounded j (fst best);
  ib_none : snd best = None -> fst best = 0;
  ib_some : forall v, snd best = Some v -> nr v = n /\ nc v = 1%nat /\ klt_p 0 (fst best) /\
    nrm n (fun l => ent v l 0%nat) = 1 /\
    exists k, 1 <= k <= i /\ nrm n (app n (Gi k) (fun l => ent v l 0%nat)) = fst best * fst best /\
      exists e, real e /\ kle 0 e /\ klt_p e (fst best) /\ forall j, 1 <= j < k -> bounded j e
}.

Lemma loop_ok steps : forall i E best, i + steps <= total -> nr E = n -> nc E = n -> meq n n (ent E) (mpow n (ent Ad) i) -> inv_best i best ->
  exists best', growth_loop svd Ms Mi Ad E best steps = Ok best' /\ inv_best (i + steps) best'.
Proof.
  rewrite Ms_eq. induction steps as [|steps IH]; intros i E best Ht Er Ec HE I.
  - exists best. split; [reflexivity|]. rewrite Nat.add_0_r. exact I.
  - cbn [growth_loop]. unfold dot at 1. rewrite Ec, Ad_r, Nat.eqb_refl. cbn [rbind].
    set (E' := Arr (nr E) (nc Ad) (mmul n (ent E) (ent Ad))).
    unfold dot at 1. change (nc E') with (nc Ad). rewrite Ad_c, Mi_r, Nat.eqb_refl. cbn [rbind].
    unfold dot at 1. cbn [nc nr ent]. change (nr E') with (nr E). rewrite Er, Nat.eqb_refl. cbn [rbind].
    assert (HE' : meq n n (ent E') (mpow n (ent Ad) (S i))).
    { unfold E'. cbn [ent]. rewrite HE, mpow_S_r by lia. reflexivity. }
    set (G := Arr n (nc Mi) _).
    assert (Q : meq n n (ent G) (Gi (S i))).
    { unfold G, Gi. cbn [ent]. rewrite HE'. reflexivity. }
    destruct (svd_ok (S i) G) as (U & S & Vh & Es & Hs); auto; [lia|]. rewrite Es. cbn [rbind fst snd].
    assert (EG : forall z k, k < n -> app n (ent G) z k = app n (Gi (Datatypes.S i)) z k).
    { intros z k Hk. apply (app_ext n n); auto. intros a b Ha Hb. apply (meq_at _ _ _ _ Q); auto. }
    assert (Hs' : svd_contract (Arr n n (ent G)) U S Vh) by (replace (Arr n n (ent G)) with G; [exact Hs|unfold G; rewrite Mi_c; reflexivity]).
    destruct (svd_bound n (ent G) U S Vh n_pos Hs') as (R0 & P0 & B0 & N1 & N2). cbv zeta in *.
    assert (Ls : length S = n) by (destruct Hs'; cbn in *; rewrite Nat.min_id in *; auto).
    destruct S as [|e S']; [simpl in Ls; lia|]. change (at1 (e :: S') 0) with e in *.
    assert (Lv : nc Vh = n) by (destruct Hs'; cbn in *; auto).
    assert (B1 : bounded (Datatypes.S i) e) by (intros z; rewrite <- (nrm_ext n _ _ (EG z)); apply B0).
    replace (i + Datatypes.S steps)%nat with (Datatypes.S i + steps)%nat by lia.
    apply IH; auto; [lia|]. destruct I as [I1 I2 I3 I4 I5]. set (m0 := fst best) in *.
    destruct (klt F m0 e) eqn:L.
    + split; cbn [fst snd]; auto.
      * intros j Hj. destruct (Nat.eq_dec j (Datatypes.S i)) as [->|Hn]; [exact B1|].
        intros z. apply (le_trans _ (m0 * m0 * nrm n z)); auto using nrm_real, real_mul.
        -- apply (I3 j ltac:(lia)).
        -- apply bound_mono; auto using nrm_real, nrm_nonneg, real_mul. left. apply sq_lt; auto.
      * discriminate.
      * intros v Ev. injection Ev as <-. cbn [nr nc ent]. do 2 (split; [auto|]).
        split; [apply (le_lt_trans 0 m0 e); auto using real_0|]. split; [exact N1|].
        exists (Datatypes.S i). split; [lia|]. split; [rewrite <- (nrm_ext n _ _ (EG _)); exact N2|].
        exists m0. do 3 (split; [auto|]). intros j Hj. apply I3. lia.
    + apply (not_lt m0 e I1 R0) in L. split; cbn [fst snd]; auto.
      * intros j Hj. destruct (Nat.eq_dec j (Datatypes.S i)) as [->|Hn]; [|apply I3; lia].
        intros z. apply (le_trans _ (e * e * nrm n z)); auto using nrm_real, real_mul.
        apply bound_mono; auto using nrm_real, nrm_nonneg, real_mul.
        destruct L as [L| ->]; [left; apply sq_lt; auto|right; reflexivity].
      * intros v Ev. destruct (I5 v Ev) as (A1 & A2 & A3 & A4 & k & K1 & K2 & K3). do 4 (split; [auto|]).
        exists k. split; [lia|]. auto.
Qed.
End Loop.
