(** Properties C19, C20: proper orthogonal decomposition of arrays. *)
From Coq Require Import List Arith Lia Bool ZArith Field Ring Setoid Morphisms Permutation.
Import ListNotations.
From Verif Require Import Prelude Field FieldInst Matrix NdArray DecompModel DecompProofs
  DecompProps VSArraysModel VSArraysProofs VSArraysProps PodModel PodProofs.
Open Scope nat_scope.
Open Scope k_scope.

(** What POD is meant to compute, for data [X] (columns) and weights [W]: [Phi] are
    all modes before any are selected. *)
Record pod_spec {F : sfield} (sqrt : F -> F) (X : arr F) (W : mat F) (vals : list F)
    (Phi coeffs vecs : arr F) : Prop := {
  ps_Pr : nr Phi = nr X; ps_Pc : nc Phi = length vals;
  ps_Cr : nr coeffs = length vals; ps_Cc : nc coeffs = nc X;
  ps_Vr : nr vecs = nc X; ps_Vc : nc vecs = length vals;
  (* modes orthonormal in the weighted inner product *)
  ps_orth : meq (length vals) (length vals) (wip (nr X) W (ent Phi) (ent Phi)) mid;
  (* orthonormal eigenvectors of the correlation array *)
  ps_vorth : meq (length vals) (length vals) (mmul (nc X) (madj (ent vecs)) (ent vecs)) mid;
  ps_eig : meq (nc X) (length vals) (mmul (nc X) (wip (nr X) W (ent X) (ent X)) (ent vecs))
             (mmul (length vals) (ent vecs) (mdiag (at1 vals)));
  (* coefficients are the inner products of the modes with the data *)
  ps_coeffs : meq (length vals) (nc X) (ent coeffs) (wip (nr X) W (ent Phi) (ent X));
  (* modes are combinations of the data *)
  ps_modes : meq (nr X) (length vals)
     (mmul (length vals) (ent Phi) (mdiag (fun i => sqrt (at1 vals i)))) (mmul (nc X) (ent X) (ent vecs))
}.

(** The function returned the selected modes, or the error of selecting them. *)
Definition pod_returns {F : sfield} (r : res (pod_results F)) (idx : option (list Z))
    (Phi : arr F) vals coeffs vecs corr : Prop :=
  match pick_opt Phi idx with
  | Raise e => r = Raise e
  | Ok M => exists m, r = Ok (Pod vals m coeffs vecs corr) /\ aeq m M
  end.

Lemma aeq_refl {F : sfield} (A : arr F) : aeq A A.
Proof. repeat split; auto. Qed.

Lemma lin_combine_pick {F : sfield} (X B : arr F) idx : nc X = nr B ->
  lin_combine X B idx = pick_opt (Arr (nr X) (nc B) (mmul (nc X) (ent X) (ent B))) idx.
Proof.
  intros E. unfold lin_combine. destruct idx as [l|]; simpl.
  - unfold pick_cols. simpl. destruct (wrap_all (nc B) l); simpl; auto.
    unfold dot. simpl. rewrite E, Nat.eqb_refl. reflexivity.
  - unfold dot. rewrite E, Nat.eqb_refl. reflexivity.
Qed.

Lemma prefix_in {F : sfield} (l l0 : list F) i : l = firstn (length l) l0 -> i < length l ->
  In (at1 l i) l0.
Proof.
  intros H Hi.
  assert (E : at1 l i = at1 l0 i) by (rewrite H; apply at1_firstn; auto).
  rewrite E. apply nth_In.
  assert (L : length l = length (firstn (length l) l0)) by congruence.
  rewrite firstn_length in L. lia.
Qed.

(** * C19: the method of snapshots *)

Theorem C19_POD_snaps {F : sfield} eigh_lapack argsort sqrt (X : arr F) wopt ws idx (t : F) rtol
    C w0 V0 :
  set_weights wopt = Ok ws -> wfits (nr X) ws -> hermitian (nr X) (wmat ws) ->
  symm_inner_product_array ws X = Ok C ->
  eigh_lapack C = Ok (w0, V0) -> eigh_contract C w0 V0 ->
  argsort_contract (map kabs w0) (argsort (map kabs w0)) ->
  real t -> kle 0 t -> tol_real rtol -> (0 < nc X)%nat ->
  (forall e, In e w0 -> klt_p 0 e -> sqrt_ok sqrt e) ->
  exists Phi vals vecs coeffs atol' w,
    pod_returns (POD_snaps eigh_lapack argsort sqrt false X idx wopt (Some t) rtol) idx
      Phi vals coeffs vecs (Some C) /\
    raised true (Some t) w0 atol' /\ eigh_result C w0 w atol' rtol vals vecs /\
    Forall (klt_p 0) vals /\ pod_spec sqrt X (wmat ws) vals Phi coeffs vecs /\
    (definite (nr X) (wmat ws) -> (exists d, Permutation w0 (vals ++ repeat 0 d)) ->
     meq (nr X) (nc X) (ent X) (mmul (length vals) (ent Phi) (ent coeffs))).
Proof.
  intros Ew Hf HH EC HL HC HS Rt Ht Hr HN Hsq.
  destruct (ip_ok ws X X eq_refl Hf) as (C' & EC' & Cr & Cc & CE).
  unfold symm_inner_product_array in EC. rewrite EC' in EC. injection EC as ->.
  destruct (C16_truncated_eigh eigh_lapack argsort C V0 w0 (Some t) rtol true HL HC HS)
    as (atol' & w & vals & vecs & E & HR & HE); auto.
  { rewrite Cr. auto. }
  { discriminate. }
  assert (Pos : Forall (klt_p 0) vals).
  { eapply C16_positive; eauto. apply (eigh_real _ _ _ HC). }
  assert (Inw : forall i, i < length vals -> In (at1 vals i) w0).
  { intros i Hi. rewrite <- (er_perm _ _ _ _ _ _ _ HE).
    apply prefix_in; auto. apply (er_prefix _ _ _ _ _ _ _ HE). }
  assert (Sq : forall i, i < length vals -> sqrt_ok sqrt (at1 vals i)).
  { intros i Hi. apply Hsq; auto. apply (Forall_at (klt_p 0)); auto. }
  assert (Nz : forall i, i < length vals -> sqrt (at1 vals i) <> 0).
  { intros i Hi. apply sqrt_ok_neq; auto. intros E0.
    pose proof (Forall_at _ _ i Pos Hi) as G. rewrite E0 in G.
    red in G. rewrite (lt_irrefl F 0 real_0) in G. discriminate. }
  set (k := length vals) in *. set (s := fun i => sqrt (at1 vals i)).
  set (D := mdiag (at1 (map (inv_sqrt sqrt) vals))).
  assert (ED : meq k k D (mdiag (fun i => 1 / s i))).
  { apply mdiag_ext. intros i Hi. rewrite at1_map by auto. reflexivity. }
  set (B := Arr (nc X) k (mmul k (ent vecs) D)).
  set (Phi := Arr (nr X) k (mmul (nc X) (ent X) (ent B))).
  set (coeffs := Arr k (nc X) (mmul k (mdiag (at1 (map sqrt vals))) (madj (ent vecs)))).
  assert (Vr : nr vecs = nc X) by (rewrite (er_r _ _ _ _ _ _ _ HE); auto).
  assert (Vc : nc vecs = k) by apply (er_c _ _ _ _ _ _ _ HE).
  exists Phi, vals, vecs, coeffs, atol', w. split; [|split; [|split; [|split; [|]]]]; auto.
  { (* what the code returns *)
    assert (EP : POD_snaps eigh_lapack argsort sqrt false X idx wopt (Some t) rtol
      = rbind (pick_opt Phi idx) (fun m => Ok (Pod vals m coeffs vecs (Some C)))).
    { unfold POD_snaps, symm_inner_product_array. rewrite Ew. cbn [rbind]. rewrite EC'. cbn [rbind].
      rewrite E. cbn [rbind fst snd].
      assert (E1 : dot vecs (diag (map (inv_sqrt sqrt) vals)) = Ok B).
      { unfold dot, diag. cbn [nr nc ent]. rewrite map_length. fold k. rewrite Vc, Nat.eqb_refl, Vr.
        reflexivity. }
      rewrite E1. cbn [rbind]. rewrite lin_combine_pick by reflexivity.
      assert (E2 : dot (diag (map sqrt vals)) (conj_T vecs) = Ok coeffs).
      { unfold dot, diag, conj_T. cbn [nr nc ent]. rewrite map_length. fold k.
        rewrite Vc, Nat.eqb_refl, Vr. reflexivity. }
      rewrite E2. reflexivity. }
    unfold pod_returns. rewrite EP. destruct (pick_opt Phi idx) as [m|]; simpl; auto.
    exists m. split; auto. apply aeq_refl. }
  (* the algebra *)
  assert (Ee : meq (nc X) (nc X) (wip (nr X) (wmat ws) (ent X) (ent X)) (ent C)).
  { symmetry. auto. }
  assert (EPhi : meq (nr X) k (ent Phi) (mmul (nc X) (ent X) (mmul k (ent vecs) (mdiag (fun i => 1 / s i))))).
  { unfold Phi, B. cbn [ent]. rewrite ED. reflexivity. }
  assert (Eco : meq k (nc X) (ent coeffs) (mmul k (mdiag s) (madj (ent vecs)))).
  { unfold coeffs. cbn [ent]. rewrite (mdiag_ext k _ s); [reflexivity|].
    intros i Hi. rewrite at1_map by auto. reflexivity. }
  assert (OV : meq k k (mmul (nc X) (madj (ent vecs)) (ent vecs)) mid).
  { pose proof (er_orth _ _ _ _ _ _ _ HE) as G. rewrite Cr in G. exact G. }
  assert (EV : meq (nc X) k (mmul (nc X) (wip (nr X) (wmat ws) (ent X) (ent X)) (ent vecs))
                 (mmul k (ent vecs) (mdiag (at1 vals)))).
  { rewrite Ee. pose proof (er_eig _ _ _ _ _ _ _ HE) as G. rewrite Cr in G. exact G. }
  assert (Hs : forall i, i < k -> s i * s i = at1 vals i) by (intros i Hi; apply (Sq i Hi)).
  assert (Rs : forall i, i < k -> real (s i)) by (intros i Hi; apply (Sq i Hi)).
  split.
  { split; auto.
    - fold k. rewrite EPhi. apply (snaps_orthonormal (nr X) (nc X) k (ent X) (wmat ws) (ent vecs) (at1 vals) s); auto.
    - fold k. rewrite Eco, EPhi. symmetry.
      apply (snaps_coeffs (nr X) (nc X) k (ent X) (wmat ws) (ent vecs) (at1 vals) s); auto.
    - fold k. rewrite EPhi. change (fun i => sqrt (at1 vals i)) with s.
      apply (snaps_modes (nr X) (nc X) k (ent X) (ent vecs) s); auto. }
  intros HD [d Hd]. fold k. rewrite EPhi, Eco.
  apply (snaps_exact (nr X) (nc X) k (ent X) (wmat ws) (ent vecs) (at1 vals) s); auto.
  rewrite Ee.
  pose proof (er_exact _ _ _ _ _ _ _ HE) as G. rewrite Cr in G. apply G. fold k.
  intros i Hi.
  assert (Pw : Permutation (vals ++ skipn k w) (vals ++ repeat 0 d)).
  { rewrite <- Hd, <- (er_perm _ _ _ _ _ _ _ HE). rewrite (er_prefix _ _ _ _ _ _ _ HE) at 1.
    fold k. rewrite firstn_skipn. reflexivity. }
  apply Permutation_app_inv_l in Pw.
  assert (Iw : In (at1 w i) (skipn k w)).
  { assert (Lk : length (firstn k w) = k).
    { pose proof (er_prefix _ _ _ _ _ _ _ HE) as G'. fold k in G'. rewrite <- G'. reflexivity. }
    assert (Ei : at1 w i = nth (i - k) (skipn k w) 0).
    { unfold at1. rewrite <- (firstn_skipn k w) at 1. rewrite app_nth2 by lia. rewrite Lk. reflexivity. }
    rewrite Ei. apply nth_In. rewrite skipn_length. lia. }
  rewrite Pw in Iw. apply repeat_spec in Iw. auto.
Qed.

(** In parallel both functions refuse. *)
Theorem C19_distributed {F : sfield} el argsort (sqrt : F -> F) X idx wopt atol rtol :
  POD_snaps el argsort sqrt true X idx wopt atol rtol = Raise RuntimeError.
Proof. reflexivity. Qed.

(** Negative eigenvalues (from rounding or indefinite weights) without an absolute
    tolerance: TypeError. *)
Theorem C19_no_tolerance {F : sfield} el argsort sqrt (X : arr F) wopt ws idx rtol C w0 V0 :
  set_weights wopt = Ok ws -> symm_inner_product_array ws X = Ok C ->
  el C = Ok (w0, V0) -> all_real w0 ->
  argsort_contract (map kabs w0) (argsort (map kabs w0)) -> Exists (fun x => klt_p x 0) w0 ->
  POD_snaps el argsort sqrt false X idx wopt None rtol = Raise TypeError.
Proof.
  intros Ew EC HL HR HS HE. unfold POD_snaps. rewrite Ew. cbn [rbind]. rewrite EC. cbn [rbind].
  rewrite (C16_no_tolerance_negative el argsort C V0 w0); auto.
Qed.

(** * C20: the direct method *)

Lemma pick_range {F : sfield} (M : arr F) k : nc M = k ->
  exists M', pick_cols M (map Z.of_nat (seq 0 k)) = Ok M' /\ aeq M' M.
Proof.
  intros Hk. unfold pick_cols. rewrite Hk.
  assert (E : forall a n, (a + n <= k)%nat -> wrap_all k (map Z.of_nat (seq a n)) = Ok (seq a n)).
  { intros a n. revert a. induction n as [|n IH]; intros a H; simpl; auto.
    unfold wrap_index. rewrite (proj2 (Z.leb_le 0 (Z.of_nat a))) by lia.
    rewrite (proj2 (Z.ltb_lt (Z.of_nat a) (Z.of_nat k))) by lia. simpl.
    rewrite IH by lia. rewrite Nat2Z.id. reflexivity. }
  rewrite E by lia. eexists. split; [reflexivity|]. unfold aeq. simpl.
  rewrite seq_length. split; auto. split; auto. split. intros i j Hi Hj. unfold mcols.
  rewrite seq_nth by auto. reflexivity.
Qed.

Definition pick_default {F : sfield} (idx : option (list Z)) (M : arr F) (k : nat) : res (arr F) :=
  pick_cols M match idx with Some l => l | None => map Z.of_nat (seq 0 k) end.

Lemma pick_default_opt {F : sfield} idx (M : arr F) k : nc M = k ->
  match pick_opt M idx with
  | Raise e => pick_default idx M k = Raise e
  | Ok P => exists P', pick_default idx M k = Ok P' /\ aeq P' P
  end.
Proof.
  intros Hk. unfold pick_default. destruct idx as [l|]; simpl.
  - destruct (pick_cols M l); auto. eexists. split; auto. apply aeq_refl.
  - apply pick_range. auto.
Qed.
(** Selecting columns commutes with multiplication from the left. *)
Lemma pick_default_dot {F : sfield} idx (T U : arr F) k : nc T = nr U -> nc U = k ->
  let Phi := Arr (nr T) k (mmul (nc T) (ent T) (ent U)) in
  match pick_opt Phi idx with
  | Raise e => rbind (pick_default idx U k) (dot T) = Raise e
  | Ok P => exists P', rbind (pick_default idx U k) (dot T) = Ok P' /\ aeq P' P
  end.
Proof.
  intros E Hk Phi. pose proof (pick_default_opt idx Phi k eq_refl) as G.
  assert (EQ : rbind (pick_default idx U k) (dot T) = pick_default idx Phi k).
  { unfold pick_default, pick_cols. simpl. rewrite Hk.
    destruct (wrap_all k _); simpl; auto. unfold dot. simpl. rewrite E, Nat.eqb_refl. reflexivity. }
  rewrite EQ. exact G.
Qed.

Section Direct.
Context {F : sfield} (sqrt : F -> F) (X U0 V0 : arr F) (S0 : list F) (atol rtol : option F).
Context (R T W : mat F).
Notation n := (nr X).
Context (HR : meq n n (mmul n (madj R) R) W) (HT : meq n n (mmul n T R) mid).
Notation Xw := (Arr n (nc X) (mmul n R (ent X))).
Context (HC : svd_contract Xw U0 S0 V0).
Context (Ha : tol_real atol) (Hr : tol_real rtol) (Hne : rtol = None \/ S0 <> []).
Context (Hsq : forall s, In s S0 -> sqrt_ok sqrt (s * s)).

Lemma direct_core svd_lapack Xw' :
  nr Xw' = n -> nc Xw' = nc X -> meq n (nc X) (ent Xw') (mmul n R (ent X)) ->
  svd_lapack Xw' = Ok (U0, S0, V0) ->
  exists U S V, svd svd_lapack Xw' atol rtol = Ok (U, S, V) /\
    nr U = n /\ nc U = length S /\
    svd_result Xw S0 atol rtol U S V /\
    (forall Phi coeffs, nr Phi = n -> nc Phi = length S ->
       meq n (length S) (ent Phi) (mmul n T (ent U)) ->
       coeffs = Arr (length S) (nc X) (mmul (length S) (mdiag (at1 (map sqrt (map (fun s => s * s) S))))
                  (madj (ent V))) ->
       pod_spec sqrt X W (map (fun s => s * s) S) Phi coeffs V /\
       ((exists d, S0 = S ++ repeat 0 d) ->
         meq n (nc X) (ent X) (mmul (length S) (ent Phi) (ent coeffs)))).
Proof.
  intros E1 E2 E3 HL.
  assert (HC' : svd_contract Xw' U0 S0 V0).
  { destruct HC as [H1 H2 H3 H4 H5 H6 H7 H8 H9 H10 H11]. simpl in *.
    split; rewrite ?E1, ?E2; auto. rewrite E3. auto. }
  destruct (C15_truncated_svd svd_lapack Xw' U0 V0 S0 atol rtol HL HC' Ha Hr Hne)
    as (U & S & V & E & G).
  assert (G' : svd_result Xw S0 atol rtol U S V).
  { destruct G as [G1 G2 G3 G4 G5 G6 G7 G8 G9 G10 G11]. rewrite E1, E2 in *.
    split; simpl; auto.
    - rewrite <- E3. auto.
    - rewrite <- E3. auto.
    - intros Hz. rewrite <- E3. auto. }
  exists U, S, V. split; auto. split; [apply (sr_Ur _ _ _ _ _ _ _ G')|].
  split; [apply (sr_Uc _ _ _ _ _ _ _ G')|]. split; auto.
  intros Phi coeffs HPr HPc HPhi ->. clear G.
  set (k := length S) in *.
  assert (InS : forall i, i < k -> In (at1 S i) S0).
  { intros i Hi. apply prefix_in; auto. apply (sr_prefix _ _ _ _ _ _ _ G'). }
  assert (Rs : forall i, i < k -> real (at1 S i)).
  { intros i Hi. apply (proj1 (Forall_forall _ _) (svd_real _ _ _ _ HC)). auto. }
  assert (Es : forall i, i < k -> sqrt (at1 S i * at1 S i) = at1 S i).
  { intros i Hi. apply sqrt_square; auto.
    apply (proj1 (Forall_forall _ _) (svd_nonneg _ _ _ _ HC)). auto. }
  assert (Lm : length (map (fun s => s * s) S) = k) by (rewrite map_length; auto).
  assert (Ec : meq k k (mdiag (at1 (map sqrt (map (fun s => s * s) S)))) (mdiag (at1 S))).
  { apply mdiag_ext. intros i Hi. rewrite !at1_map; rewrite ?map_length; auto. }
  assert (Ed : meq k k (mdiag (fun i => sqrt (at1 (map (fun s => s * s) S) i))) (mdiag (at1 S))).
  { apply mdiag_ext. intros i Hi. rewrite !at1_map; rewrite ?map_length; auto. }
  assert (Ee : meq k k (mdiag (at1 (map (fun s => s * s) S))) (mdiag (fun i => at1 S i * at1 S i))).
  { apply mdiag_ext. intros i Hi. rewrite !at1_map; rewrite ?map_length; auto. }
  pose proof (sr_U _ _ _ _ _ _ _ G') as HU. pose proof (sr_V _ _ _ _ _ _ _ G') as HV.
  pose proof (sr_AV _ _ _ _ _ _ _ G') as HAV. pose proof (sr_AU _ _ _ _ _ _ _ G') as HAU.
  cbn [nr nc ent] in HU, HV, HAV, HAU. fold k in HU, HV, HAV, HAU.
  split.
  - split; rewrite ?Lm; auto.
    + apply (sr_Vr _ _ _ _ _ _ _ G').
    + apply (sr_Vc _ _ _ _ _ _ _ G').
    + rewrite HPhi. apply (direct_orthonormal n k W R T (ent U)); auto.
    + rewrite Ee. apply (direct_eig n (nc X) k (ent X) W R (ent U) (ent V) (at1 S)); auto.
    + cbn [ent]. rewrite Ec, HPhi. symmetry.
      apply (direct_coeffs n (nc X) k (ent X) W R T (ent U) (ent V) (at1 S)); auto.
    + rewrite Ed, HPhi.
      apply (direct_modes n (nc X) k (ent X) R T (ent U) (ent V) (at1 S)); auto.
  - intros [d Hd]. cbn [ent]. rewrite Ec, HPhi.
    apply (direct_exact n (nc X) k (ent X) R T (ent U) (ent V) (at1 S)); auto.
    apply (sr_exact _ _ _ _ _ _ _ G'). intros i Hi. rewrite Hd. unfold at1.
    rewrite app_nth2 by lia. apply nth_repeat.
Qed.
End Direct.

(** The conclusion shared by the three kinds of weights. *)
Definition direct_ok {F : sfield} (sqrt : F -> F) (X : arr F) (W : mat F) (S0 : list F) atol rtol idx
    (r : res (pod_results F)) : Prop :=
  exists Phi S coeffs vecs, pod_returns r idx Phi (map (fun s => s * s) S) coeffs vecs None /\
    S = firstn (length S) S0 /\
    (forall i, i < length S0 -> (i < length S <-> above atol rtol S0 i)) /\
    pod_spec sqrt X W (map (fun s => s * s) S) Phi coeffs vecs /\
    ((exists d, S0 = S ++ repeat 0 d) ->
       meq (nr X) (nc X) (ent X) (mmul (length S) (ent Phi) (ent coeffs))).

Theorem C20_POD_direct_no_weights {F : sfield} svd_lapack chol inv sqrt (X U0 V0 : arr F) S0 idx atol rtol :
  svd_lapack X = Ok (U0, S0, V0) -> svd_contract X U0 S0 V0 ->
  tol_real atol -> tol_real rtol -> rtol = None \/ S0 <> [] ->
  (forall s, In s S0 -> sqrt_ok sqrt (s * s)) ->
  direct_ok sqrt X mid S0 atol rtol idx
    (POD_direct svd_lapack chol inv sqrt false X idx None atol rtol).
Proof.
  intros HL HC Ha Hr Hne Hsq.
  assert (HI : meq (nr X) (nr X) (mmul (nr X) (madj mid) (@mid F)) mid).
  { rewrite madj_mid, mmul_id_l. reflexivity. }
  assert (HX : meq (nr X) (nc X) (ent X) (mmul (nr X) mid (ent X))).
  { rewrite mmul_id_l. reflexivity. }
  destruct (direct_core sqrt X U0 V0 S0 atol rtol mid mid mid HI (mmul_id_l _ _ _))
    with (svd_lapack := svd_lapack) (Xw' := X) as (U & S & V & E & Ur & Uc & G & HP); auto.
  { destruct HC as [H1 H2 H3 H4 H5 H6 H7 H8 H9 H10 H11]. split; simpl; auto. rewrite <- HX. auto. }
  set (coeffs := Arr (length S) (nc X)
    (mmul (length S) (mdiag (at1 (map sqrt (map (fun s => s * s) S)))) (madj (ent V)))).
  exists U, S, coeffs, V.
  destruct (HP U coeffs Ur Uc) as [P1 P2]; auto. { rewrite mmul_id_l. reflexivity. }
  split; [|split; [apply (sr_prefix _ _ _ _ _ _ _ G)|split; [apply (sr_kept _ _ _ _ _ _ _ G)|split; auto]]].
  unfold pod_returns, POD_direct. rewrite E. cbn [rbind fst snd].
  fold (pick_default idx U (length S)).
  pose proof (pick_default_opt idx U (length S) Uc) as HQ.
  assert (E2 : dot (diag (map sqrt (map (fun s => s * s) S))) (conj_T V) = Ok coeffs).
  { unfold dot, diag, conj_T. cbn [nr nc ent]. rewrite !map_length.
    rewrite (sr_Vc _ _ _ _ _ _ _ G), (sr_Vr _ _ _ _ _ _ _ G), Nat.eqb_refl. reflexivity. }
  destruct (pick_opt U idx) as [P|e].
  - destruct HQ as (P' & EP & AP). rewrite EP. cbn [rbind fst snd]. rewrite E2. exists P'. auto.
  - rewrite HQ. reflexivity.
Qed.

Theorem C20_POD_direct_1D {F : sfield} svd_lapack chol inv sqrt (X U0 V0 : arr F) S0 w idx atol rtol Xw :
  length w = nr X -> (forall x, In x w -> sqrt_ok sqrt x /\ x <> 0) ->
  dot (diag (map sqrt w)) X = Ok Xw ->
  svd_lapack Xw = Ok (U0, S0, V0) -> svd_contract Xw U0 S0 V0 ->
  tol_real atol -> tol_real rtol -> rtol = None \/ S0 <> [] ->
  (forall s, In s S0 -> sqrt_ok sqrt (s * s)) ->
  direct_ok sqrt X (mdiag (at1 w)) S0 atol rtol idx
    (POD_direct svd_lapack chol inv sqrt false X idx (Some (Nd [length w] w)) atol rtol).
Proof.
  intros Lw Hw EX HL HC Ha Hr Hne Hsq.
  assert (Hw' : forall i, i < nr X -> sqrt_ok sqrt (at1 w i) /\ at1 w i <> 0).
  { intros i Hi. apply Hw. apply nth_In. lia. }
  set (R := mdiag (at1 (map sqrt w))). set (T := mdiag (at1 (map (fun x => 1 / x) (map sqrt w)))).
  assert (HR : meq (nr X) (nr X) (mmul (nr X) (madj R) R) (mdiag (at1 w))).
  { unfold R. rewrite madj_diag_real.
    - rewrite mmul_diag_diag. apply mdiag_ext. intros i Hi. rewrite at1_map by lia.
      destruct (Hw' i Hi) as [(_ & _ & H) _]. auto.
    - intros i Hi. rewrite at1_map by lia. destruct (Hw' i Hi) as [(H & _ & _) _]. auto. }
  assert (HT : meq (nr X) (nr X) (mmul (nr X) T R) mid).
  { unfold R, T. rewrite mmul_diag_diag. apply mdiag_1. intros i Hi.
    rewrite !at1_map by (rewrite ?map_length; lia).
    destruct (Hw' i Hi) as [H N]. apply div_mul_1, sqrt_ok_neq; auto. }
  assert (EX' : dot (diag (map sqrt w)) X = Ok (Arr (nr X) (nc X) (mmul (nr X) R (ent X)))).
  { unfold dot, diag. cbn [nr nc ent]. rewrite map_length, Lw, Nat.eqb_refl. reflexivity. }
  rewrite EX in EX'. injection EX' as EX'. rewrite EX' in HL, HC.
  destruct (direct_core sqrt X U0 V0 S0 atol rtol R T _ HR HT HC Ha Hr Hne Hsq svd_lapack Xw)
    as (U & S & V & E & Ur & Uc & G & HP); try (rewrite EX'; auto; reflexivity).
  set (coeffs := Arr (length S) (nc X)
    (mmul (length S) (mdiag (at1 (map sqrt (map (fun s => s * s) S)))) (madj (ent V)))).
  set (Phi := Arr (nr X) (length S) (mmul (nr X) T (ent U))).
  exists Phi, S, coeffs, V.
  destruct (HP Phi coeffs eq_refl eq_refl) as [P1 P2]; auto. { reflexivity. }
  split; [|split; [apply (sr_prefix _ _ _ _ _ _ _ G)|split; [apply (sr_kept _ _ _ _ _ _ _ G)|split; auto]]].
  unfold pod_returns, POD_direct. rewrite EX. cbn [rbind]. rewrite E. cbn [rbind fst snd].
  fold (pick_default idx U (length S)).
  pose proof (pick_default_dot idx (diag (map (fun x => 1 / x) (map sqrt w))) U (length S)) as HQ.
  cbn [nr nc ent diag] in HQ. rewrite !map_length, Lw in HQ. fold T in HQ. fold Phi in HQ.
  specialize (HQ (eq_sym Ur) Uc).
  assert (E2 : dot (diag (map sqrt (map (fun s => s * s) S))) (conj_T V) = Ok coeffs).
  { unfold dot, diag, conj_T. cbn [nr nc ent]. rewrite !map_length.
    rewrite (sr_Vc _ _ _ _ _ _ _ G), (sr_Vr _ _ _ _ _ _ _ G), Nat.eqb_refl. reflexivity. }
  destruct (pick_opt Phi idx) as [P|e].
  - destruct HQ as (P' & EP & AP). destruct (pick_default idx U (length S)) as [M|]; [|discriminate].
    cbn [rbind] in EP |- *. rewrite EP. cbn [rbind fst snd]. rewrite E2. exists P'. auto.
  - destruct (pick_default idx U (length S)) as [M|]; cbn [rbind] in HQ |- *; [rewrite HQ; reflexivity|congruence].
Qed.

Theorem C20_POD_direct_2D {F : sfield} svd_lapack chol inv sqrt (X U0 V0 : arr F) S0 w idx atol rtol L T Xw :
  chol (as_2d (nr X) (nr X) w) = Ok L -> cholesky_contract (as_2d (nr X) (nr X) w) L ->
  inv (conj_T L) = Ok T -> inv_contract (conj_T L) T ->
  dot (conj_T L) X = Ok Xw ->
  svd_lapack Xw = Ok (U0, S0, V0) -> svd_contract Xw U0 S0 V0 ->
  tol_real atol -> tol_real rtol -> rtol = None \/ S0 <> [] ->
  (forall s, In s S0 -> sqrt_ok sqrt (s * s)) ->
  direct_ok sqrt X (ent (as_2d (nr X) (nr X) w)) S0 atol rtol idx
    (POD_direct svd_lapack chol inv sqrt false X idx (Some (Nd [nr X; nr X] w)) atol rtol).
Proof.
  intros EL (Lr & Lc & _ & LE) ET (Tr & Tc & _ & TE) EX HL HC Ha Hr Hne Hsq.
  cbn [nr nc as_2d] in Lr, Lc, LE. cbn [nr nc ent conj_T] in Tr, Tc, TE. rewrite Lc in Tr, Tc, TE.
  set (R := madj (ent L)).
  assert (HR : meq (nr X) (nr X) (mmul (nr X) (madj R) R) (ent (as_2d (nr X) (nr X) w))).
  { unfold R. rewrite madj_madj. exact LE. }
  assert (HT : meq (nr X) (nr X) (mmul (nr X) (ent T) R) mid) by exact TE.
  assert (EX' : dot (conj_T L) X = Ok (Arr (nr X) (nc X) (mmul (nr X) R (ent X)))).
  { unfold dot, conj_T. cbn [nr nc ent]. rewrite Lr, Lc, Nat.eqb_refl. reflexivity. }
  rewrite EX in EX'. injection EX' as EX'. rewrite EX' in HL, HC.
  destruct (direct_core sqrt X U0 V0 S0 atol rtol R (ent T) _ HR HT HC Ha Hr Hne Hsq svd_lapack Xw)
    as (U & S & V & E & Ur & Uc & G & HP); try (rewrite EX'; auto; reflexivity).
  set (coeffs := Arr (length S) (nc X)
    (mmul (length S) (mdiag (at1 (map sqrt (map (fun s => s * s) S)))) (madj (ent V)))).
  set (Phi := Arr (nr X) (length S) (mmul (nr X) (ent T) (ent U))).
  exists Phi, S, coeffs, V.
  destruct (HP Phi coeffs eq_refl eq_refl) as [P1 P2]; auto. { reflexivity. }
  split; [|split; [apply (sr_prefix _ _ _ _ _ _ _ G)|split; [apply (sr_kept _ _ _ _ _ _ _ G)|split; auto]]].
  unfold pod_returns, POD_direct. rewrite EL. cbn [rbind]. rewrite EX. cbn [rbind]. rewrite E.
  cbn [rbind fst snd]. rewrite ET. cbn [rbind].
  fold (pick_default idx U (length S)).
  pose proof (pick_default_dot idx T U (length S)) as HQ.
  cbv zeta in HQ. rewrite Tc, Tr in HQ. fold Phi in HQ. specialize (HQ (eq_sym Ur) Uc).
  assert (E2 : dot (diag (map sqrt (map (fun s => s * s) S))) (conj_T V) = Ok coeffs).
  { unfold dot, diag, conj_T. cbn [nr nc ent]. rewrite !map_length.
    rewrite (sr_Vc _ _ _ _ _ _ _ G), (sr_Vr _ _ _ _ _ _ _ G), Nat.eqb_refl. reflexivity. }
  destruct (pick_opt Phi idx) as [P|e].
  - destruct HQ as (P' & EP & AP). destruct (pick_default idx U (length S)) as [M|]; [|discriminate].
    cbn [rbind] in EP |- *. rewrite EP. cbn [rbind fst snd]. rewrite E2. exists P'. auto.
  - destruct (pick_default idx U (length S)) as [M|]; cbn [rbind] in HQ |- *; [rewrite HQ; reflexivity|congruence].
Qed.

(** The tolerance acts on the singular values: the kept eigenvalues are those above
    its square. *)
Lemma sq_lt {F : sfield} (t s : F) : real t -> real s -> kle 0 t -> kle 0 s ->
  (klt_p t s <-> klt_p (t * t) (s * s)).
Proof.
  intros Rt Rs Ht Hs.
  assert (M : forall a b : F, real a -> real b -> kle 0 a -> klt_p a b -> klt_p (a * a) (b * b)).
  { intros a b Ra Rb Ha Hab.
    assert (Hb : klt_p 0 b) by (apply (le_lt_trans 0 a b); auto using real_0).
    apply (le_lt_trans _ (a * b)); auto using real_mul.
    - destruct Ha as [Ha|<-]; [|right; rewrite !mul_0_l; auto]. left.
      rewrite (Rmul_comm (F_R (k_field F)) a b). apply lt_mul_r; auto.
    - apply lt_mul_r; auto. }
  split; [apply M; auto|]. intros H. destruct (lt_le_cases t s Rt Rs) as [G|G]; auto. exfalso.
  destruct G as [G| <-].
  - apply (lt_not_le (t * t) (s * s)); auto using real_mul. left. apply M; auto.
  - red in H. rewrite lt_irrefl in H; [discriminate|auto using real_mul].
Qed.

Theorem C20_tolerance {F : sfield} sqrt (X : arr F) W S0 (t : F) idx r :
  real t -> kle 0 t -> all_real S0 -> Forall (kle 0) S0 ->
  direct_ok sqrt X W S0 (Some t) None idx r ->
  exists Phi vals coeffs vecs, pod_returns r idx Phi vals coeffs vecs None /\
    vals = firstn (length vals) (map (fun s => s * s) S0) /\
    (forall i, i < length S0 -> (i < length vals <-> klt_p (t * t) (at1 S0 i * at1 S0 i))).
Proof.
  intros Rt Ht RS PS (Phi & S & coeffs & vecs & H1 & H2 & H3 & _).
  exists Phi, (map (fun s => s * s) S), coeffs, vecs. split; auto. rewrite map_length. split.
  - rewrite H2 at 1. rewrite firstn_map. reflexivity.
  - intros i Hi. rewrite H3 by auto. unfold above. 
    assert (Ri : real (at1 S0 i)) by (apply all_real_at; auto).
    assert (Pi : kle 0 (at1 S0 i)) by (apply (Forall_at (kle 0)); auto).
    rewrite kabs_pos by auto. rewrite sq_lt by auto. tauto.
Qed.

Theorem C20_distributed {F : sfield} sl chol inv (sqrt : F -> F) X idx wopt atol rtol :
  POD_direct sl chol inv sqrt true X idx wopt atol rtol = Raise RuntimeError.
Proof. reflexivity. Qed.
Theorem C20_weight_dims {F : sfield} sl chol inv (sqrt : F -> F) X idx s w atol rtol :
  length s <> 1%nat -> length s <> 2%nat ->
  POD_direct sl chol inv sqrt false X idx (Some (Nd s w)) atol rtol = Raise UndefinedError.
Proof.
  intros H1 H2. destruct s as [|a [|b [|c s]]]; simpl in *; try lia; reflexivity.
Qed.

(** ** Instances *)
Definition ex_sqrt (x : QI) : QI :=
  if keqb x (qi 4 0 1) then qi 2 0 1 else if keqb x (qi 1 0 1) then qi 1 0 1
  else if keqb x (qi 1 0 4) then qi 1 0 2 else qi 0 0 1.
Definition ex_D : arr QI := of_rows 2 [[qi 3 0 5; qi 0 (-4) 5]; [qi 0 (-4) 5; qi 3 0 5]].
Definition ex_dw : option (nd QI) := Some (Nd [2%nat] [qi 4 0 1; qi 1 0 1]).
Definition ex_C : arr QI :=
  match symm_inner_product_array (W1 [qi 4 0 1; qi 1 0 1]) ex_D with Ok C => C | Raise _ => ex_D end.
Definition ex_cw : list QI := [qi 1 0 1; qi 4 0 1].
Definition ex_cV : arr QI := of_rows 2 [[qi 0 4 5; qi 3 0 5]; [qi 3 0 5; qi 0 4 5]].

Lemma ex_C_contract : eigh_contract ex_C ex_cw ex_cV.
Proof.
  split; try reflexivity.
  - apply meqb_true. vm_compute. reflexivity.
  - apply meqb_true. vm_compute. reflexivity.
  - repeat constructor; apply keqb_true; vm_compute; reflexivity.
Qed.
Lemma sq_ok_dec x : keqb (kconj QI (ex_sqrt x)) (ex_sqrt x) && negb (klt QI (ex_sqrt x) 0)
  && keqb (ex_sqrt x * ex_sqrt x) x = true -> sqrt_ok ex_sqrt x.
Proof.
  rewrite !andb_true_iff. intros [[H1 H2] H3]. apply keqb_true in H1, H3.
  split; auto. split; auto. apply not_lt; auto using real_0. destruct (klt QI _ 0); auto; discriminate.
Qed.

Example C19_example :
  (exists Phi vals vecs coeffs atol' w,
    pod_returns (POD_snaps (fun _ => Ok (ex_cw, ex_cV)) (fun _ => [0; 1]%nat) ex_sqrt false ex_D
      (Some [1; -2]%Z) ex_dw (Some (qi 1 0 1000)) None) (Some [1; -2]%Z)
      Phi vals coeffs vecs (Some ex_C) /\
    raised true (Some (qi 1 0 1000)) ex_cw atol' /\ eigh_result ex_C ex_cw w atol' None vals vecs /\
    Forall (klt_p 0) vals /\
    pod_spec ex_sqrt ex_D (mdiag (at1 [qi 4 0 1; qi 1 0 1])) vals Phi coeffs vecs /\
    (definite 2 (mdiag (at1 [qi 4 0 1; qi 1 0 1])) -> (exists d, Permutation ex_cw (vals ++ repeat 0 d)) ->
     meq 2 2 (ent ex_D) (mmul (length vals) (ent Phi) (ent coeffs)))) /\
  rmap (fun r => (p_eigvals r, nc (p_modes r)))
    (POD_snaps (fun _ => Ok (ex_cw, ex_cV)) (fun _ => [0; 1]%nat) ex_sqrt false ex_D
      (Some [1; -2; 0]%Z) ex_dw (Some (qi 1 0 1000)) None) = Ok ([qi 4 0 1; qi 1 0 1], 3%nat) /\
  rmap (fun r => (p_eigvals r, nc (p_modes r)))
    (POD_snaps (fun _ => Ok (ex_cw, ex_cV)) (fun _ => [0; 1]%nat) ex_sqrt false ex_D
      None ex_dw (Some (qi 2 0 1)) None) = Ok ([qi 4 0 1], 1%nat).
Proof.
  split; [|split; vm_compute; reflexivity].
  apply (C19_POD_snaps _ _ ex_sqrt ex_D ex_dw (W1 [qi 4 0 1; qi 1 0 1]) (Some [1; -2]%Z)
    (qi 1 0 1000) None ex_C ex_cw ex_cV); auto.
  - reflexivity.
  - apply meqb_true. vm_compute. reflexivity.
  - apply ex_C_contract.
  - split; try reflexivity.
    + repeat constructor; simpl; lia.
    + repeat constructor; simpl; lia.
    + intros i j Hij Hj. simpl in Hj. destruct i as [|[|i]]; destruct j as [|[|j]]; try lia;
        try (left; vm_compute; reflexivity); right; reflexivity.
  - apply keqb_true. vm_compute. reflexivity.
  - left. vm_compute. reflexivity.
  - exact I.
  - simpl. lia.
  - intros e [<-|[<-|[]]] _; apply sq_ok_dec; vm_compute; reflexivity.
Qed.

(** Direct method: data [ex_D] with the same weights; weighted data
    diag(2,1) ex_D = I diag(2,1) V^H. *)
Definition ex_Xw : arr QI :=
  match dot (diag [qi 2 0 1; qi 1 0 1]) ex_D with Ok C => C | Raise _ => ex_D end.
Lemma ex_Xw_contract : svd_contract ex_Xw (eye 2) [qi 2 0 1; qi 1 0 1] ex_D.
Proof.
  split; try reflexivity; try (apply meqb_true; vm_compute; reflexivity).
  - repeat constructor; apply keqb_true; vm_compute; reflexivity.
  - repeat constructor; vm_compute; reflexivity.
  - intros i j Hij Hj. simpl in Hj.
    destruct i as [|[|i]]; destruct j as [|[|j]]; try lia;
      try (left; vm_compute; reflexivity); right; reflexivity.
Qed.
Example C20_example_1D : forall chol inv,
  direct_ok ex_sqrt ex_D (mdiag (at1 [qi 4 0 1; qi 1 0 1])) [qi 2 0 1; qi 1 0 1] (Some (qi 1 0 10)) None None
    (POD_direct (fun _ => Ok (eye 2, [qi 2 0 1; qi 1 0 1], ex_D)) chol inv ex_sqrt false ex_D None ex_dw
       (Some (qi 1 0 10)) None).
Proof.
  intros chol inv. apply (C20_POD_direct_1D _ chol inv ex_sqrt ex_D (eye 2) ex_D
    [qi 2 0 1; qi 1 0 1] [qi 4 0 1; qi 1 0 1]) with (Xw := ex_Xw); auto.
  - intros x [<-|[<-|[]]]; (split; [apply sq_ok_dec|apply keqb_false]); vm_compute; reflexivity.
  - apply ex_Xw_contract.
  - apply keqb_true. vm_compute. reflexivity.
  - exact I.
  - intros s [<-|[<-|[]]]; apply sq_ok_dec; vm_compute; reflexivity.
Qed.

Example C20_example_no_weights : forall chol inv,
  direct_ok ex_sqrt ex_Xw mid [qi 2 0 1; qi 1 0 1] None (Some (qi 2 0 3)) (Some [-1]%Z)
    (POD_direct (fun _ => Ok (eye 2, [qi 2 0 1; qi 1 0 1], ex_D)) chol inv ex_sqrt false ex_Xw (Some [-1]%Z)
       None None (Some (qi 2 0 3))).
Proof.
  intros chol inv. apply (C20_POD_direct_no_weights _ chol inv ex_sqrt ex_Xw (eye 2) ex_D
    [qi 2 0 1; qi 1 0 1]); auto.
  - apply ex_Xw_contract.
  - exact I.
  - apply keqb_true. vm_compute. reflexivity.
  - right. discriminate.
  - intros s [<-|[<-|[]]]; apply sq_ok_dec; vm_compute; reflexivity.
Qed.

(** Weights [[4, -2i], [2i, 2]] = L L^H. *)
Definition ex_L : arr QI := of_rows 2 [[qi 2 0 1; qi 0 0 1]; [qi 0 1 1; qi 1 0 1]].
Definition ex_T : arr QI := of_rows 2 [[qi 1 0 2; qi 0 1 2]; [qi 0 0 1; qi 1 0 1]].
Definition ex_W2 : list QI := [qi 4 0 1; qi 0 (-2) 1; qi 0 2 1; qi 2 0 1].
Definition ex_X2 : arr QI := Arr 2 2 (mmul 2 (ent ex_T) (ent ex_Xw)).
Definition ex_Xw2 : arr QI := Arr 2 2 (mmul 2 (madj (ent ex_L)) (ent ex_X2)).
Example C20_example_2D :
  direct_ok ex_sqrt ex_X2 (ent (as_2d 2 2 ex_W2)) [qi 2 0 1; qi 1 0 1] (Some (qi 1 0 1)) None None
    (POD_direct (fun _ => Ok (eye 2, [qi 2 0 1; qi 1 0 1], ex_D)) (fun _ => Ok ex_L) (fun _ => Ok ex_T)
       ex_sqrt false ex_X2 None (Some (Nd [2; 2]%nat ex_W2)) (Some (qi 1 0 1)) None).
Proof.
  apply (C20_POD_direct_2D _ _ _ ex_sqrt ex_X2 (eye 2) ex_D [qi 2 0 1; qi 1 0 1] ex_W2 None
    (Some (qi 1 0 1)) None ex_L ex_T ex_Xw2); auto.
  - repeat (split; [reflexivity|]). apply meqb_true. vm_compute. reflexivity.
  - repeat (split; [reflexivity|]). apply meqb_true. vm_compute. reflexivity.
  - split; try reflexivity; try (apply meqb_true; vm_compute; reflexivity).
    + repeat constructor; apply keqb_true; vm_compute; reflexivity.
    + repeat constructor; vm_compute; reflexivity.
    + intros i j Hij Hj. simpl in Hj.
      destruct i as [|[|i]]; destruct j as [|[|j]]; try lia;
        try (left; vm_compute; reflexivity); right; reflexivity.
  - apply keqb_true. vm_compute. reflexivity.
  - exact I.
  - intros s [<-|[<-|[]]]; apply sq_ok_dec; vm_compute; reflexivity.
Qed.

Example C19_distributed_example :
  POD_snaps (fun _ => Ok (ex_cw, ex_cV)) (fun _ => [0; 1]%nat) ex_sqrt true ex_D None ex_dw
    (Some (qi 1 0 1000)) None = Raise RuntimeError.
Proof. apply C19_distributed. Qed.

(** An eigenvalue of -1 and no absolute tolerance. *)
Example C19_no_tolerance_example :
  POD_snaps (fun _ => Ok ([qi (-1) 0 1; qi 4 0 1], ex_cV)) (fun _ => [0; 1]%nat) ex_sqrt false ex_D
    (Some [0]%Z) ex_dw None (Some (qi 1 0 10)) = Raise TypeError.
Proof.
  apply (C19_no_tolerance (fun _ => Ok ([qi (-1) 0 1; qi 4 0 1], ex_cV)) (fun _ => [0; 1]%nat) ex_sqrt
    ex_D ex_dw (W1 [qi 4 0 1; qi 1 0 1]) (Some [0]%Z) (Some (qi 1 0 10)) ex_C
    [qi (-1) 0 1; qi 4 0 1] ex_cV).
  - reflexivity.
  - reflexivity.
  - reflexivity.
  - repeat constructor; apply keqb_true; vm_compute; reflexivity.
  - split; try reflexivity.
    + repeat constructor; simpl; lia.
    + repeat constructor; simpl; lia.
    + simpl. intros i j Hij Hj. destruct i as [|[|i]]; destruct j as [|[|j]]; try lia;
        try (left; vm_compute; reflexivity); right; reflexivity.
  - constructor. vm_compute. reflexivity.
Qed.

(** The tolerance is compared with the singular values 2 and 1, the squares of
    which are the eigenvalues: 3/2 keeps only the first. *)
Example C20_tolerance_example : exists Phi vals coeffs vecs,
  pod_returns (POD_direct (fun _ => Ok (eye 2, [qi 2 0 1; qi 1 0 1], ex_D)) (fun _ => Raise LinAlgError)
      (fun _ => Raise LinAlgError) ex_sqrt false ex_Xw None None (Some (qi 3 0 2)) None)
    None Phi vals coeffs vecs None /\
  vals = firstn (length vals) (map (fun s => s * s) [qi 2 0 1; qi 1 0 1]) /\
  (forall i, i < 2 -> (i < length vals <->
     klt_p (qi 3 0 2 * qi 3 0 2) (at1 [qi 2 0 1; qi 1 0 1] i * at1 [qi 2 0 1; qi 1 0 1] i))).
Proof.
  apply (C20_tolerance ex_sqrt ex_Xw mid [qi 2 0 1; qi 1 0 1] (qi 3 0 2) None).
  - apply keqb_true. vm_compute. reflexivity.
  - left. vm_compute. reflexivity.
  - apply (svd_real _ _ _ _ ex_Xw_contract).
  - apply (svd_nonneg _ _ _ _ ex_Xw_contract).
  - apply (C20_POD_direct_no_weights _ _ _ ex_sqrt ex_Xw (eye 2) ex_D [qi 2 0 1; qi 1 0 1]); auto.
    + apply ex_Xw_contract.
    + apply keqb_true. vm_compute. reflexivity.
    + exact I.
    + intros s [<-|[<-|[]]]; apply sq_ok_dec; vm_compute; reflexivity.
Qed.

Example C20_distributed_example :
  POD_direct (fun _ => Ok (eye 2, [qi 2 0 1; qi 1 0 1], ex_D)) (fun _ => Ok ex_L) (fun _ => Ok ex_T)
    ex_sqrt true ex_X2 None (Some (Nd [2; 2]%nat ex_W2)) (Some (qi 1 0 1)) None = Raise RuntimeError.
Proof. apply C20_distributed. Qed.

Example C20_weight_dims_example :
  POD_direct (fun _ => Ok (eye 2, [qi 2 0 1; qi 1 0 1], ex_D)) (fun _ => Ok ex_L) (fun _ => Ok ex_T)
    ex_sqrt false ex_X2 None (Some (Nd [2; 1; 2]%nat ex_W2)) (Some (qi 1 0 1)) None
    = Raise UndefinedError.
Proof. apply C20_weight_dims; discriminate. Qed.

(** The two methods do not truncate alike: for the datum 1/2 and atol = 1/3 the
    direct method keeps the eigenvalue 1/4, the method of snapshots drops it. *)
Theorem C20_same_truncation_refuted :
  ~ (forall (F : sfield) sl el argsort sqrt chol inv (X U0 Vh0 V0 C : arr F) S0 w0 (t : F) r1 r2,
       sl X = Ok (U0, S0, Vh0) -> svd_contract X U0 S0 Vh0 ->
       symm_inner_product_array WNone X = Ok C ->
       el C = Ok (w0, V0) -> eigh_contract C w0 V0 ->
       argsort_contract (map kabs w0) (argsort (map kabs w0)) ->
       real t -> kle 0 t ->
       (forall e, In e w0 -> klt_p 0 e -> sqrt_ok sqrt e) ->
       (forall s, In s S0 -> sqrt_ok sqrt (s * s)) ->
       POD_snaps el argsort sqrt false X None None (Some t) None = Ok r1 ->
       POD_direct sl chol inv sqrt false X None None (Some t) None = Ok r2 ->
       length (p_eigvals r1) = length (p_eigvals r2)).
Proof.
  intros H.
  set (X := of_rows 1 [[qi 1 0 2]] : arr QI).
  set (sl := fun _ : arr QI => Ok (@eye QI 1, [qi 1 0 2 : QI], @eye QI 1)).
  set (el := fun _ : arr QI => Ok ([qi 1 0 4 : QI], @eye QI 1)).
  set (as_ := fun _ : list QI => [0%nat]).
  assert (G : forall r1 r2, POD_snaps el as_ ex_sqrt false X None None (Some (qi 1 0 3)) None = Ok r1 ->
    POD_direct sl (fun A => Ok A) (fun A => Ok A) ex_sqrt false X None None (Some (qi 1 0 3)) None = Ok r2 ->
    length (p_eigvals r1) = length (p_eigvals r2)).
  { intros r1 r2. eapply (H QI sl el as_ ex_sqrt _ _ X _ _ _ _ _ _ (qi 1 0 3)).
    - reflexivity.
    - split; try reflexivity; try (apply meqb_true; vm_compute; reflexivity).
      + repeat constructor. apply keqb_true. vm_compute. reflexivity.
      + repeat constructor; vm_compute; reflexivity.
      + intros i j Hij Hj. simpl in Hj. destruct i; destruct j; try lia. right. reflexivity.
    - reflexivity.
    - reflexivity.
    - split; try reflexivity; try (apply meqb_true; vm_compute; reflexivity).
      repeat constructor. apply keqb_true. vm_compute. reflexivity.
    - split; try reflexivity.
      + repeat constructor. simpl. lia.
      + repeat constructor.
      + intros i j Hij Hj. simpl in Hj. destruct i; destruct j; try lia. right. reflexivity.
    - apply keqb_true. vm_compute. reflexivity.
    - left. vm_compute. reflexivity.
    - intros e [<-|[]] _. apply sq_ok_dec. vm_compute. reflexivity.
    - intros s [<-|[]]. apply sq_ok_dec. vm_compute. reflexivity. }
  assert (E1 : rmap (fun r => length (p_eigvals r))
    (POD_snaps el as_ ex_sqrt false X None None (Some (qi 1 0 3)) None) = Ok 0%nat) by (vm_compute; reflexivity).
  assert (E2 : rmap (fun r => length (p_eigvals r))
    (POD_direct sl (fun A => Ok A) (fun A => Ok A) ex_sqrt false X None None (Some (qi 1 0 3)) None) = Ok 1%nat)
    by (vm_compute; reflexivity).
  destruct (POD_snaps el as_ ex_sqrt false X None None (Some (qi 1 0 3)) None) as [r1|]; [|discriminate].
  destruct (POD_direct sl _ _ ex_sqrt false X None None (Some (qi 1 0 3)) None) as [r2|]; [|discriminate].
  cbn [rmap rbind] in E1, E2. injection E1 as E1. injection E2 as E2.
  pose proof (eq_trans (eq_sym E1) (eq_trans (G r1 r2 eq_refl eq_refl) E2)) as N. discriminate N.
Qed.

Print Assumptions C19_POD_snaps.
Print Assumptions C19_distributed.
Print Assumptions C19_no_tolerance.
Print Assumptions C20_POD_direct_no_weights.
Print Assumptions C20_POD_direct_1D.
Print Assumptions C20_POD_direct_2D.
Print Assumptions C20_tolerance.
Print Assumptions C20_distributed.
Print Assumptions C20_weight_dims.
Print Assumptions C20_same_truncation_refuted.
