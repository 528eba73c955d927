(** C27: total-least-squares DMD of arrays. *)
From Coq Require Import List Arith Lia Bool ZArith Field Ring Setoid Morphisms Permutation.
Import ListNotations.
From Verif Require Import Prelude Field FieldInst Matrix NdArray DecompModel DecompProofs DecompProps
  VSArraysModel VSArraysProofs VSArraysProps PodModel PodProofs PodProps BpodModel DmdModel DmdProofs DmdCore
  DmdSnaps DmdProps TlsModel TlsProofs.
Open Scope nat_scope.
Open Scope k_scope.

(** ** The two truncated eigendecompositions *)

(** (E, V): the first [m] orthonormal eigenpairs of the symmetric array [C] in
    decreasing order of magnitude with eigenvalues above the tolerances; [w1]: all
    eigenvalues in that order. *)
Record eigh_kept {F : sfield} (C : arr F) (w0 w1 : list F) (t : F) (rtol : option F) (m : option nat)
    (E : list F) (V : arr F) : Prop := {
  ek_perm : Permutation w1 w0; ek_sorted : abs_decreasing w1; ek_prefix : E = firstn (length E) w1;
  ek_above : exists atol', raised true (Some t) w0 atol' /\
    forall i, i < length w1 -> (i < length E <-> above atol' rtol w1 i /\ under m i);
  ek_r : nr V = nr C; ek_c : nc V = length E;
  ek_orth : meq (length E) (length E) (mmul (nr C) (madj (ent V)) (ent V)) mid;
  ek_eig : meq (nr C) (length E) (mmul (nr C) (ent C) (ent V)) (mmul (length E) (ent V) (mdiag (at1 E)));
  ek_pos : Forall (klt_p 0) E;
  ek_exact : (forall i, length E <= i < length w1 -> at1 w1 i = 0) ->
    meq (nr C) (nr C) (ent C) (mmul (length E) (ent V) (mmul (length E) (mdiag (at1 E)) (madj (ent V))))
}.

Lemma eigh_stage {F : sfield} eigh_lapack argsort (C V0 : arr F) w0 (t : F) rtol m :
  (0 < nr C)%nat -> eigh_lapack C = Ok (w0, V0) -> eigh_contract C w0 V0 ->
  argsort_contract (map kabs w0) (argsort (map kabs w0)) -> real t -> kle 0 t -> tol_real rtol ->
  exists vals cvecs w1, eigh eigh_lapack argsort C (Some t) rtol true = Ok (vals, cvecs) /\
    eigh_kept C w0 w1 t rtol m (max_list m vals) (max_cols m (length vals) cvecs).
Proof.
  intros HN HL HC HS Rt Ht Hr.
  destruct (C16_truncated_eigh eigh_lapack argsort C V0 w0 (Some t) rtol true HL HC HS)
    as (atol' & w1 & vals & cvecs & EE & HR & HE); auto.
  { discriminate. }
  exists vals, cvecs, w1. split; auto.
  assert (Pos : Forall (klt_p 0) vals).
  { eapply C16_positive; eauto. apply (eigh_real _ _ _ HC). }
  assert (PE : vals = firstn (length vals) w1) by apply (er_prefix _ _ _ _ _ _ _ HE).
  assert (Hle : length (max_list m vals) <= length vals) by apply max_list_le.
  set (E := max_list m vals) in *. set (V := max_cols m (length vals) cvecs).
  split.
  - apply HE.
  - apply HE.
  - unfold E. rewrite max_list_firstn at 1. rewrite PE at 2. rewrite firstn_firstn.
    rewrite Nat.min_l by apply max_list_le. reflexivity.
  - exists atol'. split; auto. intros i Hi. unfold E. rewrite max_list_len.
    rewrite (er_kept _ _ _ _ _ _ _ HE i Hi). tauto.
  - unfold V. rewrite max_cols_nr. apply HE.
  - apply max_cols_nc. apply HE.
  - unfold V. rewrite max_cols_ent. apply (orthonormal_sub _ _ _ _ Hle). apply HE.
  - unfold V. rewrite max_cols_ent, mmul_diag_r. split. intros i j Hi Hj.
    pose proof (er_eig _ _ _ _ _ _ _ HE) as G. rewrite mmul_diag_r in G.
    rewrite (meq_at _ _ _ _ G i j Hi ltac:(lia)). unfold E. rewrite max_list_at by auto. reflexivity.
  - unfold E. rewrite max_list_firstn. apply Forall_forall. intros x Hx.
    apply (proj1 (Forall_forall _ _) Pos). rewrite <- (firstn_skipn (length (max_list m vals)) vals).
    apply in_or_app. auto.
  - intros Hz. assert (EQ : length E = length vals).
    { destruct (Nat.eq_dec (length E) (length vals)) as [|Ne]; auto. exfalso.
      assert (L1 : length vals <= length w1) by (rewrite PE, firstn_length; lia).
      assert (Z0 : at1 w1 (length E) = 0) by (apply Hz; lia).
      assert (Z1 : at1 vals (length E) = 0) by (rewrite PE, at1_firstn by lia; auto).
      pose proof (Forall_at _ _ (length E) Pos ltac:(lia)) as G. rewrite Z1 in G.
      red in G. rewrite (lt_irrefl F 0 real_0) in G. discriminate. }
    assert (EE' : E = vals).
    { unfold E. rewrite max_list_firstn. unfold E in EQ. rewrite EQ. apply firstn_all. }
    unfold V. rewrite max_cols_ent. rewrite EE'. apply (er_exact _ _ _ _ _ _ _ HE). rewrite <- EE'. exact Hz.
Qed.

Lemma eigh_stage_kept {F : sfield} sqrt (X C : arr F) W w0 w1 t rtol m E V :
  nr C = nc X -> meq (nc X) (nc X) (ent C) (wip (nr X) W (ent X) (ent X)) ->
  eigh_kept C w0 w1 t rtol m E V -> (forall e, In e w0 -> klt_p 0 e -> sqrt_ok sqrt e) ->
  dmd_kept sqrt X W E V.
Proof.
  intros Cr EC H Hsq.
  pose proof (ek_orth _ _ _ _ _ _ _ _ H) as H1. pose proof (ek_eig _ _ _ _ _ _ _ _ H) as H2.
  rewrite Cr in H1, H2. split.
  - rewrite (ek_r _ _ _ _ _ _ _ _ H). auto.
  - apply (ek_c _ _ _ _ _ _ _ _ H).
  - exact H1.
  - rewrite <- EC. exact H2.
  - intros i Hi. pose proof (Forall_at _ _ i (ek_pos _ _ _ _ _ _ _ _ H) Hi) as G. split.
    + apply Hsq; auto. rewrite <- (ek_perm _ _ _ _ _ _ _ _ H). apply prefix_in; auto.
      apply (ek_prefix _ _ _ _ _ _ _ _ H).
    + intros E0. rewrite E0 in G. red in G. rewrite (lt_irrefl F 0 real_0) in G. discriminate.
Qed.

(** ** The conclusion for the snapshot method: as [dmd_ok] for the projected data,
    except for the spectral coefficients. *)
Definition tls_returns {F : sfield} (r : res (tls_results F)) (idx : option (list Z))
    (Pe Pp Ps : arr F) w sp pc apc R L E V Es Vs corr : Prop :=
  r = rbind (pick_opt Pe idx) (fun e => rbind (pick_opt Pp idx) (fun p => rbind (pick_opt Ps idx) (fun a =>
        Ok (Tls (Dmd w sp e p a pc apc R L E V None) Es Vs corr)))).

Definition tls_ok {F : sfield} (eig_lapack : arr F -> res (list F * arr F * arr F)) (sqrt : F -> F)
    (X Y : arr F) (W : mat F) (E : list F) (V : arr F) idx Es Vs corr (r : res (tls_results F)) : Prop :=
  exists M, nr M = length E /\ nc M = length E /\
    meq (length E) (length E) (ent M) (low_map sqrt X Y W E (ent V)) /\
    forall w L0 R0, eig_lapack M = Ok (w, L0, R0) -> eig_contract M w L0 R0 ->
      (forall i, i < length E -> pairing (length E) L0 R0 i i <> 0) ->
      exists L Pe Pp Ps pc apc sp sp',
        eig_biorthog eig_lapack M SLeft = Ok (w, R0, L) /\
        tls_returns r idx Pe Pp Ps w sp pc apc R0 L E V Es Vs corr /\
        dmd_spec sqrt X Y W E V w M R0 L Pe Pp Ps pc apc sp' /\
        shape sp = shape sp' /\ length (flat sp) = length E /\
        (forall i, i < length E -> nth i (flat sp) 0 = spectral_as_coded sqrt E (ent V) (ent L) i).

Lemma tls_correlations_ok {F : sfield} ws (vecs : arr F) adv X Y :
  dmd_data vecs adv X Y -> wfits (nr X) ws ->
  exists C K G, TLS_correlations ws vecs adv = Ok (C, K, G) /\
    nr C = nc X /\ nc C = nc X /\ nr K = nc X /\ nc K = nc X /\ nr G = nc X /\ nc G = nc X /\
    meq (nc X) (nc X) (ent C) (wip (nr X) (wmat ws) (ent X) (ent X)) /\
    meq (nc X) (nc X) (ent K) (wip (nr X) (wmat ws) (ent X) (ent Y)) /\
    meq (nc X) (nc X) (ent G) (wip (nr X) (wmat ws) (ent Y) (ent Y)).
Proof.
  intros Hd Hf. pose proof (dmd_data_dims _ _ _ _ Hd) as (D1 & D2 & D3).
  unfold TLS_correlations. destruct adv as [a|].
  - destruct Hd as (-> & -> & Hr & Hc). unfold same_shape2. rewrite Hr, Hc, !Nat.eqb_refl. cbn [negb andb].
    destruct (ip_ok ws vecs vecs eq_refl Hf) as (C & EC & Cr & Cc & CE).
    destruct (ip_ok ws vecs a (eq_sym Hr) Hf) as (K & EK & Kr & Kc & KE).
    assert (Hf' : wfits (nr a) ws) by (rewrite Hr; auto).
    destruct (ip_ok ws a a eq_refl Hf') as (G & EG & Gr & Gc & GE).
    unfold symm_inner_product_array. rewrite EC. cbn [rbind]. rewrite EK. cbn [rbind]. rewrite EG. cbn [rbind].
    exists C, K, G. rewrite Hc, Hr in *. do 7 (split; [auto|]). split; [exact CE|]. split; [exact KE|exact GE].
  - destruct Hd as (H0 & -> & ->).
    destruct (ip_ok ws vecs vecs eq_refl Hf) as (C & EC & Cr & Cc & CE).
    unfold symm_inner_product_array. rewrite EC. cbn [rbind].
    do 3 eexists. split; [reflexivity|].
    cbn [nr nc ent but_last_col but_first_col but_last_row but_first_row row_slice col_slice].
    rewrite Cr, Cc. do 6 (split; [lia|]). split; [|split].
    + split. intros i j Hi Hj. cbn. apply (meq_at _ _ _ _ CE); lia.
    + split. intros i j Hi Hj. cbn. apply (meq_at _ _ _ _ CE); lia.
    + split. intros i j Hi Hj. cbn. apply (meq_at _ _ _ _ CE); lia.
Qed.

(** ** C27: the snapshot method *)

(** Both data sets are projected onto the kept eigenvectors [Vs] of the sum of the
    correlation arrays; the results are those of DMD for the projected data. *)
Theorem C27_TLSqr_snaps {F : sfield} eigh_lapack argsort eig_lapack (sqrt : F -> F) vecs adv X Y idx wopt ws :
  dmd_data vecs adv X Y -> (0 < nc X)%nat ->
  set_weights wopt = Ok ws -> wfits (nr X) ws -> hermitian (nr X) (wmat ws) ->
  exists C K G Sm, TLS_correlations ws vecs adv = Ok (C, K, G) /\ nr Sm = nc X /\ nc Sm = nc X /\
    add_arr C G = Ok Sm /\
    meq (nc X) (nc X) (ent Sm) (madd (wip (nr X) (wmat ws) (ent X) (ent X)) (wip (nr X) (wmat ws) (ent Y) (ent Y))) /\
    forall w0 V0 (t : F) rtol m,
      eigh_lapack Sm = Ok (w0, V0) -> eigh_contract Sm w0 V0 ->
      argsort_contract (map kabs w0) (argsort (map kabs w0)) ->
      real t -> kle 0 t -> tol_real rtol ->
      exists Es Vs w1, eigh_kept Sm w0 w1 t rtol m Es Vs /\
        (exists vals cvecs, eigh eigh_lapack argsort Sm (Some t) rtol true = Ok (vals, cvecs) /\
          Es = max_list m vals /\ Vs = max_cols m (length vals) cvecs) /\
        (* with nothing but zero eigenvalues dropped the projection does nothing *)
        (definite (nr X) (wmat ws) -> nonneg (nr X) (wmat ws) ->
         (forall i, length Es <= i < length w1 -> at1 w1 i = 0) ->
         aeq (denoised X Vs) X /\ aeq (denoised Y Vs) Y) /\
        exists PC, TLS_proj_corr Vs C = Ok PC /\ nr PC = nc X /\ nc PC = nc X /\
          meq (nc X) (nc X) (ent PC) (wip (nr X) (wmat ws) (ent (denoised X Vs)) (ent (denoised X Vs))) /\
          forall w0' V0', eigh_lapack PC = Ok (w0', V0') -> eigh_contract PC w0' V0' ->
            argsort_contract (map kabs w0') (argsort (map kabs w0')) ->
            (forall e, In e w0' -> klt_p 0 e -> sqrt_ok sqrt e) ->
            exists E V w1', eigh_kept PC w0' w1' t None m E V /\
              (exists vals cvecs, eigh eigh_lapack argsort PC (Some t) None true = Ok (vals, cvecs) /\
                E = max_list m vals /\ V = max_cols m (length vals) cvecs) /\
              dmd_kept sqrt (denoised X Vs) (wmat ws) E V /\
              tls_ok eig_lapack sqrt (denoised X Vs) (denoised Y Vs) (wmat ws) E V idx Es Vs (Some (C, G, K))
                (TLS_snaps eigh_lapack argsort eig_lapack sqrt false vecs adv idx wopt (Some t) rtol m).
Proof.
  intros Hd HN Ew Hf HH. pose proof (dmd_data_dims _ _ _ _ Hd) as (Yr & Yc & _).
  destruct (tls_correlations_ok ws vecs adv X Y Hd Hf)
    as (C & K & G & EC & Cr & Cc & Kr & Kc & Gr & Gc & HCC & HKK & HGG).
  set (Sm := Arr (nc X) (nc X) (madd (ent C) (ent G))).
  assert (EA : add_arr C G = Ok Sm).
  { unfold add_arr, same_shape2. rewrite Cr, Cc, Gr, Gc, !Nat.eqb_refl. reflexivity. }
  assert (ES : meq (nc X) (nc X) (ent Sm)
    (madd (wip (nr X) (wmat ws) (ent X) (ent X)) (wip (nr X) (wmat ws) (ent Y) (ent Y)))).
  { unfold Sm. cbn [ent]. rewrite HCC, HGG. reflexivity. }
  exists C, K, G, Sm. do 5 (split; [auto|]).
  intros w0 V0 t rtol m HL HC HS Rt Ht Hr.
  destruct (eigh_stage eigh_lapack argsort Sm V0 w0 t rtol m HN HL HC HS Rt Ht Hr)
    as (vals & cvecs & w1 & EE & HE).
  set (Es := max_list m vals) in *. set (Vs := max_cols m (length vals) cvecs) in *.
  assert (Vsr : nr Vs = nc X) by apply (ek_r _ _ _ _ _ _ _ _ HE).
  assert (Vsc : nc Vs = length Es) by apply (ek_c _ _ _ _ _ _ _ _ HE).
  exists Es, Vs, w1. split; [exact HE|]. split; [exists vals, cvecs; auto|]. split.
  { intros HD HNn Hz.
    destruct (keep_all (nr X) (nc X) (nc Vs) (ent X) (ent Y) (wmat ws) (ent Vs) (ent Sm) (at1 Es) HD HNn) as [K1 K2].
    - rewrite Vsc. apply (ek_orth _ _ _ _ _ _ _ _ HE).
    - exact ES.
    - rewrite Vsc. apply (ek_exact _ _ _ _ _ _ _ _ HE Hz).
    - split; split; try reflexivity.
      + split; [reflexivity|]. exact K1.
      + split; [reflexivity|]. cbn [denoised nr nc ent]. rewrite Yc, Yr. exact K2. }
  set (P := mmul (nc Vs) (ent Vs) (madj (ent Vs))).
  set (PC := Arr (nc X) (nc X) (mmul (nc Vs) (ent Vs) (mmul (nc X) (madj (ent Vs)) (mmul (nc X) (ent C) P)))).
  assert (EP : TLS_proj_corr Vs C = Ok PC).
  { unfold TLS_proj_corr. rewrite dot_eq by reflexivity. cbn [rbind nr nc ent conj_T].
    rewrite dot_eq by (cbn [nr]; congruence). cbn [rbind nr nc ent].
    rewrite onto_eq by (cbn [nr]; congruence). cbn [nr nc ent]. rewrite Vsr, Cc. reflexivity. }
  assert (EPC : meq (nc X) (nc X) (ent PC) (wip (nr X) (wmat ws) (ent (denoised X Vs)) (ent (denoised X Vs)))).
  { unfold PC. cbn [ent]. rewrite <- (mmul_assoc (nc X) (nc X) (nc Vs) (nc X)). fold P.
    apply (denoised_cross X Vs (wmat ws) (ent C) (ent X) HCC). }
  exists PC. do 4 (split; [auto|]).
  intros w0' V0' HL' HC' HS' Hsq.
  destruct (eigh_stage eigh_lapack argsort PC V0' w0' t None m HN HL' HC' HS' Rt Ht I)
    as (vals' & cvecs' & w1' & EE' & HE').
  set (E := max_list m vals') in *. set (V := max_cols m (length vals') cvecs') in *.
  exists E, V, w1'. split; [exact HE'|]. split; [exists vals', cvecs'; auto|].
  assert (HKe : dmd_kept sqrt (denoised X Vs) (wmat ws) E V).
  { apply (eigh_stage_kept sqrt (denoised X Vs) PC (wmat ws) w0' w1' t None m E V); auto. }
  split; [exact HKe|].
  destruct (TLS_core_spec eig_lapack sqrt vecs adv idx X Y Vs (wmat ws) E V K Hd HN HH Vsr Kr Kc HKK HKe)
    as (M & M1 & M2 & M3 & HM).
  exists M. do 3 (split; [auto|]). intros w L0 R0 HLe HCe HPe.
  destruct (HM w L0 R0 HLe HCe HPe) as (L & Pe & Pp & Ps & pc & apc & sp & sp' & B & Rr & Sp & S1 & S2 & S3).
  exists L, Pe, Pp, Ps, pc, apc, sp, sp'. split; [auto|]. split; [|auto].
  unfold tls_returns, TLS_snaps. rewrite Ew. cbn [rbind]. rewrite EC. cbn [rbind fst snd].
  rewrite EA. cbn [rbind]. rewrite EE. cbn [rbind fst snd]. fold Es Vs. rewrite EP. cbn [rbind].
  rewrite EE'. cbn [rbind fst snd]. fold E V. unfold dmd_returns in Rr. rewrite Rr.
  destruct (pick_opt Pe idx); [|reflexivity]. cbn [rbind].
  destruct (pick_opt Pp idx); [|reflexivity]. cbn [rbind].
  destruct (pick_opt Ps idx); reflexivity.
Qed.

Theorem C27_distributed {F : sfield} el argsort eig (sqrt : F -> F) vecs adv idx wopt atol rtol m :
  TLS_snaps el argsort eig sqrt true vecs adv idx wopt atol rtol m = Raise RuntimeError.
Proof. reflexivity. Qed.

(** The spectral coefficients are the documented magnitudes of the first projection
    coefficients when the first entries of the eigenvectors are real. *)
Theorem C27_spectral_real {F : sfield} (sqrt : F -> F) X Y W E V w M R L Pe Pp Ps pc apc sp sp' :
  dmd_spec sqrt X Y W E V w M R L Pe Pp Ps pc apc sp' -> dmd_kept sqrt X W E V -> hermitian (nr X) W -> (0 < nc X)%nat ->
  shape sp = shape sp' -> length (flat sp) = length E ->
  (forall i, i < length E -> nth i (flat sp) 0 = spectral_as_coded sqrt E (ent V) (ent L) i) ->
  (forall j, j < length E -> real (ent V O j)) -> sp = sp'.
Proof.
  intros H KP HH HN Hsh Hl Hc Hr.
  destruct sp as [sh fl], sp' as [sh' fl']. cbn [shape flat] in *. f_equal; auto.
  pose proof (ds_slen _ _ _ _ _ _ _ _ _ _ _ _ _ _ _ _ H) as Hl'. cbn [flat] in Hl'.
  apply (nth_ext _ _ 0 0); [congruence|]. intros i Hi. rewrite Hl in Hi.
  rewrite Hc by auto. pose proof (ds_spec _ _ _ _ _ _ _ _ _ _ _ _ _ _ _ _ H i Hi) as G. cbn [flat] in G. rewrite G.
  unfold spectral_as_coded.
  assert (EQ : sum (length E) (fun j => (ent L j i)^* * (sqrt (at1 E j) * ent V O j)) = ent pc i O).
  { rewrite (meq_at _ _ _ _ (ds_coeffs _ _ _ _ _ _ _ _ _ _ _ _ _ _ _ _ H) i O Hi HN).
    assert (Ss : forall i, i < length E -> sqrt (at1 E i) * sqrt (at1 E i) = at1 E i) by (intros j Hj; apply (kp_pos _ _ _ _ _ KP j Hj)).
    assert (Rs : forall i, i < length E -> real (sqrt (at1 E i))) by (intros j Hj; apply (kp_pos _ _ _ _ _ KP j Hj)).
    assert (Ns : forall i, i < length E -> sqrt (at1 E i) <> 0).
    { intros j Hj. apply (sqrt_ok_neq sqrt (at1 E j)); apply (kp_pos _ _ _ _ _ KP j Hj). }
    assert (G2 : meq (length E) (nc X) (wip (nr X) W (ent Ps) (ent X))
      (mmul (length E) (madj (ent L)) (mmul (length E) (mdiag (fun i => sqrt (at1 E i))) (madj (ent V))))).
    { rewrite (ds_adj _ _ _ _ _ _ _ _ _ _ _ _ _ _ _ _ H). unfold reduced. rewrite !mmul_assoc, wip_mul_l.
      apply (dmd_proj_coeffs (nc X) (length E) _ (ent V) (ent L) (at1 E)); auto; try apply KP.
      apply wip_adj. auto. }
    rewrite (meq_at _ _ _ _ G2 i O Hi HN). unfold mmul at 1. apply sum_ext. intros j Hj.
    rewrite (meq_at _ _ _ _ (mmul_diag_l (length E) (nc X) _ _) j O Hj HN). unfold madj. rewrite (Hr j Hj). reflexivity. }
  rewrite EQ. reflexivity.
Qed.

(** ** Without truncation in the first step: ordinary DMD *)

Lemma dmd_kept_aeq {F : sfield} (sqrt : F -> F) X X' W E V :
  aeq X X' -> dmd_kept sqrt X W E V -> dmd_kept sqrt X' W E V.
Proof.
  intros (HR & HC & HX) [k1 k2 k3 k4 k5]. rewrite HC in *. rewrite HR in *. split; auto.
  rewrite <- HX. exact k4.
Qed.
Lemma low_map_aeq {F : sfield} (sqrt : F -> F) X X' Y Y' W E V : aeq X X' -> aeq Y Y' -> nr Y = nr X -> nc Y = nc X ->
  meq (length E) (length E) (low_map sqrt X Y W E V) (low_map sqrt X' Y' W E V).
Proof.
  intros (HR & HC & HX) (HR' & HC' & HY) Yr Yc. unfold low_map. rewrite <- HR, <- HC. rewrite Yr, Yc in HY.
  rewrite HX, HY. reflexivity.
Qed.
Lemma dmd_spec_aeq {F : sfield} (sqrt : F -> F) X X' Y Y' W E V w M R L Pe Pp Ps pc apc sp :
  aeq X X' -> aeq Y Y' -> nr Y = nr X -> nc Y = nc X ->
  dmd_spec sqrt X Y W E V w M R L Pe Pp Ps pc apc sp -> dmd_spec sqrt X' Y' W E V w M R L Pe Pp Ps pc apc sp.
Proof.
  intros AX AY Yr Yc H. pose proof (low_map_aeq sqrt X X' Y Y' W E (ent V) AX AY Yr Yc) as EL.
  destruct AX as (HR & HC & HX), AY as (HR' & HC' & HY). rewrite Yr, Yc in HY.
  assert (RX : meq (nr X) (length E) (reduced sqrt X E (ent V)) (reduced sqrt X' E (ent V))).
  { unfold reduced. rewrite <- HC, HX. reflexivity. }
  assert (RY : meq (nr X) (length E) (reduced sqrt Y E (ent V)) (reduced sqrt Y' E (ent V))).
  { unfold reduced. rewrite <- HC', Yc, HY. reflexivity. }
  split; rewrite <- ?HR, <- ?HC; try apply H.
  - rewrite <- EL. apply H.
  - rewrite <- RX. apply H.
  - rewrite <- RX. apply H.
  - intros i j Hi Hj Hw. rewrite (ds_exact _ _ _ _ _ _ _ _ _ _ _ _ _ _ _ _ H i j Hi Hj Hw).
    assert (G : meq (nr X) (length E) (mmul (length E) (reduced sqrt Y E (ent V)) (ent R))
      (mmul (length E) (reduced sqrt Y' E (ent V)) (ent R))) by (rewrite RY; reflexivity).
    apply (meq_at _ _ _ _ G i j Hi Hj).
  - rewrite <- HX. apply H.
  - rewrite <- HY. apply H.
Qed.
Lemma dmd_ok_aeq {F : sfield} eig_lapack (sqrt : F -> F) X X' Y Y' W E V idx corr r :
  aeq X X' -> aeq Y Y' -> nr Y = nr X -> nc Y = nc X ->
  dmd_ok eig_lapack sqrt X Y W E V idx corr r -> dmd_ok eig_lapack sqrt X' Y' W E V idx corr r.
Proof.
  intros AX AY Yr Yc (M & M1 & M2 & M3 & H). exists M. split; [auto|]. split; [auto|]. split.
  - rewrite M3. apply low_map_aeq; auto.
  - intros w L0 R0 HL HC HP. destruct (H w L0 R0 HL HC HP) as (L & Pe & Pp & Ps & pc & apc & sp & B & Rr & Sp).
    exists L, Pe, Pp, Ps, pc, apc, sp. split; [auto|]. split; [auto|]. eapply dmd_spec_aeq; eauto.
Qed.
Lemma tls_ok_aeq {F : sfield} eig_lapack (sqrt : F -> F) X X' Y Y' W E V idx Es Vs corr r :
  aeq X X' -> aeq Y Y' -> nr Y = nr X -> nc Y = nc X ->
  tls_ok eig_lapack sqrt X Y W E V idx Es Vs corr r -> tls_ok eig_lapack sqrt X' Y' W E V idx Es Vs corr r.
Proof.
  intros AX AY Yr Yc (M & M1 & M2 & M3 & H). exists M. split; [auto|]. split; [auto|]. split.
  - rewrite M3. apply low_map_aeq; auto.
  - intros w L0 R0 HL HC HP.
    destruct (H w L0 R0 HL HC HP) as (L & Pe & Pp & Ps & pc & apc & sp & sp' & B & Rr & Sp & Q).
    exists L, Pe, Pp, Ps, pc, apc, sp, sp'. split; [auto|]. split; [auto|]. split; [|auto].
    eapply dmd_spec_aeq; eauto.
Qed.

Lemma agree_returns {F : sfield} (w : list F) r r' idx Pe Pp Ps sp pc apc R L E V c Pe' Pp' Ps' pc' apc' V' c' :
  aeq Pp Pp' -> aeq Ps Ps' -> aeq pc pc' -> aeq apc apc' -> aeq V V' ->
  nr Pe = nr Pe' -> nc Pe = nc Pe' -> (~ In 0 w -> aeq Pe Pe') ->
  dmd_returns r idx Pe Pp Ps w sp pc apc R L E V c ->
  dmd_returns r' idx Pe' Pp' Ps' w sp pc' apc' R L E V' c' -> same_results w r r'.
Proof.
  intros Q2 Q3 Q4 Q5 QV Q6 Q7 Ee Rr Rr'. unfold dmd_returns in Rr, Rr'. rewrite Rr, Rr'. clear Rr Rr'.
  pose proof (pick_aeq Pe Pe' idx Q6 Q7) as Qe.
  pose proof (pick_aeq Pp Pp' idx (proj1 Q2) (proj1 (proj2 Q2))) as Qp.
  pose proof (pick_aeq Ps Ps' idx (proj1 Q3) (proj1 (proj2 Q3))) as Qs.
  destruct (pick_opt Pe idx) as [e|], (pick_opt Pe' idx) as [e'|]; try contradiction; cbn [rbind];
    [|destruct Qe as [-> ->]; reflexivity].
  destruct (pick_opt Pp idx) as [p|], (pick_opt Pp' idx) as [p'|]; try contradiction; cbn [rbind];
    [|destruct Qp as [-> ->]; reflexivity].
  destruct (pick_opt Ps idx) as [s|], (pick_opt Ps' idx) as [s'|]; try contradiction; cbn [rbind];
    [|destruct Qs as [-> ->]; reflexivity].
  unfold same_results. cbn [d_eigvals d_spectral d_proj d_adjoint d_proj_coeffs d_adv_proj_coeffs d_R d_L
    d_cvals d_cvecs d_exact].
  repeat (split; [solve [auto]|]). auto.
Qed.

(** The results without the spectral coefficients. *)
Definition no_spectral {F : sfield} (d : dmd_results F) : dmd_results F :=
  Dmd (d_eigvals d) (Nd [] []) (d_exact d) (d_proj d) (d_adjoint d) (d_proj_coeffs d) (d_adv_proj_coeffs d)
    (d_R d) (d_L d) (d_cvals d) (d_cvecs d) (d_corr d).
Definition same_dmd {F : sfield} (w : list F) (r : res (tls_results F)) (r' : res (dmd_results F)) : Prop :=
  same_results w (rmap (fun t => no_spectral (t_dmd t)) r) (rmap no_spectral r').

Lemma tls_agree {F : sfield} eig_lapack (sqrt : F -> F) X Y W E V idx Es Vs c c' r r' :
  extensional eig_lapack -> (0 < nc X)%nat -> nr Y = nr X -> nc Y = nc X ->
  tls_ok eig_lapack sqrt X Y W E V idx Es Vs c r -> dmd_ok eig_lapack sqrt X Y W E V idx c' r' ->
  exists M, nr M = length E /\ nc M = length E /\
    meq (length E) (length E) (ent M) (low_map sqrt X Y W E (ent V)) /\
    forall w L0 R0, eig_lapack M = Ok (w, L0, R0) -> eig_contract M w L0 R0 ->
      (forall i, i < length E -> pairing (length E) L0 R0 i i <> 0) -> same_dmd w r r'.
Proof.
  intros Hex HN Yr Yc (M & M1 & M2 & M3 & H) (M' & M1' & M2' & M3' & H').
  assert (EM : aeq M M').
  { split; [congruence|]. split; [congruence|]. rewrite M1, M2, M3, M3'. reflexivity. }
  exists M. do 3 (split; [auto|]). intros w L0 R0 HL HC HP.
  assert (HL' : eig_lapack M' = Ok (w, L0, R0)) by (rewrite <- HL; symmetry; auto).
  assert (HC' : eig_contract M' w L0 R0).
  { destruct HC as [c1 c2 c3 c4 c5 c6 c7 c8 c9 c10]. rewrite M1 in *.
    split; rewrite ?M1', ?M2'; auto.
    - rewrite M3', <- M3. auto.
    - rewrite M3', <- M3. auto. }
  destruct (H w L0 R0 HL HC HP) as (L & Pe & Pp & Ps & pc & apc & sp & sp' & B & Rr & Sp & _).
  destruct (H' w L0 R0 HL' HC' HP) as (L' & Pe' & Pp' & Ps' & pc' & apc' & sp'' & B' & Rr' & Sp').
  assert (ELL : L' = L).
  { unfold eig_biorthog in B, B'. rewrite HL in B. rewrite HL' in B'. rewrite B in B'. congruence. }
  subst L'.
  assert (a1 := ds_er _ _ _ _ _ _ _ _ _ _ _ _ _ _ _ _ Sp). assert (a2 := ds_ec _ _ _ _ _ _ _ _ _ _ _ _ _ _ _ _ Sp).
  assert (Lw := ds_wl _ _ _ _ _ _ _ _ _ _ _ _ _ _ _ _ Sp).
  assert (HVV : meq (nc X) (length E) (ent V) (ent V)) by reflexivity.
  destruct (C26_determined sqrt X Y W E V V w M M' R0 L _ _ _ _ _ _ _ _ _ _ _ _ HN Yr Yc HVV Sp Sp')
    as (Q1 & Q2 & Q3 & Q4 & Q5 & Q6 & Q7 & Q8). clear Sp Sp'.
  unfold same_dmd.
  apply (agree_returns w _ _ idx Pe Pp Ps (Nd [] []) pc apc R0 L E V None Pe' Pp' Ps' pc' apc' V c');
    auto using aeq_refl.
  - intros Hz. split; [auto|]. split; [auto|]. rewrite a1, a2. split. intros i j Hi Hj.
    apply Q8; auto. intros E0. apply Hz. rewrite <- E0. apply nth_In. rewrite Lw. auto.
  - unfold dmd_returns. unfold tls_returns in Rr. rewrite Rr.
    destruct (pick_opt Pe idx); [|reflexivity]. cbn [rbind].
    destruct (pick_opt Pp idx); [|reflexivity]. cbn [rbind].
    destruct (pick_opt Ps idx); reflexivity.
  - unfold dmd_returns in Rr' |- *. rewrite Rr'.
    destruct (pick_opt Pe' idx); [|reflexivity]. cbn [rbind].
    destruct (pick_opt Pp' idx); [|reflexivity]. cbn [rbind].
    destruct (pick_opt Ps' idx); reflexivity.
Qed.

(** The call without relative tolerance (the second step has none): if the first step
    drops zero eigenvalues only, the results are those of DMD_snaps. *)
Theorem C27_coincides_snaps {F : sfield} eigh_lapack argsort eig_lapack (sqrt : F -> F) vecs adv X Y idx wopt ws :
  extensional eigh_lapack -> extensional eig_lapack ->
  dmd_data vecs adv X Y -> (0 < nc X)%nat ->
  set_weights wopt = Ok ws -> wfits (nr X) ws -> hermitian (nr X) (wmat ws) ->
  definite (nr X) (wmat ws) -> nonneg (nr X) (wmat ws) ->
  exists C Sm, nr Sm = nc X /\ nc Sm = nc X /\ nr C = nc X /\ nc C = nc X /\
    meq (nc X) (nc X) (ent C) (wip (nr X) (wmat ws) (ent X) (ent X)) /\
    meq (nc X) (nc X) (ent Sm) (madd (wip (nr X) (wmat ws) (ent X) (ent X)) (wip (nr X) (wmat ws) (ent Y) (ent Y))) /\
    forall w0 V0 w0' V0' (t : F) m,
      eigh_lapack Sm = Ok (w0, V0) -> eigh_contract Sm w0 V0 ->
      argsort_contract (map kabs w0) (argsort (map kabs w0)) ->
      eigh_lapack C = Ok (w0', V0') -> eigh_contract C w0' V0' ->
      argsort_contract (map kabs w0') (argsort (map kabs w0')) ->
      (forall e, In e w0' -> klt_p 0 e -> sqrt_ok sqrt e) ->
      real t -> kle 0 t ->
      exists Es Vs w1, eigh_kept Sm w0 w1 t None m Es Vs /\
        (exists vals cvecs, eigh eigh_lapack argsort Sm (Some t) None true = Ok (vals, cvecs) /\
          Es = max_list m vals /\ Vs = max_cols m (length vals) cvecs) /\
        ((forall i, length Es <= i < length w1 -> at1 w1 i = 0) ->
         exists E V w1', eigh_kept C w0' w1' t None m E V /\
         (exists vals cvecs, eigh eigh_lapack argsort C (Some t) None true = Ok (vals, cvecs) /\
            E = max_list m vals /\ V = max_cols m (length vals) cvecs) /\
         exists M, nr M = length E /\ nc M = length E /\
           meq (length E) (length E) (ent M) (low_map sqrt X Y (wmat ws) E (ent V)) /\
           forall w L0 R0, eig_lapack M = Ok (w, L0, R0) -> eig_contract M w L0 R0 ->
             (forall i, i < length E -> pairing (length E) L0 R0 i i <> 0) ->
             same_dmd w (TLS_snaps eigh_lapack argsort eig_lapack sqrt false vecs adv idx wopt (Some t) None m)
               (DMD_snaps eigh_lapack argsort eig_lapack sqrt false vecs adv idx wopt (Some t) None m)).
Proof.
  intros Hx1 Hx2 Hd HN Ew Hf HH HD HNn. pose proof (dmd_data_dims _ _ _ _ Hd) as (Yr & Yc & _).
  destruct (C27_TLSqr_snaps eigh_lapack argsort eig_lapack sqrt vecs adv X Y idx wopt ws Hd HN Ew Hf HH)
    as (C1 & K & G & Sm & EC & S1 & S2 & S3 & S4 & HT).
  destruct (C22_DMD_snaps eigh_lapack argsort eig_lapack sqrt vecs adv X Y idx wopt ws Hd HN Ew Hf HH)
    as (C & K' & EC' & Cr & Cc & HCC & HKK & HDm).
  exists C, Sm. do 6 (split; [auto|]).
  intros w0 V0 w0' V0' t m HL HC HS HL' HC' HS' Hsq Rt Ht.
  destruct (HT w0 V0 t None m HL HC HS Rt Ht I) as (Es & Vs & w1 & HE & HEs & Hno & PC & EP & P1 & P2 & P3 & HT2).
  exists Es, Vs, w1. split; [auto|]. split; [auto|]. intros Hz. destruct (Hno HD HNn Hz) as [AX AY].
  assert (AP : aeq PC C).
  { split; [congruence|]. split; [congruence|]. rewrite P1, P2, P3, HCC.
    destruct AX as (_ & _ & AX). cbn [nr nc denoised] in AX. rewrite AX. reflexivity. }
  assert (HL2 : eigh_lapack PC = Ok (w0', V0')) by (rewrite <- HL'; auto).
  assert (HC2 : eigh_contract PC w0' V0').
  { destruct AP as (A1 & A2 & A3). destruct HC' as [c1 c2 c3 c4 c5 c6 c7]. rewrite <- A1, <- ?A2 in *.
    split; auto. rewrite P1, P2 in A3. rewrite P1 in c6 |- *. rewrite A3. exact c6. }
  destruct (HT2 w0' V0' HL2 HC2 HS' Hsq) as (E & V & w1' & HE' & (vals & cvecs & EE & EEq & EVq) & HKe & HTo).
  destruct (HDm w0' V0' t None m HL' HC' HS' Rt Ht I Hsq)
    as (atol2 & w2 & E2 & V2 & _ & (vals2 & cvecs2 & EE2 & EEq2 & EVq2) & _ & _ & _ & _ & HKe2 & HDo).
  assert (EEE : eigh eigh_lapack argsort PC (Some t) None true = eigh eigh_lapack argsort C (Some t) None true).
  { unfold eigh. rewrite HL2, HL'. reflexivity. }
  rewrite EE, EE2 in EEE. injection EEE as <- <-. rewrite <- EEq in EEq2. rewrite <- EVq in EVq2. subst E2 V2.
  destruct (eigh_stage eigh_lapack argsort C V0' w0' t None m ltac:(lia) HL' HC' HS' Rt Ht I)
    as (vals3 & cvecs3 & w3 & EE3 & HE3).
  rewrite EE2 in EE3. injection EE3 as <- <-. rewrite <- EEq, <- EVq in HE3.
  exists E, V, w3. split; [exact HE3|]. split; [exists vals, cvecs; auto|].
  apply (tls_agree eig_lapack sqrt X Y (wmat ws) E V idx Es Vs (Some (C1, G, K)) (Some (C, K'))); auto.
  apply (tls_ok_aeq eig_lapack sqrt (denoised X Vs) X (denoised Y Vs) Y); auto.
Qed.

(** ** C27: the direct method *)

(** The stacked, weighted data. *)
Definition stacked_data {F : sfield} chol (sqrt : F -> F) wopt (vecs : arr F) (adv : option (arr F)) : res (arr F) :=
  rbind (sqrt_weights chol sqrt wopt) (fun weigh => rbind (weigh vecs) (fun Vw =>
    match adv with
    | None => vstack [but_last_col Vw; but_first_col Vw]
    | Some a => rbind (weigh a) (fun Aw => vstack [Vw; Aw])
    end)).

Lemma vcat_gram {F : sfield} (A B : arr F) : nc A = nc B ->
  meq (nc A) (nc A) (mmul (nr (vcat A B)) (madj (ent (vcat A B))) (ent (vcat A B)))
    (madd (mmul (nr A) (madj (ent A)) (ent A)) (mmul (nr B) (madj (ent B)) (ent B))).
Proof.
  intros Hc. split. intros i j Hi Hj. unfold mmul, madd, madj. cbn [nr ent vcat]. rewrite sum_split. f_equal.
  - apply sum_ext. intros l Hl. rewrite (proj2 (Nat.ltb_lt l (nr A))) by auto. reflexivity.
  - apply sum_ext. intros l Hl. rewrite (proj2 (Nat.ltb_ge (nr A + l) (nr A))) by lia.
    replace (nr A + l - nr A)%nat with l by lia. reflexivity.
Qed.

Theorem C27_TLSqr_direct {F : sfield} svd_lapack chol eig_lapack (sqrt : F -> F) vecs adv X Y idx wopt W :
  dmd_data vecs adv X Y -> (0 < nc X)%nat -> root_ok chol sqrt (nr X) wopt W ->
  exists Z, stacked_data chol sqrt wopt vecs adv = Ok Z /\ nc Z = nc X /\
    meq (nc X) (nc X) (mmul (nr Z) (madj (ent Z)) (ent Z))
      (madd (wip (nr X) W (ent X) (ent X)) (wip (nr X) W (ent Y) (ent Y))) /\
    forall U0 S0 Vh0 atol rtol m,
      svd_lapack Z = Ok (U0, S0, Vh0) -> svd_contract Z U0 S0 Vh0 ->
      tol_real atol -> tol_real rtol -> rtol = None \/ S0 <> [] ->
      exists S Vs, S = firstn (length S) S0 /\
        (forall i, i < length S0 -> (i < length S <-> above atol rtol S0 i /\ under m i)) /\
        nr Vs = nc X /\ nc Vs = length S /\
        meq (length S) (length S) (mmul (nc X) (madj (ent Vs)) (ent Vs)) mid /\
        meq (nc X) (length S) (mmul (nc X) (mmul (nr Z) (madj (ent Z)) (ent Z)) (ent Vs))
          (mmul (length S) (ent Vs) (mdiag (fun i => at1 S i * at1 S i))) /\
        (exists U S' V', svd svd_lapack Z atol rtol = Ok (U, S', V') /\ S = max_list m S' /\
           Vs = max_cols m (length S') V') /\
        (* with nothing but zero singular values dropped the projection does nothing *)
        (definite (nr X) W -> (forall i, i < length S0 -> at1 S0 i <> 0 -> i < length S) ->
         aeq (denoised X Vs) X /\ aeq (denoised Y Vs) Y) /\
        exists Xp Yp, aeq Xp (denoised X Vs) /\ aeq Yp (denoised Y Vs) /\
          TLS_direct svd_lapack chol eig_lapack sqrt false vecs adv idx wopt atol rtol m =
          rmap (fun d => Tls d (map (fun s => s * s) S) Vs None)
            (DMD_direct svd_lapack chol eig_lapack sqrt false Xp (Some Yp) idx wopt atol rtol m).
Proof.
  intros Hd HN HW. set (n := nr X) in *. set (N := nc X) in *.
  pose proof (dmd_data_dims _ _ _ _ Hd) as (D1 & D2 & D3). fold n in D1. fold N in D2, D3.
  destruct (root_ok_weigh _ _ _ _ _ HW) as ((ws & Ews) & HH & weigh & Rm & Ewe & ER & Hwe).
  assert (Vn : nr vecs = n).
  { destruct adv as [a|]; [destruct Hd as (<- & _)|destruct Hd as (_ & E & _)]; auto.
    unfold n. rewrite E. reflexivity. }
  destruct (Hwe vecs Vn) as (Vw & EVw & Vw1 & Vw2 & Vw3).
  assert (Wip : forall A, meq N N (mmul n (madj (mmul n Rm A)) (mmul n Rm A)) (wip n W A A)).
  { intros A. unfold wip. rewrite <- ER, madj_mmul, !mmul_assoc. reflexivity. }
  (* the weighted halves *)
  assert (HZ : exists A B, stacked_data chol sqrt wopt vecs adv = Ok (vcat A B) /\
    nr A = n /\ nc A = N /\ nr B = n /\ nc B = N /\
    meq n N (ent A) (mmul n Rm (ent X)) /\ meq n N (ent B) (mmul n Rm (ent Y)) /\
    match adv with
    | None => A = but_last_col Vw /\ B = but_first_col Vw
    | Some a => A = Vw /\ weigh a = Ok B
    end).
  { unfold stacked_data. rewrite Ewe. cbn [rbind]. rewrite EVw. cbn [rbind]. destruct adv as [a|].
    - destruct Hd as (EX & EY & Hr & Hc).
      destruct (Hwe a ltac:(congruence)) as (Aw & EAw & Aw1 & Aw2 & Aw3).
      rewrite EAw. cbn [rbind vstack]. rewrite Vw2, Aw2, Hc, Nat.eqb_refl.
      exists Vw, Aw. split; [reflexivity|]. do 2 (split; [congruence|]). split; [congruence|]. split; [congruence|].
      rewrite <- EX in Vw3. rewrite <- EY in Aw3. rewrite D2 in Aw3. auto.
    - destruct Hd as (H0 & EX & EY). cbn [vstack].
      cbn [nc but_last_col but_first_col col_slice].
      rewrite (proj2 (Nat.eqb_eq (Nat.min (nc Vw - 1) (nc Vw) - 0) (Nat.min (nc Vw) (nc Vw) - 1))) by lia.
      exists (but_last_col Vw), (but_first_col Vw). split; [reflexivity|].
      cbn [nr nc but_last_col but_first_col col_slice]. do 4 (split; [lia|]).
      split; [|split; [|auto]].
      + split. intros i j Hi Hj. rewrite EX. cbn. rewrite (meq_at _ _ _ _ Vw3 i j Hi) by lia. reflexivity.
      + split. intros i j Hi Hj. rewrite EY. cbn. rewrite (meq_at _ _ _ _ Vw3 i (S j) Hi) by lia. reflexivity. }
  destruct HZ as (A & B & EZ & Ar & Ac & Br & Bc & EA & EB & HAB).
  set (Z := vcat A B) in *.
  assert (Zc : nc Z = N) by (unfold Z; cbn [nc vcat]; auto).
  assert (GZ : meq N N (mmul (nr Z) (madj (ent Z)) (ent Z))
    (madd (wip n W (ent X) (ent X)) (wip n W (ent Y) (ent Y)))).
  { pose proof (vcat_gram A B ltac:(congruence)) as Q. fold Z in Q. rewrite Ac in Q. rewrite Q, Ar, Br, EA, EB, !Wip.
    reflexivity. }
  exists Z. do 3 (split; [auto|]).
  intros U0 S0 Vh0 atol rtol m HL HC Ha Hr Hne.
  destruct (C15_truncated_svd svd_lapack Z U0 Vh0 S0 atol rtol HL HC Ha Hr Hne)
    as (U & S' & V' & EE & G).
  set (S := max_list m S'). set (Vs := max_cols m (length S') V').
  set (k := length S).
  assert (Hk : k <= length S') by apply max_list_le.
  assert (Vsr : nr Vs = N). { unfold Vs. rewrite max_cols_nr, (sr_Vr _ _ _ _ _ _ _ G). auto. }
  assert (Vsc : nc Vs = k). { unfold Vs. rewrite (max_cols_nc m S'); auto. apply (sr_Vc _ _ _ _ _ _ _ G). }
  assert (Vse : ent Vs = ent V') by apply max_cols_ent.
  assert (OV : meq k k (mmul N (madj (ent Vs)) (ent Vs)) mid).
  { rewrite Vse. pose proof (sr_V _ _ _ _ _ _ _ G) as Q. rewrite Zc in Q. apply (orthonormal_sub _ _ _ _ Hk Q). }
  assert (AS : forall i, i < k -> at1 S i = at1 S' i) by (intros i Hi; unfold S; rewrite max_list_at; auto).
  assert (Pre : S = firstn k S0).
  { unfold k, S. rewrite max_list_firstn at 1. rewrite (sr_prefix _ _ _ _ _ _ _ G) at 2. rewrite firstn_firstn.
    rewrite Nat.min_l by apply max_list_le. reflexivity. }
  exists S, Vs. split; [exact Pre|]. split.
  { intros i Hi. unfold S. rewrite max_list_len. rewrite (sr_kept _ _ _ _ _ _ _ G i Hi). tauto. }
  do 3 (split; [auto|]). fold k. split.
  { rewrite Vse. pose proof (sr_AV _ _ _ _ _ _ _ G) as Q1. pose proof (sr_AU _ _ _ _ _ _ _ G) as Q2.
    rewrite Zc in Q1, Q2.
    assert (Q : meq N (length S') (mmul N (mmul (nr Z) (madj (ent Z)) (ent Z)) (ent V'))
      (mmul (length S') (ent V') (mdiag (fun i => at1 S' i * at1 S' i)))).
    { rewrite mmul_assoc, Q1, <- (mmul_assoc N (length S') (nr Z) (length S') (madj (ent Z))), Q2.
      rewrite mmul_assoc, mmul_diag_diag. reflexivity. }
    rewrite mmul_diag_r in Q |- *. split. intros i j Hi Hj.
    rewrite (meq_at _ _ _ _ Q i j Hi ltac:(lia)). rewrite AS by auto. reflexivity. }
  split; [exists U, S', V'; auto|]. split.
  { intros HD Hz.
    assert (LS' : length S' <= length S0) by (rewrite (sr_prefix _ _ _ _ _ _ _ G), firstn_length; lia).
    assert (At' : forall i, i < length S' -> at1 S' i = at1 S0 i).
    { intros i Hi. rewrite (sr_prefix _ _ _ _ _ _ _ G). apply at1_firstn. auto. }
    assert (Zr : forall i, k <= i < length S0 -> at1 S0 i = 0).
    { intros i Hi. destruct (k_dec F (at1 S0 i) 0) as [|Ne]; auto. specialize (Hz i (proj2 Hi) Ne). lia. }
    assert (EX : meq (nr Z) N (ent Z) (mmul k (ent U) (mmul k (mdiag (at1 S)) (madj (ent V'))))).
    { pose proof (sr_exact _ _ _ _ _ _ _ G) as Q. rewrite Zc in Q.
      rewrite Q by (intros i Hi; apply Zr; lia). split. intros i j Hi Hj. unfold mmul at 1 3.
      rewrite (sum_pad k (length S')); auto.
      - apply sum_ext. intros l Hl. f_equal.
        rewrite (meq_at _ _ _ _ (mmul_diag_l (length S') N _ _) l j) by lia.
        rewrite (meq_at _ _ _ _ (mmul_diag_l k N _ _) l j) by lia. rewrite AS by auto. reflexivity.
      - intros l Hl. rewrite (meq_at _ _ _ _ (mmul_diag_l (length S') N _ _) l j) by lia.
        rewrite At', Zr by lia. rewrite mul_0_l. apply mul_0_r. }
    assert (RS : forall i, i < k -> real (at1 S i)).
    { intros i Hi. rewrite AS, At' by lia.
      apply (proj1 (Forall_forall _ _) (svd_real _ _ _ _ HC)). apply nth_In. lia. }
    assert (OU : meq k k (mmul (nr Z) (madj (ent U)) (ent U)) mid).
    { pose proof (sr_U _ _ _ _ _ _ _ G) as Q. apply (orthonormal_sub _ _ _ _ Hk Q). }
    destruct (keep_all n N k (ent X) (ent Y) W (ent V') (mmul (nr Z) (madj (ent Z)) (ent Z))
      (fun i => at1 S i * at1 S i) HD (root_nonneg n W Rm ER)) as [K1 K2].
    - rewrite Vse in OV. exact OV.
    - exact GZ.
    - rewrite EX, !madj_mmul, madj_madj, !mmul_assoc.
      rewrite <- (mmul_assoc k N (nr Z) k (madj (ent U)) (ent U)), OU, mmul_id_l.
      rewrite madj_diag_real by auto. rewrite <- (mmul_assoc k N k k (mdiag (at1 S))), mmul_diag_diag. reflexivity.
    - unfold denoised. rewrite Vsc, Vse, D1, D2. fold n N. split; (split; [|split]); cbn [nr nc ent]; auto. }
  set (P := Arr N N (mmul k (ent Vs) (madj (ent Vs)))).
  assert (EP : dot Vs (conj_T Vs) = Ok P).
  { rewrite dot_eq by reflexivity. cbn [nr nc ent conj_T]. rewrite Vsr, Vsc. reflexivity. }
  exists (Arr n N (mmul N (ent X) (ent P))), (Arr n N (mmul N (ent Y) (ent P))).
  assert (EXP : dot X P = Ok (Arr n N (mmul N (ent X) (ent P)))) by (rewrite dot_eq; reflexivity).
  assert (EYP : dot Y P = Ok (Arr n N (mmul N (ent Y) (ent P)))).
  { rewrite dot_eq by (rewrite D2; reflexivity). rewrite D1, D2. reflexivity. }
  split.
  { split; [reflexivity|]. split; [reflexivity|]. cbn [nr nc ent denoised]. fold N. rewrite Vsc. reflexivity. }
  split.
  { split; [cbn; congruence|]. split; [cbn; congruence|]. cbn [nr nc ent denoised]. rewrite D2, Vsc. reflexivity. }
  unfold TLS_direct. rewrite Ews. cbn [rbind]. rewrite Ewe. cbn [rbind]. rewrite EVw. cbn [rbind].
  assert (ED : (match adv with
    | None => rbind (vstack [but_last_col Vw; but_first_col Vw]) (fun Z => Ok (Z, but_last_col vecs, but_first_col vecs))
    | Some a => rbind (weigh a) (fun Aw => if negb (same_shape2 vecs a) then Raise ValueError else
        rbind (vstack [Vw; Aw]) (fun Z => Ok (Z, vecs, a)))
    end) = Ok (Z, X, Y)).
  { destruct adv as [a|].
    - destruct HAB as [EA' EW]. destruct Hd as (EX & EY & Hr' & Hc'). rewrite EW. cbn [rbind].
      unfold same_shape2. rewrite Hr', Hc', !Nat.eqb_refl. cbn [negb andb vstack]. rewrite <- EA', Ac, Bc, Nat.eqb_refl.
      cbn [rbind]. fold Z. rewrite EX, EY. reflexivity.
    - destruct HAB as [EA' EB']. destruct Hd as (_ & EX & EY). rewrite <- EA', <- EB'. cbn [vstack].
      rewrite Ac, Bc, Nat.eqb_refl. cbn [rbind]. fold Z. rewrite EX, EY. reflexivity. }
  rewrite ED. cbn [rbind fst snd]. rewrite EE. cbn [rbind fst snd]. fold S Vs. rewrite EP. cbn [rbind].
  rewrite EXP. cbn [rbind]. rewrite EYP. cbn [rbind]. reflexivity.
Qed.

(** The DMD of the projected data is described by C26_DMD_direct. *)
Theorem C27_direct_denoised {F : sfield} svd_lapack chol eig_lapack (sqrt : F -> F) X Y Vs Xp Yp idx wopt W :
  nr Y = nr X -> nc Y = nc X -> aeq Xp (denoised X Vs) -> aeq Yp (denoised Y Vs) ->
  (0 < nc X)%nat -> root_ok chol sqrt (nr X) wopt W ->
  exists Xw, weighted_data chol sqrt wopt Xp (Some Yp) = Ok Xw /\ nr Xw = nr X /\ nc Xw = nc X /\
    meq (nc X) (nc X) (mmul (nr X) (madj (ent Xw)) (ent Xw))
      (wip (nr X) W (ent (denoised X Vs)) (ent (denoised X Vs))) /\
    forall U0 S0 Vh0 atol rtol m,
      svd_lapack Xw = Ok (U0, S0, Vh0) -> svd_contract Xw U0 S0 Vh0 ->
      tol_real atol -> tol_real rtol -> rtol = None \/ S0 <> [] ->
      (forall s, In s S0 -> sqrt_ok sqrt (s * s)) ->
      exists S V, S = firstn (length S) S0 /\
        (forall i, i < length S0 -> (i < length S <-> above atol rtol S0 i /\ under m i)) /\
        (exists U S' V', svd svd_lapack Xw atol rtol = Ok (U, S', V') /\ S = max_list m S' /\
           V = max_cols m (length S') V') /\
        ((forall i, i < length S -> at1 S i <> 0) ->
         dmd_kept sqrt (denoised X Vs) W (map (fun s => s * s) S) V /\
         dmd_ok eig_lapack sqrt (denoised X Vs) (denoised Y Vs) W (map (fun s => s * s) S) V idx None
           (DMD_direct svd_lapack chol eig_lapack sqrt false Xp (Some Yp) idx wopt atol rtol m)).
Proof.
  intros Yr Yc AX AY HN HW. pose proof AX as (X1 & X2 & X3). pose proof AY as (Y1 & Y2 & Y3).
  cbn [nr nc denoised] in X1, X2, Y1, Y2.
  assert (Hd : dmd_data Xp (Some Yp) Xp Yp) by (split; [auto|split; [auto|split; congruence]]).
  rewrite <- X1 in HW. rewrite <- X2 in HN.
  destruct (C26_DMD_direct svd_lapack chol eig_lapack sqrt Xp (Some Yp) Xp Yp idx wopt W Hd HN HW)
    as (Xw & R & E1 & W1 & W2 & W3 & W4 & H).
  exists Xw. split; [auto|]. do 2 (split; [congruence|]). split.
  { rewrite <- X1, <- X2. rewrite W3, <- X3. unfold wip. rewrite <- W4, madj_mmul, !mmul_assoc. reflexivity. }
  intros U0 S0 Vh0 atol rtol m HL HC Ha Hr Hne Hsq.
  destruct (H U0 S0 Vh0 atol rtol m HL HC Ha Hr Hne Hsq) as (S & V & (U & S' & V' & EE & ES & EV) & P1 & P2 & P3).
  exists S, V. do 2 (split; [auto|]). split; [exists U, S', V'; auto|]. intros Hz. destruct (P3 Hz) as [KP O].
  split.
  - eapply dmd_kept_aeq; eauto.
  - apply (dmd_ok_aeq eig_lapack sqrt Xp (denoised X Vs) Yp (denoised Y Vs)); auto; congruence.
Qed.

Lemma dot_aeq {F : sfield} (A B B' : arr F) : aeq B B' ->
  match dot A B, dot A B' with Ok C, Ok C' => aeq C C' | Raise e, Raise e' => e = e' | _, _ => False end.
Proof.
  intros (H1 & H2 & H3). unfold dot. rewrite <- H1. destruct (Nat.eqb_spec (nc A) (nr B)) as [E|]; auto.
  split; [reflexivity|]. split; [exact H2|]. cbn [nr nc ent]. rewrite E, H3. reflexivity.
Qed.
Lemma weigh_aeq {F : sfield} chol (sqrt : F -> F) wopt weigh (A A' B B' : arr F) :
  sqrt_weights chol sqrt wopt = Ok weigh -> aeq A A' -> weigh A = Ok B -> weigh A' = Ok B' -> aeq B B'.
Proof.
  intros Hw HA HB HB'.
  assert (G : (weigh = fun A => Ok A) \/ exists M, weigh = fun A => dot M A).
  { unfold sqrt_weights in Hw. destruct wopt as [[[|a [|b [|c s]]] w]|]; try discriminate.
    - injection Hw as <-. right. eexists. reflexivity.
    - destruct (chol (as_2d a b w)) as [L|]; cbn [rbind] in Hw; [|discriminate]. injection Hw as <-.
      right. eexists. reflexivity.
    - injection Hw as <-. auto. }
  destruct G as [->|[M ->]].
  - congruence.
  - pose proof (dot_aeq M A A' HA) as Q. rewrite HB, HB' in Q. exact Q.
Qed.

(** If the first step drops zero singular values only, TLS_direct and DMD_direct return
    the same results. *)
Theorem C27_coincides_direct {F : sfield} svd_lapack chol eig_lapack (sqrt : F -> F) vecs adv X Y idx wopt W :
  extensional svd_lapack -> extensional eig_lapack ->
  dmd_data vecs adv X Y -> (0 < nc X)%nat -> root_ok chol sqrt (nr X) wopt W -> definite (nr X) W ->
  exists Z Xw, stacked_data chol sqrt wopt vecs adv = Ok Z /\ weighted_data chol sqrt wopt vecs adv = Ok Xw /\
    forall Uz Sz Vhz U0 S0 Vh0 atol rtol m,
      svd_lapack Z = Ok (Uz, Sz, Vhz) -> svd_contract Z Uz Sz Vhz ->
      svd_lapack Xw = Ok (U0, S0, Vh0) -> svd_contract Xw U0 S0 Vh0 ->
      tol_real atol -> tol_real rtol -> rtol = None \/ Sz <> [] -> rtol = None \/ S0 <> [] ->
      (forall s, In s S0 -> sqrt_ok sqrt (s * s)) ->
      (forall i, i < length Sz -> at1 Sz i <> 0 -> above atol rtol Sz i /\ under m i) ->
      exists S V, S = firstn (length S) S0 /\
        (forall i, i < length S0 -> (i < length S <-> above atol rtol S0 i /\ under m i)) /\
        (exists U S' V', svd svd_lapack Xw atol rtol = Ok (U, S', V') /\ S = max_list m S' /\
           V = max_cols m (length S') V') /\
        ((forall i, i < length S -> at1 S i <> 0) ->
         exists M, nr M = length S /\ nc M = length S /\
           meq (length S) (length S) (ent M) (low_map sqrt X Y W (map (fun s => s * s) S) (ent V)) /\
           forall w L0 R0, eig_lapack M = Ok (w, L0, R0) -> eig_contract M w L0 R0 ->
             (forall i, i < length S -> pairing (length S) L0 R0 i i <> 0) ->
             same_results w
               (rmap t_dmd (TLS_direct svd_lapack chol eig_lapack sqrt false vecs adv idx wopt atol rtol m))
               (DMD_direct svd_lapack chol eig_lapack sqrt false vecs adv idx wopt atol rtol m)).
Proof.
  intros Hx1 Hx2 Hd HN HW HD. pose proof (dmd_data_dims _ _ _ _ Hd) as (Yr & Yc & _).
  destruct (C27_TLSqr_direct svd_lapack chol eig_lapack sqrt vecs adv X Y idx wopt W Hd HN HW)
    as (Z & EZ & Zc & _ & HT).
  destruct (C26_DMD_direct svd_lapack chol eig_lapack sqrt vecs adv X Y idx wopt W Hd HN HW)
    as (Xw & R & EXw & W1 & W2 & W3 & W4 & HDm).
  exists Z, Xw. do 2 (split; [auto|]).
  intros Uz Sz Vhz U0 S0 Vh0 atol rtol m HLz HCz HL HC Ha Hr Hnz Hne Hsq Hkeep.
  destruct (HT Uz Sz Vhz atol rtol m HLz HCz Ha Hr Hnz)
    as (Ss & Vs & _ & HSs & _ & _ & _ & _ & _ & Hno & Xp & Yp & AX & AY & ET).
  destruct Hno as [AX' AY']; auto.
  { intros i Hi Hi'. apply HSs; auto. }
  assert (AXp : aeq Xp X).
  { destruct AX as (a1 & a2 & a3), AX' as (b1 & b2 & b3). split; [congruence|]. split; [congruence|].
    rewrite a3, a1, a2. exact b3. }
  assert (AYp : aeq Yp Y).
  { destruct AY as (a1 & a2 & a3), AY' as (b1 & b2 & b3). split; [congruence|]. split; [congruence|].
    rewrite a3, a1, a2. exact b3. }
  pose proof AXp as (X1 & X2 & X3). pose proof AYp as (Y1 & Y2 & Y3).
  assert (Hd' : dmd_data Xp (Some Yp) Xp Yp) by (split; [auto|split; [auto|split; congruence]]).
  assert (HN' : (0 < nc Xp)%nat) by congruence.
  assert (HW' : root_ok chol sqrt (nr Xp) wopt W) by (rewrite X1; auto).
  destruct (C26_DMD_direct svd_lapack chol eig_lapack sqrt Xp (Some Yp) Xp Yp idx wopt W Hd' HN' HW')
    as (Xw' & R' & EXw' & W1' & W2' & W3' & W4' & HDm').
  assert (AW : aeq Xw' Xw).
  { destruct (root_ok_weigh _ _ _ _ _ HW) as (_ & _ & weigh & Rm & Ewe & ER & Hwe).
    unfold weighted_data in EXw, EXw'. rewrite Ewe in EXw, EXw'. cbn [rbind] in EXw, EXw'.
    destruct (weigh Xp) as [Q|] eqn:EQ; cbn [rbind] in EXw'; [|discriminate]. injection EXw' as <-.
    destruct (weigh vecs) as [Q'|] eqn:EQ'; cbn [rbind] in EXw; [|discriminate].
    destruct adv as [a|].
    - destruct Hd as (EX & _). injection EXw as <-. apply (weigh_aeq chol sqrt wopt weigh Xp vecs); auto.
      rewrite <- EX. auto.
    - destruct Hd as (H0 & EX & EY). injection EXw as <-.
      assert (Xr : nr X = nr vecs) by (rewrite EX; reflexivity).
      destruct (Hwe X eq_refl) as (Q2 & EQ2 & Q2r & Q2c & Q2e).
      pose proof (weigh_aeq chol sqrt wopt weigh Xp X Q Q2 Ewe AXp EQ EQ2) as (c1 & c2 & c3).
      destruct (Hwe vecs (eq_sym Xr)) as (Q3 & EQ3 & Q3r & Q3c & Q3e). rewrite EQ' in EQ3. injection EQ3 as <-.
      split; [rewrite c1, Q2r; cbn; congruence|]. split; [rewrite c2, Q2c, EX; cbn; rewrite Q3c; reflexivity|].
      rewrite c3. rewrite c1, c2, Q2r, Q2c. rewrite Q2e. split. intros i j Hi Hj.
      rewrite EX in Hj. cbn [nc but_last_col col_slice] in Hj.
      rewrite EX at 2. cbn. rewrite (meq_at _ _ _ _ Q3e i j Hi ltac:(lia)). reflexivity. }
  assert (HL' : svd_lapack Xw' = Ok (U0, S0, Vh0)) by (rewrite <- HL; auto).
  assert (HC' : svd_contract Xw' U0 S0 Vh0).
  { destruct AW as (c1 & c2 & c3). destruct HC. split; rewrite ?c1, ?c2; auto.
    rewrite c1, c2 in c3. rewrite c3. assumption. }
  destruct (HDm U0 S0 Vh0 atol rtol m HL HC Ha Hr Hne Hsq)
    as (S & V & (U & S' & V' & EE & ES & EV) & P1 & P2 & P3).
  destruct (HDm' U0 S0 Vh0 atol rtol m HL' HC' Ha Hr Hne Hsq)
    as (S2 & V2 & (U2 & S2' & V2' & EE2 & ES2 & EV2) & _ & _ & P3').
  assert (EEE : svd svd_lapack Xw' atol rtol = svd svd_lapack Xw atol rtol).
  { unfold svd. rewrite HL, HL'. reflexivity. }
  rewrite EE, EE2 in EEE. injection EEE as -> -> ->. rewrite <- ES in ES2. rewrite <- EV in EV2. subst S2 V2.
  exists S, V. do 2 (split; [auto|]). split; [exists U, S', V'; auto|]. intros Hz. destruct (P3 Hz) as [KP O1]. destruct (P3' Hz) as [_ O2].
  apply (dmd_ok_aeq eig_lapack sqrt Xp X Yp Y) in O2; auto; try congruence.
  destruct (C26_agree eig_lapack sqrt X Y W (map (fun s => s * s) S) V V idx None None _ _ Hx2 HN Yr Yc
    (kp_r _ _ _ _ _ KP) (kp_c _ _ _ _ _ KP) (aeq_refl V) O2 O1) as (M & G1 & G2 & G3 & G4).
  rewrite map_length in G1, G2, G3, G4. exists M. do 3 (split; [auto|]).
  intros w L0 R0 HLe HCe HPe. specialize (G4 w L0 R0 HLe HCe HPe). rewrite ET.
  destruct (DMD_direct svd_lapack chol eig_lapack sqrt false Xp (Some Yp) idx wopt atol rtol m); exact G4.
Qed.
