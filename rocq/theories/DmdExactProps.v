(** Property C68, continued: what the exact modes reproduce, and TLS DMD. *)
From Coq Require Import List Arith Lia Bool ZArith Field Ring Setoid Morphisms Permutation.
Import ListNotations.
From Verif Require Import Prelude Field FieldInst Matrix NdArray DecompModel DecompProofs DecompProps
  VSArraysModel VSArraysProofs VSArraysProps PodModel PodProofs PodProps BpodModel DmdModel DmdProofs DmdCore DmdSnaps DmdProps
  DmdFit DmdExamples TlsModel TlsProofs TlsProps TlsExamples DmdSeqProps.
Open Scope nat_scope.
Open Scope k_scope.

Section Exact.
Context {F : sfield} (sqrt : F -> F) (X Y : arr F) (W : mat F) (E : list F) (V : arr F)
  (w : list F) (M R L Pe Pp Ps pc apc : arr F) (sp : nd F).
Context (HW : hermitian (nr X) W) (HK : dmd_kept sqrt X W E V).
Context (HS : dmd_spec sqrt X Y W E V w M R L Pe Pp Ps pc apc sp).
Context (Yr : nr Y = nr X) (Yc : nc Y = nc X).
Notation n := (nr X).
Notation N := (nc X).
Notation k := (length E).
Notation s := (fun i => sqrt (at1 E i)).
Notation D := (mdiag (fun i => 1 / sqrt (at1 E i))).
Add Field Exactfield : (k_field F).

(** The exact modes times the eigenvalues, with proj_coeffs, give the advanced data back,
    restricted to the directions kept. *)
Theorem C68_exact : NoDup w -> (forall l, l < k -> at1 w l <> 0) ->
  meq n N (mmul k (ent Pe) (mmul k (mdiag (at1 w)) (ent pc))) (kept_data Y k (ent V)).
Proof.
  intros ND Nz. destruct (fit_s sqrt X W E V HK) as (S1 & S2 & S3).
  assert (EP : meq n k (mmul k (ent Pe) (mdiag (at1 w))) (mmul k (reduced sqrt Y E (ent V)) (ent R))).
  { rewrite mmul_diag_r. split. intros i j Hi Hj.
    rewrite <- (ds_exact _ _ _ _ _ _ _ _ _ _ _ _ _ _ _ _ HS i j Hi Hj (Nz j Hj)). ring. }
  rewrite <- mmul_assoc, EP, (seq_pc sqrt X Y W E V w M R L Pe Pp Ps pc apc sp HW HK HS). unfold reduced, kept_data.
  assert (DS : meq k k (mmul k D (mdiag s)) mid).
  { rewrite mmul_diag_diag. apply mdiag_1. intros; field; auto. }
  rewrite !mmul_assoc, <- (mmul_assoc k N k k (ent R) (madj (ent L))),
    (seq_pair sqrt X Y W E V w M R L Pe Pp Ps pc apc sp HS ND), mmul_id_l.
  rewrite <- (mmul_assoc k N k k D (mdiag s)), DS, mmul_id_l. reflexivity.
Qed.

(** One sequence: the expansion in the exact modes gives every vector but the first, the last
    one included. *)
Context (x : nat -> nat -> F).
Context (Xx : forall i j, i < n -> j < N -> ent X i j = x j i) (Yx : forall i j, i < n -> j < N -> ent Y i j = x (S j) i).
Theorem C68_exact_sequence : NoDup w -> (forall l, l < k -> at1 w l <> 0) ->
  k = N \/ meq n N (kept_data Y k (ent V)) (ent Y) ->
  forall j i, 1 <= j <= N -> i < n -> x j i = expansion k (ent Pe) w (fun l => ent pc l O) j i.
Proof.
  intros ND Nz HH j i Hj Hi. destruct j as [|j]; [lia|].
  assert (HY : meq n N (kept_data Y k (ent V)) (ent Y)).
  { destruct HH as [E1|H]; auto. rewrite <- Yr at 1. apply (full_kept sqrt X W E V HK); auto. }
  rewrite <- Yx by (auto; lia).
  rewrite <- (meq_at _ _ _ _ HY i j Hi ltac:(lia)), <- (meq_at _ _ _ _ (C68_exact ND Nz) i j Hi ltac:(lia)).
  unfold expansion, mmul at 1. apply sum_ext. intros l Hl. f_equal.
  rewrite (meq_at _ _ _ _ (mmul_diag_l k N (at1 w) (ent pc)) l j Hl ltac:(lia)).
  rewrite (seq_shift sqrt X Y W E V w M R L Pe Pp Ps pc apc sp HW HK HS Yr Yc x Xx Yx HY l j Hl ltac:(lia)).
  cbn [kpow]. ring.
Qed.
End Exact.

(** ** TLS DMD *)

(** Two orthonormal families of as many vectors, one within the span of the other. *)
Lemma same_projection {F : sfield} N k (Vs V : mat F) :
  meq k k (mmul N (madj Vs) Vs) mid -> meq k k (mmul N (madj V) V) mid ->
  meq N k (mmul N (mmul k Vs (madj Vs)) V) V ->
  meq N N (mmul k V (madj V)) (mmul k Vs (madj Vs)).
Proof.
  intros O1 O2 HV. set (Q := mmul N (madj Vs) V).
  assert (EV : meq N k V (mmul k Vs Q)) by (unfold Q; rewrite <- mmul_assoc; symmetry; exact HV).
  assert (QQ : meq k k (mmul k (madj Q) Q) mid).
  { rewrite <- O2 at 1. rewrite EV, madj_mmul, mmul_assoc, <- (mmul_assoc k k N k (madj Vs)), O1, mmul_id_l. reflexivity. }
  rewrite EV, madj_mmul, mmul_assoc, <- (mmul_assoc k N k k Q).
  rewrite (left_inverse_right k Q (madj Q) QQ), mmul_id_l. reflexivity.
Qed.

(** The modes, eigenvalues and coefficients fit the pairs of [X] and [Y] without error. *)
Record fits {F : sfield} (X Y : arr F) (w : list F) (d : dmd_results F) : Prop := {
  ft_eigvals : d_eigvals d = w;
  ft_data : meq (nr X) (nc X) (mmul (length w) (ent (d_proj d)) (ent (d_proj_coeffs d))) (ent X);
  ft_adv : meq (length w) (nc X) (ent (d_adv_proj_coeffs d)) (mmul (length w) (mdiag (at1 w)) (ent (d_proj_coeffs d)));
  ft_exact : (forall l, l < length w -> at1 w l <> 0) ->
    meq (nr X) (nc X) (mmul (length w) (ent (d_exact d)) (mmul (length w) (mdiag (at1 w)) (ent (d_proj_coeffs d)))) (ent Y)
}.

Section Tls.
Context {F : sfield} (sqrt : F -> F) (X Y Vs : arr F) (W : mat F) (E : list F) (V : arr F).
Context (Yr : nr Y = nr X) (Yc : nc Y = nc X) (HW : hermitian (nr X) W).
Context (Vo : meq (nc Vs) (nc Vs) (mmul (nc X) (madj (ent Vs)) (ent Vs)) mid).
Context (HK : dmd_kept sqrt (denoised X Vs) W E V).
Context (HE : length E = nc Vs).
Add Field Tlsfield : (k_field F).
Notation N := (nc X).
Notation k := (length E).

Lemma tls_proj : meq N N (mmul k (ent V) (madj (ent V))) (mmul (nc Vs) (ent Vs) (madj (ent Vs))).
Proof.
  rewrite <- HE in *. apply same_projection; [exact Vo|apply HK|].
  set (P := mmul k (ent Vs) (madj (ent Vs))).
  assert (PA : meq N N (madj P) P) by (unfold P; rewrite madj_mmul, madj_madj; reflexivity).
  assert (PP : meq N N (mmul N P P) P).
  { unfold P. rewrite mmul_assoc, <- (mmul_assoc k N N k (madj (ent Vs))), Vo, mmul_id_l. reflexivity. }
  pose proof (kp_eig _ _ _ _ _ HK) as G. unfold denoised in G. cbn [nr nc ent] in G. rewrite <- HE in G. fold P in G.
  assert (EV : meq N k (ent V) (mmul N P (mmul N (wip (nr X) W (ent X) (mmul N (ent X) P))
    (mmul k (ent V) (mdiag (fun i => 1 / at1 E i)))))).
  { transitivity (mmul k (mmul k (ent V) (mdiag (at1 E))) (mdiag (fun i => 1 / at1 E i))).
    - rewrite mmul_assoc, mmul_diag_diag, mdiag_1, mmul_id_r; [reflexivity|].
      intros i Hi. field. apply (kp_pos _ _ _ _ _ HK i Hi).
    - rewrite <- G, wip_mul_l, PA, !mmul_assoc. reflexivity. }
  rewrite EV at 1. rewrite <- mmul_assoc, PP. symmetry. exact EV.
Qed.
Lemma tls_kept (Z : arr F) : nc Z = N -> meq (nr Z) N (kept_data (denoised Z Vs) k (ent V)) (ent (denoised Z Vs)).
Proof.
  intros HZ. unfold kept_data, denoised. cbn [nc ent]. rewrite HZ, tls_proj.
  assert (PP : meq N N (mmul N (mmul (nc Vs) (ent Vs) (madj (ent Vs))) (mmul (nc Vs) (ent Vs) (madj (ent Vs))))
    (mmul (nc Vs) (ent Vs) (madj (ent Vs)))).
  { rewrite mmul_assoc, <- (mmul_assoc (nc Vs) N N (nc Vs) (madj (ent Vs))), Vo, mmul_id_l. reflexivity. }
  rewrite mmul_assoc, PP. reflexivity.
Qed.
(** If the second truncation keeps as many directions as the first, the result fits the
    denoised pairs without error. *)
Theorem C68_TLS w M R L Pe Pp Ps pc apc sp sp' R' L' E' V' c :
  dmd_spec sqrt (denoised X Vs) (denoised Y Vs) W E V w M R L Pe Pp Ps pc apc sp -> NoDup w ->
  fits (denoised X Vs) (denoised Y Vs) w (Dmd w sp' Pe Pp Ps pc apc R' L' E' V' c).
Proof.
  intros HS ND. pose proof (ds_wl _ _ _ _ _ _ _ _ _ _ _ _ _ _ _ _ HS) as Lw.
  split; cbn [d_eigvals d_proj d_proj_coeffs d_adv_proj_coeffs d_exact]; rewrite ?Lw.
  - reflexivity.
  - rewrite (C68_reconstruct sqrt (denoised X Vs) (denoised Y Vs) W E V w M R L Pe Pp Ps pc apc sp HW HK HS ND).
    apply (tls_kept X eq_refl).
  - apply (C68_advance sqrt (denoised X Vs) (denoised Y Vs) W E V w M R L Pe Pp Ps pc apc sp HW HK HS Yc).
    pose proof (tls_kept Y Yc) as G. rewrite Yr in G. exact G.
  - intros Nz. rewrite (C68_exact sqrt (denoised X Vs) (denoised Y Vs) W E V w M R L Pe Pp Ps pc apc sp HW HK HS ND Nz).
    pose proof (tls_kept Y Yc) as G. rewrite Yr in G. exact G.
Qed.
End Tls.

(** compute_TLSqrDMD_arrays_snaps_method. *)
Theorem C68_TLS_snaps {F : sfield} eigh_lapack argsort eig_lapack (sqrt : F -> F) vecs adv X Y wopt ws :
  dmd_data vecs adv X Y -> (0 < nc X)%nat ->
  set_weights wopt = Ok ws -> wfits (nr X) ws -> hermitian (nr X) (wmat ws) ->
  exists C K G Sm, TLS_correlations ws vecs adv = Ok (C, K, G) /\ add_arr C G = Ok Sm /\ nr Sm = nc X /\ nc Sm = nc X /\
    meq (nc X) (nc X) (ent Sm) (madd (wip (nr X) (wmat ws) (ent X) (ent X)) (wip (nr X) (wmat ws) (ent Y) (ent Y))) /\
    forall w0 V0 (t : F) rtol m vals cvecs,
      eigh_lapack Sm = Ok (w0, V0) -> eigh_contract Sm w0 V0 ->
      argsort_contract (map kabs w0) (argsort (map kabs w0)) ->
      real t -> kle 0 t -> tol_real rtol ->
      eigh eigh_lapack argsort Sm (Some t) rtol true = Ok (vals, cvecs) ->
      let Vs := max_cols m (length vals) cvecs in
      nr Vs = nc X /\ nc Vs = length (max_list m vals) /\
      exists PC, TLS_proj_corr Vs C = Ok PC /\ nr PC = nc X /\ nc PC = nc X /\
        meq (nc X) (nc X) (ent PC) (wip (nr X) (wmat ws) (ent (denoised X Vs)) (ent (denoised X Vs))) /\
        forall w0' V0' vals' cvecs', eigh_lapack PC = Ok (w0', V0') -> eigh_contract PC w0' V0' ->
          argsort_contract (map kabs w0') (argsort (map kabs w0')) ->
          (forall e, In e w0' -> klt_p 0 e -> sqrt_ok sqrt e) ->
          eigh eigh_lapack argsort PC (Some t) None true = Ok (vals', cvecs') ->
          let E := max_list m vals' in let V := max_cols m (length vals') cvecs' in
          (* the second truncation keeps as many directions as the first *)
          length E = length (max_list m vals) ->
          exists M, nr M = length E /\ nc M = length E /\
            meq (length E) (length E) (ent M) (low_map sqrt (denoised X Vs) (denoised Y Vs) (wmat ws) E (ent V)) /\
            forall w L0 R0, eig_lapack M = Ok (w, L0, R0) -> eig_contract M w L0 R0 ->
              (forall i, i < length E -> pairing (length E) L0 R0 i i <> 0) -> NoDup w ->
              exists d, TLS_snaps eigh_lapack argsort eig_lapack sqrt false vecs adv None wopt (Some t) rtol m = Ok d /\
                fits (denoised X Vs) (denoised Y Vs) w (t_dmd d).
Proof.
  intros Hd HN Ew Hf HH. pose proof (dmd_data_dims _ _ _ _ Hd) as (Yr & Yc & _).
  destruct (C27_TLSqr_snaps eigh_lapack argsort eig_lapack sqrt vecs adv X Y None wopt ws Hd HN Ew Hf HH)
    as (C & K & G & Sm & EC & S1 & S2 & EA & ES & H).
  exists C, K, G, Sm. do 5 (split; [auto|]).
  intros w0 V0 t rtol m vals cvecs HL HC HS Rt Ht Hr EE Vs.
  destruct (H w0 V0 t rtol m HL HC HS Rt Ht Hr) as (Es & Vs' & w1 & K1 & (vals1 & cvecs1 & EE1 & -> & ->) & _ & PC & EP & P1 & P2 & P3 & H2).
  rewrite EE in EE1. injection EE1 as <- <-. fold Vs in K1, EP, P3, H2.
  split; [rewrite <- S1; apply (ek_r _ _ _ _ _ _ _ _ K1)|]. split; [apply (ek_c _ _ _ _ _ _ _ _ K1)|].
  exists PC. do 4 (split; [auto|]). intros w0' V0' vals' cvecs' HL' HC' HS' Hsq EE' E V HE.
  destruct (H2 w0' V0' HL' HC' HS' Hsq) as (E1 & V1 & w1' & K2 & (vals2 & cvecs2 & EE2 & -> & ->) & KK & HT).
  rewrite EE' in EE2. injection EE2 as <- <-. fold E V in KK, HT.
  destruct HT as (M & M1 & M2 & M3 & HM). exists M. do 3 (split; [auto|]).
  intros w L0 R0 He Hc Hp ND. destruct (HM w L0 R0 He Hc Hp) as (L & Pe & Pp & Ps & pc & apc & sp & sp' & _ & Rr & Sp & _).
  unfold tls_returns in Rr. cbn [pick_opt rbind] in Rr. eexists. split; [exact Rr|]. cbn [t_dmd].
  pose proof (ek_c _ _ _ _ _ _ _ _ K1) as Vc. pose proof (ek_orth _ _ _ _ _ _ _ _ K1) as Vo. rewrite <- Vc, S1 in Vo.
  exact (C68_TLS sqrt X Y Vs (wmat ws) E V Yr Yc HH Vo KK (eq_trans HE (eq_sym Vc)) w M R0 L Pe Pp Ps pc apc sp' sp R0 L E V None Sp ND).
Qed.

(** compute_TLSqrDMD_arrays_direct_method. *)
Theorem C68_TLS_direct {F : sfield} svd_lapack chol eig_lapack (sqrt : F -> F) vecs adv X Y wopt W :
  dmd_data vecs adv X Y -> (0 < nc X)%nat -> hermitian (nr X) W -> root_ok chol sqrt (nr X) wopt W ->
  exists Z, stacked_data chol sqrt wopt vecs adv = Ok Z /\ nc Z = nc X /\
    meq (nc X) (nc X) (mmul (nr Z) (madj (ent Z)) (ent Z))
      (madd (wip (nr X) W (ent X) (ent X)) (wip (nr X) W (ent Y) (ent Y))) /\
    forall Uz Sz Vhz atol rtol m U S V,
      svd_lapack Z = Ok (Uz, Sz, Vhz) -> svd_contract Z Uz Sz Vhz ->
      tol_real atol -> tol_real rtol -> rtol = None \/ Sz <> [] ->
      svd svd_lapack Z atol rtol = Ok (U, S, V) ->
      let Vs := max_cols m (length S) V in
      nr Vs = nc X /\ nc Vs = length (max_list m S) /\
      exists Xp Yp Xw, aeq Xp (denoised X Vs) /\ aeq Yp (denoised Y Vs) /\
        weighted_data chol sqrt wopt Xp (Some Yp) = Ok Xw /\ nr Xw = nr X /\ nc Xw = nc X /\
        meq (nc X) (nc X) (mmul (nr X) (madj (ent Xw)) (ent Xw)) (wip (nr X) W (ent (denoised X Vs)) (ent (denoised X Vs))) /\
        forall U0 S0 Vh0 U' S' V',
          svd_lapack Xw = Ok (U0, S0, Vh0) -> svd_contract Xw U0 S0 Vh0 -> rtol = None \/ S0 <> [] ->
          (forall s, In s S0 -> sqrt_ok sqrt (s * s)) ->
          svd svd_lapack Xw atol rtol = Ok (U', S', V') ->
          let E := map (fun s => s * s) (max_list m S') in let Ve := max_cols m (length S') V' in
          length E = length (max_list m S) -> (forall i, i < length (max_list m S') -> at1 (max_list m S') i <> 0) ->
          exists M, nr M = length E /\ nc M = length E /\
            meq (length E) (length E) (ent M) (low_map sqrt (denoised X Vs) (denoised Y Vs) W E (ent Ve)) /\
            forall w L0 R0, eig_lapack M = Ok (w, L0, R0) -> eig_contract M w L0 R0 ->
              (forall i, i < length E -> pairing (length E) L0 R0 i i <> 0) -> NoDup w ->
              exists d, TLS_direct svd_lapack chol eig_lapack sqrt false vecs adv None wopt atol rtol m = Ok d /\
                fits (denoised X Vs) (denoised Y Vs) w (t_dmd d).
Proof.
  intros Hd HN HH HW. pose proof (dmd_data_dims _ _ _ _ Hd) as (Yr & Yc & _).
  destruct (C27_TLSqr_direct svd_lapack chol eig_lapack sqrt vecs adv X Y None wopt W Hd HN HW) as (Z & EZ & Zc & ZZ & H).
  exists Z. do 3 (split; [auto|]). intros Uz Sz Vhz atol rtol m U S V HL HC Ha Hr Hn EE Vs.
  destruct (H Uz Sz Vhz atol rtol m HL HC Ha Hr Hn)
    as (Ss & Vs1 & _ & _ & Vr & Vc & Vo & _ & (U1 & S1 & V1 & EE1 & -> & ->) & _ & Xp & Yp & AX & AY & ET).
  rewrite EE in EE1. injection EE1 as <- <- <-. fold Vs in Vr, Vc, Vo, AX, AY, ET. rewrite <- Vc in Vo.
  destruct (C27_direct_denoised svd_lapack chol eig_lapack sqrt X Y Vs Xp Yp None wopt W Yr Yc AX AY HN HW)
    as (Xw & EXw & X1 & X2 & X3 & H2).
  split; [exact Vr|]. split; [exact Vc|]. exists Xp, Yp, Xw. do 6 (split; [auto|]). intros U0 S0 Vh0 U' S' V' HL' HC' Hn' Hsq EE' E Ve HE Hz.
  destruct (H2 U0 S0 Vh0 atol rtol m HL' HC' Ha Hr Hn' Hsq) as (S2 & V2 & _ & _ & (U3 & S3 & V3 & EE3 & -> & ->) & G).
  rewrite EE' in EE3. injection EE3 as <- <- <-. destruct (G Hz) as [KK (M & M1 & M2 & M3 & HM)]. fold E Ve in KK, M1, M2, M3, HM.
  exists M. do 3 (split; [auto|]). intros w L0 R0 He Hc Hp ND.
  destruct (HM w L0 R0 He Hc Hp) as (L & Pe & Pp & Ps & pc & apc & sp & _ & Rr & Sp).
  unfold dmd_returns in Rr. cbn [pick_opt rbind] in Rr. rewrite Rr in ET. cbn [rmap] in ET.
  eexists. split; [exact ET|]. cbn [t_dmd].
  exact (C68_TLS sqrt X Y Vs W E Ve Yr Yc HH Vo KK (eq_trans HE (eq_sym Vc)) w M R0 L Pe Pp Ps pc apc sp sp R0 L E Ve None Sp ND).
Qed.

(** ** The exact modes of compute_DMD_arrays_snaps_method and compute_DMD_arrays_direct_method *)
Definition reproduces_exact {F : sfield} (vecs : arr F) (w : list F) (d : dmd_results F) : Prop :=
  (forall l, l < length w -> at1 w l <> 0) ->
  forall j i, 1 <= j <= nc vecs - 1 -> i < nr vecs ->
    ent vecs i j = expansion (length w) (ent (d_exact d)) w (fun l => ent (d_proj_coeffs d) l O) j i.
Lemma exact_returned {F : sfield} eig_lapack (sqrt : F -> F) (vecs : arr F) W E V corr r :
  hermitian (nr vecs) W -> dmd_kept sqrt (but_last_col vecs) W E V -> length E = (nc vecs - 1)%nat ->
  dmd_ok eig_lapack sqrt (but_last_col vecs) (but_first_col vecs) W E V None corr r ->
  exists M, nr M = length E /\ nc M = length E /\
    meq (length E) (length E) (ent M) (low_map sqrt (but_last_col vecs) (but_first_col vecs) W E (ent V)) /\
    forall w L0 R0, eig_lapack M = Ok (w, L0, R0) -> eig_contract M w L0 R0 ->
      (forall i, i < length E -> pairing (length E) L0 R0 i i <> 0) -> NoDup w ->
      exists d, r = Ok d /\ reproduces_exact vecs w d.
Proof.
  intros HW HK HE (M & M1 & M2 & M3 & HM). exists M. do 3 (split; [auto|]).
  intros w L0 R0 He Hc Hp ND. destruct (HM w L0 R0 He Hc Hp) as (L & Pe & Pp & Ps & pc & apc & sp & _ & G1 & G2).
  unfold dmd_returns in G1. cbn [pick_opt rbind] in G1. eexists. split; [exact G1|].
  assert (NX : nc (but_last_col vecs) = (nc vecs - 1)%nat) by (unfold but_last_col, col_slice; cbn [nc]; lia).
  assert (NY : nc (but_first_col vecs) = (nc vecs - 1)%nat) by (unfold but_first_col, col_slice; cbn [nc]; lia).
  pose proof (ds_wl _ _ _ _ _ _ _ _ _ _ _ _ _ _ _ _ G2) as Lw.
  unfold reproduces_exact. cbn [d_exact d_proj_coeffs]. rewrite Lw. intros Nz. rewrite <- NX.
  apply (C68_exact_sequence sqrt (but_last_col vecs) (but_first_col vecs) W E V w M R0 L Pe Pp Ps pc apc sp HW HK G2
    eq_refl ltac:(congruence) (fun j i => ent vecs i j)); auto. left. congruence.
Qed.
Theorem C68_exact_snaps {F : sfield} eigh_lapack argsort eig_lapack (sqrt : F -> F) (vecs : arr F) wopt ws :
  2 <= nc vecs -> set_weights wopt = Ok ws -> wfits (nr vecs) ws -> hermitian (nr vecs) (wmat ws) ->
  exists C K, DMD_correlations ws vecs None = Ok (C, K) /\ nr C = (nc vecs - 1)%nat /\ nc C = (nc vecs - 1)%nat /\
    meq (nc vecs - 1) (nc vecs - 1) (ent C) (wip (nr vecs) (wmat ws) (ent vecs) (ent vecs)) /\
    forall w0 V0 (t : F) rtol vals cvecs,
      eigh_lapack C = Ok (w0, V0) -> eigh_contract C w0 V0 ->
      argsort_contract (map kabs w0) (argsort (map kabs w0)) ->
      real t -> kle 0 t -> tol_real rtol -> (forall e, In e w0 -> klt_p 0 e -> sqrt_ok sqrt e) ->
      eigh eigh_lapack argsort C (Some t) rtol true = Ok (vals, cvecs) ->
      length vals = (nc vecs - 1)%nat ->
      exists M, nr M = length vals /\ nc M = length vals /\ meq (length vals) (length vals) (ent M)
          (low_map sqrt (but_last_col vecs) (but_first_col vecs) (wmat ws) vals (ent cvecs)) /\
        forall w L0 R0, eig_lapack M = Ok (w, L0, R0) -> eig_contract M w L0 R0 ->
          (forall i, i < length vals -> pairing (length vals) L0 R0 i i <> 0) -> NoDup w ->
          exists d, DMD_snaps eigh_lapack argsort eig_lapack sqrt false vecs None None wopt (Some t) rtol None = Ok d /\
            reproduces_exact vecs w d.
Proof.
  intros H2 Hw Hf HH.
  assert (NX : nc (but_last_col vecs) = (nc vecs - 1)%nat) by (unfold but_last_col, col_slice; cbn [nc]; lia).
  destruct (C22_DMD_snaps eigh_lapack argsort eig_lapack sqrt vecs None (but_last_col vecs) (but_first_col vecs) None wopt ws)
    as (C & K & EC & Cr & Cc & HC & _ & H); auto.
  { split; [lia|auto]. }
  { lia. }
  exists C, K. split; [exact EC|]. do 2 (split; [congruence|]). split; [rewrite <- NX; exact HC|].
  intros w0 V0 t rtol vals cvecs He Hc Ha Ht Ht0 Hr Hs Ev Lv.
  destruct (H w0 V0 t rtol None He Hc Ha Ht Ht0 Hr Hs) as (atol' & w1 & E & V & _ & (vals' & cvecs' & Ev' & -> & ->) & _ & _ & _ & _ & HK & HO).
  rewrite Ev in Ev'. injection Ev' as <- <-. cbn [max_list max_cols] in HK, HO.
  destruct (exact_returned eig_lapack sqrt vecs (wmat ws) vals cvecs (Some (C, K)) _ HH HK Lv HO) as (M & M1 & M2 & M3 & HM).
  exists M. auto.
Qed.
Theorem C68_exact_direct {F : sfield} svd_lapack chol eig_lapack (sqrt : F -> F) (vecs : arr F) wopt W :
  2 <= nc vecs -> hermitian (nr vecs) W -> root_ok chol sqrt (nr vecs) wopt W ->
  exists Xw, weighted_data chol sqrt wopt vecs None = Ok Xw /\ nr Xw = nr vecs /\ nc Xw = (nc vecs - 1)%nat /\
    forall U0 S0 Vh0 atol rtol U S V,
      svd_lapack Xw = Ok (U0, S0, Vh0) -> svd_contract Xw U0 S0 Vh0 ->
      tol_real atol -> tol_real rtol -> rtol = None \/ S0 <> [] ->
      (forall s, In s S0 -> sqrt_ok sqrt (s * s)) ->
      svd svd_lapack Xw atol rtol = Ok (U, S, V) ->
      length S = (nc vecs - 1)%nat -> (forall i, i < length S -> at1 S i <> 0) ->
      exists M, nr M = length S /\ nc M = length S /\ meq (length S) (length S) (ent M)
          (low_map sqrt (but_last_col vecs) (but_first_col vecs) W (map (fun s => s * s) S) (ent V)) /\
        forall w L0 R0, eig_lapack M = Ok (w, L0, R0) -> eig_contract M w L0 R0 ->
          (forall i, i < length S -> pairing (length S) L0 R0 i i <> 0) -> NoDup w ->
          exists d, DMD_direct svd_lapack chol eig_lapack sqrt false vecs None None wopt atol rtol None = Ok d /\
            reproduces_exact vecs w d.
Proof.
  intros H2 HH Hr.
  assert (NX : nc (but_last_col vecs) = (nc vecs - 1)%nat) by (unfold but_last_col, col_slice; cbn [nc]; lia).
  destruct (C26_DMD_direct svd_lapack chol eig_lapack sqrt vecs None (but_last_col vecs) (but_first_col vecs) None wopt W)
    as (Xw & Rt & EX & X1 & X2 & _ & _ & H); auto.
  { split; [lia|auto]. }
  { lia. }
  exists Xw. split; [exact EX|]. split; [exact X1|]. split; [congruence|].
  intros U0 S0 Vh0 atol rtol U S V He Hc Ha Hrt Hn Hs Ev Lv Hz.
  destruct (H U0 S0 Vh0 atol rtol None He Hc Ha Hrt Hn Hs) as (S1 & V1 & (U' & S' & V' & Ev' & -> & ->) & _ & _ & HO).
  rewrite Ev in Ev'. injection Ev' as <- <- <-. cbn [max_list max_cols] in HO.
  destruct (HO Hz) as [HK HO'].
  destruct (exact_returned eig_lapack sqrt vecs W (map (fun s => s * s) S) V None _ HH HK
    (eq_trans (map_length _ S) Lv) HO') as (M & M1 & M2 & M3 & HM).
  rewrite map_length in *. exists M. auto.
Qed.

(** ** Examples: the sequence [ex_seq] *)
Lemma ex_lw_nz l : l < 2 -> at1 ex_lw l <> 0.
Proof. intros Hl. destruct l as [|[|l]]; [| |lia]; apply keqb_false; vm_compute; reflexivity. Qed.
Example C68_exact_example : exists V corr Pe Pp Ps pc apc sp L,
  dmd_returns ex_snaps None Pe Pp Ps ex_lw sp pc apc ex_lR L ex_E V corr /\
  meq 2 2 (mmul 2 (ent Pe) (mmul 2 (mdiag (at1 ex_lw)) (ent pc))) (kept_data (but_first_col ex_seq) 2 (ent V)) /\
  (* the last vector *)
  ent ex_seq 1%nat 2%nat = expansion 2 (ent Pe) ex_lw (fun l => ent pc l O) 2 1.
Proof.
  destruct ex_snaps_ok as (V & corr & V1 & V2 & V3 & HK & HO).
  destruct (ex_run V corr _ V3 HO) as (M & L & Pe & Pp & Ps & pc & apc & sp & G1 & G2).
  exists V, corr, Pe, Pp, Ps, pc, apc, sp, L. split; [exact G1|]. split.
  - exact (C68_exact ex_sqrt (but_last_col ex_seq) (but_first_col ex_seq) ex_W1 ex_E V ex_lw M ex_lR L Pe Pp Ps
      pc apc sp ex_hermitian HK G2 ex_lw_nodup ex_lw_nz).
  - apply (C68_exact_sequence ex_sqrt (but_last_col ex_seq) (but_first_col ex_seq) ex_W1 ex_E V ex_lw M ex_lR L Pe Pp Ps
      pc apc sp ex_hermitian HK G2 eq_refl eq_refl (fun j i => ent ex_seq i j)); auto using ex_lw_nodup, ex_lw_nz;
      cbn; lia.
Qed.
Example C68_exact_snaps_example : exists d, ex_snaps = Ok d /\ reproduces_exact ex_seq ex_lw d.
Proof.
  destruct (C68_exact_snaps (fun _ => Ok (ex_cw, ex_cV)) (fun _ => [0; 1]%nat) (fun _ => Ok (ex_lw, ex_lL, ex_lR))
    ex_sqrt ex_seq ex_dw (W1 [q 4; q 1])) as (C & K & EC & Cr & Cc & HC & H).
  - simpl. lia.
  - reflexivity.
  - reflexivity.
  - exact ex_hermitian.
  - assert (ECC : aeq ex_C C).
    { split; [rewrite Cr; reflexivity|]. split; [rewrite Cc; reflexivity|].
      change (meq 2 2 (ent ex_C) (ent C)). change (nc ex_seq - 1)%nat with 2%nat in HC. rewrite HC.
      apply meqb_true. vm_compute. reflexivity. }
    destruct (eigh (fun _ => Ok (ex_cw, ex_cV)) (fun _ => [0; 1]%nat) C (Some (qi 1 0 8)) None true)
      as [[vals cv]|] eqn:EE.
    2: exfalso; pose proof (f_equal (rmap fst) EE) as G; vm_compute in G; discriminate G.
    assert (Ev : vals = ex_E).
    { pose proof (f_equal (rmap fst) EE) as G. cbn [rmap fst] in G.
      assert (G' : rmap fst (eigh (fun _ => Ok (ex_cw, ex_cV)) (fun _ => [0; 1]%nat) C (Some (qi 1 0 8)) None true)
                   = Ok ex_E) by (vm_compute; reflexivity).
      rewrite G' in G. injection G as G. auto. }
    assert (Ec : meq 2 2 (ent cv) (ent ex_V)).
    { pose proof (f_equal (rmap (fun p => meqb 2 2 (ent (snd p)) (ent ex_V))) EE) as G. cbn [rmap snd] in G.
      assert (G' : rmap (fun p => meqb 2 2 (ent (snd p)) (ent ex_V))
        (eigh (fun _ => Ok (ex_cw, ex_cV)) (fun _ => [0; 1]%nat) C (Some (qi 1 0 8)) None true)
                   = Ok true) by (vm_compute; reflexivity).
      rewrite G' in G. injection G as G. apply meqb_true. auto. }
    subst vals.
    destruct (H ex_cw ex_cV (qi 1 0 8) None ex_E cv) as (M & M1 & M2 & HM & R).
    + reflexivity.
    + destruct ex_C_contract as [c1 c2 c3 c4 c5 c6 c7]. destruct ECC as (e1 & e2 & e3).
      change (nr ex_C) with 2%nat in *. change (nc ex_C) with 2%nat in *.
      split; rewrite <- ?e1, <- ?e2; auto. rewrite <- e3. auto.
    + split; try reflexivity.
      * repeat constructor; simpl; lia.
      * repeat constructor; simpl; lia.
      * intros i j Hij Hj. simpl in Hj. destruct i as [|[|i]]; destruct j as [|[|j]]; try lia;
          try (left; vm_compute; reflexivity); right; reflexivity.
    + apply keqb_true. vm_compute. reflexivity.
    + left. vm_compute. reflexivity.
    + exact I.
    + intros e [<-|[<-|[]]] _; apply sq_ok_dec; vm_compute; reflexivity.
    + exact EE.
    + reflexivity.
    + apply (R ex_lw ex_lL ex_lR); auto using ex_lw_nodup.
      2: apply ex_low_pairing.
      apply (eig_contract_aeq ex_low); [|apply ex_low_contract]. split; [auto|]. split; [auto|].
      change (meq 2 2 (ent ex_low) (ent M)). change (length ex_E) with 2%nat in HM.
      rewrite HM. symmetry. exact (ex_low_eq cv Ec).
Qed.
Example C68_exact_direct_example : exists d, ex_direct = Ok d /\ reproduces_exact ex_seq ex_lw d.
Proof.
  destruct (C68_exact_direct (fun _ => Ok (eye 2, [q 2; q 1], ex_D)) (fun _ => Raise ValueError)
    (fun _ => Ok (ex_lw, ex_lL, ex_lR)) ex_sqrt ex_seq ex_dw ex_W1) as (Xw & EXw & X1 & X2 & H).
  - simpl. lia.
  - exact ex_hermitian.
  - apply RO_1; auto. intros x [<-|[<-|[]]]; apply sq_ok_dec; vm_compute; reflexivity.
  - assert (EX : meq 2 2 (ent Xw) (ent ex_Xw)).
    { pose proof (f_equal (rmap (fun a => meqb 2 2 (ent a) (ent ex_Xw))) EXw) as G. cbn [rmap] in G.
      assert (G' : rmap (fun a => meqb 2 2 (ent a) (ent ex_Xw))
        (weighted_data (fun _ => Raise ValueError) ex_sqrt ex_dw ex_seq None) = Ok true) by (vm_compute; reflexivity).
      rewrite G' in G. injection G as G. apply meqb_true. auto. }
    destruct (svd (fun _ => Ok (eye 2, [q 2; q 1], ex_D)) Xw (Some (qi 1 0 8)) None) as [[[U S'] V']|] eqn:EE.
    2: exfalso; pose proof (f_equal (rmap (fun p => snd (fst p))) EE) as G; vm_compute in G; discriminate G.
    assert (Ev : S' = [q 2; q 1]).
    { pose proof (f_equal (rmap (fun p => snd (fst p))) EE) as G. cbn [rmap fst snd] in G.
      assert (G' : rmap (fun p => snd (fst p)) (svd (fun _ => Ok (eye 2, [q 2; q 1], ex_D)) Xw (Some (qi 1 0 8)) None)
                   = Ok [q 2; q 1]) by (vm_compute; reflexivity).
      rewrite G' in G. injection G as G. auto. }
    assert (Ec : meq 2 2 (ent V') (ent ex_V)).
    { pose proof (f_equal (rmap (fun p => meqb 2 2 (ent (snd p)) (ent ex_V))) EE) as G. cbn [rmap snd] in G.
      assert (G' : rmap (fun p => meqb 2 2 (ent (snd p)) (ent ex_V))
        (svd (fun _ => Ok (eye 2, [q 2; q 1], ex_D)) Xw (Some (qi 1 0 8)) None) = Ok true) by (vm_compute; reflexivity).
      rewrite G' in G. injection G as G. apply meqb_true. auto. }
    subst S'.
    destruct (H (eye 2) [q 2; q 1] ex_D (Some (qi 1 0 8)) None U [q 2; q 1] V') as (M & M1 & M2 & HM & R); auto.
    + destruct ex_Xw_contract as [c1 c2 c3 c4 c5 c6 c7 c8 c9 c10 c11].
      change (nr ex_Xw) with 2%nat in *. change (nc ex_Xw) with 2%nat in *. change (nc ex_seq - 1)%nat with 2%nat in X2.
      split; rewrite ?X1, ?X2; auto. change (meq 2 2 (ent Xw) (mmul 2 (ent (eye 2)) (mmul 2 (mdiag (at1 [q 2; q 1])) (ent ex_D)))).
      rewrite EX. auto.
    + apply keqb_true. vm_compute. reflexivity.
    + exact I.
    + intros s [<-|[<-|[]]]; apply sq_ok_dec; vm_compute; reflexivity.
    + intros [|[|i]] Hi; simpl in Hi; try lia; apply keqb_false; vm_compute; reflexivity.
    + assert (EEE : map (fun s : QI => s * s) [q 2; q 1] = ex_E) by (vm_compute; reflexivity).
      rewrite EEE in HM. apply (R ex_lw ex_lL ex_lR); auto using ex_lw_nodup.
      2: apply ex_low_pairing.
      apply (eig_contract_aeq ex_low); [|apply ex_low_contract]. split; [auto|]. split; [auto|].
      change (meq 2 2 (ent ex_low) (ent M)). change (length [q 2; q 1]) with 2%nat in HM.
      rewrite HM. symmetry. exact (ex_low_eq V' Ec).
Qed.
(** One of two directions kept, in both truncations; the data are changed by the projection. *)
Example C68_TLS_snaps_example : exists Vs d, meq 2 1 (ent Vs) (ent tt_e1) /\ tt_snaps = Ok d /\
  fits (denoised tt_X Vs) (denoised tt_Y Vs) [q 2] (t_dmd d).
Proof.
  destruct (C68_TLS_snaps tt_eigh tl_sort tt_eig tl_sqrt tt_X (Some tt_Y) tt_X tt_Y None WNone)
    as (C & K & G & Sm & EC & EA & S1 & S2 & ES & H).
  - repeat split; auto.
  - simpl. lia.
  - reflexivity.
  - exact I.
  - eqb_solve.
  - change (nc tt_X) with 2%nat in *. change (nr tt_X) with 2%nat in *.
    destruct (mk_aeq 2 2 Sm tt_Sm) as [AS AS']; auto.
    { rewrite ES. eqb_solve. }
    assert (LS : tt_eigh Sm = Ok ([q 9; q 36], tt_V0)).
    { rewrite <- tt_eigh_Sm. apply table_extensional. auto. }
    destruct (eigh tt_eigh tl_sort Sm (Some (qi 1 0 8)) None true) as [[vs cs]|] eqn:EEs.
    2: exfalso; unfold eigh in EEs; rewrite LS in EEs; pose proof (f_equal (rmap fst) EEs) as G0; vm_compute in G0; discriminate G0.
    destruct (eigh_answer _ _ _ _ _ _ _ _ _ 2 [q 36; q 9] (ent (tt_2)) LS EEs) as [Ev Ec];
      [vm_compute; reflexivity|vm_compute; reflexivity|].
    destruct (H [q 9; q 36] tt_V0 (qi 1 0 8) None (Some 1%nat) vs cs) as (_ & Vc & PC & EP & P1 & P2 & P3 & H2).
    + exact LS.
    + apply (eigh_contract_aeq tt_Sm); auto using tt_Sm_contract.
    + apply tl_sort_ok. vm_compute. reflexivity.
    + real_solve.
    + le_solve.
    + exact I.
    + exact EEs.
    + set (Vs := max_cols (Some 1%nat) (length vs) cs) in *.
      assert (VE : meq 2 1 (ent Vs) (ent tt_e1)).
      { unfold Vs. rewrite max_cols_ent. split. intros i j Hi Hj. rewrite (meq_at _ _ _ _ Ec i j Hi ltac:(simpl; lia)).
        destruct i as [|[|i]]; destruct j as [|j]; try lia; reflexivity. }
      rewrite Ev in Vc. change (nc Vs = 1%nat) in Vc.
      assert (DE : forall A, nc A = 2%nat -> meq 2 2 (ent (denoised A Vs)) (ent (denoised A tt_e1))).
      { intros A HA. unfold denoised. cbn [ent]. rewrite HA, Vc. change (nc tt_e1) with 1%nat. rewrite VE. reflexivity. }
      destruct (mk_aeq 2 2 PC tt_PC) as [AP AP']; auto.
      { rewrite P3. rewrite (DE tt_X eq_refl). eqb_solve. }
      assert (LP : tt_eigh PC = Ok ([q 0; q 4], tt_V0)).
      { rewrite <- tt_eigh_PC. apply table_extensional. auto. }
      destruct (eigh tt_eigh tl_sort PC (Some (qi 1 0 8)) None true) as [[vals cv]|] eqn:EE.
      2: exfalso; unfold eigh in EE; rewrite LP in EE; pose proof (f_equal (rmap fst) EE) as G0; vm_compute in G0; discriminate G0.
      destruct (eigh_answer _ _ _ _ _ _ _ _ _ 2 [q 4] (ent tt_e1) LP EE) as [Ev' Ec'];
        [vm_compute; reflexivity|vm_compute; reflexivity|].
      destruct (H2 [q 0; q 4] tt_V0 vals cv) as (M & M1 & M2 & M3 & G2).
      * exact LP.
      * apply (eigh_contract_aeq tt_PC); auto using tt_PC_contract.
      * apply tl_sort_ok. vm_compute. reflexivity.
      * intros e [<-|[<-|[]]] _; apply sqrt_ok_dec; vm_compute; reflexivity.
      * first [exact EE|reflexivity].
      * rewrite Ev, Ev'. reflexivity.
      * rewrite Ev' in *. change (max_list (Some 1%nat) [q 4]) with [q 4] in *. change (length [q 4]) with 1%nat in *.
        assert (VE' : meq 2 1 (ent (max_cols (Some 1%nat) 1 cv)) (ent tt_e1)) by (rewrite max_cols_ent; exact Ec').
        destruct (mk_aeq 1 1 M tt_M) as [AM AM']; auto.
        { rewrite M3. transitivity (low_map tl_sqrt (denoised tt_X tt_e1) (denoised tt_Y tt_e1) mid [q 4] (ent tt_e1)); [|eqb_solve].
          unfold low_map. change (length [q 4]) with 1%nat. change (nr (denoised tt_X Vs)) with 2%nat.
          change (nc (denoised tt_X Vs)) with 2%nat. change (nr (denoised tt_X tt_e1)) with 2%nat.
          change (nc (denoised tt_X tt_e1)) with 2%nat.
          rewrite VE'. rewrite (DE tt_X eq_refl), (DE tt_Y eq_refl). reflexivity. }
        destruct (G2 [q 2] (tt_1) (tt_1)) as (d & Ed & Fd).
        -- rewrite <- tt_eig_M. apply table_extensional. auto.
        -- apply (eig_contract_aeq tt_M); auto using tt_M_contract.
        -- intros [|i] Hi; try lia; neq_solve.
        -- repeat constructor. intros [].
        -- exists Vs, d. auto.
Qed.
Example C68_TLS_direct_example : exists Vs d, meq 2 1 (ent Vs) (ent tt_e1) /\ tt_direct = Ok d /\
  fits (denoised tt_X Vs) (denoised tt_Y Vs) [q 2] (t_dmd d).
Proof.
  destruct (C68_TLS_direct tt_svd no_chol tt_eig tl_sqrt tt_X (Some tt_Y) tt_X tt_Y None mid)
    as (Z & EZ & Zc & _ & H).
  - repeat split; auto.
  - simpl. lia.
  - eqb_solve.
  - constructor.
  - cbn in EZ. injection EZ as <-. fold tt_Z in H.
    destruct (svd tt_svd tt_Z (Some (qi 1 0 8)) None) as [[[U S] V]|] eqn:EE.
    2: exfalso; unfold svd in EE; rewrite tt_svd_Z in EE; pose proof (f_equal (rmap (fun p => snd (fst p))) EE) as G0;
       vm_compute in G0; discriminate G0.
    destruct (svd_answer _ _ tt_Z _ _ _ _ _ _ _ _ 2 [q 6; q 3] (ent (tt_2)) tt_svd_Z EE) as [E1 E2];
      [vm_compute; reflexivity|vm_compute; reflexivity|].
    destruct (H tt_Uz [q 6; q 3] (tt_2) (Some (qi 1 0 8)) None (Some 1%nat) U S V)
      as (_ & Vc & Xp & Yp & Xw & AX & AY & EXw & X1 & X2 & _ & H2).
    + apply tt_svd_Z.
    + apply tt_Z_contract.
    + real_solve.
    + exact I.
    + left. reflexivity.
    + first [exact EE|reflexivity].
    + set (Vs := max_cols (Some 1%nat) (length S) V) in *.
      assert (VE : meq 2 1 (ent Vs) (ent tt_e1)).
      { unfold Vs. rewrite max_cols_ent. split. intros i j Hi Hj. rewrite (meq_at _ _ _ _ E2 i j Hi ltac:(simpl; lia)).
        destruct i as [|[|i]]; destruct j as [|j]; try lia; reflexivity. }
      rewrite E1 in Vc. change (nc Vs = 1%nat) in Vc.
      assert (DE : forall A, nc A = 2%nat -> meq 2 2 (ent (denoised A Vs)) (ent (denoised A tt_e1))).
      { intros A HA. unfold denoised. cbn [ent]. rewrite HA, Vc. change (nc tt_e1) with 1%nat. rewrite VE. reflexivity. }
      cbn in EXw. injection EXw as <-. change (nc tt_X) with 2%nat in *. change (nr tt_X) with 2%nat in *.
      assert (AXp : aeq (denoised tt_X tt_e1) Xp).
      { destruct AX as (a1 & a2 & a3). destruct (mk_aeq 2 2 Xp (denoised tt_X tt_e1)) as [_ AA]; auto.
        rewrite X1, X2 in a3. rewrite a3. apply DE. reflexivity. }
      assert (LX : tt_svd Xp = Ok (tt_2, [q 2; q 0], tt_2)).
      { rewrite <- tt_svd_Xp. symmetry. apply table_extensional. auto. }
      destruct (svd tt_svd Xp (Some (qi 1 0 8)) None) as [[[U2 S2] V2]|] eqn:EE2.
      2: exfalso; unfold svd in EE2; rewrite LX in EE2; pose proof (f_equal (rmap (fun p => snd (fst p))) EE2) as G0;
         vm_compute in G0; discriminate G0.
      destruct (svd_answer _ _ tt_X _ _ _ _ _ _ _ _ 2 [q 2] (ent tt_e1) LX EE2) as [E3 E4];
        [vm_compute; reflexivity|vm_compute; reflexivity|].
      destruct (H2 (tt_2) [q 2; q 0] (tt_2) U2 S2 V2) as (M & M1 & M2 & M3 & G).
      * exact LX.
      * apply (svd_contract_aeq (denoised tt_X tt_e1)); auto using tt_Xp_contract.
      * left. reflexivity.
      * intros s [<-|[<-|[]]]; apply sqrt_ok_dec; vm_compute; reflexivity.
      * first [exact EE2|reflexivity].
      * rewrite E1, E3. reflexivity.
      * rewrite E3. intros [|i] Hi; simpl in Hi; try lia; neq_solve.
      * rewrite E3 in *. change (max_list (Some 1%nat) [q 2]) with [q 2] in *.
        assert (Q4 : map (fun s : QI => s * s) [q 2] = [q 4]) by (vm_compute; reflexivity).
        rewrite Q4 in *. change (length [q 4]) with 1%nat in *. change (length [q 2]) with 1%nat in *.
        assert (VE' : meq 2 1 (ent (max_cols (Some 1%nat) 1 V2)) (ent tt_e1)) by (rewrite max_cols_ent; exact E4).
        destruct (mk_aeq 1 1 M tt_M) as [AM AM']; auto.
        { rewrite M3. transitivity (low_map tl_sqrt (denoised tt_X tt_e1) (denoised tt_Y tt_e1) mid [q 4] (ent tt_e1)); [|eqb_solve].
          unfold low_map. change (length [q 4]) with 1%nat. change (nr (denoised tt_X Vs)) with 2%nat.
          change (nc (denoised tt_X Vs)) with 2%nat. change (nr (denoised tt_X tt_e1)) with 2%nat.
          change (nc (denoised tt_X tt_e1)) with 2%nat.
          rewrite VE'. rewrite (DE tt_X eq_refl), (DE tt_Y eq_refl). reflexivity. }
        destruct (G [q 2] (tt_1) (tt_1)) as (d & Ed & Fd).
        -- rewrite <- tt_eig_M. apply table_extensional. auto.
        -- apply (eig_contract_aeq tt_M); auto using tt_M_contract.
        -- intros [|i] Hi; try lia; neq_solve.
        -- repeat constructor. intros [].
        -- exists Vs, d. auto.
Qed.

Print Assumptions C68_exact.
Print Assumptions C68_exact_sequence.
Print Assumptions C68_exact_snaps.
Print Assumptions C68_exact_direct.
Print Assumptions C68_TLS.
Print Assumptions C68_TLS_snaps.
Print Assumptions C68_TLS_direct.
