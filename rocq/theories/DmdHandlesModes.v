(** Modes, spectrum and coefficients computed by a DMD handle object that has a
    decomposition: lemmas. *)
From stdpp Require Import gmap list.
From Coq Require Import ZArith Lia Field Ring Setoid Morphisms.
From Verif Require Import Prelude Field Matrix NdArray DecompModel DecompProofs DecompProps
  VSArraysModel VSArraysProofs PodModel PodProofs PodProps BpodModel DmdModel DmdProofs DmdCore DmdSnaps
  TlsModel TlsProofs TlsProps
  Spmd LinCombModel InnerProdProps HandlesModel HandlesProofs HandlesSpace DmdHandlesModel DmdHandlesProofs.
Open Scope nat_scope.
Open Scope k_scope.

(** Build all modes, then the spectrum and the coefficients. *)
Definition DMD_results_of {F : sfield} tls sqrt (o : dmd_obj F) ei eh pi ph ai ah
    : hprog F (dmd_obj F * nd F * (arr F * arr F)) :=
  (o <== DMD_exact_modes tls sqrt o (Some (Cols ei)) eh None ;
   o <== DMD_proj_modes tls sqrt o (Some (Cols pi)) ph None ;
   o <== DMD_adjoint_modes tls sqrt o (Some (Cols ai)) ah None ;
   r <== DMD_spectrum sqrt o ;
   r' <== DMD_proj_coeffs tls sqrt (fst r) ;
   HRet (fst r', snd r, snd r'))%h.

Section Modes.
Context {F : sfield} {V : Type} (S : space F V) (HS : ip_space S).
Add Field Ff_dmdm : (k_field F).

(** DMD of the vectors [xv] and [yv], each first replaced by the combinations with
    coefficients [Q] (columns). (E, U): eigenpairs kept of the correlation array;
    [w], [R], [L]: eigenpairs of the low-order map. [ejs], [pjs], [ajs] number the
    modes in [ems], [pms], [ams]. *)
Record dmd_modes (sqrt : F -> F) (xv yv : list V) (Q : mat F) (E : list F) (U : arr F) (w : list F)
    (R L pc apc : arr F) (sp : nd F) (ejs pjs ajs : list nat) (ems pms ams : list V) : Prop := {
  dm_elen : length ems = length ejs; dm_plen : length pms = length pjs; dm_alen : length ams = length ajs;
  (* combinations of the data *)
  dm_exact : forall a d, a < length ejs -> at1 w (nth a ejs O) <> 0 ->
    combination S yv (fun i => mode_coeffs sqrt (length xv) Q E (NdArray.ent U) (NdArray.ent R) i (nth a ejs O)
                               * (1 / at1 w (nth a ejs O))) (nth a ems d);
  dm_proj : forall a d, a < length pjs ->
    combination S xv (fun i => mode_coeffs sqrt (length xv) Q E (NdArray.ent U) (NdArray.ent R) i (nth a pjs O))
      (nth a pms d);
  dm_adj : forall a d, a < length ajs ->
    combination S xv (fun i => mode_coeffs sqrt (length xv) Q E (NdArray.ent U) (NdArray.ent L) i (nth a ajs O))
      (nth a ams d);
  (* biorthogonal *)
  dm_bi_proj : forall a b d, a < length ajs -> b < length pjs ->
    ip S (nth a ams d) (nth b pms d)
    = mmul (length E) (madj (NdArray.ent L)) (NdArray.ent R) (nth a ajs O) (nth b pjs O);
  dm_bi_exact : forall a b d, a < length ajs -> b < length ejs -> at1 w (nth b ejs O) <> 0 ->
    ip S (nth a ams d) (nth b ems d)
    = mmul (length E) (madj (NdArray.ent L)) (NdArray.ent R) (nth a ajs O) (nth b ejs O);
  (* coefficients: adjoint modes against the data *)
  dm_cr : nr pc = length E; dm_cc : nc pc = length xv; dm_dr : nr apc = length E; dm_dc : nc apc = length xv;
  dm_coeffs : forall a j d x, a < length ajs -> j < length xv -> combination S xv (fun i => Q i j) x ->
    NdArray.ent pc (nth a ajs O) j = ip S (nth a ams d) x;
  dm_adv : forall a j d y, a < length ajs -> j < length xv -> combination S yv (fun i => Q i j) y ->
    NdArray.ent apc (nth a ajs O) j = ip S (nth a ams d) y;
  (* magnitudes of the first column of projection coefficients *)
  dm_sshape : shape sp = if (length E =? 1)%nat then [] else [length E];
  dm_slen : length (flat sp) = length E;
  dm_spec : forall i, i < length E -> nth i (flat sp) 0 = sqrt ((NdArray.ent pc i O)^* * NdArray.ent pc i O)
}.

(** The coefficients and the spectrum that go with a decomposition; [K]: inner products
    of the data with the advanced data. *)
Record dmd_coeffs (sqrt : F -> F) (m : nat) (Q : mat F) (E : list F) (U : arr F) (L : arr F) (K : mat F)
    (pc apc : arr F) (sp : nd F) : Prop := {
  dc_r : nr pc = length E; dc_c : nc pc = m; dc_ar : nr apc = length E; dc_ac : nc apc = m;
  dc_pc : meq (length E) m (NdArray.ent pc)
    (mmul (length E) (madj (NdArray.ent L)) (mmul (length E) (mdiag (fun i => sqrt (at1 E i))) (madj (NdArray.ent U))));
  dc_apc : meq (length E) m (NdArray.ent apc)
    (mmul (length E) (madj (NdArray.ent L)) (mmul (length E) (mdiag (fun i => 1 / sqrt (at1 E i)))
      (mmul m (madj (NdArray.ent U)) (mmul m (madj Q) (mmul m K Q)))));
  dc_shape : shape sp = if (length E =? 1)%nat then [] else [length E];
  dc_len : length (flat sp) = length E;
  dc_spec : forall i, i < length E -> nth i (flat sp) 0 = sqrt ((NdArray.ent pc i O)^* * NdArray.ent pc i O)
}.
Lemma dmd_coeffs_unique sqrt m Q E U L K pc apc sp pc' apc' sp' : (0 < m)%nat ->
  dmd_coeffs sqrt m Q E U L K pc apc sp -> dmd_coeffs sqrt m Q E U L K pc' apc' sp' ->
  aeq pc pc' /\ aeq apc apc' /\ sp = sp'.
Proof.
  intros Hm A B.
  pose proof (dc_r _ _ _ _ _ _ _ _ _ _ A) as a1. pose proof (dc_c _ _ _ _ _ _ _ _ _ _ A) as a2.
  pose proof (dc_ar _ _ _ _ _ _ _ _ _ _ A) as a3. pose proof (dc_ac _ _ _ _ _ _ _ _ _ _ A) as a4.
  pose proof (dc_r _ _ _ _ _ _ _ _ _ _ B) as b1. pose proof (dc_c _ _ _ _ _ _ _ _ _ _ B) as b2.
  pose proof (dc_ar _ _ _ _ _ _ _ _ _ _ B) as b3. pose proof (dc_ac _ _ _ _ _ _ _ _ _ _ B) as b4.
  assert (EP : meq (length E) m (NdArray.ent pc) (NdArray.ent pc')).
  { rewrite (dc_pc _ _ _ _ _ _ _ _ _ _ A), (dc_pc _ _ _ _ _ _ _ _ _ _ B). reflexivity. }
  split; [split; [congruence|]; split; [congruence|]; rewrite a1, a2; exact EP|].
  split.
  { split; [congruence|]. split; [congruence|]. rewrite a3, a4.
    rewrite (dc_apc _ _ _ _ _ _ _ _ _ _ A), (dc_apc _ _ _ _ _ _ _ _ _ _ B). reflexivity. }
  pose proof (dc_shape _ _ _ _ _ _ _ _ _ _ A) as a5. pose proof (dc_shape _ _ _ _ _ _ _ _ _ _ B) as b5.
  pose proof (dc_len _ _ _ _ _ _ _ _ _ _ A) as a6. pose proof (dc_len _ _ _ _ _ _ _ _ _ _ B) as b6.
  assert (EF : flat sp = flat sp').
  { apply (List.nth_ext _ _ 0 0); [congruence|]. intros i Hi. rewrite a6 in Hi.
    rewrite (dc_spec _ _ _ _ _ _ _ _ _ _ A), (dc_spec _ _ _ _ _ _ _ _ _ _ B) by auto.
    rewrite (meq_at _ _ _ _ EP i O Hi Hm). reflexivity. }
  destruct sp, sp'; simpl in *; congruence.
Qed.

(** After any of the calls. *)
Definition dmd_post (sqrt : F -> F) (xv yv : list V) (Q : mat F) (E : list F) (U : arr F) (w : list F)
    (R L pc apc : arr F) (sp : nd F) ei eh pi ph ai ah (o' : dmd_obj F) (st st' : gmap loc V)
    (r : res (dmd_obj F * nd F * (arr F * arr F))) : Prop :=
  match wrap_all (length E) ei, wrap_all (length E) pi, wrap_all (length E) ai with
  | Raise e, _, _ => r = Raise e /\ st' = st
  | Ok _, Raise e, _ => r = Raise e /\ unchanged_but st st' eh
  | Ok _, Ok _, Raise e => r = Raise e /\ unchanged_but st st' (eh ++ ph)
  | Ok ejs, Ok pjs, Ok ajs =>
      r = Ok (o', sp, (pc, apc)) /\ unchanged_but st st' (eh ++ ph ++ ah) /\
      exists ems pms ams, holds st' eh ems /\ holds st' ph pms /\ holds st' ah ams /\
        dmd_modes sqrt xv yv Q E U w R L pc apc sp ejs pjs ajs ems pms ams
  end.

(** Coordinates of the replaced data with respect to all vectors. *)
Definition data_X (xv yv : list V) (Q : mat F) : arr F :=
  Arr (length (xv ++ yv)) (length xv) (mmul (length xv) (sel 0) Q).
Definition data_Y (xv yv : list V) (Q : mat F) : arr F :=
  Arr (length (xv ++ yv)) (length xv) (mmul (length xv) (sel (length xv)) Q).

Section Data.
Context (xv yv : list V) (LY : length yv = length xv).
Notation all := (xv ++ yv).
Notation T := (length (xv ++ yv)).
Notation m := (length xv).
Notation W := (gmat S (xv ++ yv)).

Lemma data_cross Q : meq m m (wip T W (NdArray.ent (data_X xv yv Q)) (NdArray.ent (data_Y xv yv Q)))
  (mmul m (madj Q) (mmul m (NdArray.ent (gram S xv yv)) Q)).
Proof.
  cbn [data_X data_Y NdArray.ent]. rewrite wip_mul_l, <- wip_mul_r.
  pose proof (coords_gram S HS all (sel 0) (sel (length xv)) xv yv (coords_app_l S yv xv) (coords_app_r S xv yv)) as G.
  rewrite LY in G. rewrite G. reflexivity.
Qed.
Lemma data_corr Q : meq m m (wip T W (NdArray.ent (data_X xv yv Q)) (NdArray.ent (data_X xv yv Q)))
  (mmul m (madj Q) (mmul m (NdArray.ent (gram S xv xv)) Q)).
Proof.
  cbn [data_X NdArray.ent]. rewrite wip_mul_l, <- wip_mul_r.
  rewrite (coords_gram S HS all (sel 0) (sel 0) xv xv (coords_app_l S yv xv) (coords_app_l S yv xv)). reflexivity.
Qed.
Lemma data_adv Q : meq m m (wip T W (NdArray.ent (data_Y xv yv Q)) (NdArray.ent (data_Y xv yv Q)))
  (mmul m (madj Q) (mmul m (NdArray.ent (gram S yv yv)) Q)).
Proof.
  cbn [data_Y NdArray.ent]. rewrite wip_mul_l, <- wip_mul_r.
  pose proof (coords_gram S HS all (sel (length xv)) (sel (length xv)) yv yv (coords_app_r S xv yv) (coords_app_r S xv yv)) as G.
  rewrite LY in G. rewrite G. reflexivity.
Qed.
End Data.

Lemma results_ok tls sqrt (o : dmd_obj F) vecs adv xh yh xv yv (w : list F) (R L : arr F) (E : list F)
    (U Vs K M : arr F) st ei eh pi ph ai ah :
  handles_data vecs adv xh yh -> holds st xh xv -> holds st yh yv ->
  dh_vecs o = Some vecs -> dh_adv o = adv ->
  dh_eigvals o = Some w -> dh_R o = Some R -> dh_L o = Some L ->
  dh_cvals o = Some E -> dh_cvecs o = Some U -> dh_cross o = Some K ->
  (tls = true -> dh_svecs o = Some Vs /\ nr Vs = length xv) ->
  nr K = length xv -> nc K = length xv ->
  meq (length xv) (length xv) (NdArray.ent K) (NdArray.ent (gram S xv yv)) ->
  dmd_kept sqrt (data_X xv yv (projection tls Vs)) (gmat S (xv ++ yv)) E U ->
  nr M = length E ->
  meq (length E) (length E) (NdArray.ent M)
    (low_map sqrt (data_X xv yv (projection tls Vs)) (data_Y xv yv (projection tls Vs)) (gmat S (xv ++ yv))
       E (NdArray.ent U)) ->
  biorthog_result M w R L -> length w = length E ->
  length eh = length ei -> length ph = length pi -> length ah = length ai ->
  NoDup (eh ++ ph ++ ah) -> (forall h, h ∈ xh \/ h ∈ yh -> h ∉ eh ++ ph ++ ah) ->
  exists pc apc sp,
    dmd_coeffs sqrt (length xv) (projection tls Vs) E U L (NdArray.ent (gram S xv yv)) pc apc sp /\
    ok S st (DMD_results_of tls sqrt o ei eh pi ph ai ah)
      (dmd_post sqrt xv yv (projection tls Vs) E U w R L pc apc sp ei eh pi ph ai ah
         (set_coeffs (set_spec o sp) (pc, apc)) st).
Proof.
  intros HD Hx Hy Ov Oa Ow OR OL OE OU OK_ OVs Kr Kc EK KP Mr EM BR Lw Le Lp La Hnd Hdis.
  destruct (handles_dims _ _ _ _ HD) as (D1 & D2 & D3).
  pose proof (Forall2_length _ _ _ Hx) as LX. pose proof (Forall2_length _ _ _ Hy) as LYh.
  assert (LY : length yv = length xv) by congruence.
  set (m := length xv) in *. set (k := length E) in *. set (Q := projection tls Vs) in *.
  assert (Ur : nr U = m) by apply (kp_r _ _ _ _ _ KP). assert (Uc : nc U = k) by apply (kp_c _ _ _ _ _ KP).
  pose proof (br_Rr _ _ _ _ BR) as R1. pose proof (br_Rc _ _ _ _ BR) as R2.
  pose proof (br_Lr _ _ _ _ BR) as L1. pose proof (br_Lc _ _ _ _ BR) as L2. rewrite Mr in R1, R2, L1, L2.
  assert (OVs1 : tls = true -> dh_svecs o = Some Vs) by (intros Ht; apply (OVs Ht)).
  assert (Vsr : tls = true -> nr Vs = m) by (intros Ht; apply (OVs Ht)).
  destruct (build_exact_ok tls sqrt o m w R L E U Vs K) as (be & Hbe & be1 & be2 & be3); auto.
  destruct (build_coeffs_ok tls sqrt o m E U Vs OE OU OVs1 Ur Uc Vsr R R1 R2) as (bp & Hbp & bp1 & bp2 & bp3).
  destruct (build_coeffs_ok tls sqrt o m E U Vs OE OU OVs1 Ur Uc Vsr L L1 L2) as (ba & Hba & ba1 & ba2 & ba3).
  assert (Rs : forall i, i < k -> real (sqrt (at1 E i))) by (intros i Hi; apply (kp_pos _ _ _ _ _ KP i Hi)).
  destruct (spectrum_ok tls sqrt o m w R L E U Vs K) as (sp & Hsp & sp1 & sp2 & sp3); auto; [lia|].
  destruct (proj_coeffs_ok tls sqrt (set_spec o sp) m L E U Vs K) as (pc & apc & Hpc & pc1 & pc2 & ap1 & ap2 & pc3 & ap3); auto.
  exists pc, apc, sp.
  fold k in be2, bp2, ba2. fold Q k in be3, bp3, ba3, ap3. fold k in pc1, ap1, pc3, sp1, sp2, sp3.
  set (all := xv ++ yv) in *. set (T := length all).
  set (Pe := Arr T k (mmul m (sel m) (NdArray.ent be)) : arr F).
  set (Pp := Arr T k (mmul m (sel 0) (NdArray.ent bp)) : arr F).
  set (Ps := Arr T k (mmul m (sel 0) (NdArray.ent ba)) : arr F).
  set (X := data_X xv yv Q) in *. set (Y := data_Y xv yv Q) in *. set (W := gmat S all) in *.
  assert (SPEC : dmd_spec sqrt X Y W E U w M R L Pe Pp Ps pc apc sp).
  { apply dmd_spec_intro; auto; try reflexivity.
    - apply (gmat_hermitian S HS).
    - apply (kp_orth _ _ _ _ _ KP).
    - apply (kp_eig _ _ _ _ _ KP).
    - apply (kp_pos _ _ _ _ _ KP).
    - unfold Pp, X, data_X. cbn [NdArray.ent nr nc]. fold all T m k. rewrite bp3. unfold mode_coeffs.
      fold k. rewrite !mmul_assoc. reflexivity.
    - unfold Ps, X, data_X. cbn [NdArray.ent nr nc]. fold all T m k. rewrite ba3. unfold mode_coeffs.
      fold k. rewrite !mmul_assoc. reflexivity.
    - unfold Pe, Y, X, data_X, data_Y. cbn [NdArray.ent nr nc]. fold all T m k. rewrite be3. unfold mode_coeffs.
      fold k. rewrite !mmul_assoc. reflexivity.
    - unfold X, data_X. cbn [nc nr]. fold all T m k. rewrite ap3, EK.
      pose proof (data_cross xv yv LY Q) as DC. fold m all T W X Y in DC. rewrite <- DC. reflexivity.
    - intros i Hi. rewrite (sp3 i Hi). cbv zeta. rewrite <- !(meq_at _ _ _ _ pc3 i O Hi) by lia. reflexivity. }
  split.
  { split; auto; fold k m Q.
    - rewrite ap3, EK. reflexivity.
    - intros i Hi. rewrite (sp3 i Hi). cbv zeta. rewrite <- !(meq_at _ _ _ _ pc3 i O Hi) by lia. reflexivity. }
  assert (Nx : xh <> []) by (intros ->; simpl in D1; lia).
  assert (Ny : yh <> []) by (intros ->; simpl in D2; lia).
  apply NoDup_app in Hnd. destruct Hnd as (Nd1 & Nd2 & Nd3).
  apply NoDup_app in Nd3. destruct Nd3 as (Nd3 & Nd4 & Nd5).
  assert (InE : forall h, h ∈ eh -> h ∈ eh ++ ph ++ ah) by (intros; apply elem_of_app; auto).
  assert (InP : forall h, h ∈ ph -> h ∈ eh ++ ph ++ ah) by (intros; rewrite !elem_of_app; auto).
  assert (InA : forall h, h ∈ ah -> h ∈ eh ++ ph ++ ah) by (intros; rewrite !elem_of_app; auto).
  (* the three linear combinations *)
  assert (STEP1 : DMD_exact_modes tls sqrt o (Some (Cols ei)) eh None
                = hbind (combine eh yh be (Some (Cols ei))) (fun _ => HRet o)).
  { unfold DMD_exact_modes. rewrite Hbe. cbn [hbind]. rewrite Oa, Ov. destruct adv as [a|].
    - destruct HD as (_ & _ & _ & ->). reflexivity.
    - destruct HD as (_ & _ & ->). rewrite be1, D3, LX, Nat.eqb_refl. reflexivity. }
  assert (STEP : forall B idx sums C, build_coeffs tls sqrt o B = HRet C -> nr C = m ->
     DMD_modes_of tls sqrt o B idx sums = hbind (combine sums xh C idx) (fun _ => HRet o)).
  { intros B idx sums C HC HC1. unfold DMD_modes_of. rewrite HC. cbn [hbind]. rewrite Ov. cbn [need hbind].
    rewrite HC1, D3, LX. destruct adv as [a|].
    - rewrite (proj2 (Nat.eqb_neq m (m + 1))) by lia. rewrite Nat.eqb_refl.
      destruct HD as (_ & _ & -> & _). reflexivity.
    - rewrite Nat.eqb_refl. destruct HD as (_ & -> & _). reflexivity. }
  unfold DMD_results_of. apply ok_bind. rewrite STEP1.
  unfold dmd_post. fold k.
  apply (ok_combine S eh yh be ei yv); auto; [congruence| |].
  { intros h Hh Hin. apply (Hdis h); auto. }
  rewrite be2. destruct (wrap_all k ei) as [ejs|e]; [|auto].
  intros st1 ems Lej Hej Hems Lems Heco Hun1. cbn [ok].
  apply ok_bind. unfold DMD_proj_modes. rewrite OR, (STEP _ _ _ bp Hbp bp1).
  apply (ok_combine S ph xh bp pi xv); auto; [congruence| | |].
  { apply (unchanged_holds st st1 eh); auto. intros h Hh Hin. apply (Hdis h); auto. }
  { intros h Hh Hin. apply (Hdis h); auto. }
  rewrite bp2. destruct (wrap_all k pi) as [pjs|e].
  2: { split; [reflexivity|]. intros h Hh. auto. }
  intros st2 pms Lpj Hpj Hpms Lpms Hpco Hun2. cbn [ok].
  assert (Hun12 : unchanged_but st st2 (eh ++ ph)).
  { intros h Hh. rewrite Hun2, Hun1; auto; intros Hin; apply Hh, elem_of_app; auto. }
  apply ok_bind. unfold DMD_adjoint_modes. rewrite OL, (STEP _ _ _ ba Hba ba1).
  apply (ok_combine S ah xh ba ai xv); auto; [congruence| | |].
  { apply (unchanged_holds st st2 (eh ++ ph)); auto. intros h Hh Hin. apply (Hdis h); auto.
    apply elem_of_app in Hin. destruct Hin; auto. }
  { intros h Hh Hin. apply (Hdis h); auto. }
  rewrite ba2. destruct (wrap_all k ai) as [ajs|e].
  2: { split; [reflexivity|exact Hun12]. }
  intros st3 ams Laj Haj Hams Lams Haco Hun3. cbn [ok].
  rewrite Hsp. cbn [hbind fst snd]. rewrite Hpc. cbn [hbind fst snd ok].
  split; [reflexivity|]. split.
  { intros h Hh. rewrite Hun3, Hun12; auto; rewrite !elem_of_app in *; tauto. }
  exists ems, pms, ams. split.
  { apply (unchanged_holds st2 st3 ah); auto.
    - apply (unchanged_holds st1 st2 ph); auto. intros h Hh Hin. apply (Nd2 h Hh), elem_of_app. auto.
    - intros h Hh Hin. apply (Nd2 h Hh), elem_of_app. auto. }
  split.
  { apply (unchanged_holds st2 st3 ah); auto. }
  split; [auto|].
  assert (JE : forall a, a < length ejs -> nth a ejs O < k) by (intros a Hlt; apply nth_js; auto).
  assert (JP : forall a, a < length pjs -> nth a pjs O < k) by (intros a Hlt; apply nth_js; auto).
  assert (JA : forall a, a < length ajs -> nth a ajs O < k) by (intros a Hlt; apply nth_js; auto).
  assert (CX : coords S all (sel 0) xv) by apply coords_app_l.
  assert (CY : coords S all (sel m) yv) by apply coords_app_r.
  pose proof (coords_trans S all _ _ yv ems CY Heco) as CE.
  pose proof (coords_trans S all _ _ xv pms CX Hpco) as CP.
  pose proof (coords_trans S all _ _ xv ams CX Haco) as CA.
  rewrite LY in CE.
  split; auto.
  - congruence.
  - congruence.
  - congruence.
  - intros a d Hlt Hw. eapply combination_ext; [|apply (Heco a d); congruence].
    intros i Hi. unfold mcols. rewrite LY in Hi. rewrite (meq_at _ _ _ _ be3 i _ Hi (JE a Hlt)).
    rewrite (meq_at _ _ _ _ (mmul_diag_r m k _ _) i _ Hi (JE a Hlt)). reflexivity.
  - intros a d Hlt. eapply combination_ext; [|apply (Hpco a d); congruence].
    intros i Hi. unfold mcols. rewrite (meq_at _ _ _ _ bp3 i _ Hi (JP a Hlt)). reflexivity.
  - intros a d Hlt. eapply combination_ext; [|apply (Haco a d); congruence].
    intros i Hi. unfold mcols. rewrite (meq_at _ _ _ _ ba3 i _ Hi (JA a Hlt)). reflexivity.
  - intros a b d Hla Hlb. rewrite (coords_ip S HS all _ _ ams pms a b d CA CP) by congruence.
    exact (meq_at _ _ _ _ (ds_bi_proj _ _ _ _ _ _ _ _ _ _ _ _ _ _ _ _ SPEC) _ _ (JA a Hla) (JP b Hlb)).
  - intros a b d Hla Hlb Hw. rewrite (coords_ip S HS all _ _ ams ems a b d CA CE) by congruence.
    exact (ds_bi_exact _ _ _ _ _ _ _ _ _ _ _ _ _ _ _ _ SPEC _ _ (JA a Hla) (JE b Hlb) Hw).
  - intros a j d x Hla Hj Hxc.
    pose proof (combination_trans S all (sel 0) xv _ x CX Hxc) as Cx.
    rewrite (combination_ip S HS all _ _ _ _ (CA a d ltac:(congruence)) Cx).
    exact (meq_at _ _ _ _ (ds_coeffs _ _ _ _ _ _ _ _ _ _ _ _ _ _ _ _ SPEC) _ _ (JA a Hla) Hj).
  - intros a j d y Hla Hj Hyc.
    pose proof (combination_trans S all (sel m) yv _ y CY Hyc) as Cy. rewrite LY in Cy.
    rewrite (combination_ip S HS all _ _ _ _ (CA a d ltac:(congruence)) Cy).
    exact (meq_at _ _ _ _ (ds_adv _ _ _ _ _ _ _ _ _ _ _ _ _ _ _ _ SPEC) _ _ (JA a Hla) Hj).
  - intros i Hi. rewrite (sp3 i Hi). cbv zeta. rewrite <- !(meq_at _ _ _ _ pc3 i O Hi) by lia. reflexivity.
Qed.

End Modes.
