(** Properties C22 and C27 for the classes DMDHandles and TLSqrDMDHandles, on any
    number of processes. *)
From stdpp Require Import gmap list.
From Coq Require Import ZArith Lia Field Ring Setoid Morphisms.
From Verif Require Import Prelude Field FieldInst Matrix NdArray DecompModel DecompProofs DecompProps
  VSArraysModel VSArraysProofs PodModel PodProofs PodProps BpodModel DmdModel DmdProofs DmdCore DmdSnaps DmdProps
  TlsModel TlsProofs TlsProps
  Spmd LinCombModel InnerProdProps HandlesModel HandlesProofs HandlesSpace DmdHandlesModel DmdHandlesProofs
  DmdHandlesModes DmdHandlesDecomp.
Open Scope nat_scope.
Open Scope k_scope.

(** Decompose, then compute all modes, the spectrum and the coefficients. *)
Definition DMD_session {F : sfield} (tls : bool) el argsort eig sqrt (o : dmd_obj F) vecs adv atol rtol mx
    ei eh pi ph ai ah : hprog F (dmd_obj F * nd F * (arr F * arr F)) :=
  (o <== (if tls then TLS_decomp el argsort eig sqrt o vecs adv atol rtol mx
          else DMD_decomp el argsort eig sqrt o vecs adv atol rtol mx) ;
   DMD_results_of tls sqrt o ei eh pi ph ai ah)%h.

(** Output handles: one per index, distinct, none of them a data handle. *)
Record dmd_outputs (vecs : list loc) (adv : option (list loc)) (ei : list Z) eh (pi : list Z) ph (ai : list Z) ah
    : Prop := {
  do_e : length eh = length ei; do_p : length ph = length pi; do_a : length ah = length ai;
  do_nd : NoDup (eh ++ ph ++ ah);
  do_dis : forall h, h ∈ vecs \/ h ∈ from_option id [] adv -> h ∉ eh ++ ph ++ ah
}.

(** [E], [U]: what is left of the eigenpairs after max_num_eigvals. *)
Definition kept_by {F : sfield} (r : res (list F * arr F)) (mx : option nat) (E : list F) (U : arr F) : Prop :=
  exists vals cvecs, r = Ok (vals, cvecs) /\ E = max_list mx vals /\ U = max_cols mx (length vals) cvecs.

Section Props.
Context {F : sfield} {V : Type} (S : space F V) (HS : ip_space S).
Add Field Ff_dmdp : (k_field F).

(** Every list of coefficients has a combination. *)
Lemma combination_exists (vs : list V) (c : nat -> F) : vs <> [] -> exists v, combination S vs c v.
Proof.
  intros H. destruct vs as [|d vs']; [contradiction|]. set (vs := d :: vs') in *.
  assert (G : forall k, exists v, forall u,
    ip S u v = sum (Datatypes.S k) (fun i => ip S u (nth i vs d) * c i)).
  { induction k as [|k [v Hv]].
    - exists (smul S d (c O)). intros u. rewrite (ips_smul _ HS). simpl. ring.
    - exists (vadd S v (smul S (nth (Datatypes.S k) vs d) (c (Datatypes.S k)))). intros u.
      rewrite (ips_add _ HS), (ips_smul _ HS), Hv. reflexivity. }
  destruct (G (length vs')) as [v Hv]. exists v. intros u. rewrite Hv.
  change (length vs) with (Datatypes.S (length vs')). apply sum_ext. intros i Hi.
  rewrite (nth_indep vs d v) by (simpl; lia). reflexivity.
Qed.

Lemma session_ok (tls : bool) el argsort eig sqrt (o o1 : dmd_obj F) vecs adv st (t rtol : option F) mx
    ei eh pi ph ai ah (Post : gmap loc V -> res (dmd_obj F * nd F * (arr F * arr F)) -> Prop) :
  ok S st (if tls then TLS_decomp el argsort eig sqrt o vecs adv t rtol mx
           else DMD_decomp el argsort eig sqrt o vecs adv t rtol mx) (fun st' r => st' = st /\ r = Ok o1) ->
  ok S st (DMD_results_of tls sqrt o1 ei eh pi ph ai ah) Post ->
  ok S st (DMD_session tls el argsort eig sqrt o vecs adv t rtol mx ei eh pi ph ai ah) Post.
Proof.
  intros H1 H2. unfold DMD_session. apply ok_bind. eapply ok_mono; [exact H1|]. intros st' r [-> ->]. exact H2.
Qed.

(** From the results of the routines on; [C] and [K] are the correlation arrays the
    object computes. *)
Lemma DMD_core_ok el argsort eig sqrt (o : dmd_obj F) vecs adv xh yh xv yv st t rtol mx
    ei eh pi ph ai ah C K vals cvecs M0 M w R L :
  handles_data vecs adv xh yh -> holds st xh xv -> holds st yh yv ->
  (adv = None -> dh_adv o = None) -> dmd_outputs vecs adv ei eh pi ph ai ah ->
  aeq K (gram S xv yv) ->
  (forall Post, ok S st (DMD_eigendecomp el argsort eig sqrt
       (set_corr (set_handles o (Some vecs) (adv_after o adv)) C K (dh_adv_corr o)) (Some t) rtol mx) Post ->
     ok S st (DMD_decomp el argsort eig sqrt o vecs adv (Some t) rtol mx) Post) ->
  eigh el argsort C (Some t) None true = Ok (vals, cvecs) ->
  let E := max_list mx vals in let U := max_cols mx (length vals) cvecs in
  dmd_kept sqrt (data_X xv yv mid) (gmat S (xv ++ yv)) E U ->
  DMD_low sqrt E U K = Ok M0 -> eig_biorthog eig M0 SLeft = Ok (w, R, L) ->
  nr M = length E ->
  meq (length E) (length E) (NdArray.ent M)
    (low_order sqrt (length xv) mid E (NdArray.ent U) (NdArray.ent (gram S xv yv))) ->
  biorthog_result M w R L -> length w = length E ->
  exists pc apc sp o', dmd_coeffs sqrt (length xv) mid E U L (NdArray.ent (gram S xv yv)) pc apc sp /\
    ok S st
      (DMD_session false el argsort eig sqrt o vecs adv (Some t) rtol mx ei eh pi ph ai ah)
      (dmd_post S sqrt xv yv mid E U w R L pc apc sp ei eh pi ph ai ah o' st).
Proof.
  intros HD Hx Hy Ho Hout AK HDEC EE E U KP EM EB Mr HM' BR Lw.
  destruct (handles_dims _ _ _ _ HD) as (D1 & D2 & D3).
  pose proof (Forall2_length _ _ _ Hx) as Lx. pose proof (Forall2_length _ _ _ Hy) as Ly.
  assert (LY : length yv = length xv) by congruence.
  destruct AK as (Kr & Kc & EK).
  change (nr (gram S xv yv)) with (length xv) in *. change (nc (gram S xv yv)) with (length yv) in *.
  rewrite LY in Kc. rewrite Kr, Kc in EK.
  set (o1 := set_decomp (set_corr (set_handles o (Some vecs) (adv_after o adv)) C K (dh_adv_corr o))
               w R L E U (dh_svals o) (dh_svecs o)).
  assert (EA : adv_after o adv = adv) by (destruct adv; simpl; auto).
  destruct Hout as [Oe Op Oa Ond Odis] eqn:EO.
  destruct (results_ok S HS false sqrt o1 vecs adv xh yh xv yv w R L E U (eye 0) K M st ei eh pi ph ai ah)
    as (pc & apc & sp & HC' & HR); auto.
  { discriminate. }
  { rewrite HM'. symmetry. apply (low_map_order S HS sqrt xv yv mid E); auto. }
  { intros h Hh. apply Odis. apply (handles_in vecs adv xh yh); auto. }
  exists pc, apc, sp, (set_coeffs (set_spec o1 sp) (pc, apc)). split; [exact HC'|].
  apply (session_ok false el argsort eig sqrt o o1 vecs adv); auto.
  refine (HDEC _ _).
  apply (DMD_eigendecomp_ok S el argsort eig sqrt
    (set_corr (set_handles o (Some vecs) (adv_after o adv)) C K (dh_adv_corr o)) C K st t rtol mx vals cvecs M0 w R L); auto.
Qed.
Lemma DMD_core_run limit P tag_ub eager el argsort eig sqrt (o : dmd_obj F) vecs adv xh yh xv yv st t rtol mx
    ei eh pi ph ai ah C K vals cvecs M0 M w R L :
  set_up limit P tag_ub S -> handles_data vecs adv xh yh -> holds st xh xv -> holds st yh yv ->
  (adv = None -> dh_adv o = None) -> dmd_outputs vecs adv ei eh pi ph ai ah ->
  aeq K (gram S xv yv) ->
  (forall Post, ok S st (DMD_eigendecomp el argsort eig sqrt
       (set_corr (set_handles o (Some vecs) (adv_after o adv)) C K (dh_adv_corr o)) (Some t) rtol mx) Post ->
     ok S st (DMD_decomp el argsort eig sqrt o vecs adv (Some t) rtol mx) Post) ->
  eigh el argsort C (Some t) None true = Ok (vals, cvecs) ->
  let E := max_list mx vals in let U := max_cols mx (length vals) cvecs in
  dmd_kept sqrt (data_X xv yv mid) (gmat S (xv ++ yv)) E U ->
  DMD_low sqrt E U K = Ok M0 -> eig_biorthog eig M0 SLeft = Ok (w, R, L) ->
  nr M = length E ->
  meq (length E) (length E) (NdArray.ent M)
    (low_order sqrt (length xv) mid E (NdArray.ent U) (NdArray.ent (gram S xv yv))) ->
  biorthog_result M w R L -> length w = length E ->
  exists pc apc sp o', dmd_coeffs sqrt (length xv) mid E U L (NdArray.ent (gram S xv yv)) pc apc sp /\
    runs S P tag_ub eager st
      (DMD_session false el argsort eig sqrt o vecs adv (Some t) rtol mx ei eh pi ph ai ah)
      (dmd_post S sqrt xv yv mid E U w R L pc apc sp ei eh pi ph ai ah o' st).
Proof.
  intros Hup HD Hx Hy Ho Hout AK HDEC EE E U KP EM EB Mr HM' BR Lw.
  destruct (DMD_core_ok el argsort eig sqrt o vecs adv xh yh xv yv st t rtol mx ei eh pi ph ai ah C K vals cvecs M0 M w R L
    HD Hx Hy Ho Hout AK HDEC EE KP EM EB Mr HM' BR Lw)
    as (pc & apc & sp & o' & H1 & H2).
  exists pc, apc, sp, o'. split; [exact H1|]. exact (ok_runs S limit P tag_ub eager _ st _ HS Hup H2).
Qed.

(** C22: DMDHandles.  For sequential data the object must not hold advanced handles of
    an earlier decomposition (see C25). *)
Lemma DMD_ok el argsort eig sqrt (o : dmd_obj F) vecs adv xh yh xv yv st t rtol mx
    ei eh pi ph ai ah :
  handles_data vecs adv xh yh -> holds st xh xv -> holds st yh yv ->
  (adv = None -> dh_adv o = None) -> dmd_outputs vecs adv ei eh pi ph ai ah -> real t -> kle 0 t ->
  exists C, aeq C (gram S xv xv) /\
    forall w0 V0, el C = Ok (w0, V0) -> eigh_contract C w0 V0 ->
      argsort_contract (map kabs w0) (argsort (map kabs w0)) ->
      (forall e, In e w0 -> klt_p 0 e -> sqrt_ok sqrt e) ->
      exists E U w1 M, kept_by (eigh el argsort C (Some t) None true) mx E U /\
        eigh_kept C w0 w1 t None mx E U /\ nr M = length E /\ nc M = length E /\
        meq (length E) (length E) (NdArray.ent M)
          (low_order sqrt (length xv) mid E (NdArray.ent U) (NdArray.ent (gram S xv yv))) /\
        forall w L0 R, eig M = Ok (w, L0, R) -> eig_contract M w L0 R ->
          (forall i, i < length E -> pairing (length E) L0 R i i <> 0) ->
          exists L pc apc sp o', biorthog_result M w R L /\
            dmd_coeffs sqrt (length xv) mid E U L (NdArray.ent (gram S xv yv)) pc apc sp /\
            ok S st
              (DMD_session false el argsort eig sqrt o vecs adv (Some t) rtol mx ei eh pi ph ai ah)
              (dmd_post S sqrt xv yv mid E U w R L pc apc sp ei eh pi ph ai ah o' st).
Proof.
  intros HD Hx Hy Ho Hout Rt Ht.
  destruct (handles_dims _ _ _ _ HD) as (D1 & D2 & D3).
  pose proof (Forall2_length _ _ _ Hx) as Lx. pose proof (Forall2_length _ _ _ Hy) as Ly.
  assert (LY : length yv = length xv) by congruence.
  destruct (correlations_run S vecs adv xh yh xv yv st HD Hx Hy) as (C & K & G & AC & AK & _ & HDEC & _).
  exists C. split; [exact AC|]. intros w0 V0 HL HC HSo Hsq.
  pose proof AK as AK0. destruct AC as (Cr & Cc & EC). destruct AK as (Kr & Kc & EK).
  change (nr (gram S xv xv)) with (length xv) in *. change (nc (gram S xv xv)) with (length xv) in *.
  change (nr (gram S xv yv)) with (length xv) in *. change (nc (gram S xv yv)) with (length yv) in *.
  rewrite LY in Kc. rewrite Kr, Kc in EK. rewrite Cr, Cc in EC.
  destruct (eigh_stage el argsort C V0 w0 t None mx) as (vals & cvecs & w1 & EE & HE); auto; [lia|exact I|].
  set (E := max_list mx vals) in *. set (U := max_cols mx (length vals) cvecs) in *.
  assert (KP : dmd_kept sqrt (data_X xv yv mid) (gmat S (xv ++ yv)) E U).
  { apply (kept_data S HS sqrt xv yv mid C w0 w1 t None mx); auto.
    rewrite EC, madj_mid, mmul_id_l, mmul_id_r. reflexivity. }
  assert (Ur : nr U = length xv) by apply (kp_r _ _ _ _ _ KP).
  assert (Uc : nc U = length E) by apply (kp_c _ _ _ _ _ KP).
  destruct (DMD_low_ok sqrt (length xv) E U K Ur Uc Kr Kc) as (M & EM & Mr & Mc & HM).
  assert (HM' : meq (length E) (length E) (NdArray.ent M)
    (low_order sqrt (length xv) mid E (NdArray.ent U) (NdArray.ent (gram S xv yv)))).
  { rewrite HM. unfold low_order. rewrite EK. reflexivity. }
  exists E, U, w1, M. split; [exists vals, cvecs; auto|]. do 4 (split; [auto|]).
  intros w L0 R HLe HCe HPe.
  assert (HPe' : forall i, i < nr M -> pairing (nr M) L0 R i i <> 0) by (rewrite Mr; exact HPe).
  destruct (C17_biorthogonal eig M L0 R w HLe HCe HPe') as [(L & EB & BR) _].
  assert (Lw : length w = length E) by (rewrite (eig_len _ _ _ _ HCe); auto).
  destruct (DMD_core_ok el argsort eig sqrt o vecs adv xh yh xv yv st t rtol mx
    ei eh pi ph ai ah C K vals cvecs M M w R L) as (pc & apc & sp & o' & H1 & H2); auto.
  exists L, pc, apc, sp, o'. auto.
Qed.
Theorem C22_handles limit P tag_ub eager el argsort eig sqrt (o : dmd_obj F) vecs adv xh yh xv yv st t rtol mx
    ei eh pi ph ai ah :
  set_up limit P tag_ub S -> handles_data vecs adv xh yh -> holds st xh xv -> holds st yh yv ->
  (adv = None -> dh_adv o = None) -> dmd_outputs vecs adv ei eh pi ph ai ah -> real t -> kle 0 t ->
  exists C, aeq C (gram S xv xv) /\
    forall w0 V0, el C = Ok (w0, V0) -> eigh_contract C w0 V0 ->
      argsort_contract (map kabs w0) (argsort (map kabs w0)) ->
      (forall e, In e w0 -> klt_p 0 e -> sqrt_ok sqrt e) ->
      exists E U w1 M, kept_by (eigh el argsort C (Some t) None true) mx E U /\
        eigh_kept C w0 w1 t None mx E U /\ nr M = length E /\ nc M = length E /\
        meq (length E) (length E) (NdArray.ent M)
          (low_order sqrt (length xv) mid E (NdArray.ent U) (NdArray.ent (gram S xv yv))) /\
        forall w L0 R, eig M = Ok (w, L0, R) -> eig_contract M w L0 R ->
          (forall i, i < length E -> pairing (length E) L0 R i i <> 0) ->
          exists L pc apc sp o', biorthog_result M w R L /\
            dmd_coeffs sqrt (length xv) mid E U L (NdArray.ent (gram S xv yv)) pc apc sp /\
            runs S P tag_ub eager st
              (DMD_session false el argsort eig sqrt o vecs adv (Some t) rtol mx ei eh pi ph ai ah)
              (dmd_post S sqrt xv yv mid E U w R L pc apc sp ei eh pi ph ai ah o' st).
Proof.
  intros Hup HD Hx Hy Ho Hout Rt Ht.
  destruct (DMD_ok el argsort eig sqrt o vecs adv xh yh xv yv st t rtol mx ei eh pi ph ai ah HD Hx Hy Ho Hout Rt Ht)
    as (C & HC & H).
  exists C. split; [exact HC|]. intros w0 V0 H1 H2 H3 H4.
  destruct (H w0 V0 H1 H2 H3 H4) as (E & U & w1 & M & G1 & G2 & G3 & G4 & G5 & G).
  exists E, U, w1, M. do 5 (split; [auto|]). intros w L0 R K1 K2 K3.
  destruct (G w L0 R K1 K2 K3) as (L & pc & apc & sp & o' & Q1 & Q2 & Q3).
  exists L, pc, apc, sp, o'. do 2 (split; [auto|]). exact (ok_runs S limit P tag_ub eager _ st _ HS Hup Q3).
Qed.

(** The modes are biorthonormal for distinct eigenvalues. *)
Theorem C22_handles_biorthonormal sqrt xv yv Q E U w M R L pc apc sp ejs pjs ajs ems pms ams a b d :
  dmd_modes S sqrt xv yv Q E U w R L pc apc sp ejs pjs ajs ems pms ams -> biorthog_result M w R L ->
  nr M = length E -> Forall (fun j => j < length E) ajs -> a < length ajs ->
  (b < length pjs -> Forall (fun j => j < length E) pjs ->
   nth a ajs O = nth b pjs O \/ at1 w (nth a ajs O) <> at1 w (nth b pjs O) ->
   ip S (nth a ams d) (nth b pms d) = if (nth a ajs O =? nth b pjs O)%nat then 1 else 0) /\
  (b < length ejs -> Forall (fun j => j < length E) ejs -> at1 w (nth b ejs O) <> 0 ->
   nth a ajs O = nth b ejs O \/ at1 w (nth a ajs O) <> at1 w (nth b ejs O) ->
   ip S (nth a ams d) (nth b ems d) = if (nth a ajs O =? nth b ejs O)%nat then 1 else 0).
Proof.
  intros HM BR Mr Fa Ha.
  assert (G : forall i j, i < length E -> j < length E -> i = j \/ at1 w i <> at1 w j ->
    mmul (length E) (madj (NdArray.ent L)) (NdArray.ent R) i j = if (i =? j)%nat then 1 else 0).
  { intros i j Hi Hj Hd. rewrite <- Mr in *.
    destruct (Nat.eqb_spec i j) as [->|N].
    - apply (br_diag _ _ _ _ BR j Hj).
    - destruct Hd as [Hd|Hd]; [contradiction|]. apply (br_off _ _ _ _ BR i j Hi Hj Hd). }
  split.
  - intros Hb Fb Hd. rewrite (dm_bi_proj _ _ _ _ _ _ _ _ _ _ _ _ _ _ _ _ _ _ _ HM) by auto.
    apply G; auto; apply nth_js; auto.
  - intros Hb Fb Hw Hd. rewrite (dm_bi_exact _ _ _ _ _ _ _ _ _ _ _ _ _ _ _ _ _ _ _ HM) by auto.
    apply G; auto; apply nth_js; auto.
Qed.

Lemma proj_corr_ok (Vs C : arr F) m : nr Vs = m -> nr C = m -> nc C = m ->
  exists PC, TLS_proj_corr Vs C = Ok PC /\ nr PC = m /\ nc PC = m /\
    meq m m (NdArray.ent PC) (mmul m (madj (projection true Vs)) (mmul m (NdArray.ent C) (projection true Vs))).
Proof.
  intros Vsr Cr Cc. unfold TLS_proj_corr.
  rewrite (dot_mul Vs (conj_T Vs) m m (nc Vs)) by (cbn [conj_T nr nc]; auto). cbn [rbind].
  rewrite (dot_mul C _ m m m) by auto. cbn [rbind].
  destruct (onto_mul Vs (Arr m m (mmul m (NdArray.ent C) (mmul (nc Vs) (NdArray.ent Vs) (NdArray.ent (conj_T Vs))))) m m)
    as (B & EB & B1 & B2 & B3); auto. exists B. do 3 (split; [auto|]).
  rewrite B3, (projection_adj true Vs m). reflexivity.
Qed.

Lemma TLS_core_ok el argsort eig sqrt (o : dmd_obj F) vecs adv xh yh xv yv st t rtol mx
    ei eh pi ph ai ah C G K Sm vals cvecs PC vals' cvecs' M0 M w R L :
  handles_data vecs adv xh yh -> holds st xh xv -> holds st yh yv ->
  (adv = None -> dh_adv o = None) -> dmd_outputs vecs adv ei eh pi ph ai ah ->
  aeq K (gram S xv yv) ->
  (forall Post, ok S st (TLS_eigendecomp el argsort eig sqrt
       (set_corr (set_handles o (Some vecs) (adv_after o adv)) C K (Some G)) (Some t) rtol mx) Post ->
     ok S st (TLS_decomp el argsort eig sqrt o vecs adv (Some t) rtol mx) Post) ->
  add_arr C G = Ok Sm -> eigh el argsort Sm (Some t) None true = Ok (vals, cvecs) ->
  let Vs := max_cols mx (length vals) cvecs in
  nr Vs = length xv -> TLS_proj_corr Vs C = Ok PC ->
  eigh el argsort PC (Some t) None true = Ok (vals', cvecs') ->
  let E := max_list mx vals' in let U := max_cols mx (length vals') cvecs' in
  dmd_kept sqrt (data_X xv yv (projection true Vs)) (gmat S (xv ++ yv)) E U ->
  TLS_low sqrt Vs E U K = Ok M0 -> eig_biorthog eig M0 SLeft = Ok (w, R, L) ->
  nr M = length E ->
  meq (length E) (length E) (NdArray.ent M)
    (low_order sqrt (length xv) (projection true Vs) E (NdArray.ent U) (NdArray.ent (gram S xv yv))) ->
  biorthog_result M w R L -> length w = length E ->
  exists pc apc sp o',
    dmd_coeffs sqrt (length xv) (projection true Vs) E U L (NdArray.ent (gram S xv yv)) pc apc sp /\
    ok S st
      (DMD_session true el argsort eig sqrt o vecs adv (Some t) rtol mx ei eh pi ph ai ah)
      (dmd_post S sqrt xv yv (projection true Vs) E U w R L pc apc sp ei eh pi ph ai ah o' st).
Proof.
  intros HD Hx Hy Ho Hout AK HDEC ES EE Vs Vsr EP EE' E U KP EM EB Mr HM' BR Lw.
  destruct (handles_dims _ _ _ _ HD) as (D1 & D2 & D3).
  pose proof (Forall2_length _ _ _ Hx) as Lx. pose proof (Forall2_length _ _ _ Hy) as Ly.
  assert (LY : length yv = length xv) by congruence.
  destruct AK as (Kr & Kc & EK).
  change (nr (gram S xv yv)) with (length xv) in *. change (nc (gram S xv yv)) with (length yv) in *.
  rewrite LY in Kc. rewrite Kr, Kc in EK.
  set (o1 := set_decomp (set_corr (set_handles o (Some vecs) (adv_after o adv)) C K (Some G))
               w R L E U (Some (max_list mx vals)) (Some Vs)).
  assert (EA : adv_after o adv = adv) by (destruct adv; simpl; auto).
  destruct Hout as [Oe Op Oa Ond Odis] eqn:EO.
  destruct (results_ok S HS true sqrt o1 vecs adv xh yh xv yv w R L E U Vs K M st ei eh pi ph ai ah)
    as (pc & apc & sp & HC' & HR); auto.
  { rewrite HM'. symmetry. apply (low_map_order S HS sqrt xv yv (projection true Vs) E); auto. }
  { intros h Hh. apply Odis. apply (handles_in vecs adv xh yh); auto. }
  exists pc, apc, sp, (set_coeffs (set_spec o1 sp) (pc, apc)). split; [exact HC'|].
  apply (session_ok true el argsort eig sqrt o o1 vecs adv); auto.
  refine (HDEC _ _).
  apply (TLS_eigendecomp_ok S el argsort eig sqrt
    (set_corr (set_handles o (Some vecs) (adv_after o adv)) C K (Some G)) C G K Sm PC st t rtol mx
    vals cvecs vals' cvecs' M0 w R L); auto.
Qed.
Lemma TLS_core_run limit P tag_ub eager el argsort eig sqrt (o : dmd_obj F) vecs adv xh yh xv yv st t rtol mx
    ei eh pi ph ai ah C G K Sm vals cvecs PC vals' cvecs' M0 M w R L :
  set_up limit P tag_ub S -> handles_data vecs adv xh yh -> holds st xh xv -> holds st yh yv ->
  (adv = None -> dh_adv o = None) -> dmd_outputs vecs adv ei eh pi ph ai ah ->
  aeq K (gram S xv yv) ->
  (forall Post, ok S st (TLS_eigendecomp el argsort eig sqrt
       (set_corr (set_handles o (Some vecs) (adv_after o adv)) C K (Some G)) (Some t) rtol mx) Post ->
     ok S st (TLS_decomp el argsort eig sqrt o vecs adv (Some t) rtol mx) Post) ->
  add_arr C G = Ok Sm -> eigh el argsort Sm (Some t) None true = Ok (vals, cvecs) ->
  let Vs := max_cols mx (length vals) cvecs in
  nr Vs = length xv -> TLS_proj_corr Vs C = Ok PC ->
  eigh el argsort PC (Some t) None true = Ok (vals', cvecs') ->
  let E := max_list mx vals' in let U := max_cols mx (length vals') cvecs' in
  dmd_kept sqrt (data_X xv yv (projection true Vs)) (gmat S (xv ++ yv)) E U ->
  TLS_low sqrt Vs E U K = Ok M0 -> eig_biorthog eig M0 SLeft = Ok (w, R, L) ->
  nr M = length E ->
  meq (length E) (length E) (NdArray.ent M)
    (low_order sqrt (length xv) (projection true Vs) E (NdArray.ent U) (NdArray.ent (gram S xv yv))) ->
  biorthog_result M w R L -> length w = length E ->
  exists pc apc sp o',
    dmd_coeffs sqrt (length xv) (projection true Vs) E U L (NdArray.ent (gram S xv yv)) pc apc sp /\
    runs S P tag_ub eager st
      (DMD_session true el argsort eig sqrt o vecs adv (Some t) rtol mx ei eh pi ph ai ah)
      (dmd_post S sqrt xv yv (projection true Vs) E U w R L pc apc sp ei eh pi ph ai ah o' st).
Proof.
  intros Hup HD Hx Hy Ho Hout AK HDEC ES EE Vs Vsr EP EE' E U KP EM EB Mr HM' BR Lw.
  destruct (TLS_core_ok el argsort eig sqrt o vecs adv xh yh xv yv st t rtol mx ei eh pi ph ai ah C G K Sm vals cvecs PC vals' cvecs' M0 M w R L
    HD Hx Hy Ho Hout AK HDEC ES EE Vsr EP EE' KP EM EB Mr HM' BR Lw)
    as (pc & apc & sp & o' & H1 & H2).
  exists pc, apc, sp, o'. split; [exact H1|]. exact (ok_runs S limit P tag_ub eager _ st _ HS Hup H2).
Qed.

(** C27: TLSqrDMDHandles. [Vs]: eigenvectors kept of the sum of the correlation arrays. *)
Lemma TLS_ok el argsort eig sqrt (o : dmd_obj F) vecs adv xh yh xv yv st t rtol mx
    ei eh pi ph ai ah :
  handles_data vecs adv xh yh -> holds st xh xv -> holds st yh yv ->
  (adv = None -> dh_adv o = None) -> dmd_outputs vecs adv ei eh pi ph ai ah -> real t -> kle 0 t ->
  exists Sm, nr Sm = length xv /\ nc Sm = length xv /\
    meq (length xv) (length xv) (NdArray.ent Sm)
      (madd (NdArray.ent (gram S xv xv)) (NdArray.ent (gram S yv yv))) /\
    forall w0 V0, el Sm = Ok (w0, V0) -> eigh_contract Sm w0 V0 ->
      argsort_contract (map kabs w0) (argsort (map kabs w0)) ->
      exists Es Vs w1 PC, kept_by (eigh el argsort Sm (Some t) None true) mx Es Vs /\
        eigh_kept Sm w0 w1 t None mx Es Vs /\ nr PC = length xv /\ nc PC = length xv /\
        meq (length xv) (length xv) (NdArray.ent PC)
          (mmul (length xv) (madj (projection true Vs))
             (mmul (length xv) (NdArray.ent (gram S xv xv)) (projection true Vs))) /\
        forall w0' V0', el PC = Ok (w0', V0') -> eigh_contract PC w0' V0' ->
          argsort_contract (map kabs w0') (argsort (map kabs w0')) ->
          (forall e, In e w0' -> klt_p 0 e -> sqrt_ok sqrt e) ->
          exists E U w1' M, kept_by (eigh el argsort PC (Some t) None true) mx E U /\
            eigh_kept PC w0' w1' t None mx E U /\ nr M = length E /\ nc M = length E /\
            meq (length E) (length E) (NdArray.ent M)
              (low_order sqrt (length xv) (projection true Vs) E (NdArray.ent U) (NdArray.ent (gram S xv yv))) /\
            forall w L0 R, eig M = Ok (w, L0, R) -> eig_contract M w L0 R ->
              (forall i, i < length E -> pairing (length E) L0 R i i <> 0) ->
              exists L pc apc sp o', biorthog_result M w R L /\
                dmd_coeffs sqrt (length xv) (projection true Vs) E U L (NdArray.ent (gram S xv yv)) pc apc sp /\
                ok S st
                  (DMD_session true el argsort eig sqrt o vecs adv (Some t) rtol mx ei eh pi ph ai ah)
                  (dmd_post S sqrt xv yv (projection true Vs) E U w R L pc apc sp ei eh pi ph ai ah o' st).
Proof.
  intros HD Hx Hy Ho Hout Rt Ht.
  destruct (handles_dims _ _ _ _ HD) as (D1 & D2 & D3).
  pose proof (Forall2_length _ _ _ Hx) as Lx. pose proof (Forall2_length _ _ _ Hy) as Ly.
  assert (LY : length yv = length xv) by congruence.
  destruct (correlations_run S vecs adv xh yh xv yv st HD Hx Hy) as (C & K & G & AC & AK & AG & _ & HDEC).
  pose proof AK as AK0. destruct AC as (Cr & Cc & EC). destruct AK as (Kr & Kc & EK). destruct AG as (Gr & Gc & EG).
  change (nr (gram S xv xv)) with (length xv) in *. change (nc (gram S xv xv)) with (length xv) in *.
  change (nr (gram S xv yv)) with (length xv) in *. change (nc (gram S xv yv)) with (length yv) in *.
  change (nr (gram S yv yv)) with (length yv) in *. change (nc (gram S yv yv)) with (length yv) in *.
  rewrite LY in Kc, Gr, Gc. rewrite Kr, Kc in EK. rewrite Cr, Cc in EC. rewrite Gr, Gc in EG.
  set (m := length xv) in *.
  set (Sm := Arr m m (madd (NdArray.ent C) (NdArray.ent G))).
  assert (EA0 : add_arr C G = Ok Sm).
  { unfold add_arr, same_shape2. rewrite Cr, Cc, Gr, Gc, !Nat.eqb_refl. reflexivity. }
  exists Sm. do 2 (split; [reflexivity|]). split.
  { unfold Sm. cbn [NdArray.ent]. rewrite EC, EG. reflexivity. }
  intros w0 V0 HL HC HSo.
  destruct (eigh_stage el argsort Sm V0 w0 t None mx) as (vals & cvecs & w1 & EE & HE); auto; [simpl; lia|exact I|].
  set (Es := max_list mx vals) in *. set (Vs := max_cols mx (length vals) cvecs) in *.
  assert (Vsr : nr Vs = m) by apply (ek_r _ _ _ _ _ _ _ _ HE).
  destruct (proj_corr_ok Vs C m Vsr Cr Cc) as (PC & EPC & PCr & PCc & HPC).
  exists Es, Vs, w1, PC. split; [exists vals, cvecs; auto|]. do 3 (split; [auto|]). 
  assert (HPC' : meq m m (NdArray.ent PC)
    (mmul m (madj (projection true Vs)) (mmul m (NdArray.ent (gram S xv xv)) (projection true Vs)))).
  { rewrite HPC, EC. reflexivity. }
  split; [exact HPC'|].
  intros w0' V0' HL' HC' HSo' Hsq.
  destruct (eigh_stage el argsort PC V0' w0' t None mx) as (vals' & cvecs' & w1' & EE' & HE'); auto; [lia|exact I|].
  set (E := max_list mx vals') in *. set (U := max_cols mx (length vals') cvecs') in *.
  assert (KP : dmd_kept sqrt (data_X xv yv (projection true Vs)) (gmat S (xv ++ yv)) E U).
  { apply (kept_data S HS sqrt xv yv _ PC w0' w1' t None mx); auto. }
  assert (Ur : nr U = m) by apply (kp_r _ _ _ _ _ KP).
  assert (Uc : nc U = length E) by apply (kp_c _ _ _ _ _ KP).
  destruct (TLS_low_ok sqrt m E Vs U K Vsr Ur Uc Kr Kc) as (M & EM & Mr & Mc & HM).
  assert (HM' : meq (length E) (length E) (NdArray.ent M)
    (low_order sqrt m (projection true Vs) E (NdArray.ent U) (NdArray.ent (gram S xv yv)))).
  { rewrite HM. unfold low_order. rewrite EK. reflexivity. }
  exists E, U, w1', M. split; [exists vals', cvecs'; auto|]. do 4 (split; [auto|]).
  intros w L0 R HLe HCe HPe.
  assert (HPe' : forall i, i < nr M -> pairing (nr M) L0 R i i <> 0) by (rewrite Mr; exact HPe).
  destruct (C17_biorthogonal eig M L0 R w HLe HCe HPe') as [(L & EB & BR) _].
  assert (Lw : length w = length E) by (rewrite (eig_len _ _ _ _ HCe); auto).
  destruct (TLS_core_ok el argsort eig sqrt o vecs adv xh yh xv yv st t rtol mx
    ei eh pi ph ai ah C G K Sm vals cvecs PC vals' cvecs' M M w R L) as (pc & apc & sp & o' & H1 & H2); auto.
  exists L, pc, apc, sp, o'. auto.
Qed.
Theorem C27_handles limit P tag_ub eager el argsort eig sqrt (o : dmd_obj F) vecs adv xh yh xv yv st t rtol mx
    ei eh pi ph ai ah :
  set_up limit P tag_ub S -> handles_data vecs adv xh yh -> holds st xh xv -> holds st yh yv ->
  (adv = None -> dh_adv o = None) -> dmd_outputs vecs adv ei eh pi ph ai ah -> real t -> kle 0 t ->
  exists Sm, nr Sm = length xv /\ nc Sm = length xv /\
    meq (length xv) (length xv) (NdArray.ent Sm)
      (madd (NdArray.ent (gram S xv xv)) (NdArray.ent (gram S yv yv))) /\
    forall w0 V0, el Sm = Ok (w0, V0) -> eigh_contract Sm w0 V0 ->
      argsort_contract (map kabs w0) (argsort (map kabs w0)) ->
      exists Es Vs w1 PC, kept_by (eigh el argsort Sm (Some t) None true) mx Es Vs /\
        eigh_kept Sm w0 w1 t None mx Es Vs /\ nr PC = length xv /\ nc PC = length xv /\
        meq (length xv) (length xv) (NdArray.ent PC)
          (mmul (length xv) (madj (projection true Vs))
             (mmul (length xv) (NdArray.ent (gram S xv xv)) (projection true Vs))) /\
        forall w0' V0', el PC = Ok (w0', V0') -> eigh_contract PC w0' V0' ->
          argsort_contract (map kabs w0') (argsort (map kabs w0')) ->
          (forall e, In e w0' -> klt_p 0 e -> sqrt_ok sqrt e) ->
          exists E U w1' M, kept_by (eigh el argsort PC (Some t) None true) mx E U /\
            eigh_kept PC w0' w1' t None mx E U /\ nr M = length E /\ nc M = length E /\
            meq (length E) (length E) (NdArray.ent M)
              (low_order sqrt (length xv) (projection true Vs) E (NdArray.ent U) (NdArray.ent (gram S xv yv))) /\
            forall w L0 R, eig M = Ok (w, L0, R) -> eig_contract M w L0 R ->
              (forall i, i < length E -> pairing (length E) L0 R i i <> 0) ->
              exists L pc apc sp o', biorthog_result M w R L /\
                dmd_coeffs sqrt (length xv) (projection true Vs) E U L (NdArray.ent (gram S xv yv)) pc apc sp /\
                runs S P tag_ub eager st
                  (DMD_session true el argsort eig sqrt o vecs adv (Some t) rtol mx ei eh pi ph ai ah)
                  (dmd_post S sqrt xv yv (projection true Vs) E U w R L pc apc sp ei eh pi ph ai ah o' st).
Proof.
  intros Hup HD Hx Hy Ho Hout Rt Ht.
  destruct (TLS_ok el argsort eig sqrt o vecs adv xh yh xv yv st t rtol mx ei eh pi ph ai ah HD Hx Hy Ho Hout Rt Ht)
    as (Sm & HC1 & HC2 & HC3 & H).
  exists Sm. do 3 (split; [auto|]). intros w0 V0 H1 H2 H3.
  destruct (H w0 V0 H1 H2 H3) as (Es & Vs & w1 & PC & G1 & G2 & G3 & G4 & G5 & G).
  exists Es, Vs, w1, PC. do 5 (split; [auto|]). intros w0' V0' K1 K2 K3 K4.
  destruct (G w0' V0' K1 K2 K3 K4) as (E & U & w1' & M & M1 & M2 & M3 & M4 & M5 & N).
  exists E, U, w1', M. do 5 (split; [auto|]). intros w L0 R N1 N2 N3.
  destruct (N w L0 R N1 N2 N3) as (L & pc & apc & sp & o' & Q1 & Q2 & Q3).
  exists L, pc, apc, sp, o'. do 2 (split; [auto|]). exact (ok_runs S limit P tag_ub eager _ st _ HS Hup Q3).
Qed.

(** When only zero eigenvalues of the sum are dropped, the projected vectors are the
    data (for the inner product): total-least-squares DMD is DMD. *)
Theorem C27_handles_untruncated xv yv (Sm : arr F) w0 w1 t rtol mx Es Vs :
  ip_definite S -> (forall v, real (ip S v v) /\ kle 0 (ip S v v)) -> length yv = length xv -> nr Sm = length xv ->
  meq (length xv) (length xv) (NdArray.ent Sm)
    (madd (NdArray.ent (gram S xv xv)) (NdArray.ent (gram S yv yv))) ->
  eigh_kept Sm w0 w1 t rtol mx Es Vs -> (forall i, length Es <= i < length w1 -> at1 w1 i = 0) ->
  forall j d, j < length xv ->
    combination S xv (fun i => projection true Vs i j) (nth j xv d) /\
    combination S yv (fun i => projection true Vs i j) (nth j yv d).
Proof.
  intros Hdef Hnn LY Smr ESm HE Hz j d Hj. set (m := length xv) in *.
  pose proof (ek_exact _ _ _ _ _ _ _ _ HE Hz) as HX. pose proof (ek_orth _ _ _ _ _ _ _ _ HE) as HO.
  pose proof (ek_c _ _ _ _ _ _ _ _ HE) as Vc. rewrite Smr in HX, HO.
  set (P := projection true Vs). set (N := msub mid P : mat F).
  assert (SN : meq m m (mmul m (NdArray.ent Sm) N) mzero).
  { unfold N. rewrite mmul_sub_r, mmul_id_r. apply (proj2 (msub_zero m m _ _)). unfold P. simpl. rewrite Vc, HX.
    rewrite !mmul_assoc. rewrite <- (mmul_assoc (length Es) m m (length Es) (madj (NdArray.ent Vs)) (NdArray.ent Vs)), HO, mmul_id_l.
    reflexivity. }
  assert (Nx : xv <> []) by (intros E; unfold m in Hj; rewrite E in Hj; simpl in Hj; lia).
  assert (Ny : yv <> []) by (intros E; rewrite E in LY; simpl in LY; lia).
  destruct (combination_exists xv (fun i => N i j) Nx) as [x Hx].
  destruct (combination_exists yv (fun i => N i j) Ny) as [y Hy].
  assert (G : ip S x x + ip S y y = 0).
  { rewrite (combination_ip S HS xv _ _ x x Hx Hx), (combination_ip S HS yv _ _ y y Hy Hy), LY. fold m.
    rewrite <- sum_add.
    transitivity (sum m (fun a => (N a j)^* * mmul m (NdArray.ent Sm) N a j)).
    - apply sum_ext. intros a Ha. 
      match goal with |- ?c * ?x + ?c * ?y = _ => transitivity (c * (x + y)); [ring|] end.
      rewrite <- sum_add. f_equal. unfold mmul. apply sum_ext. intros b Hb.
      rewrite (meq_at _ _ _ _ ESm a b Ha Hb). unfold madd, gmat. ring.
    - apply sum_0. intros a Ha. rewrite (meq_at _ _ _ _ SN a j Ha Hj). unfold mzero. ring. }
  destruct (Hnn x) as [Rx Px]. destruct (Hnn y) as [Ry Py].
  assert (Zx : ip S x x = 0) by (apply (add_eq_0 _ _ Rx Ry Px Py G)).
  assert (Zy : ip S y y = 0) by (apply (add_eq_0 _ _ Ry Rx Py Px); rewrite <- G; ring).
  assert (FIN : forall vs v, length vs = m -> combination S vs (fun i => N i j) v -> ip S v v = 0 ->
    combination S vs (fun i => P i j) (nth j vs d)).
  { intros vs v Lv Hv Z u.
    assert (H0 : ip S u v = 0) by (apply Hdef; auto).
    rewrite (Hv u) in H0. rewrite Lv in *.
    pose proof (coords_self S vs j d) as CS. rewrite Lv in CS. specialize (CS Hj u). rewrite Lv in CS.
    rewrite CS.
    assert (EQ : sum m (fun i => ip S u (nth i vs v) * N i j)
               = sum m (fun i => ip S u (nth i vs (nth j vs d)) * mid i j)
                 - sum m (fun i => ip S u (nth i vs (nth j vs d)) * P i j)).
    { rewrite <- sum_sub. apply sum_ext. intros i Hi.
      rewrite (nth_indep vs v (nth j vs d)) by lia. unfold N, msub. ring. }
    rewrite EQ in H0. clear -H0.
    match type of H0 with ?a - ?b = 0 => assert (G : a = (a - b) + b) by ring; rewrite G, H0; ring end. }
  split; [apply (FIN xv x)|apply (FIN yv y)]; auto.
Qed.

(** ** C24: one sequence, or the same sequence split *)

Lemma eigh_ext el argsort (C C' : arr F) atol rtol pd : extensional el -> aeq C C' ->
  eigh el argsort C atol rtol pd = eigh el argsort C' atol rtol pd.
Proof. intros H E. unfold eigh. rewrite (H C C' E). reflexivity. Qed.
Lemma eig_ext eig (M M' : arr F) c : extensional eig -> aeq M M' -> eig_biorthog eig M c = eig_biorthog eig M' c.
Proof. intros H E. unfold eig_biorthog. rewrite (H M M' E). reflexivity. Qed.
Lemma aeq_trans_sym (A B C : arr F) : aeq A C -> aeq B C -> aeq A B.
Proof.
  intros (a1 & a2 & a3) (b1 & b2 & b3). split; [congruence|]. split; [congruence|].
  rewrite a3. rewrite <- b1 in a1. rewrite <- b2 in a2. rewrite a1, a2, b3. reflexivity.
Qed.
Lemma split_data vecs (vs : list V) st : 2 <= length vecs -> holds st vecs vs ->
  handles_data vecs None (removelast vecs) (tl vecs) /\
  handles_data (removelast vecs) (Some (tl vecs)) (removelast vecs) (tl vecs) /\
  holds st (removelast vecs) (removelast vs) /\ holds st (tl vecs) (tl vs).
Proof.
  intros HL Hv. split; [split; auto|]. split.
  { split; [rewrite removelast_length; lia|]. split; [|auto]. rewrite removelast_length.
    destruct vecs; simpl; lia. }
  split; [apply holds_removelast; auto|]. destruct Hv; simpl; [constructor|auto].
Qed.
Lemma split_outputs vecs ei eh pi ph ai ah : dmd_outputs vecs None ei eh pi ph ai ah ->
  dmd_outputs (removelast vecs) (Some (tl vecs)) ei eh pi ph ai ah.
Proof.
  intros [a b c d e]. split; auto. intros h [H|H]; apply e; left; [apply in_removelast|apply in_tl]; auto.
Qed.

Theorem C24_handles limit P tag_ub eager el argsort eig sqrt (o o' : dmd_obj F) vecs vs st t rtol rtol' mx
    ei eh pi ph ai ah :
  let xv := removelast vs in let yv := tl vs in
  extensional el -> extensional eig -> set_up limit P tag_ub S -> 2 <= length vecs -> holds st vecs vs ->
  dh_adv o = None -> dmd_outputs vecs None ei eh pi ph ai ah -> real t -> kle 0 t ->
  exists C, aeq C (gram S xv xv) /\
    forall w0 V0, el C = Ok (w0, V0) -> eigh_contract C w0 V0 ->
      argsort_contract (map kabs w0) (argsort (map kabs w0)) ->
      (forall e, In e w0 -> klt_p 0 e -> sqrt_ok sqrt e) ->
      exists E U w1 M, kept_by (eigh el argsort C (Some t) None true) mx E U /\
        eigh_kept C w0 w1 t None mx E U /\ nr M = length E /\ nc M = length E /\
        meq (length E) (length E) (NdArray.ent M)
          (low_order sqrt (length xv) mid E (NdArray.ent U) (NdArray.ent (gram S xv yv))) /\
        forall w L0 R, eig M = Ok (w, L0, R) -> eig_contract M w L0 R ->
          (forall i, i < length E -> pairing (length E) L0 R i i <> 0) ->
          exists L pc apc sp o1 pc' apc' sp' o1', biorthog_result M w R L /\ aeq pc pc' /\ aeq apc apc' /\ sp = sp' /\
            runs S P tag_ub eager st
              (DMD_session false el argsort eig sqrt o vecs None (Some t) rtol mx ei eh pi ph ai ah)
              (dmd_post S sqrt xv yv mid E U w R L pc apc sp ei eh pi ph ai ah o1 st) /\
            runs S P tag_ub eager st
              (DMD_session false el argsort eig sqrt o' (removelast vecs) (Some (tl vecs)) (Some t) rtol' mx
                 ei eh pi ph ai ah)
              (dmd_post S sqrt xv yv mid E U w R L pc' apc' sp' ei eh pi ph ai ah o1' st).
Proof.
  intros xv yv Xel Xeig Hup HLv Hvs Ho Hout Rt Ht.
  destruct (split_data vecs vs st HLv Hvs) as (HD & HD' & Hx & Hy). fold xv in Hx. fold yv in Hy.
  destruct (handles_dims _ _ _ _ HD) as (D1 & D2 & D3).
  pose proof (Forall2_length _ _ _ Hx) as Lx. pose proof (Forall2_length _ _ _ Hy) as Ly.
  assert (LY : length yv = length xv) by congruence.
  destruct (correlations_run S vecs None _ _ xv yv st HD Hx Hy) as (C & K & G & AC & AK & _ & HDEC & _).
  destruct (correlations_run S _ _ _ _ xv yv st HD' Hx Hy) as (C' & K' & G' & AC' & AK' & _ & HDEC' & _).
  exists C. split; [exact AC|]. intros w0 V0 HL HC HSo Hsq.
  pose proof (aeq_trans_sym C C' _ AC AC') as ACC.
  pose proof AC as (Cr & Cc & EC). pose proof AK as (Kr & Kc & EK). pose proof AK' as (Kr' & Kc' & EK').
  change (nr (gram S xv xv)) with (length xv) in *. change (nc (gram S xv xv)) with (length xv) in *.
  change (nr (gram S xv yv)) with (length xv) in *. change (nc (gram S xv yv)) with (length yv) in *.
  rewrite LY in Kc, Kc'. rewrite Kr, Kc in EK. rewrite Kr', Kc' in EK'. rewrite Cr, Cc in EC.
  destruct (eigh_stage el argsort C V0 w0 t None mx) as (vals & cvecs & w1 & EE & HE); auto; [lia|exact I|].
  set (E := max_list mx vals) in *. set (U := max_cols mx (length vals) cvecs) in *.
  assert (KP : dmd_kept sqrt (data_X xv yv mid) (gmat S (xv ++ yv)) E U).
  { apply (kept_data S HS sqrt xv yv mid C w0 w1 t None mx); auto.
    rewrite EC, madj_mid, mmul_id_l, mmul_id_r. reflexivity. }
  assert (Ur : nr U = length xv) by apply (kp_r _ _ _ _ _ KP).
  assert (Uc : nc U = length E) by apply (kp_c _ _ _ _ _ KP).
  destruct (DMD_low_ok sqrt (length xv) E U K Ur Uc Kr Kc) as (M & EM & Mr & Mc & HM).
  destruct (DMD_low_ok sqrt (length xv) E U K' Ur Uc Kr' Kc') as (M' & EM' & Mr' & Mc' & HM2).
  assert (HM' : meq (length E) (length E) (NdArray.ent M)
    (low_order sqrt (length xv) mid E (NdArray.ent U) (NdArray.ent (gram S xv yv)))).
  { rewrite HM. unfold low_order. rewrite EK. reflexivity. }
  assert (AM : aeq M M').
  { split; [congruence|]. split; [congruence|]. rewrite Mr, Mc, HM', HM2. unfold low_order. rewrite EK'. reflexivity. }
  exists E, U, w1, M. split; [exists vals, cvecs; auto|]. do 4 (split; [auto|]).
  intros w L0 R HLe HCe HPe.
  assert (HPe' : forall i, i < nr M -> pairing (nr M) L0 R i i <> 0) by (rewrite Mr; exact HPe).
  destruct (C17_biorthogonal eig M L0 R w HLe HCe HPe') as [(L & EB & BR) _].
  assert (Lw : length w = length E) by (rewrite (eig_len _ _ _ _ HCe); auto).
  destruct (DMD_core_run limit P tag_ub eager el argsort eig sqrt o vecs None (removelast vecs) (tl vecs) xv yv st t rtol mx
    ei eh pi ph ai ah C K vals cvecs M M w R L) as (pc & apc & sp & o1 & A1 & A2); auto.
  destruct (DMD_core_run limit P tag_ub eager el argsort eig sqrt o' (removelast vecs) (Some (tl vecs))
    (removelast vecs) (tl vecs) xv yv st t rtol' mx
    ei eh pi ph ai ah C' K' vals cvecs M' M w R L Hup HD' Hx Hy) as (pc' & apc' & sp' & o1' & B1 & B2);
    auto using split_outputs.
  { discriminate. }
  { rewrite <- EE. symmetry. apply eigh_ext; auto. }
  { rewrite <- EB. symmetry. apply eig_ext; auto. }
  exists L, pc, apc, sp, o1, pc', apc', sp', o1'.
  destruct (dmd_coeffs_unique sqrt (length xv) mid E U L _ _ _ _ _ _ _ ltac:(lia) A1 B1) as (H1 & H2 & H3). auto 8.
Qed.

(** Total-least-squares DMD. *)
Theorem C24_handles_tls limit P tag_ub eager el argsort eig sqrt (o o' : dmd_obj F) vecs vs st t rtol rtol' mx
    ei eh pi ph ai ah :
  let xv := removelast vs in let yv := tl vs in
  extensional el -> extensional eig -> set_up limit P tag_ub S -> 2 <= length vecs -> holds st vecs vs ->
  dh_adv o = None -> dmd_outputs vecs None ei eh pi ph ai ah -> real t -> kle 0 t ->
  exists Sm, nr Sm = length xv /\ nc Sm = length xv /\
    meq (length xv) (length xv) (NdArray.ent Sm)
      (madd (NdArray.ent (gram S xv xv)) (NdArray.ent (gram S yv yv))) /\
    forall w0 V0, el Sm = Ok (w0, V0) -> eigh_contract Sm w0 V0 ->
      argsort_contract (map kabs w0) (argsort (map kabs w0)) ->
      exists Es Vs w1 PC, kept_by (eigh el argsort Sm (Some t) None true) mx Es Vs /\
        eigh_kept Sm w0 w1 t None mx Es Vs /\ nr PC = length xv /\ nc PC = length xv /\
        meq (length xv) (length xv) (NdArray.ent PC)
          (mmul (length xv) (madj (projection true Vs))
             (mmul (length xv) (NdArray.ent (gram S xv xv)) (projection true Vs))) /\
        forall w0' V0', el PC = Ok (w0', V0') -> eigh_contract PC w0' V0' ->
          argsort_contract (map kabs w0') (argsort (map kabs w0')) ->
          (forall e, In e w0' -> klt_p 0 e -> sqrt_ok sqrt e) ->
          exists E U w1' M, kept_by (eigh el argsort PC (Some t) None true) mx E U /\
            eigh_kept PC w0' w1' t None mx E U /\ nr M = length E /\ nc M = length E /\
            meq (length E) (length E) (NdArray.ent M)
              (low_order sqrt (length xv) (projection true Vs) E (NdArray.ent U) (NdArray.ent (gram S xv yv))) /\
            forall w L0 R, eig M = Ok (w, L0, R) -> eig_contract M w L0 R ->
              (forall i, i < length E -> pairing (length E) L0 R i i <> 0) ->
              exists L pc apc sp o1 pc' apc' sp' o1', biorthog_result M w R L /\ aeq pc pc' /\ aeq apc apc' /\ sp = sp' /\
                runs S P tag_ub eager st
                  (DMD_session true el argsort eig sqrt o vecs None (Some t) rtol mx ei eh pi ph ai ah)
                  (dmd_post S sqrt xv yv (projection true Vs) E U w R L pc apc sp ei eh pi ph ai ah o1 st) /\
                runs S P tag_ub eager st
                  (DMD_session true el argsort eig sqrt o' (removelast vecs) (Some (tl vecs)) (Some t) rtol' mx
                     ei eh pi ph ai ah)
                  (dmd_post S sqrt xv yv (projection true Vs) E U w R L pc' apc' sp' ei eh pi ph ai ah o1' st).
Proof.
  intros xv yv Xel Xeig Hup HLv Hvs Ho Hout Rt Ht.
  destruct (split_data vecs vs st HLv Hvs) as (HD & HD' & Hx & Hy). fold xv in Hx. fold yv in Hy.
  destruct (handles_dims _ _ _ _ HD) as (D1 & D2 & D3).
  pose proof (Forall2_length _ _ _ Hx) as Lx. pose proof (Forall2_length _ _ _ Hy) as Ly.
  assert (LY : length yv = length xv) by congruence.
  destruct (correlations_run S vecs None _ _ xv yv st HD Hx Hy) as (C & K & G & AC & AK & AG & _ & HDEC).
  destruct (correlations_run S _ _ _ _ xv yv st HD' Hx Hy) as (C' & K' & G' & AC' & AK' & AG' & _ & HDEC').
  pose proof AC as (Cr & Cc & EC). pose proof AK as (Kr & Kc & EK). pose proof AG as (Gr & Gc & EG).
  pose proof AC' as (Cr' & Cc' & EC'). pose proof AK' as (Kr' & Kc' & EK'). pose proof AG' as (Gr' & Gc' & EG').
  change (nr (gram S xv xv)) with (length xv) in *. change (nc (gram S xv xv)) with (length xv) in *.
  change (nr (gram S xv yv)) with (length xv) in *. change (nc (gram S xv yv)) with (length yv) in *.
  change (nr (gram S yv yv)) with (length yv) in *. change (nc (gram S yv yv)) with (length yv) in *.
  rewrite LY in Kc, Gr, Gc, Kc', Gr', Gc'. rewrite Kr, Kc in EK. rewrite Cr, Cc in EC. rewrite Gr, Gc in EG.
  rewrite Kr', Kc' in EK'. rewrite Cr', Cc' in EC'. rewrite Gr', Gc' in EG'.
  set (m := length xv) in *.
  set (Sm := Arr m m (madd (NdArray.ent C) (NdArray.ent G))).
  set (Sm' := Arr m m (madd (NdArray.ent C') (NdArray.ent G'))).
  assert (EA0 : add_arr C G = Ok Sm).
  { unfold add_arr, same_shape2. rewrite Cr, Cc, Gr, Gc, !Nat.eqb_refl. reflexivity. }
  assert (EA0' : add_arr C' G' = Ok Sm').
  { unfold add_arr, same_shape2. rewrite Cr', Cc', Gr', Gc', !Nat.eqb_refl. reflexivity. }
  assert (ESm : meq m m (NdArray.ent Sm) (madd (NdArray.ent (gram S xv xv)) (NdArray.ent (gram S yv yv)))).
  { unfold Sm. cbn [NdArray.ent]. rewrite EC, EG. reflexivity. }
  assert (ASm : aeq Sm Sm').
  { do 2 (split; [reflexivity|]). cbn [nr nc Sm]. rewrite ESm. unfold Sm'. cbn [NdArray.ent]. rewrite EC', EG'. reflexivity. }
  exists Sm. do 3 (split; [auto|]).
  intros w0 V0 HL HC HSo.
  destruct (eigh_stage el argsort Sm V0 w0 t None mx) as (vals & cvecs & w1 & EE & HE); auto; [simpl; lia|exact I|].
  set (Es := max_list mx vals) in *. set (Vs := max_cols mx (length vals) cvecs) in *.
  assert (Vsr : nr Vs = m) by apply (ek_r _ _ _ _ _ _ _ _ HE).
  destruct (proj_corr_ok Vs C m Vsr Cr Cc) as (PC & EPC & PCr & PCc & HPC).
  destruct (proj_corr_ok Vs C' m Vsr Cr' Cc') as (PC' & EPC' & PCr' & PCc' & HPC2).
  exists Es, Vs, w1, PC. split; [exists vals, cvecs; auto|]. do 3 (split; [auto|]).
  assert (HPC' : meq m m (NdArray.ent PC)
    (mmul m (madj (projection true Vs)) (mmul m (NdArray.ent (gram S xv xv)) (projection true Vs)))).
  { rewrite HPC, EC. reflexivity. }
  assert (APC : aeq PC PC').
  { split; [congruence|]. split; [congruence|]. rewrite PCr, PCc, HPC', HPC2, EC'. reflexivity. }
  split; [exact HPC'|].
  intros w0' V0' HL' HC' HSo' Hsq.
  destruct (eigh_stage el argsort PC V0' w0' t None mx) as (vals' & cvecs' & w1' & EE' & HE'); auto; [lia|exact I|].
  set (E := max_list mx vals') in *. set (U := max_cols mx (length vals') cvecs') in *.
  assert (KP : dmd_kept sqrt (data_X xv yv (projection true Vs)) (gmat S (xv ++ yv)) E U).
  { apply (kept_data S HS sqrt xv yv _ PC w0' w1' t None mx); auto. }
  assert (Ur : nr U = m) by apply (kp_r _ _ _ _ _ KP).
  assert (Uc : nc U = length E) by apply (kp_c _ _ _ _ _ KP).
  destruct (TLS_low_ok sqrt m E Vs U K Vsr Ur Uc Kr Kc) as (M & EM & Mr & Mc & HM).
  destruct (TLS_low_ok sqrt m E Vs U K' Vsr Ur Uc Kr' Kc') as (M' & EM' & Mr' & Mc' & HM2).
  assert (HM' : meq (length E) (length E) (NdArray.ent M)
    (low_order sqrt m (projection true Vs) E (NdArray.ent U) (NdArray.ent (gram S xv yv)))).
  { rewrite HM. unfold low_order. rewrite EK. reflexivity. }
  assert (AM : aeq M M').
  { split; [congruence|]. split; [congruence|]. rewrite Mr, Mc, HM', HM2. unfold low_order. rewrite EK'. reflexivity. }
  exists E, U, w1', M. split; [exists vals', cvecs'; auto|]. do 4 (split; [auto|]).
  intros w L0 R HLe HCe HPe.
  assert (HPe' : forall i, i < nr M -> pairing (nr M) L0 R i i <> 0) by (rewrite Mr; exact HPe).
  destruct (C17_biorthogonal eig M L0 R w HLe HCe HPe') as [(L & EB & BR) _].
  assert (Lw : length w = length E) by (rewrite (eig_len _ _ _ _ HCe); auto).
  destruct (TLS_core_run limit P tag_ub eager el argsort eig sqrt o vecs None (removelast vecs) (tl vecs) xv yv st t
    rtol mx ei eh pi ph ai ah C G K Sm vals cvecs PC vals' cvecs' M M w R L) as (pc & apc & sp & o1 & A1 & A2); auto.
  destruct (TLS_core_run limit P tag_ub eager el argsort eig sqrt o' (removelast vecs) (Some (tl vecs))
    (removelast vecs) (tl vecs) xv yv st t rtol' mx ei eh pi ph ai ah C' G' K' Sm' vals cvecs PC' vals' cvecs' M' M
    w R L Hup HD' Hx Hy) as (pc' & apc' & sp' & o1' & B1 & B2);
    auto using split_outputs.
  { discriminate. }
  { rewrite <- EE. symmetry. apply eigh_ext; auto. }
  { rewrite <- EE'. symmetry. apply eigh_ext; auto. }
  { rewrite <- EB. symmetry. apply eig_ext; auto. }
  exists L, pc, apc, sp, o1, pc', apc', sp', o1'.
  destruct (dmd_coeffs_unique sqrt m (projection true Vs) E U L _ _ _ _ _ _ _ ltac:(lia) A1 B1) as (H1 & H2 & H3).
  auto 8.
Qed.

(** Modes with the same description cannot be told apart by inner products. *)
Theorem C24_handles_modes sqrt xv yv Q E U w R L pc apc sp pc' apc' sp' ejs pjs ajs ems pms ams ems' pms' ams' :
  dmd_modes S sqrt xv yv Q E U w R L pc apc sp ejs pjs ajs ems pms ams ->
  dmd_modes S sqrt xv yv Q E U w R L pc' apc' sp' ejs pjs ajs ems' pms' ams' ->
  length ems = length ems' /\ length pms = length pms' /\ length ams = length ams' /\
  forall a d u,
    (a < length ejs -> at1 w (nth a ejs O) <> 0 -> ip S u (nth a ems d) = ip S u (nth a ems' d)) /\
    (a < length pjs -> ip S u (nth a pms d) = ip S u (nth a pms' d)) /\
    (a < length ajs -> ip S u (nth a ams d) = ip S u (nth a ams' d)).
Proof.
  intros A B.
  assert (G : forall vs c v v', combination S vs c v -> combination S vs c v' -> forall u, ip S u v = ip S u v').
  { intros vs c v v' H H' u. rewrite H, H'. apply sum_ext. intros i Hi. rewrite (nth_indep vs v v') by auto. auto. }
  split; [rewrite (dm_elen _ _ _ _ _ _ _ _ _ _ _ _ _ _ _ _ _ _ _ A), (dm_elen _ _ _ _ _ _ _ _ _ _ _ _ _ _ _ _ _ _ _ B); auto|].
  split; [rewrite (dm_plen _ _ _ _ _ _ _ _ _ _ _ _ _ _ _ _ _ _ _ A), (dm_plen _ _ _ _ _ _ _ _ _ _ _ _ _ _ _ _ _ _ _ B); auto|].
  split; [rewrite (dm_alen _ _ _ _ _ _ _ _ _ _ _ _ _ _ _ _ _ _ _ A), (dm_alen _ _ _ _ _ _ _ _ _ _ _ _ _ _ _ _ _ _ _ B); auto|].
  intros a d u. split; [|split].
  - intros Ha Hw. eapply G; [apply (dm_exact _ _ _ _ _ _ _ _ _ _ _ _ _ _ _ _ _ _ _ A)|
      apply (dm_exact _ _ _ _ _ _ _ _ _ _ _ _ _ _ _ _ _ _ _ B)]; auto.
  - intros Ha. eapply G; [apply (dm_proj _ _ _ _ _ _ _ _ _ _ _ _ _ _ _ _ _ _ _ A)|
      apply (dm_proj _ _ _ _ _ _ _ _ _ _ _ _ _ _ _ _ _ _ _ B)]; auto.
  - intros Ha. eapply G; [apply (dm_adj _ _ _ _ _ _ _ _ _ _ _ _ _ _ _ _ _ _ _ A)|
      apply (dm_adj _ _ _ _ _ _ _ _ _ _ _ _ _ _ _ _ _ _ _ B)]; auto.
Qed.

End Props.

Print Assumptions C22_handles.
Print Assumptions C22_handles_biorthonormal.
Print Assumptions C24_handles.
Print Assumptions C24_handles_tls.
Print Assumptions C24_handles_modes.
Print Assumptions C27_handles.
Print Assumptions C27_handles_untruncated.
