(** Property C68 for DMDHandles: the projected modes, eigenvalues and projection coefficients
    of a sequence of vectors give the sequence back. *)
From stdpp Require Import gmap list.
From Coq Require Import ZArith Lia Field Ring Setoid Morphisms.
From Verif Require Import Prelude Field FieldInst Matrix NdArray DecompModel DecompProofs DecompProps
  VSArraysModel VSArraysProofs PodModel PodProofs PodProps BpodModel DmdModel DmdProofs DmdCore DmdSnaps DmdFit
  TlsModel TlsProofs TlsProps
  Spmd LinCombModel InnerProdProps HandlesModel HandlesProofs HandlesSpace HandlesExamples DmdHandlesModel DmdHandlesProofs
  DmdHandlesModes DmdHandlesDecomp DmdHandlesProps DmdExamples TlsExamples DmdHandlesExamples DmdSeqProps.
Open Scope nat_scope.
Open Scope k_scope.

Section Handles.
Context {F : sfield} {V : Type} (S : space F V) (HS : ip_space S).
Context (sqrt : F -> F) (vs : list V) (E : list F) (U : arr F) (w : list F) (M R L pc apc : arr F) (sp : nd F).
Context (C : arr F) (w0 w1 : list F) (t : F) (rtol : option F) (mx : option nat).
Notation xv := (removelast vs).
Notation yv := (tl vs).
Notation N := (length xv).
Notation k := (length E).
Notation s := (fun i => sqrt (at1 E i)).
Notation D := (mdiag (fun i => 1 / sqrt (at1 E i))).
Notation ent := NdArray.ent.
Notation Cm := (ent (gram S xv xv)).
Notation K := (ent (gram S xv yv)).
Context (H2 : 2 <= length vs) (Hk : k = N) (AC : aeq C (gram S xv xv)) (EK : eigh_kept C w0 w1 t rtol mx E U)
  (Hsq : forall e, In e w0 -> klt_p 0 e -> sqrt_ok sqrt e)
  (Mr : nr M = k) (HM : meq k k (ent M) (low_order sqrt N mid E (ent U) K))
  (BR : biorthog_result M w R L) (Lw : length w = k) (ND : NoDup w)
  (HD : dmd_coeffs sqrt N mid E U L K pc apc sp).
Add Field Sh_field : (k_field F).

Lemma sh_len : N = (length vs - 1)%nat.
Proof. rewrite removelast_firstn_len, firstn_length. lia. Qed.
Lemma sh_leny : length yv = N.
Proof. rewrite sh_len. destruct vs; simpl; lia. Qed.
Lemma sh_kept : dmd_kept sqrt (data_X xv yv mid) (gmat S (xv ++ yv)) E U.
Proof.
  destruct AC as (A1 & A2 & A3). change (nr (gram S xv xv)) with N in *. change (nc (gram S xv xv)) with N in *.
  apply (DmdHandlesDecomp.kept_data S HS sqrt xv yv mid C w0 w1 t rtol mx); auto using sh_leny.
  rewrite A1, A2 in A3. rewrite A3, madj_mid, mmul_id_l, mmul_id_r. reflexivity.
Qed.
Lemma sh_s : (forall i, i < k -> s i * s i = at1 E i) /\ (forall i, i < k -> real (s i)) /\ (forall i, i < k -> s i <> 0).
Proof. exact (fit_s sqrt _ _ E U sh_kept). Qed.
Lemma sh_orth : meq k k (mmul N (madj (ent U)) (ent U)) mid.
Proof. exact (kp_orth _ _ _ _ _ sh_kept). Qed.
Lemma sh_DS : meq k k (mmul k D (mdiag s)) mid.
Proof. destruct sh_s as (S1 & S2 & S3). rewrite mmul_diag_diag. apply mdiag_1. intros; field; auto. Qed.
Lemma sh_UU : meq N N (mmul k (ent U) (madj (ent U))) mid.
Proof. pose proof sh_orth as H. rewrite Hk in *. apply left_inverse_right. exact H. Qed.
Lemma sh_RL : meq k k (mmul k (ent R) (madj (ent L))) mid.
Proof.
  apply left_inverse_right. split. intros i j Hi Hj.
  change (pairing k L R i j = mid i j). rewrite <- Mr in Hi, Hj, Lw |- *. unfold mid. destruct (Nat.eqb_spec i j) as [->|Hne].
  - apply (br_diag _ _ _ _ BR j Hj).
  - apply (br_off _ _ _ _ BR i j Hi Hj). intros Hw. apply Hne.
    apply (proj1 (List.NoDup_nth w 0) (proj1 (NoDup_ListNoDup w) ND) i j); rewrite ?Lw; auto.
Qed.
Lemma sh_UC : meq k N (mmul N (madj (ent U)) Cm) (mmul k (mdiag (at1 E)) (madj (ent U))).
Proof.
  destruct sh_s as (S1 & S2 & S3).
  destruct AC as (A1 & A2 & A3). change (nr (gram S xv xv)) with N in *. change (nc (gram S xv xv)) with N in *.
  apply (dmd_VC N k Cm (ent U) (at1 E) s); auto.
  - split. intros i j Hi Hj. unfold madj. destruct vs as [|d l]; [simpl in H2; lia|].
    rewrite !(gram_ent S _ _ d) by auto. apply (ips_conj _ HS).
  - pose proof (ek_eig _ _ _ _ _ _ _ _ EK) as G. rewrite A1 in *. rewrite A2 in A3. rewrite <- A3. exact G.
Qed.
Lemma sh_apc : meq k N (ent apc) (mmul k (madj (ent L)) (mmul k D (mmul N (madj (ent U)) K))).
Proof. rewrite (dc_apc _ _ _ _ _ _ _ _ _ _ HD), madj_mid, mmul_id_l, mmul_id_r. reflexivity. Qed.
(** adv_proj_coeffs are proj_coeffs times the eigenvalues. *)
Lemma sh_advance : meq k N (ent apc) (mmul k (mdiag (at1 w)) (ent pc)).
Proof.
  rewrite sh_apc, (dc_pc _ _ _ _ _ _ _ _ _ _ HD).
  transitivity (mmul k (mmul k (madj (ent L)) (ent M)) (mmul k (mdiag s) (madj (ent U)))).
  - rewrite HM. unfold low_order. rewrite madj_mid, mmul_id_l, mmul_id_r, !mmul_assoc.
    rewrite <- (mmul_assoc k N k k D (mdiag s)), sh_DS, mmul_id_l, sh_UU, mmul_id_r. reflexivity.
  - pose proof (br_L _ _ _ _ BR) as G. rewrite Mr in G. rewrite G, !mmul_assoc. reflexivity.
Qed.
Lemma sh_pow : forall l j, l < k -> j < N -> ent pc l j = kpow (at1 w l) j * ent pc l O.
Proof.
  intros l j Hl. induction j as [|j IH]; intros Hj; cbn [kpow]; [ring|].
  assert (A : ent apc l j = at1 w l * ent pc l j).
  { rewrite (meq_at _ _ _ _ sh_advance l j Hl) by lia.
    pose proof (mmul_diag_l k N (at1 w) (ent pc)) as G. rewrite (meq_at _ _ _ _ G l j Hl) by lia. reflexivity. }
  assert (B : ent apc l j = ent pc l (Datatypes.S j)).
  { rewrite (meq_at _ _ _ _ sh_apc l j Hl) by lia.
    assert (G : meq k N (ent pc) (mmul k (madj (ent L)) (mmul k D (mmul N (madj (ent U)) Cm)))).
    { destruct sh_s as (S1 & S2 & S3).
      rewrite (dc_pc _ _ _ _ _ _ _ _ _ _ HD), sh_UC, <- (mmul_assoc k N k k D (mdiag (at1 E))), mmul_diag_diag.
      apply mmul_proper; [reflexivity|]. apply mmul_proper; [|reflexivity]. apply mdiag_ext. intros i Hi.
      pose proof (S1 i Hi) as Q. pose proof (S3 i Hi) as Z. cbv beta in Q, Z |- *.
      set (x := sqrt (at1 E i)) in *. rewrite <- Q. field. auto. }
    rewrite (meq_at _ _ _ _ G l (Datatypes.S j) Hl Hj).
    unfold mmul. apply sum_ext. intros a Ha. f_equal. apply sum_ext. intros b Hb. f_equal. apply sum_ext. intros i Hi. f_equal.
    destruct vs as [|d l0] eqn:Ev; [simpl in H2; lia|]. rewrite <- Ev in *.
    rewrite !(gram_ent S _ _ d) by (rewrite ?sh_leny; auto; lia). f_equal.
    rewrite nth_tl, nth_removelast; auto. rewrite <- sh_len. exact Hj. }
  rewrite <- B, A, IH by lia. ring.
Qed.

(** Every vector but the last is the combination of the projected modes with coefficients
    eigvals^j proj_coeffs[:, 0]. *)
Theorem C68_handles_modes ejs ajs ems pms ams :
  dmd_modes S sqrt xv yv mid E U w R L pc apc sp ejs (seq 0 k) ajs ems pms ams ->
  forall j d, j < N -> combination S pms (fun l => kpow (at1 w l) j * ent pc l O) (nth j vs d).
Proof.
  intros HP j d Hj u.
  pose proof (dm_plen _ _ _ _ _ _ _ _ _ _ _ _ _ _ _ _ _ _ _ HP) as Lp. rewrite seq_length in Lp. rewrite Lp.
  set (B := mmul k (ent U) (mmul k D (ent R))).
  transitivity (sum k (fun l => sum N (fun i => ip S u (nth i xv (nth j vs d)) * (B i l * ent pc l j)))).
  - rewrite sum_swap.
    assert (ID : meq N N (mmul k B (ent pc)) mid).
    { unfold B. rewrite (dc_pc _ _ _ _ _ _ _ _ _ _ HD), !mmul_assoc, <- (mmul_assoc k N k k (ent R) (madj (ent L))), sh_RL, mmul_id_l.
      rewrite <- (mmul_assoc k N k k D (mdiag s)), sh_DS, mmul_id_l. exact sh_UU. }
    transitivity (sum N (fun i => ip S u (nth i xv (nth j vs d)) * mid i j)).
    + rewrite (sum_delta N j); auto.
      * pose proof sh_len as Ln. unfold mid. rewrite Nat.eqb_refl, nth_removelast by lia.
        rewrite (nth_indep vs (nth j vs d) d) by lia. ring.
      * intros i Hi Hne. unfold mid. apply Nat.eqb_neq in Hne. rewrite Hne. ring.
    + apply sum_ext. intros i Hi. rewrite sum_mul_l. f_equal. symmetry. exact (meq_at _ _ _ _ ID i j Hi Hj).
  - apply sum_ext. intros l Hl.
    rewrite (dm_proj _ _ _ _ _ _ _ _ _ _ _ _ _ _ _ _ _ _ _ HP l (nth j vs d)) by (rewrite seq_length; exact Hl).
    rewrite seq_nth by exact Hl. cbn [plus]. rewrite <- (sh_pow l j Hl Hj), <- sum_mul_r.
    apply sum_ext. intros i Hi.
    assert (EB : meq N k (mode_coeffs sqrt N mid E (ent U) (ent R)) B) by (unfold mode_coeffs; apply mmul_id_l).
    rewrite (meq_at _ _ _ _ EB i l Hi Hl).
    rewrite (nth_indep xv (nth l pms (nth j vs d)) (nth j vs d)) by exact Hi. cbv beta. ring.
Qed.
End Handles.

Lemma wrap_seq n : wrap_all n (map Z.of_nat (seq 0 n)) = Ok (seq 0 n).
Proof.
  assert (G : forall m i, (i + m <= n)%nat -> wrap_all n (map Z.of_nat (seq i m)) = Ok (seq i m)).
  { induction m as [|m IH]; intros i Hi; [reflexivity|]. cbn [seq map wrap_all].
    unfold wrap_index. rewrite IH by lia.
    rewrite (proj2 (Z.leb_le 0 (Z.of_nat i))), (proj2 (Z.ltb_lt (Z.of_nat i) (Z.of_nat n))) by lia.
    cbn [andb]. rewrite Nat2Z.id. reflexivity. }
  apply G. lia.
Qed.

(** DMDHandles: compute_decomp of a sequence, the modes, spectrum and coefficients, with
    projected modes 0 ... N - 1 asked for. *)
Theorem C68_handles {F : sfield} {V : Type} (S : space F V) limit P tag_ub eager el argsort eig sqrt (o : dmd_obj F)
    vecs vs st t rtol ei eh ph ai ah ejs ajs :
  ip_space S -> set_up limit P tag_ub S -> 2 <= length vecs -> holds st vecs vs -> dh_adv o = None ->
  let N := (length vecs - 1)%nat in
  let pi := map Z.of_nat (seq 0 N) in
  dmd_outputs vecs None ei eh pi ph ai ah -> wrap_all N ei = Ok ejs -> wrap_all N ai = Ok ajs -> real t -> kle 0 t ->
  exists C, aeq C (gram S (removelast vs) (removelast vs)) /\
    forall w0 V0, el C = Ok (w0, V0) -> eigh_contract C w0 V0 ->
      argsort_contract (map kabs w0) (argsort (map kabs w0)) ->
      (forall e, In e w0 -> klt_p 0 e -> sqrt_ok sqrt e) ->
      exists E U M, kept_by (eigh el argsort C (Some t) None true) None E U /\ nr M = length E /\ nc M = length E /\
        meq (length E) (length E) (NdArray.ent M)
          (low_order sqrt N mid E (NdArray.ent U) (NdArray.ent (gram S (removelast vs) (tl vs)))) /\
        (* no eigenvalue is dropped *)
        (length E = N -> forall w L0 R, eig M = Ok (w, L0, R) -> eig_contract M w L0 R ->
          (forall i, i < length E -> pairing (length E) L0 R i i <> 0) -> NoDup w ->
          exists pc apc sp o', runs S P tag_ub eager st
            (DMD_session false el argsort eig sqrt o vecs None (Some t) rtol None ei eh pi ph ai ah)
            (fun st' r => r = Ok (o', sp, (pc, apc)) /\ exists pms, holds st' ph pms /\
               forall j d, j < N -> combination S pms (fun l => kpow (at1 w l) j * NdArray.ent pc l O) (nth j vs d))).
Proof.
  intros HS Hu H2 Hh Ho N pi Hout He Ha Rt Ht.
  pose proof (Forall2_length _ _ _ Hh) as Lv.
  assert (LN : length (removelast vs) = N) by (rewrite removelast_length; unfold N; congruence).
  destruct (C22_handles S HS limit P tag_ub eager el argsort eig sqrt o vecs None (removelast vecs) (tl vecs)
    (removelast vs) (tl vs) st t rtol None ei eh pi ph ai ah) as (C & AC & H); auto.
  { split; auto. }
  { apply holds_removelast. auto. }
  { destruct Hh; simpl; auto. constructor. }
  exists C. split; [exact AC|]. intros w0 V0 A1 A2 A3 A4.
  destruct (H w0 V0 A1 A2 A3 A4) as (E & U & w1 & M & KB & EK & Mr & Mc & HM & G).
  exists E, U, M. do 3 (split; [auto|]). split; [rewrite <- LN; exact HM|].
  intros HE w L0 R B1 B2 B3 ND.
  destruct (G w L0 R B1 B2 B3) as (L & pc & apc & sp & o' & BR & HD & HR).
  exists pc, apc, sp, o'. eapply runs_mono; [exact HR|]. intros st' r Q.
  unfold dmd_post in Q. rewrite HE, He, Ha in Q. unfold pi in Q. rewrite wrap_seq in Q.
  destruct Q as (Q1 & _ & ems & pms & ams & _ & Q2 & _ & Q3). split; [exact Q1|]. exists pms. split; [exact Q2|].
  rewrite <- LN. intros j d Hj.
  apply (C68_handles_modes S HS sqrt vs E U w M R L pc apc sp C w0 w1 t None None) with (ejs := ejs) (ajs := ajs) (ems := ems) (ams := ams); auto.
  - congruence.
  - congruence.
  - rewrite (eig_len _ _ _ _ B2). auto.
  - rewrite HE. exact Q3.
Qed.

(** ** An instance on two processes: both projected modes of [ex_seq] *)
Lemma sh_outputs : dmd_outputs [1; 2; 3]%nat None [1; 0]%Z [10; 11]%nat [0; 1]%Z [12; 15]%nat [-1; -2]%Z [13; 14]%nat.
Proof.
  split; try reflexivity.
  - apply (bool_decide_unpack (NoDup [10; 11; 12; 15; 13; 14]%nat)). reflexivity.
  - intros h Hh. apply (bool_decide_unpack (h ∉ [10; 11; 12; 15; 13; 14]%nat)).
    destruct Hh as [Hh|Hh]; repeat (apply elem_of_cons in Hh; destruct Hh as [->|Hh]; [reflexivity|]); inversion Hh.
Qed.
Example C68_handles_example eager : exists pc apc sp o',
  runs dh_space 2 10 eager dh_store (DMD_session false dh_el (fun _ => [0; 1]%nat) dh_eig ex_sqrt DMD_new
    [1; 2; 3]%nat None (Some (qi 1 0 8)) None None [1; 0]%Z [10; 11]%nat [0; 1]%Z [12; 15]%nat [-1; -2]%Z [13; 14]%nat)
    (fun st' r => r = Ok (o', sp, (pc, apc)) /\ exists pms, holds st' [12; 15]%nat pms /\
       (* the vector 1 is the first mode times pc[0, 0] and the second times 2 pc[1, 0] *)
       forall d, combination dh_space pms (fun l => kpow (at1 ex_lw l) 1 * NdArray.ent pc l O) (nth 1 (columns ex_seq) d)).
Proof.
  destruct (C68_handles dh_space (Some 1%Z) 2 10 eager dh_el (fun _ => [0; 1]%nat) dh_eig ex_sqrt DMD_new
    [1; 2; 3]%nat (columns ex_seq) dh_store (qi 1 0 8) None [1; 0]%Z [10; 11]%nat [12; 15]%nat [-1; -2]%Z [13; 14]%nat
    [1; 0]%nat [1; 0]%nat (wspace_ip 2 ex_W1 6 3 1 ex_hermitian) dh_set_up) as (C & AC & H);
    auto using dh_holds, sh_outputs; try (simpl; lia); try real_solve; try le_solve.
  change (removelast (columns ex_seq)) with (columns (but_last_col ex_seq)) in *.
  change (tl (columns ex_seq)) with (columns (but_first_col ex_seq)) in *.
  assert (ECC : aeq ex_C C).
  { apply aeq_sy. eapply aeq_tr; [exact AC|]. eapply aeq_tr; [apply wgram|].
    split; [reflexivity|]. split; [reflexivity|]. apply meqb_true. vm_compute. reflexivity. }
  assert (EL : dh_el C = Ok (ex_cw, ex_cV)).
  { unfold dh_el. rewrite <- (table_extensional _ _ _ ECC). apply table_hit. vm_compute. reflexivity. }
  destruct (H ex_cw ex_cV) as (E & U & M & (vals & cvecs & EE & -> & ->) & M1 & M2 & M3 & G); auto.
  { apply (eigh_contract_aeq ex_C); [exact ECC|apply ex_C_contract]. }
  { split; try reflexivity.
    - repeat constructor; simpl; set_solver.
    - repeat constructor; simpl; lia.
    - intros i j Hij Hj. simpl in Hj. destruct i as [|[|i]]; destruct j as [|[|j]]; try lia;
          try (left; vm_compute; reflexivity); right; reflexivity. }
  { intros e [<-|[<-|[]]] _; apply sq_ok_dec; vm_compute; reflexivity. }
  change (max_list None vals) with vals in *. change (max_cols None (length vals) cvecs) with cvecs in *.
  destruct (eigh_answer dh_el (fun _ => [0; 1]%nat) C ex_cw ex_cV (Some (qi 1 0 8)) None vals cvecs 2 ex_E (NdArray.ent ex_V) EL EE)
    as [-> Ec].
  { vm_compute. reflexivity. }
  { vm_compute. reflexivity. }
  change (length ex_E) with 2%nat in *. change (length [1; 2; 3]%nat - 1)%nat with 2%nat in *.
  assert (AM : aeq ex_low M).
  { split; [auto|]. split; [auto|]. change (meq 2 2 (NdArray.ent ex_low) (NdArray.ent M)). rewrite M3.
    unfold low_order. change (length ex_E) with 2%nat. rewrite Ec.
    rewrite (proj2 (proj2 (wgram 2 ex_W1 6 3 1 (but_last_col ex_seq) (but_first_col ex_seq)))).
    apply meqb_true. vm_compute. reflexivity. }
  destruct (G eq_refl ex_lw ex_lL ex_lR) as (pc & apc & sp & o' & HR).
  { unfold dh_eig. rewrite <- (table_extensional _ _ _ AM). apply table_hit. vm_compute. reflexivity. }
  { apply (eig_contract_aeq ex_low); [exact AM|apply ex_low_contract]. }
  { apply ex_low_pairing. }
  { apply NoDup_ListNoDup, ex_lw_nodup. }
  exists pc, apc, sp, o'. eapply runs_mono; [exact HR|]. intros st' r (Q1 & pms & Q2 & Q3).
  split; [exact Q1|]. exists pms. split; [exact Q2|]. intros d. apply Q3. lia.
Qed.

Print Assumptions C68_handles_modes.
Print Assumptions C68_handles.
