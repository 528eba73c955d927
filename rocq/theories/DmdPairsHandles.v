(** Property C68 for DMDHandles and TLSqrDMDHandles, with or without advanced vectors: the
    modes, eigenvalues and coefficients fit the pairs of vectors without error. *)
From stdpp Require Import gmap list.
From Coq Require Import ZArith Lia Field Ring Setoid Morphisms.
From Verif Require Import Prelude Field FieldInst Matrix NdArray DecompModel DecompProofs DecompProps
  VSArraysModel VSArraysProofs PodModel PodProofs PodProps BpodModel DmdModel DmdProofs DmdCore DmdSnaps DmdFit
  TlsModel TlsProofs TlsProps
  Spmd LinCombModel InnerProdProps HandlesModel HandlesProofs HandlesSpace HandlesExamples DmdHandlesModel DmdHandlesProofs
  DmdHandlesModes DmdHandlesDecomp DmdHandlesProps DmdExamples TlsExamples DmdHandlesExamples DmdSeqProps DmdSeqHandles DmdExactProps.
Open Scope nat_scope.
Open Scope k_scope.

(** The data are the combinations of [xv] and of [yv] with the columns of [Q]: the vectors
    themselves for DMD, the denoised ones for TLS DMD. *)
Record fits_pairs {F : sfield} {V} (S : space F V) (xv yv : list V) (Q : mat F) (w : list F) (pc apc : arr F)
    (ems pms : list V) : Prop := {
  fp_data : forall j x, j < length xv -> combination S xv (fun i => Q i j) x ->
    combination S pms (fun l => NdArray.ent pc l j) x;
  fp_adv : forall l j, l < length w -> j < length xv -> NdArray.ent apc l j = at1 w l * NdArray.ent pc l j;
  fp_exact : (forall l, l < length w -> at1 w l <> 0) ->
    forall j y, j < length xv -> combination S yv (fun i => Q i j) y ->
    combination S ems (fun l => at1 w l * NdArray.ent pc l j) y
}.

Section Pairs.
Context {F : sfield} {V : Type} (S : space F V) (HS : ip_space S).
Context (sqrt : F -> F) (xv yv : list V) (Q : mat F) (E : list F) (U : arr F) (w : list F) (M R L pc apc : arr F) (sp : nd F).
Context (PC : arr F) (w0 w1 : list F) (t : F) (rtol : option F) (mx : option nat).
Notation N := (length xv).
Notation k := (length E).
Notation s := (fun i => sqrt (at1 E i)).
Notation D := (mdiag (fun i => 1 / sqrt (at1 E i))).
Notation ent := NdArray.ent.
Notation K := (ent (gram S xv yv)).
Context (LY : length yv = N) (Pr : nr PC = N)
  (HPC : meq N N (ent PC) (mmul N (madj Q) (mmul N (ent (gram S xv xv)) Q)))
  (EK : eigh_kept PC w0 w1 t rtol mx E U)
  (Hsq : forall e, In e w0 -> klt_p 0 e -> sqrt_ok sqrt e)
  (HQ : meq N N (mmul N Q (mmul k (ent U) (madj (ent U)))) Q)
  (Mr : nr M = k) (HM : meq k k (ent M) (low_order sqrt N Q E (ent U) K))
  (BR : biorthog_result M w R L) (Lw : length w = k) (ND : NoDup w)
  (HD : dmd_coeffs sqrt N Q E U L K pc apc sp).
Add Field Pairs_field : (k_field F).

Lemma pp_inv (x : F) : klt_p 0 x -> x * (1 / x) = 1.
Proof using Type. intros H. field. intros ->. apply (lt_neq _ _ real_0 H). reflexivity. Qed.

Lemma pp_DS : meq k k (mmul k D (mdiag s)) mid.
Proof.
  destruct (fit_s sqrt _ _ E U (DmdHandlesDecomp.kept_data S HS sqrt xv yv Q PC w0 w1 t rtol mx E U LY Pr HPC EK Hsq)) as (S1 & S2 & S3).
  rewrite mmul_diag_diag. apply mdiag_1. intros; field; auto.
Qed.
Lemma pp_RL : meq k k (mmul k (ent R) (madj (ent L))) mid.
Proof. apply (sh_RL E w M R L); auto. Qed.
Lemma pp_id : meq N N (mmul k (mode_coeffs sqrt N Q E (ent U) (ent R)) (ent pc)) Q.
Proof.
  unfold mode_coeffs. rewrite (dc_pc _ _ _ _ _ _ _ _ _ _ HD), !mmul_assoc, <- (mmul_assoc k N k k (ent R) (madj (ent L))), pp_RL, mmul_id_l.
  rewrite <- (mmul_assoc k N k k D (mdiag s)), pp_DS, mmul_id_l. exact HQ.
Qed.
Lemma pp_adv : meq k N (ent apc) (mmul k (mdiag (at1 w)) (ent pc)).
Proof.
  rewrite (dc_apc _ _ _ _ _ _ _ _ _ _ HD), (dc_pc _ _ _ _ _ _ _ _ _ _ HD).
  transitivity (mmul k (mmul k (madj (ent L)) (ent M)) (mmul k (mdiag s) (madj (ent U)))).
  - rewrite HM. unfold low_order. rewrite !mmul_assoc.
    rewrite <- (mmul_assoc k N k k D (mdiag s)), pp_DS, mmul_id_l, HQ. reflexivity.
  - pose proof (br_L _ _ _ _ BR) as G. rewrite Mr in G. rewrite G, !mmul_assoc. reflexivity.
Qed.

Theorem C68_pairs ajs ems pms ams :
  dmd_modes S sqrt xv yv Q E U w R L pc apc sp (seq 0 k) (seq 0 k) ajs ems pms ams ->
  fits_pairs S xv yv Q w pc apc ems pms.
Proof.
  intros HP. set (B := mode_coeffs sqrt N Q E (ent U) (ent R)).
  assert (El : forall l, l < k -> nth l (seq 0 k) O = l) by (intros l Hl; rewrite seq_nth by exact Hl; reflexivity).
  (* combinations of combinations *)
  assert (G : forall vs j x, length vs = N -> j < N -> combination S vs (fun i => Q i j) x -> forall u,
    ip S u x = sum k (fun l => sum N (fun i => ip S u (nth i vs x) * (B i l * ent pc l j)))).
  { intros vs j x Lv Hj Hx u. rewrite sum_swap, (Hx u), Lv. apply sum_ext. intros i Hi.
    rewrite sum_mul_l. f_equal. symmetry. exact (meq_at _ _ _ _ pp_id i j Hi Hj). }
  split.
  - intros j x Hj Hx u.
    pose proof (dm_plen _ _ _ _ _ _ _ _ _ _ _ _ _ _ _ _ _ _ _ HP) as Lp. rewrite seq_length in Lp.
    rewrite (G xv j x eq_refl Hj Hx u), Lp. apply sum_ext. intros l Hl.
    rewrite (dm_proj _ _ _ _ _ _ _ _ _ _ _ _ _ _ _ _ _ _ _ HP l x) by (rewrite seq_length; exact Hl).
    rewrite El, <- sum_mul_r by exact Hl. apply sum_ext. intros i Hi. fold B.
    rewrite (nth_indep xv (nth l pms x) x) by exact Hi. cbv beta. ring.
  - intros l j Hl Hj. rewrite Lw in Hl. rewrite (meq_at _ _ _ _ pp_adv l j Hl Hj).
    pose proof (mmul_diag_l k N (at1 w) (ent pc)) as H. rewrite (meq_at _ _ _ _ H l j Hl Hj). reflexivity.
  - intros Nz j y Hj Hy u. rewrite Lw in Nz.
    pose proof (dm_elen _ _ _ _ _ _ _ _ _ _ _ _ _ _ _ _ _ _ _ HP) as Lp. rewrite seq_length in Lp.
    rewrite (G yv j y LY Hj Hy u), Lp. apply sum_ext. intros l Hl.
    rewrite (dm_exact _ _ _ _ _ _ _ _ _ _ _ _ _ _ _ _ _ _ _ HP l y) by (rewrite ?seq_length, ?El; auto).
    rewrite El, <- sum_mul_r, LY by exact Hl. apply sum_ext. intros i Hi. fold B.
    rewrite (nth_indep yv (nth l ems y) y) by (rewrite LY; exact Hi). cbv beta. field. apply Nz. exact Hl.
Qed.
End Pairs.

(** DMDHandles, advanced vectors given or not, nothing dropped. *)
Theorem C68_pairs_handles {F : sfield} {V : Type} (S : space F V) limit P tag_ub eager el argsort eig sqrt (o : dmd_obj F)
    vecs adv xh yh xv yv st t rtol eh ph ai ah ajs :
  ip_space S -> set_up limit P tag_ub S -> handles_data vecs adv xh yh -> holds st xh xv -> holds st yh yv ->
  (adv = None -> dh_adv o = None) ->
  let N := length xv in
  let all := map Z.of_nat (seq 0 N) in
  dmd_outputs vecs adv all eh all ph ai ah -> wrap_all N ai = Ok ajs -> real t -> kle 0 t -> length yv = N ->
  exists C, aeq C (gram S xv xv) /\
    forall w0 V0, el C = Ok (w0, V0) -> eigh_contract C w0 V0 ->
      argsort_contract (map kabs w0) (argsort (map kabs w0)) ->
      (forall e, In e w0 -> klt_p 0 e -> sqrt_ok sqrt e) ->
      exists E U M, kept_by (eigh el argsort C (Some t) None true) None E U /\ nr M = length E /\ nc M = length E /\
        meq (length E) (length E) (NdArray.ent M) (low_order sqrt N mid E (NdArray.ent U) (NdArray.ent (gram S xv yv))) /\
        (length E = N -> forall w L0 R, eig M = Ok (w, L0, R) -> eig_contract M w L0 R ->
          (forall i, i < length E -> pairing (length E) L0 R i i <> 0) -> NoDup w ->
          exists pc apc sp o', runs S P tag_ub eager st
            (DMD_session false el argsort eig sqrt o vecs adv (Some t) rtol None all eh all ph ai ah)
            (fun st' r => r = Ok (o', sp, (pc, apc)) /\ exists ems pms, holds st' eh ems /\ holds st' ph pms /\
               fits_pairs S xv yv mid w pc apc ems pms)).
Proof.
  intros HS Hu Hd Hx Hy Ho N all Hout Ha Rt Ht LY.
  destruct (C22_handles S HS limit P tag_ub eager el argsort eig sqrt o vecs adv xh yh
    xv yv st t rtol None all eh all ph ai ah) as (C & AC & H); auto.
  exists C. split; [exact AC|]. intros w0 V0 A1 A2 A3 A4.
  destruct (H w0 V0 A1 A2 A3 A4) as (E & U & w1 & M & KB & EK & Mr & Mc & HM & G).
  exists E, U, M. do 4 (split; [auto|]).
  intros HE w L0 R B1 B2 B3 ND.
  destruct (G w L0 R B1 B2 B3) as (L & pc & apc & sp & o' & BR & HD & HR).
  exists pc, apc, sp, o'. eapply runs_mono; [exact HR|]. intros st' r Q.
  unfold dmd_post in Q. rewrite HE in Q. unfold all in Q. rewrite wrap_seq, Ha in Q.
  destruct Q as (Q1 & _ & ems & pms & ams & Q2 & Q3 & _ & Q4). split; [exact Q1|]. exists ems, pms. do 2 (split; [assumption|]).
  destruct AC as (C1 & C2 & C3). change (nr (gram S xv xv)) with N in *. change (nc (gram S xv xv)) with N in *.
  assert (OU : meq (length E) (length E) (mmul N (madj (NdArray.ent U)) (NdArray.ent U)) mid).
  { pose proof (ek_orth _ _ _ _ _ _ _ _ EK) as O. rewrite C1 in O. exact O. }
  apply (C68_pairs S HS sqrt xv yv mid E U w M R L pc apc sp C w0 w1 t None None) with (ajs := ajs) (ams := ams); auto.
  - rewrite C1, C2 in C3. rewrite C3, madj_mid, mmul_id_l, mmul_id_r. reflexivity.
  - fold N. rewrite mmul_id_l. rewrite HE in *. apply left_inverse_right. exact OU.
  - rewrite (eig_len _ _ _ _ B2). auto.
  - rewrite HE. exact Q4.
Qed.

(** TLSqrDMDHandles: if the second truncation keeps as many directions as the first, the
    denoised pairs are fitted without error. *)
Theorem C68_TLS_handles {F : sfield} {V : Type} (S : space F V) limit P tag_ub eager el argsort eig sqrt (o : dmd_obj F)
    vecs adv xh yh xv yv st t rtol mx k eh ph ai ah ajs :
  ip_space S -> set_up limit P tag_ub S -> handles_data vecs adv xh yh -> holds st xh xv -> holds st yh yv ->
  (adv = None -> dh_adv o = None) ->
  let N := length xv in
  let all := map Z.of_nat (seq 0 k) in
  dmd_outputs vecs adv all eh all ph ai ah -> wrap_all k ai = Ok ajs -> real t -> kle 0 t -> length yv = N ->
  exists Sm, nr Sm = N /\ nc Sm = N /\
    meq N N (NdArray.ent Sm) (madd (NdArray.ent (gram S xv xv)) (NdArray.ent (gram S yv yv))) /\
    forall w0 V0, el Sm = Ok (w0, V0) -> eigh_contract Sm w0 V0 ->
      argsort_contract (map kabs w0) (argsort (map kabs w0)) ->
      exists Es Vs PC, kept_by (eigh el argsort Sm (Some t) None true) mx Es Vs /\ nr PC = N /\ nc PC = N /\
        meq N N (NdArray.ent PC)
          (mmul N (madj (projection true Vs)) (mmul N (NdArray.ent (gram S xv xv)) (projection true Vs))) /\
        forall w0' V0', el PC = Ok (w0', V0') -> eigh_contract PC w0' V0' ->
          argsort_contract (map kabs w0') (argsort (map kabs w0')) ->
          (forall e, In e w0' -> klt_p 0 e -> sqrt_ok sqrt e) ->
          exists E U M, kept_by (eigh el argsort PC (Some t) None true) mx E U /\ nr M = length E /\ nc M = length E /\
            meq (length E) (length E) (NdArray.ent M)
              (low_order sqrt N (projection true Vs) E (NdArray.ent U) (NdArray.ent (gram S xv yv))) /\
            (length Es = k -> length E = k -> forall w L0 R, eig M = Ok (w, L0, R) -> eig_contract M w L0 R ->
              (forall i, i < length E -> pairing (length E) L0 R i i <> 0) -> NoDup w ->
              exists pc apc sp o', runs S P tag_ub eager st
                (DMD_session true el argsort eig sqrt o vecs adv (Some t) rtol mx all eh all ph ai ah)
                (fun st' r => r = Ok (o', sp, (pc, apc)) /\ exists ems pms, holds st' eh ems /\ holds st' ph pms /\
                   fits_pairs S xv yv (projection true Vs) w pc apc ems pms)).
Proof.
  intros HS Hu Hd Hx Hy Ho N all Hout Ha Rt Ht LY.
  destruct (C27_handles S HS limit P tag_ub eager el argsort eig sqrt o vecs adv xh yh
    xv yv st t rtol mx all eh all ph ai ah) as (Sm & S1 & S2 & S3 & H); auto.
  exists Sm. do 3 (split; [assumption|]). intros w0 V0 A1 A2 A3.
  destruct (H w0 V0 A1 A2 A3) as (Es & Vs & w1 & PC & KB & EK & P1 & P2 & P3 & H').
  exists Es, Vs, PC. do 4 (split; [assumption|]). intros w0' V0' B1 B2 B3 B4.
  destruct (H' w0' V0' B1 B2 B3 B4) as (E & U & w1' & M & KB' & EK' & Mr & Mc & HM & G).
  exists E, U, M. do 4 (split; [assumption|]). intros HEs HE w L0 R D1 D2 D3 ND.
  destruct (G w L0 R D1 D2 D3) as (L & pc & apc & sp & o' & BR & HD & HR).
  exists pc, apc, sp, o'. eapply runs_mono; [exact HR|]. intros st' r Q.
  unfold dmd_post in Q. rewrite HE in Q. unfold all in Q. rewrite wrap_seq, Ha in Q.
  destruct Q as (Q1 & _ & ems & pms & ams & Q2 & Q3 & _ & Q4). split; [exact Q1|]. exists ems, pms. do 2 (split; [assumption|]).
  apply (C68_pairs S HS sqrt xv yv (projection true Vs) E U w M R L pc apc sp PC w0' w1' t None mx) with (ajs := ajs) (ams := ams); auto.
  - fold N. pose proof (ek_orth _ _ _ _ _ _ _ _ EK) as O1. rewrite S1 in O1.
    pose proof (ek_orth _ _ _ _ _ _ _ _ EK') as O2. rewrite P1 in O2.
    pose proof (ek_c _ _ _ _ _ _ _ _ EK) as Vc. pose proof (ek_eig _ _ _ _ _ _ _ _ EK') as GE. rewrite P1 in GE.
    assert (EP : projection true Vs = mmul (length E) (NdArray.ent Vs) (madj (NdArray.ent Vs)))
      by (unfold projection; rewrite Vc; f_equal; congruence).
    rewrite HEs, <- HE in O1. rewrite EP in *. subst N. set (N := length xv) in *.
    set (Pm := mmul (length E) (NdArray.ent Vs) (madj (NdArray.ent Vs))) in *.
    assert (PA : meq N N (madj Pm) Pm) by (unfold Pm; rewrite madj_mmul, madj_madj; reflexivity).
    assert (PP : meq N N (mmul N Pm Pm) Pm).
    { unfold Pm. rewrite mmul_assoc, <- (mmul_assoc (length E) N N (length E) (madj (NdArray.ent Vs))), O1, mmul_id_l. reflexivity. }
    assert (UP : meq N (length E) (mmul N Pm (NdArray.ent U)) (NdArray.ent U)).
    { assert (EV : meq N (length E) (NdArray.ent U) (mmul N Pm (mmul N (mmul N (NdArray.ent (gram S xv xv)) Pm)
        (mmul (length E) (NdArray.ent U) (mdiag (fun i => 1 / at1 E i)))))).
      { transitivity (mmul (length E) (mmul (length E) (NdArray.ent U) (mdiag (at1 E))) (mdiag (fun i => 1 / at1 E i))).
        - rewrite mmul_assoc, mmul_diag_diag, mdiag_1, mmul_id_r; [reflexivity|].
          intros i Hi. apply pp_inv. pose proof (ek_pos _ _ _ _ _ _ _ _ EK') as FP.
          apply (proj1 (Forall_forall _ _) FP), elem_of_list_In, nth_In. exact Hi.
        - rewrite <- GE, P3, PA, !mmul_assoc. reflexivity. }
      rewrite EV at 1. rewrite <- mmul_assoc, PP. symmetry. exact EV. }
    rewrite (same_projection N (length E) (NdArray.ent Vs) (NdArray.ent U) O1 O2 UP). exact PP.
  - rewrite (eig_len _ _ _ _ D2). auto.
  - rewrite HE. exact Q4.
Qed.

(** ** Instances on two processes: the pairs (x0, x1) and (x1, x2) of [ex_seq], given as vectors and advanced vectors *)
Lemma pp_outputs : dmd_outputs [1; 2]%nat (Some [2; 3]%nat) [0; 1]%Z [10; 11]%nat [0; 1]%Z [12; 15]%nat [-1; -2]%Z [13; 14]%nat.
Proof.
  split; try reflexivity.
  - apply (bool_decide_unpack (NoDup [10; 11; 12; 15; 13; 14]%nat)). reflexivity.
  - intros h Hh. apply (bool_decide_unpack (h ∉ [10; 11; 12; 15; 13; 14]%nat)).
    destruct Hh as [Hh|Hh]; repeat (apply elem_of_cons in Hh; destruct Hh as [->|Hh]; [reflexivity|]); inversion Hh.
Qed.
Example C68_pairs_handles_example eager : exists pc apc sp o',
  runs dh_space 2 10 eager dh_store (DMD_session false dh_el (fun _ => [0; 1]%nat) dh_eig ex_sqrt DMD_new
    [1; 2]%nat (Some [2; 3]%nat) (Some (qi 1 0 8)) None None [0; 1]%Z [10; 11]%nat [0; 1]%Z [12; 15]%nat [-1; -2]%Z [13; 14]%nat)
    (fun st' r => r = Ok (o', sp, (pc, apc)) /\ exists ems pms, holds st' [10; 11]%nat ems /\ holds st' [12; 15]%nat pms /\
       fits_pairs dh_space (columns (but_last_col ex_seq)) (columns (but_first_col ex_seq)) mid ex_lw pc apc ems pms).
Proof.
  pose proof dh_holds as Hh.
  destruct (C68_pairs_handles dh_space (Some 1%Z) 2 10 eager dh_el (fun _ => [0; 1]%nat) dh_eig ex_sqrt DMD_new
    [1; 2]%nat (Some [2; 3]%nat) [1; 2]%nat [2; 3]%nat (columns (but_last_col ex_seq)) (columns (but_first_col ex_seq))
    dh_store (qi 1 0 8) None [10; 11]%nat [12; 15]%nat [-1; -2]%Z [13; 14]%nat
    [1; 0]%nat (wspace_ip 2 ex_W1 6 3 1 ex_hermitian) dh_set_up) as (C & AC & H);
    auto using pp_outputs; try (simpl; lia); try real_solve; try le_solve.
  { repeat split; simpl; lia. }
  { exact (holds_removelast _ _ _ Hh). }
  { change (columns (but_first_col ex_seq)) with (tl (columns ex_seq)). inversion Hh; assumption. }
  assert (ECC : aeq ex_C C).
  { apply aeq_sy. eapply aeq_tr; [exact AC|]. eapply aeq_tr; [apply wgram|].
    split; [reflexivity|]. split; [reflexivity|]. apply meqb_true. vm_compute. reflexivity. }
  assert (EL : dh_el C = Ok (ex_cw, ex_cV)).
  { unfold dh_el. rewrite <- (table_extensional _ _ _ ECC). apply table_hit. vm_compute. reflexivity. }
  destruct (H ex_cw ex_cV) as (E & U & M & (vals & cvecs & EE & -> & ->) & M1 & M2 & M3 & G); auto.
  { apply (eigh_contract_aeq ex_C); [exact ECC|apply ex_C_contract]. }
  { split; try reflexivity.
    - repeat constructor; simpl; set_solver.
    - repeat constructor; simpl; lia.
    - intros i j Hij Hj. simpl in Hj. destruct i as [|[|i]]; destruct j as [|[|j]]; try lia;
          try (left; vm_compute; reflexivity); right; reflexivity. }
  { intros e [<-|[<-|[]]] _; apply sq_ok_dec; vm_compute; reflexivity. }
  change (max_list None vals) with vals in *. change (max_cols None (length vals) cvecs) with cvecs in *.
  destruct (eigh_answer dh_el (fun _ => [0; 1]%nat) C ex_cw ex_cV (Some (qi 1 0 8)) None vals cvecs 2 ex_E (NdArray.ent ex_V) EL EE)
    as [-> Ec].
  { vm_compute. reflexivity. }
  { vm_compute. reflexivity. }
  change (length ex_E) with 2%nat in *. change (length (columns (but_last_col ex_seq))) with 2%nat in *.
  assert (AM : aeq ex_low M).
  { split; [auto|]. split; [auto|]. change (meq 2 2 (NdArray.ent ex_low) (NdArray.ent M)). rewrite M3.
    unfold low_order. change (length ex_E) with 2%nat. rewrite Ec.
    rewrite (proj2 (proj2 (wgram 2 ex_W1 6 3 1 (but_last_col ex_seq) (but_first_col ex_seq)))).
    apply meqb_true. vm_compute. reflexivity. }
  destruct (G eq_refl ex_lw ex_lL ex_lR) as (pc & apc & sp & o' & HR).
  { unfold dh_eig. rewrite <- (table_extensional _ _ _ AM). apply table_hit. vm_compute. reflexivity. }
  { apply (eig_contract_aeq ex_low); [exact AM|apply ex_low_contract]. }
  { apply ex_low_pairing. }
  { apply NoDup_ListNoDup, ex_lw_nodup. }
  exists pc, apc, sp, o'. exact HR.
Qed.

(** One pair, whose eigenvalue is 2i. *)
Example C68_TLS_handles_example eager : exists Vs pc apc sp o',
  runs dh_space 2 10 eager d1_store (DMD_session true d1_el d1_sort d1_eig ex_sqrt DMD_new
    [1; 2]%nat None (Some (qi 1 0 8)) None None [0]%Z [10]%nat [0]%Z [11]%nat [-1]%Z [12]%nat)
    (fun st' r => r = Ok (o', sp, (pc, apc)) /\ exists ems pms, holds st' [10]%nat ems /\ holds st' [11]%nat pms /\
       fits_pairs dh_space (columns d1_x) (columns d1_y) (projection true Vs) [qi 0 2 1] pc apc ems pms).
Proof.
  destruct (C68_TLS_handles dh_space (Some 1%Z) 2 10 eager d1_el d1_sort d1_eig ex_sqrt DMD_new [1; 2]%nat None
    [1]%nat [2]%nat (columns d1_x) (columns d1_y) d1_store (qi 1 0 8) None None 1 [10]%nat [11]%nat [-1]%Z [12]%nat
    [0]%nat (wspace_ip 2 ex_W1 6 3 1 ex_hermitian) dh_set_up) as (Sm & S1 & S2 & S3 & H);
    auto using d1_outputs; try (simpl; lia); try real_solve; try le_solve.
  { repeat split; simpl; lia. }
  { repeat constructor. }
  { repeat constructor. }
  change (length (columns d1_x)) with 1%nat in *.
  assert (GX : forall A B i j, (i < nc A)%nat -> (j < nc B)%nat ->
    NdArray.ent (gram dh_space (columns A) (columns B)) i j = wip 2 ex_W1 (NdArray.ent A) (NdArray.ent B) i j).
  { intros A B i j Hi Hj. apply (meq_at _ _ _ _ (proj2 (proj2 (wgram 2 ex_W1 6 3 1 A B))));
      [change (i < length (columns A))%nat|change (j < length (columns B))%nat]; rewrite columns_length; auto. }
  assert (ES : NdArray.ent Sm 0%nat 0%nat = q 21).
  { rewrite (meq_at _ _ _ _ S3 0%nat 0%nat) by lia. unfold madd. rewrite !GX by (simpl; lia).
    apply keqb_true. vm_compute. reflexivity. }
  assert (RS : real (NdArray.ent Sm 0%nat 0%nat)) by (rewrite ES; real_solve).
  destruct (d1_el_ok Sm S1 S2 RS) as [EL HC]. rewrite ES in EL, HC.
  destruct (H _ _ EL HC (d1_sort_ok _)) as (Es & Vs & PC & KB & P1 & P2 & P3 & H'). clear H.
  destruct (d1_eigh Sm (q 21) (qi 1 0 8) Es Vs S1 S2 ES KB) as [-> EVs]; [vm_compute; reflexivity|vm_compute; reflexivity|].
  assert (Q1 : meq 1 1 (projection true Vs) mid).
  { destruct KB as (vals & cvecs & EE & _ & ->). unfold projection.
    assert (NC : nc (max_cols None (length vals) cvecs) = 1%nat).
    { change (nc cvecs = 1%nat). unfold eigh in EE. rewrite EL in EE.
      pose proof (f_equal (rmap (fun p => nc (snd p))) EE) as G. vm_compute in G. injection G as G. auto. }
    rewrite NC, EVs. rewrite madj_mid, mmul_id_l. reflexivity. }
  assert (EP : NdArray.ent PC 0%nat 0%nat = q 4).
  { transitivity (mmul 1 (madj mid) (mmul 1 (wip 2 ex_W1 (NdArray.ent d1_x) (NdArray.ent d1_x)) mid) 0%nat 0%nat).
    - apply (meq_at 1 1 (NdArray.ent PC)); [|lia|lia]. rewrite P3, Q1.
      assert (E0 : meq 1 1 (NdArray.ent (gram dh_space (columns d1_x) (columns d1_x)))
        (wip 2 ex_W1 (NdArray.ent d1_x) (NdArray.ent d1_x))).
      { apply d1_one. apply GX; simpl; lia. }
      rewrite E0. reflexivity.
    - apply keqb_true. vm_compute. reflexivity. }
  assert (RP : real (NdArray.ent PC 0%nat 0%nat)) by (rewrite EP; real_solve).
  destruct (d1_el_ok PC P1 P2 RP) as [EL' HC']. rewrite EP in EL', HC'.
  destruct (H' _ _ EL' HC' (d1_sort_ok _)) as (E & U & M & KB' & M1 & M2 & M3 & G).
  { intros e [<-|[]] _; apply sq_ok_dec; vm_compute; reflexivity. }
  destruct (d1_eigh PC (q 4) (qi 1 0 8) E U P1 P2 EP KB') as [-> EU]; [vm_compute; reflexivity|vm_compute; reflexivity|].
  change (length [q 4]) with 1%nat in *.
  assert (EM : NdArray.ent M 0%nat 0%nat = qi 0 2 1).
  { transitivity (low_order ex_sqrt 1 mid [q 4] mid (wip 2 ex_W1 (NdArray.ent d1_x) (NdArray.ent d1_y)) 0%nat 0%nat).
    - apply (meq_at 1 1 (NdArray.ent M)); [|lia|lia]. rewrite M3. unfold low_order. change (length [q 4]) with 1%nat.
      assert (E0 : meq 1 1 (NdArray.ent (gram dh_space (columns d1_x) (columns d1_y)))
        (wip 2 ex_W1 (NdArray.ent d1_x) (NdArray.ent d1_y))).
      { apply d1_one. apply GX; simpl; lia. }
      rewrite Q1, EU, E0. reflexivity.
    - apply keqb_true. vm_compute. reflexivity. }
  destruct (d1_eig_ok M M1 M2) as [EG HG]. rewrite EM in EG, HG.
  destruct (G eq_refl eq_refl _ _ _ EG HG d1_pairing) as (pc & apc & sp & o' & HR).
  { repeat constructor. intros Hi. inversion Hi. }
  exists Vs, pc, apc, sp, o'. exact HR.
Qed.

Print Assumptions C68_pairs.
Print Assumptions C68_pairs_handles.
Print Assumptions C68_TLS_handles.
