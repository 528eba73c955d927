(** Property C68 for DMDHandles, continued: the exact modes give every vector of the sequence
    but the first. *)
From stdpp Require Import gmap list.
From Coq Require Import ZArith Lia Field Ring Setoid Morphisms.
From Verif Require Import Prelude Field FieldInst Matrix NdArray DecompModel DecompProofs DecompProps
  VSArraysModel VSArraysProofs PodModel PodProofs PodProps BpodModel DmdModel DmdProofs DmdCore DmdSnaps DmdFit
  TlsModel TlsProofs TlsProps
  Spmd LinCombModel InnerProdProps HandlesModel HandlesProofs HandlesSpace HandlesExamples DmdHandlesModel DmdHandlesProofs
  DmdHandlesModes DmdHandlesDecomp DmdHandlesProps DmdExamples TlsExamples DmdHandlesExamples DmdSeqProps DmdSeqHandles DmdExactProps.
Open Scope nat_scope.
Open Scope k_scope.

Section Handles.
Context {F : sfield} {V : Type} (S : space F V) (HS : ip_space S).
Context (sqrt : F -> F) (vs : list V) (E : list F) (U : arr F) (w : list F) (M R L pc apc : arr F) (sp : nd F).
Context (C : arr F) (w0 w1 : list F) (t : F) (rtol : option F) (mx : option nat).
Notation xv := (removelast vs).
Notation yv := (tl vs).
Notation N := (length xv).
Notation k := (length E).
Notation s := (fun i => sqrt (at1 E i)).
Notation D := (mdiag (fun i => 1 / sqrt (at1 E i))).
Notation ent := NdArray.ent.
Notation K := (ent (gram S xv yv)).
Context (H2 : 2 <= length vs) (Hk : k = N) (AC : aeq C (gram S xv xv)) (EK : eigh_kept C w0 w1 t rtol mx E U)
  (Hsq : forall e, In e w0 -> klt_p 0 e -> sqrt_ok sqrt e)
  (Mr : nr M = k) (HM : meq k k (ent M) (low_order sqrt N mid E (ent U) K))
  (BR : biorthog_result M w R L) (Lw : length w = k) (ND : NoDup w)
  (HD : dmd_coeffs sqrt N mid E U L K pc apc sp).
Add Field She_field : (k_field F).

(** Every vector but the first, the last one included, is the combination of the exact modes
    with coefficients eigvals^j proj_coeffs[:, 0]. *)
Theorem C68_exact_handles_modes pjs ajs ems pms ams :
  dmd_modes S sqrt xv yv mid E U w R L pc apc sp (seq 0 k) pjs ajs ems pms ams ->
  (forall l, l < k -> at1 w l <> 0) ->
  forall j d, 1 <= j <= N -> combination S ems (fun l => kpow (at1 w l) j * ent pc l O) (nth j vs d).
Proof.
  intros HP Nz j d Hj u. destruct j as [|j]; [lia|].
  pose proof (dm_elen _ _ _ _ _ _ _ _ _ _ _ _ _ _ _ _ _ _ _ HP) as Lp. rewrite seq_length in Lp. rewrite Lp.
  assert (Ln : N = (length vs - 1)%nat) by apply removelast_length.
  assert (Ly : length yv = N) by (rewrite Ln; destruct vs; simpl; lia).
  set (B := mmul k (ent U) (mmul k D (ent R))). set (x := nth (Datatypes.S j) vs d).
  assert (UU : meq N N (mmul k (ent U) (madj (ent U))) mid)
    by (apply (sh_UU S HS sqrt vs E U w M L pc apc sp C w0 w1 t rtol mx); auto).
  assert (RL : meq k k (mmul k (ent R) (madj (ent L))) mid) by (apply (sh_RL E w M R L); auto).
  assert (DS : meq k k (mmul k D (mdiag s)) mid) by (apply (sh_DS S HS sqrt vs E U w M L pc apc sp C w0 w1 t rtol mx); auto).
  transitivity (sum k (fun l => sum N (fun i => ip S u (nth i yv x) * (B i l * ent pc l j)))).
  - rewrite sum_swap.
    assert (ID : meq N N (mmul k B (ent pc)) mid).
    { unfold B. rewrite (dc_pc _ _ _ _ _ _ _ _ _ _ HD), !mmul_assoc, <- (mmul_assoc k N k k (ent R) (madj (ent L))), RL, mmul_id_l.
      rewrite <- (mmul_assoc k N k k D (mdiag s)), DS, mmul_id_l. exact UU. }
    transitivity (sum N (fun i => ip S u (nth i yv x) * mid i j)).
    + rewrite (sum_delta N j); auto; [|lia|].
      * unfold mid. rewrite Nat.eqb_refl, nth_tl.
        rewrite (nth_indep vs x d) by lia. fold x. ring.
      * intros i Hi Hne. unfold mid. apply Nat.eqb_neq in Hne. rewrite Hne. ring.
    + apply sum_ext. intros i Hi. rewrite sum_mul_l. f_equal. symmetry. apply (meq_at _ _ _ _ ID i j Hi). lia.
  - apply sum_ext. intros l Hl.
    assert (El : nth l (seq 0 k) O = l) by (rewrite seq_nth by exact Hl; reflexivity).
    rewrite (dm_exact _ _ _ _ _ _ _ _ _ _ _ _ _ _ _ _ _ _ _ HP l x) by (rewrite ?seq_length, ?El; auto).
    rewrite El, Ly. cbn [kpow].
    assert (PW : ent pc l j = kpow (at1 w l) j * ent pc l O)
      by (apply (sh_pow S HS sqrt vs E U w M R L pc apc sp C w0 w1 t rtol mx); auto; lia).
    replace (at1 w l * kpow (at1 w l) j * ent pc l O) with (at1 w l * ent pc l j) by (rewrite PW; ring).
    rewrite <- sum_mul_r. apply sum_ext. intros i Hi.
    assert (EB : meq N k (mode_coeffs sqrt N mid E (ent U) (ent R)) B) by (unfold mode_coeffs; apply mmul_id_l).
    rewrite (meq_at _ _ _ _ EB i l Hi Hl).
    rewrite (nth_indep yv (nth l ems x) x) by (rewrite Ly; exact Hi). cbv beta. field. apply Nz. exact Hl.
Qed.
End Handles.

(** DMDHandles: compute_decomp of a sequence, the modes, spectrum and coefficients, with
    exact modes 0 ... N - 1 asked for. *)
Theorem C68_exact_handles {F : sfield} {V : Type} (S : space F V) limit P tag_ub eager el argsort eig sqrt (o : dmd_obj F)
    vecs vs st t rtol eh pi ph ai ah pjs ajs :
  ip_space S -> set_up limit P tag_ub S -> 2 <= length vecs -> holds st vecs vs -> dh_adv o = None ->
  let N := (length vecs - 1)%nat in
  let ei := map Z.of_nat (seq 0 N) in
  dmd_outputs vecs None ei eh pi ph ai ah -> wrap_all N pi = Ok pjs -> wrap_all N ai = Ok ajs -> real t -> kle 0 t ->
  exists C, aeq C (gram S (removelast vs) (removelast vs)) /\
    forall w0 V0, el C = Ok (w0, V0) -> eigh_contract C w0 V0 ->
      argsort_contract (map kabs w0) (argsort (map kabs w0)) ->
      (forall e, In e w0 -> klt_p 0 e -> sqrt_ok sqrt e) ->
      exists E U M, kept_by (eigh el argsort C (Some t) None true) None E U /\ nr M = length E /\ nc M = length E /\
        meq (length E) (length E) (NdArray.ent M)
          (low_order sqrt N mid E (NdArray.ent U) (NdArray.ent (gram S (removelast vs) (tl vs)))) /\
        (* no eigenvalue is dropped *)
        (length E = N -> forall w L0 R, eig M = Ok (w, L0, R) -> eig_contract M w L0 R ->
          (forall i, i < length E -> pairing (length E) L0 R i i <> 0) -> NoDup w ->
          (forall l, l < length E -> at1 w l <> 0) ->
          exists pc apc sp o', runs S P tag_ub eager st
            (DMD_session false el argsort eig sqrt o vecs None (Some t) rtol None ei eh pi ph ai ah)
            (fun st' r => r = Ok (o', sp, (pc, apc)) /\ exists ems, holds st' eh ems /\
               forall j d, 1 <= j <= N -> combination S ems (fun l => kpow (at1 w l) j * NdArray.ent pc l O) (nth j vs d))).
Proof.
  intros HS Hu H2 Hh Ho N ei Hout Hp Ha Rt Ht.
  pose proof (Forall2_length _ _ _ Hh) as Lv.
  assert (LN : length (removelast vs) = N) by (rewrite removelast_length; unfold N; congruence).
  destruct (C22_handles S HS limit P tag_ub eager el argsort eig sqrt o vecs None (removelast vecs) (tl vecs)
    (removelast vs) (tl vs) st t rtol None ei eh pi ph ai ah) as (C & AC & H); auto.
  { split; auto. }
  { apply holds_removelast. auto. }
  { destruct Hh; simpl; auto. constructor. }
  exists C. split; [exact AC|]. intros w0 V0 A1 A2 A3 A4.
  destruct (H w0 V0 A1 A2 A3 A4) as (E & U & w1 & M & KB & EK & Mr & Mc & HM & G).
  exists E, U, M. do 3 (split; [auto|]). split; [rewrite <- LN; exact HM|].
  intros HE w L0 R B1 B2 B3 ND Nz.
  destruct (G w L0 R B1 B2 B3) as (L & pc & apc & sp & o' & BR & HD & HR).
  exists pc, apc, sp, o'. eapply runs_mono; [exact HR|]. intros st' r Q.
  unfold dmd_post in Q. rewrite HE, Hp, Ha in Q. unfold ei in Q. rewrite wrap_seq in Q.
  destruct Q as (Q1 & _ & ems & pms & ams & Q2 & _ & _ & Q3). split; [exact Q1|]. exists ems. split; [exact Q2|].
  rewrite <- LN. intros j d Hj.
  apply (C68_exact_handles_modes S HS sqrt vs E U w M R L pc apc sp C w0 w1 t None None)
    with (pjs := pjs) (ajs := ajs) (pms := pms) (ams := ams); auto.
  - congruence.
  - congruence.
  - rewrite (eig_len _ _ _ _ B2). auto.
  - rewrite HE. exact Q3.
Qed.

(** ** An instance on two processes: both exact modes of [ex_seq] *)
Lemma she_outputs : dmd_outputs [1; 2; 3]%nat None [0; 1]%Z [10; 11]%nat [1; 0]%Z [12; 15]%nat [-1; -2]%Z [13; 14]%nat.
Proof.
  split; try reflexivity.
  - apply (bool_decide_unpack (NoDup [10; 11; 12; 15; 13; 14]%nat)). reflexivity.
  - intros h Hh. apply (bool_decide_unpack (h ∉ [10; 11; 12; 15; 13; 14]%nat)).
    destruct Hh as [Hh|Hh]; repeat (apply elem_of_cons in Hh; destruct Hh as [->|Hh]; [reflexivity|]); inversion Hh.
Qed.
Example C68_exact_handles_example eager : exists pc apc sp o',
  runs dh_space 2 10 eager dh_store (DMD_session false dh_el (fun _ => [0; 1]%nat) dh_eig ex_sqrt DMD_new
    [1; 2; 3]%nat None (Some (qi 1 0 8)) None None [0; 1]%Z [10; 11]%nat [1; 0]%Z [12; 15]%nat [-1; -2]%Z [13; 14]%nat)
    (fun st' r => r = Ok (o', sp, (pc, apc)) /\ exists ems, holds st' [10; 11]%nat ems /\
       (* the last vector is the first mode times pc[0, 0] and the second times 4 pc[1, 0] *)
       forall d, combination dh_space ems (fun l => kpow (at1 ex_lw l) 2 * NdArray.ent pc l O) (nth 2 (columns ex_seq) d)).
Proof.
  destruct (C68_exact_handles dh_space (Some 1%Z) 2 10 eager dh_el (fun _ => [0; 1]%nat) dh_eig ex_sqrt DMD_new
    [1; 2; 3]%nat (columns ex_seq) dh_store (qi 1 0 8) None [10; 11]%nat [1; 0]%Z [12; 15]%nat [-1; -2]%Z [13; 14]%nat
    [1; 0]%nat [1; 0]%nat (wspace_ip 2 ex_W1 6 3 1 ex_hermitian) dh_set_up) as (C & AC & H);
    auto using dh_holds, she_outputs; try (simpl; lia); try real_solve; try le_solve.
  change (removelast (columns ex_seq)) with (columns (but_last_col ex_seq)) in *.
  change (tl (columns ex_seq)) with (columns (but_first_col ex_seq)) in *.
  assert (ECC : aeq ex_C C).
  { apply aeq_sy. eapply aeq_tr; [exact AC|]. eapply aeq_tr; [apply wgram|].
    split; [reflexivity|]. split; [reflexivity|]. apply meqb_true. vm_compute. reflexivity. }
  assert (EL : dh_el C = Ok (ex_cw, ex_cV)).
  { unfold dh_el. rewrite <- (table_extensional _ _ _ ECC). apply table_hit. vm_compute. reflexivity. }
  destruct (H ex_cw ex_cV) as (E & U & M & (vals & cvecs & EE & -> & ->) & M1 & M2 & M3 & G); auto.
  { apply (eigh_contract_aeq ex_C); [exact ECC|apply ex_C_contract]. }
  { split; try reflexivity.
    - repeat constructor; simpl; set_solver.
    - repeat constructor; simpl; lia.
    - intros i j Hij Hj. simpl in Hj. destruct i as [|[|i]]; destruct j as [|[|j]]; try lia;
          try (left; vm_compute; reflexivity); right; reflexivity. }
  { intros e [<-|[<-|[]]] _; apply sq_ok_dec; vm_compute; reflexivity. }
  change (max_list None vals) with vals in *. change (max_cols None (length vals) cvecs) with cvecs in *.
  destruct (eigh_answer dh_el (fun _ => [0; 1]%nat) C ex_cw ex_cV (Some (qi 1 0 8)) None vals cvecs 2 ex_E (NdArray.ent ex_V) EL EE)
    as [-> Ec].
  { vm_compute. reflexivity. }
  { vm_compute. reflexivity. }
  change (length ex_E) with 2%nat in *. change (length [1; 2; 3]%nat - 1)%nat with 2%nat in *.
  assert (AM : aeq ex_low M).
  { split; [auto|]. split; [auto|]. change (meq 2 2 (NdArray.ent ex_low) (NdArray.ent M)). rewrite M3.
    unfold low_order. change (length ex_E) with 2%nat. rewrite Ec.
    rewrite (proj2 (proj2 (wgram 2 ex_W1 6 3 1 (but_last_col ex_seq) (but_first_col ex_seq)))).
    apply meqb_true. vm_compute. reflexivity. }
  destruct (G eq_refl ex_lw ex_lL ex_lR) as (pc & apc & sp & o' & HR).
  { unfold dh_eig. rewrite <- (table_extensional _ _ _ AM). apply table_hit. vm_compute. reflexivity. }
  { apply (eig_contract_aeq ex_low); [exact AM|apply ex_low_contract]. }
  { apply ex_low_pairing. }
  { apply NoDup_ListNoDup, ex_lw_nodup. }
  { apply ex_lw_nz. }
  exists pc, apc, sp, o'. eapply runs_mono; [exact HR|]. intros st' r (Q1 & ems & Q2 & Q3).
  split; [exact Q1|]. exists ems. split; [exact Q2|]. intros d. apply Q3. lia.
Qed.

Print Assumptions C68_exact_handles_modes.
Print Assumptions C68_exact_handles.
