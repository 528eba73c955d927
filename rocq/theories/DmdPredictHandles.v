(** Property C68 for DMDHandles, continued: a sequence that a linear map produces. *)
From stdpp Require Import gmap list.
From Coq Require Import ZArith Lia Field Ring Setoid Morphisms.
From Verif Require Import Prelude Field FieldInst Matrix NdArray DecompModel DecompProofs DecompProps
  VSArraysModel VSArraysProofs PodModel PodProofs PodProps BpodModel DmdModel DmdProofs DmdCore DmdSnaps DmdFit
  TlsModel TlsProofs TlsProps
  Spmd LinCombModel InnerProdProps HandlesModel HandlesProofs HandlesSpace HandlesExamples DmdHandlesModel DmdHandlesProofs
  DmdHandlesModes DmdHandlesDecomp DmdHandlesProps DmdExamples TlsExamples DmdHandlesExamples DmdSeqProps DmdSeqHandles DmdExactProps.
Open Scope nat_scope.
Open Scope k_scope.

(** A map of vectors that takes combinations to combinations. *)
Definition linear {F : sfield} {V} (S : space F V) (T : V -> V) : Prop :=
  forall vs c v, combination S vs c v -> combination S (map T vs) c (T v).
(** [T] takes every vector of the sequence to the next, and the last one is a combination of
    those before it. *)
Record produces {F : sfield} {V} (S : space F V) (T : V -> V) (vs : list V) : Prop := {
  pr_next : forall i d u, Datatypes.S i < length vs -> ip S u (nth (Datatypes.S i) vs d) = ip S u (T (nth i vs d));
  pr_span : forall d, exists c, combination S (removelast vs) c (nth (length vs - 1) vs d)
}.

Section Handles.
Context {F : sfield} {V : Type} (S : space F V) (HS : ip_space S).
Context (sqrt : F -> F) (vs : list V) (E : list F) (U : arr F) (w : list F) (M R L pc apc : arr F) (sp : nd F).
Context (C : arr F) (w0 w1 : list F) (t : F) (rtol : option F) (mx : option nat).
Notation xv := (removelast vs).
Notation yv := (tl vs).
Notation N := (length xv).
Notation k := (length E).
Notation s := (fun i => sqrt (at1 E i)).
Notation D := (mdiag (fun i => 1 / sqrt (at1 E i))).
Notation ent := NdArray.ent.
Notation Cm := (ent (gram S xv xv)).
Notation K := (ent (gram S xv yv)).
Context (H2 : 2 <= length vs) (Hk : k = N) (AC : aeq C (gram S xv xv)) (EK : eigh_kept C w0 w1 t rtol mx E U)
  (Hsq : forall e, In e w0 -> klt_p 0 e -> sqrt_ok sqrt e)
  (Mr : nr M = k) (HM : meq k k (ent M) (low_order sqrt N mid E (ent U) K))
  (BR : biorthog_result M w R L) (Lw : length w = k) (ND : NoDup w)
  (HD : dmd_coeffs sqrt N mid E U L K pc apc sp).
Context (T : V -> V) (HT : linear S T) (HP : produces S T vs).
Context (ejs ajs : list nat) (ems pms ams : list V)
  (HM' : dmd_modes S sqrt xv yv mid E U w R L pc apc sp ejs (seq 0 k) ajs ems pms ams).
Add Field Ph_field : (k_field F).
Notation B := (mmul k (ent U) (mmul k D (ent R))).

Lemma ph_len : N = (length vs - 1)%nat.
Proof. apply removelast_length. Qed.
Lemma ph_leny : length yv = N.
Proof. rewrite removelast_length. destruct vs; simpl; lia. Qed.
(** The coefficients of each vector in terms of those before it: the companion array. *)
Lemma ph_companion : exists A : mat F, forall j d, j < N -> combination S xv (fun i => A i j) (nth j yv d).
Proof.
  pose proof ph_len as Ln. destruct vs as [|d0 l0] eqn:Ev; [simpl in H2; lia|]. rewrite <- Ev in *.
  destruct (pr_span _ _ _ HP d0) as (c & Hc).
  exists (fun i j => if (Datatypes.S j =? N)%nat then c i else mid i (Datatypes.S j)). intros j d Hj u. rewrite nth_tl.
  destruct (Nat.eqb_spec (Datatypes.S j) N) as [Ej|Ej].
  - rewrite Ej, Ln. rewrite (nth_indep vs d d0) by lia. rewrite (Hc u), Ln. reflexivity.
  - rewrite (sum_delta N (Datatypes.S j)); [|lia|].
    + unfold mid. rewrite Nat.eqb_refl, nth_removelast by lia. rewrite (nth_indep vs (nth (Datatypes.S j) vs d) d) by lia. ring.
    + intros i Hi Hne. unfold mid. apply Nat.eqb_neq in Hne. rewrite Hne. ring.
Qed.
Lemma ph_eigen (A : mat F) : (forall j d, j < N -> combination S xv (fun i => A i j) (nth j yv d)) ->
  meq N k (mmul N A B) (mmul k B (mdiag (at1 w))).
Proof.
  intros HA.
  assert (UU : meq N N (mmul k (ent U) (madj (ent U))) mid)
    by (apply (sh_UU S HS sqrt vs E U w M L pc apc sp C w0 w1 t rtol mx); auto).
  assert (UC : meq k N (mmul N (madj (ent U)) Cm) (mmul k (mdiag (at1 E)) (madj (ent U))))
    by (apply (sh_UC S HS sqrt vs E U w M L pc apc sp C w0 w1 t rtol mx); auto).
  destruct (sh_s S HS sqrt vs E U w M L pc apc sp C w0 w1 t rtol mx) as (S1 & S2 & S3); auto.
  assert (HK : meq N N K (mmul N Cm A)).
  { split. intros i j Hi Hj. destruct vs as [|d l0] eqn:Ev; [simpl in H2; lia|]. rewrite <- Ev in *.
    rewrite (gram_ent S _ _ d) by (rewrite ?ph_leny; auto). rewrite (HA j d Hj (nth i xv d)).
    apply sum_ext. intros a Ha. rewrite (gram_ent S _ _ d) by auto.
    rewrite (nth_indep xv (nth j yv d) d) by auto. reflexivity. }
  pose proof (br_R _ _ _ _ BR) as G. rewrite Mr in G.
  assert (DDE : meq k k (mmul k D (mmul k D (mdiag (at1 E)))) mid).
  { rewrite !mmul_diag_diag. apply mdiag_1. intros i Hi. pose proof (S1 i Hi) as Q. pose proof (S3 i Hi) as Z.
    cbv beta in Q, Z |- *. set (x := sqrt (at1 E i)) in *. rewrite <- Q. field. auto. }
  rewrite !mmul_assoc, <- G, HM. unfold low_order.
  rewrite madj_mid, mmul_id_l, mmul_id_r, HK, !mmul_assoc.
  rewrite <- (mmul_assoc k k N N (madj (ent U)) Cm), UC, !mmul_assoc.
  rewrite <- (mmul_assoc k k k k D (mdiag (at1 E))), <- (mmul_assoc k k k k D (mmul k D (mdiag (at1 E)))), DDE, mmul_id_l.
  rewrite <- (mmul_assoc N k k N (ent U) (madj (ent U))), UU, mmul_id_l. reflexivity.
Qed.

(** The projected modes are eigenvectors of the map, with the eigenvalues returned. *)
Theorem C68_handles_eigenvectors l d : l < k ->
  forall u, ip S u (T (nth l pms d)) = at1 w l * ip S u (nth l pms d).
Proof.
  intros Hl u. destruct ph_companion as (A & HA). pose proof (ph_eigen A HA) as HB. pose proof ph_leny as Ly. pose proof ph_len as Ln.
  assert (EB : meq N k (mode_coeffs sqrt N mid E (ent U) (ent R)) B) by (unfold mode_coeffs; apply mmul_id_l).
  assert (Pl : combination S xv (fun i => B i l) (nth l pms d)).
  { intros u'. rewrite (dm_proj _ _ _ _ _ _ _ _ _ _ _ _ _ _ _ _ _ _ _ HM' l d) by (rewrite seq_length; exact Hl).
    rewrite seq_nth by exact Hl. apply sum_ext. intros i Hi. rewrite <- (meq_at _ _ _ _ EB i l Hi Hl). reflexivity. }
  rewrite (HT _ _ _ Pl u), map_length.
  transitivity (sum N (fun i => sum N (fun a => ip S u (nth a xv d) * (A a i * B i l)))).
  - apply sum_ext. intros i Hi. rewrite (nth_indep _ (T (nth l pms d)) (T d)) by (rewrite map_length; exact Hi).
    rewrite map_nth, nth_removelast by lia. rewrite <- (pr_next _ _ _ HP i d u) by lia. rewrite <- nth_tl.
    rewrite (HA i d Hi u), <- sum_mul_r. apply sum_ext. intros a Ha.
    rewrite (nth_indep xv (nth i yv d) d) by exact Ha. cbv beta. ring.
  - rewrite sum_swap. rewrite (Pl u), <- sum_mul_l. apply sum_ext. intros a Ha. rewrite sum_mul_l.
    pose proof (meq_at _ _ _ _ HB a l Ha Hl) as Q. rewrite (meq_at _ _ _ _ (mmul_diag_r N k (at1 w) B) a l Ha Hl) in Q.
    change (sum N (fun i => A a i * B i l)) with (mmul N A B a l). rewrite Q.
    rewrite (nth_indep xv (nth l pms d) d) by exact Ha. ring.
Qed.
(** ... and their combination gives every step, also those after the end of the sequence. *)
Theorem C68_handles_predict_modes d m :
  combination S pms (fun l => kpow (at1 w l) m * ent pc l O) (Nat.iter m T (nth 0 vs d)).
Proof.
  pose proof (dm_plen _ _ _ _ _ _ _ _ _ _ _ _ _ _ _ _ _ _ _ HM') as Lp. rewrite seq_length in Lp.
  induction m as [|m IH].
  - apply (C68_handles_modes S HS sqrt vs E U w M R L pc apc sp C w0 w1 t rtol mx) with (ejs := ejs) (ajs := ajs) (ems := ems) (ams := ams); auto.
    rewrite removelast_length. lia.
  - intros u. change (Nat.iter (Datatypes.S m) T (nth 0 vs d)) with (T (Nat.iter m T (nth 0 vs d))).
    rewrite (HT _ _ _ IH u), map_length. apply sum_ext. intros l Hl.
    rewrite (nth_indep (map T pms) _ (T d)) by (rewrite map_length; exact Hl).
    rewrite map_nth, C68_handles_eigenvectors by lia.
    rewrite (nth_indep pms (T (Nat.iter m T (nth 0 vs d))) d) by exact Hl. cbn [kpow]. ring.
Qed.
End Handles.

(** DMDHandles: compute_decomp of a sequence that a linear map produces, the modes, spectrum
    and coefficients, with projected modes 0 ... N - 1 asked for. *)
Theorem C68_handles_predict {F : sfield} {V : Type} (S : space F V) limit P tag_ub eager el argsort eig sqrt (o : dmd_obj F)
    T vecs vs st t rtol ei eh ph ai ah ejs ajs :
  ip_space S -> set_up limit P tag_ub S -> 2 <= length vecs -> holds st vecs vs -> dh_adv o = None -> linear S T -> produces S T vs ->
  let N := (length vecs - 1)%nat in
  let pi := map Z.of_nat (seq 0 N) in
  dmd_outputs vecs None ei eh pi ph ai ah -> wrap_all N ei = Ok ejs -> wrap_all N ai = Ok ajs -> real t -> kle 0 t ->
  exists C, aeq C (gram S (removelast vs) (removelast vs)) /\
    forall w0 V0, el C = Ok (w0, V0) -> eigh_contract C w0 V0 ->
      argsort_contract (map kabs w0) (argsort (map kabs w0)) ->
      (forall e, In e w0 -> klt_p 0 e -> sqrt_ok sqrt e) ->
      exists E U M, kept_by (eigh el argsort C (Some t) None true) None E U /\ nr M = length E /\ nc M = length E /\
        meq (length E) (length E) (NdArray.ent M)
          (low_order sqrt N mid E (NdArray.ent U) (NdArray.ent (gram S (removelast vs) (tl vs)))) /\
        (* no eigenvalue is dropped *)
        (length E = N -> forall w L0 R, eig M = Ok (w, L0, R) -> eig_contract M w L0 R ->
          (forall i, i < length E -> pairing (length E) L0 R i i <> 0) -> NoDup w ->
          exists pc apc sp o', runs S P tag_ub eager st
            (DMD_session false el argsort eig sqrt o vecs None (Some t) rtol None ei eh pi ph ai ah)
            (fun st' r => r = Ok (o', sp, (pc, apc)) /\ exists pms, holds st' ph pms /\
               (forall l d u, l < N -> ip S u (T (nth l pms d)) = at1 w l * ip S u (nth l pms d)) /\
               (forall m d, combination S pms (fun l => kpow (at1 w l) m * NdArray.ent pc l O) (Nat.iter m T (nth 0 vs d))))).
Proof.
  intros HS Hu H2 Hh Ho HT HP N pi Hout He Ha Rt Ht.
  pose proof (Forall2_length _ _ _ Hh) as Lv.
  assert (LN : length (removelast vs) = N) by (rewrite removelast_length; unfold N; congruence).
  destruct (C22_handles S HS limit P tag_ub eager el argsort eig sqrt o vecs None (removelast vecs) (tl vecs)
    (removelast vs) (tl vs) st t rtol None ei eh pi ph ai ah) as (C & AC & H); auto.
  { split; auto. }
  { apply holds_removelast. auto. }
  { destruct Hh; simpl; auto. constructor. }
  exists C. split; [exact AC|]. intros w0 V0 A1 A2 A3 A4.
  destruct (H w0 V0 A1 A2 A3 A4) as (E & U & w1 & M & KB & EK & Mr & Mc & HM & G).
  exists E, U, M. do 3 (split; [auto|]). split; [rewrite <- LN; exact HM|].
  intros HE w L0 R B1 B2 B3 ND.
  destruct (G w L0 R B1 B2 B3) as (L & pc & apc & sp & o' & BR & HD & HR).
  exists pc, apc, sp, o'. eapply runs_mono; [exact HR|]. intros st' r Q.
  unfold dmd_post in Q. rewrite HE, He, Ha in Q. unfold pi in Q. rewrite wrap_seq in Q.
  destruct Q as (Q1 & _ & ems & pms & ams & _ & Q2 & _ & Q3). split; [exact Q1|]. exists pms. split; [exact Q2|].
  rewrite <- HE in Q3 at 1. split.
  - intros l d u Hl. rewrite <- HE in Hl.
    apply (C68_handles_eigenvectors S HS sqrt vs E U w M R L pc apc sp C w0 w1 t None None)
      with (ejs := ejs) (ajs := ajs) (ems := ems) (ams := ams); auto; try congruence.
    rewrite (eig_len _ _ _ _ B2). auto.
  - intros m d.
    apply (C68_handles_predict_modes S HS sqrt vs E U w M R L pc apc sp C w0 w1 t None None)
      with (ejs := ejs) (ajs := ajs) (ems := ems) (ams := ams); auto; try congruence.
    rewrite (eig_len _ _ _ _ B2). auto.
Qed.

(** ** An instance on two processes: both projected modes of [ex_seq] *)

(** Multiplying by an array is linear if the weights have an inverse. *)
Definition times {F : sfield} (n : nat) (A : mat F) (v : nat -> F) : nat -> F := fun i => sum n (fun j => A i j * v j).
Lemma times_linear {F : sfield} n (W Wi A : mat F) a b c : meq n n (mmul n Wi W) mid -> linear (wspace n W a b c) (times n A).
Proof.
  intros HW.
  assert (G : forall u v, ip (wspace n W a b c) u (times n A v)
    = ip (wspace n W a b c) (times n (madj (mmul n (mmul n W A) Wi)) u) v).
  { intros u v. cbn [ip wspace].
    assert (Q : meq 1 1 (wip n W (fun i _ => u i) (mmul n A (fun i _ => v i)))
      (wip n W (mmul n (madj (mmul n (mmul n W A) Wi)) (fun i _ => u i)) (fun i _ => v i))).
    { unfold wip. rewrite madj_mmul, madj_madj, !mmul_assoc, <- (mmul_assoc n 1 n n Wi W), HW, mmul_id_l. reflexivity. }
    exact (meq_at _ _ _ _ Q O O Nat.lt_0_1 Nat.lt_0_1). }
  intros vs c0 v Hv u. rewrite G, (Hv _), map_length. apply sum_ext. intros i Hi.
  rewrite map_nth, G. reflexivity.
Qed.
Lemma wspace_row {F : sfield} n (W : mat F) a b c u v :
  ip (wspace n W a b c) u v = sum n (fun i => mmul n (madj (fun i _ => u i)) W O i * v i).
Proof.
  cbn [ip wspace].
  assert (Q : meq 1 1 (wip n W (fun i _ => u i) (fun i _ => v i)) (mmul n (mmul n (madj (fun i _ => u i)) W) (fun i _ => v i)))
    by (unfold wip; rewrite mmul_assoc; reflexivity).
  exact (meq_at _ _ _ _ Q O O Nat.lt_0_1 Nat.lt_0_1).
Qed.
Definition ph_T : (nat -> QI) -> nat -> QI := times 2 (mmul 2 (NdArray.ent ex_D) (mmul 2 (NdArray.ent ex_cmp) (madj (NdArray.ent ex_D)))).
Add Field Qi_field : (k_field QI).
Lemma ph_linear : linear dh_space ph_T.
Proof. apply (times_linear 2 ex_W1 (mdiag (at1 [qi 1 0 4; q 1]))). apply meqb_true. vm_compute. reflexivity. Qed.
Lemma ph_produces : produces dh_space ph_T (columns ex_seq).
Proof.
  split.
  - intros i d u Hi. unfold dh_space. rewrite !wspace_row. apply sum_ext. intros a Ha. f_equal.
    change (length (columns ex_seq)) with 3%nat in Hi.
    destruct i as [|[|i]]; [| |lia]; destruct a as [|[|a]]; try lia; real_solve.
  - intros d. exists (at1 [qi (-2) 0 1; q 3]). intros u. unfold dh_space. rewrite wspace_row.
    change (length (removelast (columns ex_seq))) with 2%nat. change (length (columns ex_seq) - 1)%nat with 2%nat.
    transitivity (sum 2 (fun a => sum 2 (fun i => mmul 2 (madj (fun i _ => u i)) ex_W1 O i
      * nth a (removelast (columns ex_seq)) (nth 2 (columns ex_seq) d) i * at1 [qi (-2) 0 1; q 3] a))).
    + rewrite sum_swap. apply sum_ext. intros i Hi.
      rewrite (sum_ext 2 _ (fun a => mmul 2 (madj (fun i _ => u i)) ex_W1 O i
        * (nth a (removelast (columns ex_seq)) (nth 2 (columns ex_seq) d) i * at1 [qi (-2) 0 1; q 3] a))) by (intros; ring).
      rewrite sum_mul_l. f_equal.
    + apply sum_ext. intros a Ha. rewrite sum_mul_r, <- wspace_row with (a := 6%nat) (b := 3%nat) (c := 1%nat). reflexivity.
Qed.
Example C68_handles_predict_example eager : exists pc apc sp o',
  runs dh_space 2 10 eager dh_store (DMD_session false dh_el (fun _ => [0; 1]%nat) dh_eig ex_sqrt DMD_new
    [1; 2; 3]%nat None (Some (qi 1 0 8)) None None [1; 0]%Z [10; 11]%nat [0; 1]%Z [12; 15]%nat [-1; -2]%Z [13; 14]%nat)
    (fun st' r => r = Ok (o', sp, (pc, apc)) /\ exists pms, holds st' [12; 15]%nat pms /\
       (* seven steps after the end of the sequence *)
       forall d, combination dh_space pms (fun l => kpow (at1 ex_lw l) 9 * NdArray.ent pc l O) (Nat.iter 9 ph_T (nth 0 (columns ex_seq) d))).
Proof.
  destruct (C68_handles_predict dh_space (Some 1%Z) 2 10 eager dh_el (fun _ => [0; 1]%nat) dh_eig ex_sqrt DMD_new ph_T
    [1; 2; 3]%nat (columns ex_seq) dh_store (qi 1 0 8) None [1; 0]%Z [10; 11]%nat [12; 15]%nat [-1; -2]%Z [13; 14]%nat
    [1; 0]%nat [1; 0]%nat (wspace_ip 2 ex_W1 6 3 1 ex_hermitian) dh_set_up) as (C & AC & H);
    auto using dh_holds, sh_outputs, ph_linear, ph_produces; try (simpl; lia); try real_solve; try le_solve.
  change (removelast (columns ex_seq)) with (columns (but_last_col ex_seq)) in *.
  change (tl (columns ex_seq)) with (columns (but_first_col ex_seq)) in *.
  assert (ECC : aeq ex_C C).
  { apply aeq_sy. eapply aeq_tr; [exact AC|]. eapply aeq_tr; [apply wgram|].
    split; [reflexivity|]. split; [reflexivity|]. apply meqb_true. vm_compute. reflexivity. }
  assert (EL : dh_el C = Ok (ex_cw, ex_cV)).
  { unfold dh_el. rewrite <- (table_extensional _ _ _ ECC). apply table_hit. vm_compute. reflexivity. }
  destruct (H ex_cw ex_cV) as (E & U & M & (vals & cvecs & EE & -> & ->) & M1 & M2 & M3 & G); auto.
  { apply (eigh_contract_aeq ex_C); [exact ECC|apply ex_C_contract]. }
  { split; try reflexivity.
    - repeat constructor; simpl; set_solver.
    - repeat constructor; simpl; lia.
    - intros i j Hij Hj. simpl in Hj. destruct i as [|[|i]]; destruct j as [|[|j]]; try lia;
          try (left; vm_compute; reflexivity); right; reflexivity. }
  { intros e [<-|[<-|[]]] _; apply sq_ok_dec; vm_compute; reflexivity. }
  change (max_list None vals) with vals in *. change (max_cols None (length vals) cvecs) with cvecs in *.
  destruct (eigh_answer dh_el (fun _ => [0; 1]%nat) C ex_cw ex_cV (Some (qi 1 0 8)) None vals cvecs 2 ex_E (NdArray.ent ex_V) EL EE)
    as [-> Ec].
  { vm_compute. reflexivity. }
  { vm_compute. reflexivity. }
  change (length ex_E) with 2%nat in *. change (length [1; 2; 3]%nat - 1)%nat with 2%nat in *.
  assert (AM : aeq ex_low M).
  { split; [auto|]. split; [auto|]. change (meq 2 2 (NdArray.ent ex_low) (NdArray.ent M)). rewrite M3.
    unfold low_order. change (length ex_E) with 2%nat. rewrite Ec.
    rewrite (proj2 (proj2 (wgram 2 ex_W1 6 3 1 (but_last_col ex_seq) (but_first_col ex_seq)))).
    apply meqb_true. vm_compute. reflexivity. }
  destruct (G eq_refl ex_lw ex_lL ex_lR) as (pc & apc & sp & o' & HR).
  { unfold dh_eig. rewrite <- (table_extensional _ _ _ AM). apply table_hit. vm_compute. reflexivity. }
  { apply (eig_contract_aeq ex_low); [exact AM|apply ex_low_contract]. }
  { apply ex_low_pairing. }
  { apply NoDup_ListNoDup, ex_lw_nodup. }
  exists pc, apc, sp, o'. eapply runs_mono; [exact HR|]. intros st' r (Q1 & pms & Q2 & _ & Q3).
  split; [exact Q1|]. exists pms. split; [exact Q2|]. intros d. apply Q3.
Qed.

Print Assumptions C68_handles_eigenvectors.
Print Assumptions C68_handles_predict_modes.
Print Assumptions C68_handles_predict.
