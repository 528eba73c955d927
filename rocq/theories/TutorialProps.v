(** Property C54: the array examples tutorial_ex1.py and rom_ex1.py. *)
From Coq Require Import List Arith Lia Bool ZArith Field Ring Setoid Morphisms Permutation.
Import ListNotations.
From Verif Require Import Prelude Field FieldInst Matrix NdArray DecompModel DecompProofs DecompProps
  VSArraysModel VSArraysProofs VSArraysProps PodModel PodProofs PodProps OptimalProofs OptimalProps
  GalerkinModel GalerkinProps TutorialModel.
Open Scope nat_scope.
Open Scope k_scope.

Lemma wip_mid {F : sfield} n m k (A B : mat F) : meq m k (wip n mid A B) (mmul n (madj A) B).
Proof. unfold wip. rewrite mmul_id_l. reflexivity. Qed.

Lemma wrap_all_range n k : (k <= n)%nat -> wrap_all n (map Z.of_nat (seq 0 k)) = Ok (seq 0 k).
Proof.
  intros Hk. assert (E : forall a m, (a + m <= n)%nat -> wrap_all n (map Z.of_nat (seq a m)) = Ok (seq a m)); [|apply E; auto].
  intros a m. revert a. induction m as [|m IH]; intros a H; simpl; auto.
  unfold wrap_index. rewrite (proj2 (Z.leb_le 0 (Z.of_nat a))) by lia.
  rewrite (proj2 (Z.ltb_lt (Z.of_nat a) (Z.of_nat n))) by lia. simpl.
  rewrite IH by lia. rewrite Nat2Z.id. reflexivity.
Qed.

(** tutorial_ex1: if [num_modes] eigenvalues of the correlation array are above the
    tolerance, that many orthonormal modes, and the projection of the data on them is the
    best approximation of that rank; its error is the sum of the other eigenvalues.
    Otherwise IndexError. *)
Theorem C54_tutorial_ex1 {F : sfield} eigh_lapack argsort sqrt (X : arr F) num_modes (t : F) rtol :
  real t -> kle 0 t -> tol_real rtol -> (0 < nc X)%nat ->
  exists C, nr C = nc X /\ nc C = nc X /\ meq (nc X) (nc X) (ent C) (mmul (nr X) (madj (ent X)) (ent X)) /\
  forall w0 V0, eigh_lapack C = Ok (w0, V0) -> eigh_contract C w0 V0 ->
  argsort_contract (map kabs w0) (argsort (map kabs w0)) ->
  (forall e, In e w0 -> klt_p 0 e -> sqrt_ok sqrt e) ->
  exists w vals, Permutation w w0 /\ abs_decreasing w /\ vals = firstn (length vals) w /\
    (forall i, (i < length w)%nat -> ((i < length vals)%nat <-> above (Some t) rtol w i)) /\
    ((length vals < num_modes)%nat -> tutorial_ex1 eigh_lapack argsort sqrt X num_modes (Some t) rtol = Raise IndexError) /\
    ((num_modes <= length vals)%nat -> exists p,
       tutorial_ex1 eigh_lapack argsort sqrt X num_modes (Some t) rtol = Ok p /\ p_eigvals p = vals /\
       let M := p_modes p in
       nr M = nr X /\ nc M = num_modes /\
       meq num_modes num_modes (mmul (nr X) (madj (ent M)) (ent M)) mid /\
       let proj := mmul num_modes (ent M) (mmul (nr X) (madj (ent M)) (ent X)) in
       error (nr X) (nc X) mid (ent X) proj = sum (length w - num_modes) (fun i => at1 w (num_modes + i)) /\
       forall A B, kle (error (nr X) (nc X) mid (ent X) proj)
                       (error (nr X) (nc X) mid (ent X) (mmul num_modes A B))).
Proof.
  intros Rt Ht Hr HN.
  assert (HW : positive (nr X) (mid : mat F)).
  { apply (positive_root (nr X) mid). rewrite madj_mid, mmul_id_l. reflexivity. }
  destruct (ip_ok WNone X X eq_refl I) as (C & EC & Cr & Cc & CE). cbn [wmat] in CE.
  exists C. split; [auto|]. split; [auto|]. split; [rewrite CE; apply wip_mid|].
  intros w0 V0 HL HC HS Hsq.
  destruct (C19_POD_snaps eigh_lapack argsort sqrt X None WNone (Some (map Z.of_nat (seq 0 num_modes))) t rtol C w0 V0
    eq_refl I (proj1 HW) EC HL HC HS Rt Ht Hr HN Hsq) as (Phi & vals & vecs & coeffs & atol' & w & H1 & H2 & H3 & H4 & H5 & _).
  cbn [wmat] in *.
  assert (SP : spectrum X mid (ent V0) w0 w)
    by (apply (eigh_spectrum X C); auto; [apply (er_perm _ _ _ _ _ _ _ H3)|apply (er_sorted _ _ _ _ _ _ _ H3)]).
  assert (Ea : atol' = Some t).
  { destruct H2 as [[_ H2]|(_ & t' & m & _ & Hm & _ & Hm0 & _)]; auto.
    destruct (In_nth _ _ 0 Hm) as (j & Hj & Ej).
    pose proof (w0_nonneg X mid (ent V0) w0 w HW SP j Hj) as G. unfold at1 in G. rewrite Ej in G.
    pose proof (w0_real X mid (ent V0) w0 w HW SP j Hj) as R0. unfold at1 in R0. rewrite Ej in R0.
    exfalso. apply (lt_not_le m 0); auto. apply real_0. }
  subst atol'. exists w, vals.
  split; [apply (er_perm _ _ _ _ _ _ _ H3)|]. split; [apply (er_sorted _ _ _ _ _ _ _ H3)|].
  split; [apply (er_prefix _ _ _ _ _ _ _ H3)|]. split; [apply (er_kept _ _ _ _ _ _ _ H3)|].
  unfold tutorial_ex1, pod_returns, pick_opt, pick_cols in *. rewrite (ps_Pc _ _ _ _ _ _ _ H5) in H1.
  split; intros Hm.
  - rewrite wrap_all_bad in H1; auto. intros G. rewrite Forall_forall in G.
    assert (I1 : In (Z.of_nat (length vals)) (map Z.of_nat (seq 0 num_modes))).
    { apply in_map, in_seq. lia. }
    specialize (G _ I1). lia.
  - rewrite wrap_all_range in H1 by auto. destruct H1 as (M & E & Mr & Mc & ME).
    eexists. split; [exact E|]. cbn [p_eigvals p_modes]. split; [reflexivity|]. cbn [nr nc ent] in Mr, Mc, ME.
    rewrite seq_length in Mc. rewrite (ps_Pr _ _ _ _ _ _ _ H5) in Mr. rewrite Mr, Mc in ME.
    assert (ME' : meq (nr X) num_modes (ent M) (ent Phi)).
    { rewrite ME. split. intros i j Hi Hj. unfold mcols. rewrite seq_nth by auto. reflexivity. }
    clear ME. split; [auto|]. split; [auto|]. split.
    { rewrite ME'. rewrite <- wip_mid. split. intros i j Hi Hj. apply (ps_orth _ _ _ _ _ _ _ H5); lia. }
    assert (B : best X mid w Phi coeffs num_modes).
    { apply (pod_best sqrt X mid (ent V0) w0 w vals Phi coeffs vecs); auto.
      - apply (er_prefix _ _ _ _ _ _ _ H3).
      - intros i Hi. apply Hsq.
        + rewrite <- (er_perm _ _ _ _ _ _ _ H3). apply prefix_in; auto. apply (er_prefix _ _ _ _ _ _ _ H3).
        + apply (Forall_at (klt_p 0)); auto. }
    assert (EE : error (nr X) (nc X) mid (ent X) (mmul num_modes (ent M) (mmul (nr X) (madj (ent M)) (ent X)))
      = error (nr X) (nc X) mid (ent X) (mmul num_modes (ent Phi) (ent coeffs))).
    { assert (HE : meq (nr X) (nc X) (mmul num_modes (ent M) (mmul (nr X) (madj (ent M)) (ent X))) (mmul num_modes (ent Phi) (ent coeffs))).
      { rewrite ME', <- wip_mid. split. intros i j Hi Hj. apply sum_ext. intros l Hl. f_equal. symmetry.
        apply (ps_coeffs _ _ _ _ _ _ _ H5); lia. }
      unfold error. apply sum_ext. intros j Hj. apply sum_ext. intros a Ha. rewrite (meq_at _ _ _ _ HE a j Ha Hj). f_equal.
      apply sum_ext. intros b Hb. rewrite (meq_at _ _ _ _ HE b j Hb Hj). reflexivity. }
    cbv zeta. rewrite EE. split; [apply B|]. intros A0 B0. apply B.
Qed.

(** rom_ex1: the Galerkin projection of the system on the basis vectors, when they are
    independent (the Gram array has an inverse). *)
Theorem C54_rom_ex1 {F : sfield} inv (A B C Phi : arr F) :
  let n := nr Phi in let r := nc Phi in
  nr A = n -> nc A = n -> nr B = n -> nc C = n ->
  exists G, nr G = r /\ nc G = r /\ meq r r (ent G) (mmul n (madj (ent Phi)) (ent Phi)) /\
    (forall e, inv G = Raise e -> rom_ex1 inv A B C Phi = Raise e) /\
    forall T, inv G = Ok T -> inv_contract G T -> exists Ar Br Cr,
      rom_ex1 inv A B C Phi = Ok (Ar, Br, Cr) /\
      nr Ar = r /\ nc Ar = r /\ nr Br = r /\ nc Br = nc B /\ nr Cr = nr C /\ nc Cr = r /\
      galerkin n r r mid (ent Phi) (ent Phi) (mmul n (ent A) (ent Phi)) (ent Ar) /\
      galerkin n r (nc B) mid (ent Phi) (ent Phi) (ent B) (ent Br) /\
      meq (nr C) r (ent Cr) (mmul n (ent C) (ent Phi)) /\
      (* the model's responses are the system's if the basis spans an invariant subspace that
         contains the columns of B *)
      forall M N, meq n r (mmul n (ent A) (ent Phi)) (mmul r (ent Phi) M) -> meq n (nc B) (ent B) (mmul r (ent Phi) N) ->
      forall j, meq (nr C) (nc B) (mmul n (ent C) (mmul n (mpow n (ent A) j) (ent B)))
                                  (mmul r (ent Cr) (mmul r (mpow r (ent Ar) j) (ent Br))).
Proof.
  intros n r HA1 HA2 HB HC. unfold rom_ex1. cbn [ga_new set_weights rbind].
  set (o := Gal _ _ _ _ _ _ _ _ _). assert (HR : like inv o o) by (apply like_refl; reflexivity).
  unfold dot. fold n r. rewrite HA2, HC, !Nat.eqb_refl. cbn [rbind]. fold n.
  set (X := Arr (nr A) r _). set (Z := Arr (nr C) r _).
  destruct (model_like inv o o X B (D2 Z) HR) as (E & _). rewrite E. clear E. unfold value. cbn [ga_weights ga_adjoint ga_orthonormal o].
  destruct (ip_ok WNone Phi Phi eq_refl I) as (G & EG & Gr & Gc & HG).
  destruct (ip_ok WNone Phi X (eq_sym HA1) I) as (Q & EQ & Qr & Qc & HQ).
  destruct (ip_ok WNone Phi B (eq_sym HB) I) as (R & ER & Rr & Rc & HR').
  rewrite EQ, ER. cbn [rbind wmat] in *. fold n r in Gr, Gc, HG, Qr, Qc, HQ, Rr, Rc, HR'.
  assert (EO : gram_of inv o = inv G).
  { unfold gram_of, o. cbn [ga_symmetric ga_weights ga_basis]. unfold symm_inner_product_array. rewrite EG. reflexivity. }
  fold o. rewrite EO. exists G. split; [auto|]. split; [auto|]. split; [rewrite HG; apply wip_mid|]. split.
  { intros e ->. reflexivity. }
  intros T ET (T1 & T2 & T3 & T4). rewrite ET. cbn [rbind]. unfold dot. rewrite T2, Gr, Qr, Rr, !Nat.eqb_refl. cbn [rbind ndmin2].
  rewrite Gr in T4.
  do 3 eexists. split; [reflexivity|]. cbn [nr nc ent X Z]. do 6 (split; [auto; congruence|]).
  assert (GA : galerkin n r r mid (ent Phi) (ent Phi) (mmul n (ent A) (ent Phi)) (mmul r (ent T) (ent Q))).
  { eapply galerkin_ext; [|apply (galerkin_inv n r r mid (ent Phi) (ent Phi) (mmul n (ent A) (ent Phi)) (ent G) (ent T) HG T4)].
    rewrite HQ. reflexivity. }
  assert (GB : galerkin n r (nc B) mid (ent Phi) (ent Phi) (ent B) (mmul r (ent T) (ent R))).
  { eapply galerkin_ext; [|apply (galerkin_inv n r (nc B) mid (ent Phi) (ent Phi) (ent B) (ent G) (ent T) HG T4)].
    rewrite HR'. reflexivity. }
  split; [exact GA|]. split; [exact GB|]. split; [reflexivity|]. intros M N HM HN j.
  exact (C32_response n r (nc B) (nr C) mid (ent Phi) (ent Phi) (ent A) (ent B) (ent C) M N _ _ GA GB HM HN j).
Qed.

(** ** Examples over the Gaussian rationals *)

(** Two vectors of three entries; the correlation array has the eigenvalues 4 and 1. *)
Definition t_U : arr QI := of_rows 2 [[qi 2 0 3; qi (-2) 0 3]; [qi 1 0 3; qi 2 0 3]; [qi 2 0 3; qi 1 0 3]].
Definition t_X : arr QI := Arr 3 2 (mmul 2 (ent t_U) (mmul 2 (mdiag (at1 [qi 2 0 1; qi 1 0 1])) (ent ex_D))).
Notation t_run := (tutorial_ex1 (fun _ => Ok (ex_cw, ex_cV)) (fun _ => [0; 1]%nat) ex_sqrt t_X).
Example C54_tutorial_ex1_example :
  (exists p, t_run 1%nat (Some (qi 1 0 1000)) None = Ok p /\ nr (p_modes p) = 3%nat /\ nc (p_modes p) = 1%nat /\
     let M := ent (p_modes p) in
     error 3 2 mid (ent t_X) (mmul 1 M (mmul 3 (madj M) (ent t_X))) = q 1) /\
  t_run 3%nat (Some (qi 1 0 1000)) None = Raise IndexError.
Proof.
  assert (R : real (qi 1 0 1000)) by (apply keqb_true; vm_compute; reflexivity).
  assert (P : kle 0 (qi 1 0 1000)) by (left; vm_compute; reflexivity).
  assert (A : argsort_contract (map kabs ex_cw) [0; 1]%nat).
  { split; try reflexivity.
    - repeat constructor; simpl; lia.
    - repeat constructor; simpl; lia.
    - intros i j Hij Hj. simpl in Hj. destruct i as [|[|i]]; destruct j as [|[|j]]; try lia;
        try (left; vm_compute; reflexivity); right; reflexivity. }
  assert (S : forall e, In e ex_cw -> klt_p 0 e -> sqrt_ok ex_sqrt e)
    by (intros e [<-|[<-|[]]] _; apply sq_ok_dec; vm_compute; reflexivity).
  assert (G : forall k, exists w vals : list QI, Permutation w ex_cw /\ abs_decreasing w /\ vals = firstn (length vals) w /\
    (forall i, (i < length w)%nat -> ((i < length vals)%nat <-> above (Some (qi 1 0 1000)) None w i)) /\
    ((length vals < k)%nat -> t_run k (Some (qi 1 0 1000)) None = Raise IndexError) /\
    ((k <= length vals)%nat -> exists p, t_run k (Some (qi 1 0 1000)) None = Ok p /\ nr (p_modes p) = 3%nat /\ nc (p_modes p) = k /\
     let M := ent (p_modes p) in
     error 3 2 mid (ent t_X) (mmul k M (mmul 3 (madj M) (ent t_X))) = sum (length w - k) (fun i => at1 w (k + i)%nat))).
  { intros k. destruct (C54_tutorial_ex1 (fun _ => Ok (ex_cw, ex_cV)) (fun _ => [0; 1]%nat) ex_sqrt t_X k _ None R P I)
      as (C & C1 & C2 & C3 & H); [simpl; lia|].
    destruct (H ex_cw ex_cV eq_refl) as (w & vals & H1 & H2 & H3 & H4 & H5 & H6); auto.
    - split; rewrite ?C1; auto; try reflexivity.
      + apply meqb_true. vm_compute. reflexivity.
      + rewrite C3. apply meqb_true. vm_compute. reflexivity.
      + repeat constructor; apply keqb_true; vm_compute; reflexivity.
    - exists w, vals. do 5 (split; [assumption|]). intros Hk. destruct (H6 Hk) as (p & E & _ & E1 & E2 & _ & E3 & _).
      exists p. auto. }
  assert (W : forall w : list QI, Permutation w ex_cw -> abs_decreasing w -> w = [q 4; q 1]).
  { intros w H1 H2. apply Permutation_sym, Permutation_length_2_inv in H1 as [->| ->]; [|reflexivity].
    specialize (H2 0%nat 1%nat). exfalso. apply (lt_not_le (F := QI) (kabs (qi 1 0 1)) (kabs (qi 4 0 1))).
    - apply keqb_true; vm_compute; reflexivity.
    - apply keqb_true; vm_compute; reflexivity.
    - vm_compute; reflexivity.
    - apply H2; simpl; lia. }
  split.
  - destruct (G 1%nat) as (w & vals & H1 & H2 & H3 & H4 & _ & H6). rewrite (W w H1 H2) in *.
    destruct H6 as (p & E & E1 & E2 & E3).
    { apply H4; [simpl; lia|]. split; [vm_compute; reflexivity|exact I]. }
    exists p. do 3 (split; [assumption|]). cbv zeta in *. rewrite E3. apply keqb_true. vm_compute. reflexivity.
  - destruct (G 3%nat) as (w & vals & H1 & H2 & H3 & H4 & H5 & _). apply H5.
    rewrite (W w H1 H2) in H3. apply (f_equal (@length _)) in H3. rewrite firstn_length in H3. cbn [length] in H3. lia.
Qed.

(** The operator and basis of C32_example with an input in the subspace. *)
Definition t_B : arr QI := of_rows 1 [[qi 1 1 1]; [q 2]; [q 0]].
Definition t_C : arr QI := of_rows 3 [[q 1; q 2; qi 0 3 1]].
Example C54_rom_ex1_example : exists Ar Br Cr, rom_ex1 g_inv (Arr 3 3 g_A) t_B t_C g_Phi = Ok (Ar, Br, Cr) /\
  meq 2 2 (ent Ar) g_M /\
  forall j, meq 1 1 (mmul 3 (ent t_C) (mmul 3 (mpow 3 g_A j) (ent t_B))) (mmul 2 (ent Cr) (mmul 2 (mpow 2 (ent Ar) j) (ent Br))).
Proof.
  destruct (C54_rom_ex1 g_inv (Arr 3 3 g_A) t_B t_C g_Phi eq_refl eq_refl eq_refl eq_refl) as (G & G1 & G2 & G3 & _ & H).
  assert (E : forall i j, (i < 2)%nat -> (j < 2)%nat -> ent G i j = mmul 3 (madj (ent g_Phi)) (ent g_Phi) i j)
    by (intros; apply (meq_at _ _ _ _ G3); auto).
  assert (ET : exists T, g_inv G = Ok T /\ inv_contract G T).
  { unfold g_inv. rewrite !E by lia.
    match goal with |- context [keqb ?d 0] => replace (keqb d 0) with false by (vm_compute; reflexivity) end.
    eexists. split; [reflexivity|]. split; [auto|]. split; [auto|]. split; [congruence|].
    rewrite G1. change (nc g_Phi) with 2%nat. change (nc g_Phi) with 2%nat in G3. rewrite G3.
    apply meqb_true. vm_compute. reflexivity. }
  destruct ET as (T & ET & HT). destruct (H T ET HT) as (Ar & Br & Cr & E1 & _ & _ & _ & _ & _ & _ & HA & HB & _ & HR).
  exists Ar, Br, Cr. split; [exact E1|]. split.
  - apply (C32_exact 3 2 2 _ _ _ _ _ g_M HA). apply meqb_true. vm_compute. reflexivity.
  - apply (HR g_M (fun _ _ => q 1)); apply meqb_true; vm_compute; reflexivity.
Qed.

Print Assumptions C54_tutorial_ex1.
Print Assumptions C54_rom_ex1.
