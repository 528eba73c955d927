(** Property C46, continued: mode_indices that are None or an integer. *)
From stdpp Require Import gmap list.
From Coq Require Import ZArith Lia.
From Verif Require Import Prelude Field FieldInst Matrix NdArray DecompModel DecompProofs DecompProps VSArraysModel VSArraysProofs
  PodModel PodProofs PodProps BpodModel DmdModel DmdProofs DmdCore TlsModel Spmd LinCombModel InnerProdProps
  HandlesModel HandlesProofs HandlesSpace HandlesExamples PodHandlesModel BpodHandlesModel DmdHandlesModel DmdHandlesProofs
  TlsExamples DmdExamples PodHandlesProps ModesProps.
Open Scope nat_scope.

(** [0, 1, ..., n - 1]. *)
Definition upto (n : nat) : list Z := map Z.of_nat (seq 0 n).
(** The two programs do the same from every store, on any processes. *)
Definition same_runs {F : sfield} {V A} (S : space F V) (h h' : hprog F A) : Prop :=
  forall P tag_ub eager st Q, runs S P tag_ub eager st h Q <-> runs S P tag_ub eager st h' Q.

Section Proofs.
Context {F : sfield} {V : Type} (S : space F V).

Lemma res_map_all {A B} (f : A -> res B) (g : A -> B) l : (forall a, a ∈ l -> f a = Ok (g a)) -> res_map f l = Ok (map g l).
Proof.
  induction l as [|a l IH]; intros H; [reflexivity|]. cbn [res_map]. rewrite (H a) by left. cbn [rbind].
  rewrite IH by (intros b Hb; apply H; right; exact Hb). reflexivity.
Qed.
Lemma wrap_upto n : wrap_all n (upto n) = Ok (seq 0 n).
Proof.
  unfold upto. assert (E : forall a m, a + m <= n -> wrap_all n (map Z.of_nat (seq a m)) = Ok (seq a m)); [|apply E; lia].
  intros a m. revert a. induction m as [|m IH]; intros a H; simpl; auto.
  unfold wrap_index. rewrite (proj2 (Z.leb_le 0 (Z.of_nat a))) by lia.
  rewrite (proj2 (Z.ltb_lt (Z.of_nat a) (Z.of_nat n))) by lia. simpl.
  rewrite IH by lia. rewrite Nat2Z.id. reflexivity.
Qed.
Lemma take_all (C : arr F) : take_cols (nr C, nc C, to_lists C) (Cols (upto (nc C))) = Ok (nr C, nc C, to_lists C).
Proof.
  unfold take_cols, upto.
  assert (E : res_map (norm_index (nc C)) (map Z.of_nat (seq 0 (nc C))) = Ok (seq 0 (nc C))).
  { rewrite (res_map_all _ Z.to_nat).
    - rewrite map_map. f_equal. rewrite (map_ext _ id) by (intros a; unfold id; lia). apply map_id.
    - intros z Hz. apply elem_of_list_fmap in Hz. destruct Hz as (k & -> & Hk). apply elem_of_seq in Hk.
      unfold norm_index. repeat case_bool_decide; repeat match goal with |- context [(?a <? ?b)%Z] => destruct (Z.ltb_spec a b)
        | |- context [(?a <=? ?b)%Z] => destruct (Z.leb_spec a b) end; try lia; try reflexivity. }
  rewrite E. cbn [rbind]. rewrite seq_length.
  assert (E2 : res_map (fun row => res_map (py_nth row) (seq 0 (nc C))) (to_lists C) = Ok (map id (to_lists C))).
  { apply res_map_all. intros row Hr. unfold to_lists in Hr. apply elem_of_list_fmap in Hr. destruct Hr as (i & -> & _).
    rewrite (res_map_all _ (fun j => NdArray.ent C i j)); [reflexivity|].
    intros j Hj. apply elem_of_seq in Hj. unfold py_nth. rewrite nth_error_map, nth_error_nth' with (d := 0) by (rewrite seq_length; lia).
    rewrite seq_nth by lia. reflexivity. }
  rewrite E2, map_id. reflexivity.
Qed.
Lemma lin_all nb ns (C : arr F) : lin_coeffs nb ns (Arr2 (nr C) (nc C) (to_lists C)) None
  = lin_coeffs nb ns (Arr2 (nr C) (nc C) (to_lists C)) (Some (Cols (upto (nc C)))).
Proof.
  unfold lin_coeffs. replace (if _ =? 1 then _ else _) with (nr C, nc C, to_lists C) by (destruct (_ =? 1); reflexivity).
  rewrite take_all. reflexivity.
Qed.

Lemma same_exec {A} (h h' : hprog F A) :
  (forall P tag_ub O rank, exec (O := O) P tag_ub S rank h = exec P tag_ub S rank h') -> same_runs S h h'.
Proof.
  intros H P tag_ub eager st Q. unfold runs.
  replace (launch P (fun r => exec P tag_ub S r h) st) with (launch P (fun r => exec P tag_ub S r h') st); [reflexivity|].
  unfold launch. f_equal. apply list_fmap_ext. intros i r _. rewrite H. reflexivity.
Qed.
Lemma same_refl {A} (h : hprog F A) : same_runs S h h.
Proof. intros P tag_ub eager st Q. reflexivity. Qed.
Lemma same_lin {A} sums basis (C : arr F) idx idx' (k : hprog F A) :
  lin_coeffs (length basis) (length sums) (Arr2 (nr C) (nc C) (to_lists C)) idx
  = lin_coeffs (length basis) (length sums) (Arr2 (nr C) (nc C) (to_lists C)) idx' ->
  same_runs S (HLin sums basis C idx k) (HLin sums basis C idx' k).
Proof.
  intros E. apply same_exec. intros P tag_ub O rank. cbn [exec]. unfold lin_combine. rewrite E. reflexivity.
Qed.

(** Two index arguments that give the same columns of an array with [n] columns. *)
Definition same_idx (n : nat) (idx idx' : option col_index) : Prop := forall nb ns (C : arr F), nc C = n ->
  lin_coeffs nb ns (Arr2 (nr C) (nc C) (to_lists C)) idx = lin_coeffs nb ns (Arr2 (nr C) (nc C) (to_lists C)) idx'.
Definition same_modes (idx idx' : nat -> option col_index) : Prop :=
  (forall sqrt (o : pod_obj F) E modes arg, ph_eigvals o = Some E ->
     same_runs S (POD_compute_modes sqrt o (idx (length E)) modes arg) (POD_compute_modes sqrt o (idx' (length E)) modes arg)) /\
  (forall sqrt (o : bpod_obj F) E modes arg, bh_sing_vals o = Some E ->
     same_runs S (BPOD_direct_modes sqrt o (idx (length E)) modes arg) (BPOD_direct_modes sqrt o (idx' (length E)) modes arg) /\
     same_runs S (BPOD_adjoint_modes sqrt o (idx (length E)) modes arg) (BPOD_adjoint_modes sqrt o (idx' (length E)) modes arg)) /\
  (forall tls sqrt (o : dmd_obj F) R modes arg, dh_R o = Some R ->
     same_runs S (DMD_proj_modes tls sqrt o (idx (nc R)) modes arg) (DMD_proj_modes tls sqrt o (idx' (nc R)) modes arg)) /\
  (forall tls sqrt (o : dmd_obj F) L modes arg, dh_L o = Some L ->
     same_runs S (DMD_adjoint_modes tls sqrt o (idx (nc L)) modes arg) (DMD_adjoint_modes tls sqrt o (idx' (nc L)) modes arg)) /\
  (forall tls sqrt (o : dmd_obj F) w modes arg, dh_eigvals o = Some w ->
     same_runs S (DMD_exact_modes tls sqrt o (idx (length w)) modes arg) (DMD_exact_modes tls sqrt o (idx' (length w)) modes arg)).

Lemma dot_nc (A B C : arr F) : dot A B = Ok C -> nc C = nc B.
Proof. unfold dot. destruct (_ =? _); intros [= <-]. reflexivity. Qed.
Lemma diag_nc (l : list F) : nc (diag l) = length l.
Proof. reflexivity. Qed.
Lemma onto_nc (A B C : arr F) : onto A B = Ok C -> nc C = nc B.
Proof.
  unfold onto. destruct (dot (conj_T A) B) as [X|] eqn:E; cbn [rbind]; [|discriminate]. intros H.
  rewrite (dot_nc _ _ _ H). exact (dot_nc _ _ _ E).
Qed.
Lemma exact_nc tls sqrt (o : dmd_obj F) w : dh_eigvals o = Some w ->
  (exists e, build_exact tls sqrt o = HFail e) \/ exists B, build_exact tls sqrt o = HRet B /\ nc B = length w.
Proof.
  intros Hw. unfold build_exact. rewrite Hw.
  destruct tls; [destruct (dh_svecs o) as [Vs|]; cbn [need hbind]; [|eauto]|]; cbn [hbind];
    (destruct (dh_cvecs o) as [U|]; cbn [need hbind]; [|eauto]);
    (destruct (dh_cvals o) as [E|]; cbn [need hbind]; [|eauto]);
    (destruct (dh_R o) as [R|]; cbn [need hbind]; [|eauto]).
  - destruct (dot U (diag _)) as [VD|] eqn:E1; cbn [rbind hlift]; [|eauto].
    destruct (dot R (diag _)) as [Rw|] eqn:E2; cbn [rbind hlift]; [|eauto].
    destruct (dot VD Rw) as [VDRw|] eqn:E3; cbn [rbind hlift]; [|eauto].
    destruct (onto Vs VDRw) as [B|] eqn:E4; cbn [hlift]; [|eauto]. right. exists B. split; [reflexivity|].
    rewrite (onto_nc _ _ _ E4), (dot_nc _ _ _ E3), (dot_nc _ _ _ E2), diag_nc. apply map_length.
  - destruct (dot R (diag _)) as [Rw|] eqn:E1; cbn [rbind hlift]; [|eauto].
    destruct (dot (diag _) Rw) as [DRw|] eqn:E2; cbn [rbind hlift]; [|eauto].
    destruct (dot U DRw) as [B|] eqn:E4; cbn [hlift]; [|eauto]. right. exists B. split; [reflexivity|].
    rewrite (dot_nc _ _ _ E4), (dot_nc _ _ _ E2), (dot_nc _ _ _ E1), diag_nc. apply map_length.
Qed.
Lemma same_ok idx idx' : (forall n, same_idx n (idx n) (idx' n)) -> same_modes idx idx'.
Proof.
  intros H. unfold same_modes.
  assert (BC : forall tls sqrt (o : dmd_obj F) B modes,
    same_runs S (DMD_modes_of tls sqrt o (Some B) (idx (nc B)) modes) (DMD_modes_of tls sqrt o (Some B) (idx' (nc B)) modes)).
  { intros tls sqrt o B modes. unfold DMD_modes_of, build_coeffs.
    destruct (if tls then need AttributeError (dh_svecs o) else HRet (eye 0)) as [Vs|e|?|?|?|?] eqn:EV;
      try (destruct tls; [destruct (dh_svecs o)|]; discriminate); cbn [hbind]; [|apply same_refl].
    destruct (dh_cvecs o) as [U|]; cbn [need hbind]; [|apply same_refl].
    destruct (dh_cvals o) as [E|]; cbn [need hbind]; [|apply same_refl].
    destruct (rbind _ _) as [X|] eqn:EX; cbn [hlift hbind]; [|apply same_refl].
    assert (NX : nc X = nc B).
    { destruct (dot (diag _) B) as [DB|] eqn:E1; cbn [rbind] in EX; [|discriminate].
      destruct (dot U DB) as [Y|] eqn:E2; cbn [rbind] in EX; [|discriminate].
      rewrite <- (dot_nc _ _ _ E1), <- (dot_nc _ _ _ E2). destruct tls; [exact (onto_nc _ _ _ EX)|injection EX as <-; reflexivity]. }
    destruct (dh_vecs o) as [v|]; cbn [need hbind]; [|apply same_refl].
    destruct (_ =? _); [|destruct (_ =? _)]; [| |apply same_refl];
      unfold combine; cbn [hbind]; apply same_lin, H, NX. }
  split; [|split; [|split; [|split]]].
  - intros sqrt o E modes arg HE. unfold POD_compute_modes.
    set (o' := match arg with Some _ => _ | None => _ end).
    replace (ph_eigvals o') with (Some E) by (subst o'; destruct arg; auto). cbn [need hbind].
    destruct (ph_eigvecs o') as [U|]; cbn [need hbind]; [|apply same_refl].
    destruct (dot U _) as [B|] eqn:EB; cbn [hlift hbind]; [|apply same_refl].
    assert (NB : nc B = length E) by (rewrite (dot_nc _ _ _ EB), diag_nc; apply map_length).
    destruct (ph_vecs o') as [v|]; cbn [hbind].
    + unfold combine. cbn [hbind]. apply same_lin, H, NB.
    + rewrite (H (length E) 1 (length modes) B NB). apply same_refl.
  - intros sqrt o E modes arg HE. split; [unfold BPOD_direct_modes|unfold BPOD_adjoint_modes];
      set (o' := match arg with Some _ => _ | None => _ end);
      (replace (bh_sing_vals o') with (Some E) by (subst o'; destruct arg; auto)); cbn [need hbind].
    + destruct (bh_direct o') as [v|]; cbn [need hbind]; [|apply same_refl].
      destruct (bh_R o') as [U|]; cbn [need hbind]; [|apply same_refl].
      destruct (dot U _) as [B|] eqn:EB; cbn [hlift hbind]; [|apply same_refl].
      unfold combine. cbn [hbind]. apply same_lin, H. rewrite (dot_nc _ _ _ EB), diag_nc. apply map_length.
    + destruct (bh_adjoint o') as [v|]; cbn [need hbind]; [|apply same_refl].
      destruct (bh_L o') as [U|]; cbn [need hbind]; [|apply same_refl].
      destruct (dot U _) as [B|] eqn:EB; cbn [hlift hbind]; [|apply same_refl].
      unfold combine. cbn [hbind]. apply same_lin, H. rewrite (dot_nc _ _ _ EB), diag_nc. apply map_length.
  - intros tls sqrt o R modes arg HR. unfold DMD_proj_modes. set (o' := match arg with Some _ => _ | None => _ end).
    replace (dh_R o') with (Some R) by (subst o'; destruct arg; auto). apply BC.
  - intros tls sqrt o L modes arg HL. unfold DMD_adjoint_modes. set (o' := match arg with Some _ => _ | None => _ end).
    replace (dh_L o') with (Some L) by (subst o'; destruct arg; auto). apply BC.
  - intros tls sqrt o w modes arg Hw. unfold DMD_exact_modes. set (o' := match arg with Some _ => _ | None => _ end).
    assert (Hw' : dh_eigvals o' = Some w) by (subst o'; destruct arg; auto).
    destruct (exact_nc tls sqrt o' w Hw') as [[e ->]|(B & -> & NB)]; cbn [hbind]; [apply same_refl|].
    destruct (dh_adv o') as [a|]; [|destruct (dh_vecs o') as [v|]; [destruct (_ =? _)|]]; try apply same_refl;
      unfold combine; cbn [hbind]; apply same_lin, H, NB.
Qed.

(** No indices are all of them. *)
Theorem C46_all : same_modes (fun _ => None) (fun n => Some (Cols (upto n))).
Proof. apply same_ok. intros n nb ns C <-. apply lin_all. Qed.
(** An integer is the list of it. *)
Theorem C46_int i : same_modes (fun _ => Some (OneCol i)) (fun _ => Some (Cols [i])).
Proof. apply same_ok. intros n nb ns C _. reflexivity. Qed.

(** POD: one mode for each eigenvalue, and ValueError without any output if there is
    another number of handles. *)
Theorem C46_all_pod (HS : ip_space S) limit P tag_ub eager sqrt (o : pod_obj F) arg basis bv st (E : list F) (U : arr F) modes :
  set_up limit P tag_ub S ->
  ph_eigvals o = Some E -> ph_eigvecs o = Some U -> nc U = length E ->
  given arg (ph_vecs o) = Some basis -> holds st basis bv -> basis <> [] -> nr U = length basis ->
  let o' := PodObj (Some E) (Some U) (Some basis) (ph_corr o) (ph_coeffs o) in
  (length modes = length E -> NoDup modes -> (forall h, h ∈ basis -> h ∉ modes) ->
   runs S P tag_ub eager st (POD_compute_modes sqrt o None modes arg) (fun st' r =>
     r = Ok o' /\ unchanged_but st st' modes /\ exists ms, holds st' modes ms /\ length ms = length E /\
     forall j d, j < length E ->
       combination S bv (fun i => kmul F (NdArray.ent U i j) (kdiv F (k1 F) (sqrt (at1 E j)))) (nth j ms d))) /\
  (length modes <> length E ->
   runs S P tag_ub eager st (POD_compute_modes sqrt o None modes arg) (fun st' r => r = Raise ValueError /\ st' = st)).
Proof.
  intros Hup OE OU Uc Hg Hb Nb Ur o'.
  assert (W : wrap_all (length E) (upto (length E)) = Ok (seq 0 (length E))).
  { apply wrap_upto. }
  split.
  - intros Lm Hnd Hdis.
    apply (proj1 C46_all _ o E modes arg OE).
    eapply runs_mono; [apply (C46_pod S HS limit P tag_ub eager Hup sqrt o arg basis bv st E U); auto|].
    + split; [|split; auto]. unfold upto. rewrite map_length, seq_length. exact Lm.
    + intros st' r. unfold modes_made. rewrite W. rewrite seq_length. intros (-> & Hu & ms & H1 & H2 & H3).
      split; [reflexivity|]. split; [exact Hu|]. exists ms. do 2 (split; [auto|]). intros j d Hj.
      specialize (H3 j d Hj). rewrite seq_nth in H3 by exact Hj. exact H3.
  - intros Lm. apply (ok_runs S limit); auto.
    destruct (scaled_cols sqrt U E _ Ur Uc) as (B & EB & B1 & B2 & B3).
    unfold POD_compute_modes.
    destruct arg as [a|]; simpl in Hg; [injection Hg as ->|]; cbn [ph_eigvals ph_eigvecs ph_vecs]; rewrite OE, OU, ?Hg; cbn [need hbind];
      rewrite EB; cbn [hlift hbind]; unfold combine; cbn [hbind ok]; unfold lin_coeffs;
      replace (if _ =? 1 then _ else _) with (nr B, nc B, to_lists B) by (destruct (_ =? 1); reflexivity); cbn [rbind fst snd];
      rewrite B1, Nat.eqb_refl, B2, (proj2 (Nat.eqb_neq _ _) Lm); cbn [negb]; auto.
Qed.
End Proofs.

(** All modes of the objects of ModesProps.v, and the last one. *)
Example C46_all_example :
  same_runs podh_space (POD_compute_modes ex_sqrt (PodObj (Some ex_cw) (Some ex_cV) (Some [1; 2]) None None) None [10; 11] None)
    (POD_compute_modes ex_sqrt (PodObj (Some ex_cw) (Some ex_cV) (Some [1; 2]) None None) (Some (Cols [0; 1]%Z)) [10; 11] None) /\
  same_runs podh_space (DMD_exact_modes false ex_sqrt md_dmd None [10; 11] (Some [3; 4]))
    (DMD_exact_modes false ex_sqrt md_dmd (Some (Cols [0; 1]%Z)) [10; 11] (Some [3; 4])).
Proof.
  destruct (C46_all podh_space) as (H1 & _ & _ & _ & H2). split.
  - exact (H1 ex_sqrt (PodObj (Some ex_cw) (Some ex_cV) (Some [1; 2]) None None) ex_cw [10; 11] None eq_refl).
  - exact (H2 false ex_sqrt md_dmd ex_lw [10; 11] (Some [3; 4]) eq_refl).
Qed.
Example C46_int_example :
  same_runs podh_space (DMD_proj_modes false ex_sqrt md_dmd (Some (OneCol (-1)%Z)) [10] None)
    (DMD_proj_modes false ex_sqrt md_dmd (Some (Cols [-1]%Z)) [10] None).
Proof.
  destruct (C46_int podh_space (-1)%Z) as (_ & _ & H & _). exact (H false ex_sqrt md_dmd ex_lR [10] None eq_refl).
Qed.
Example C46_all_pod_example eager :
  let o := PodObj (Some ex_cw) (Some ex_cV) (Some [1; 2]) None None in
  runs podh_space 2 10 eager md_store (POD_compute_modes ex_sqrt o None [10; 11] (Some [3; 4]))
    (fun st' r => exists o' ms, r = Ok o' /\ ph_vecs o' = Some [3; 4] /\ holds st' [10; 11] ms) /\
  runs podh_space 2 10 eager md_store (POD_compute_modes ex_sqrt o None [10] None)
    (fun st' r => r = Raise ValueError /\ st' = md_store).
Proof.
  assert (HW : hermitian 2 podh_W) by (apply meqb_true; vm_compute; reflexivity).
  intros o. split.
  - destruct (C46_all_pod podh_space (wspace_ip 2 podh_W 6 3 1 HW) (Some 1%Z) 2 10 eager ex_sqrt o
      (Some [3; 4]) [3; 4] [md_v2; md_v1] md_store ex_cw ex_cV [10; 11]
      ltac:(split; [split; [simpl; lia|]; split; [simpl; lia|reflexivity]|simpl; lia])) as [H _];
      try reflexivity; try discriminate; [repeat constructor|].
    eapply runs_mono; [apply H; [reflexivity| |]; apply (md_outputs [3; 4]); repeat constructor; lia|].
    intros st' r (-> & _ & ms & Hm & _). exists (PodObj (Some ex_cw) (Some ex_cV) (Some [3; 4]) None None), ms.
    do 2 (split; [reflexivity|]). exact Hm.
  - apply (C46_all_pod podh_space (wspace_ip 2 podh_W 6 3 1 HW) (Some 1%Z) 2 10 eager ex_sqrt o
      None [1; 2] [md_v1; md_v2] md_store ex_cw ex_cV [10]
      ltac:(split; [split; [simpl; lia|]; split; [simpl; lia|reflexivity]|simpl; lia])); try reflexivity; try discriminate.
    repeat constructor.
Qed.

Print Assumptions C46_all.
Print Assumptions C46_int.
Print Assumptions C46_all_pod.
