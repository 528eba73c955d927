(** Property C46: modes are computed from whatever decomposition the object holds and from
    the vectors given to the call, or else those the object remembers; the object
    remembers the vectors given. *)
From stdpp Require Import gmap list.
From Coq Require Import ZArith Lia Field Ring Setoid Morphisms.
From Verif Require Import Prelude Field FieldInst Matrix NdArray DecompModel DecompProofs DecompProps
  VSArraysModel VSArraysProofs PodModel PodProofs PodProps BpodModel DmdModel DmdProofs DmdCore Spmd LinCombModel InnerProdProps
  HandlesModel HandlesProofs HandlesSpace HandlesExamples PodHandlesModel BpodHandlesModel DmdHandlesModel DmdHandlesProofs
  TlsExamples DmdExamples PodHandlesProps.
Open Scope nat_scope.
Open Scope k_scope.

(** The vectors a call uses: the argument, or else the attribute. *)
Definition given {A} (arg attribute : option A) : option A :=
  match arg with Some a => Some a | None => attribute end.

(** One combination of the vectors [bv] for each index in [idx], an index below [n] or
    negative from the end; column [j] of [C] has the coefficients of mode [j].  A bad
    index is reported before anything is written. *)
Definition modes_made {F : sfield} {V A} (S : space F V) (bv : list V) (C : mat F) (n : nat) (idx : list Z)
    (modes : list loc) (o' : A) (st st' : gmap loc V) (r : res A) : Prop :=
  match wrap_all n idx with
  | Raise e => r = Raise e /\ st' = st
  | Ok js => r = Ok o' /\ unchanged_but st st' modes /\
      exists ms, holds st' modes ms /\ length ms = length js /\
        forall a d, a < length js -> combination S bv (fun i => C i (nth a js O)) (nth a ms d)
  end.

(** The handles to write to are distinct, as many as indices, and none is read. *)
Definition outputs (basis : list loc) (idx : list Z) (modes : list loc) : Prop :=
  length modes = length idx /\ NoDup modes /\ forall h, h ∈ basis -> h ∉ modes.

Section Modes.
Context {F : sfield} {V : Type} (S : space F V) (HS : ip_space S).
Context (limit : option Z) (P tag_ub : nat) (eager : InnerProdModel.msg V F -> bool).
Context (Hup : set_up limit P tag_ub S).
Add Field Ff_modes : (k_field F).

Lemma runs_combine {A} (h : hprog F A) (o' : A) st basis bv (B : arr F) (C : mat F) n idx modes :
  h = hbind (combine modes basis B (Some (Cols idx))) (fun _ => HRet o') ->
  nr B = length basis -> nc B = n -> meq (length basis) n (NdArray.ent B) C ->
  holds st basis bv -> basis <> [] -> outputs basis idx modes ->
  runs S P tag_ub eager st h (modes_made S bv C n idx modes o' st).
Proof.
  intros -> Br Bc BC Hb Nb (L & Hnd & Hdis).
  apply (ok_runs S limit); auto.
  apply (ok_combine S modes basis B idx bv); auto.
  { intros h Hh Hin. exact (Hdis h Hin Hh). }
  rewrite Bc. unfold modes_made. destruct (wrap_all n idx) as [js|e]; [|split; reflexivity].
  intros st' ms Ljs Hjs Hms Lms Hco Hun. cbn [ok]. split; [reflexivity|]. split; [exact Hun|].
  exists ms. split; [auto|]. split; [congruence|]. intros a d Ha.
  eapply combination_ext; [|apply (Hco a d); congruence]. intros i Hi. unfold mcols.
  apply (meq_at _ _ _ _ BC); [rewrite (Forall2_length _ _ _ Hb); auto|]. apply nth_js; auto.
Qed.

Lemma scaled_cols sqrt (U : arr F) (E : list F) m : nr U = m -> nc U = length E ->
  exists B, dot U (diag (map (inv_sqrt sqrt) E)) = Ok B /\ nr B = m /\ nc B = length E /\
    meq m (length E) (NdArray.ent B) (fun i j => NdArray.ent U i j * (1 / sqrt (at1 E j))).
Proof.
  intros Ur Uc. eexists. split; [apply (dot_mul _ _ m (length E) (length E)); auto; unfold diag; cbn [nr nc]; apply map_length|].
  do 2 (split; [reflexivity|]). cbn [NdArray.ent diag]. split. intros i j Hi Hj.
  rewrite (meq_at _ _ _ _ (mmul_diag_r m (length E) (at1 (map (inv_sqrt sqrt) E)) (NdArray.ent U)) i j Hi Hj).
  rewrite at1_map by auto. reflexivity.
Qed.

(** PODHandles.compute_modes. *)
Theorem C46_pod sqrt (o : pod_obj F) arg basis bv st (E : list F) (U : arr F) idx modes :
  ph_eigvals o = Some E -> ph_eigvecs o = Some U -> nc U = length E ->
  given arg (ph_vecs o) = Some basis -> holds st basis bv -> basis <> [] -> nr U = length basis ->
  outputs basis idx modes ->
  runs S P tag_ub eager st (POD_compute_modes sqrt o (Some (Cols idx)) modes arg)
    (modes_made S bv (fun i j => NdArray.ent U i j * (1 / sqrt (at1 E j))) (length E) idx modes
       (PodObj (Some E) (Some U) (Some basis) (ph_corr o) (ph_coeffs o)) st).
Proof.
  intros OE OU Uc Hg Hb Nb Ur Hout. destruct (scaled_cols sqrt U E _ Ur Uc) as (B & EB & B1 & B2 & B3).
  eapply runs_combine; eauto. unfold POD_compute_modes.
  destruct arg as [a|]; simpl in Hg; [injection Hg as ->|]; cbn [ph_eigvals ph_eigvecs ph_vecs];
    rewrite OE, OU, ?Hg; cbn [need hbind]; rewrite EB; cbn [hlift hbind need]; [reflexivity|].
  rewrite <- OE, <- OU, <- Hg. destruct o; reflexivity.
Qed.

(** BPODHandles.compute_direct_modes and compute_adjoint_modes. *)
Theorem C46_bpod_direct sqrt (o : bpod_obj F) arg basis bv st (E : list F) (R : arr F) idx modes :
  bh_sing_vals o = Some E -> bh_R o = Some R -> nc R = length E ->
  given arg (bh_direct o) = Some basis -> holds st basis bv -> basis <> [] -> nr R = length basis ->
  outputs basis idx modes ->
  runs S P tag_ub eager st (BPOD_direct_modes sqrt o (Some (Cols idx)) modes arg)
    (modes_made S bv (fun i j => NdArray.ent R i j * (1 / sqrt (at1 E j))) (length E) idx modes
       (BpodObj (bh_L o) (Some R) (Some E) (bh_Hankel o) (Some basis) (bh_adjoint o)
          (bh_direct_coeffs o) (bh_adjoint_coeffs o)) st).
Proof.
  intros OE OU Uc Hg Hb Nb Ur Hout. destruct (scaled_cols sqrt R E _ Ur Uc) as (B & EB & B1 & B2 & B3).
  eapply runs_combine; eauto. unfold BPOD_direct_modes.
  destruct arg as [a|]; simpl in Hg; [injection Hg as ->|]; cbn [bh_sing_vals bh_R bh_direct bh_L bh_adjoint bh_Hankel bh_direct_coeffs bh_adjoint_coeffs];
    rewrite OE, OU, ?Hg; cbn [need hbind]; rewrite EB; cbn [hlift hbind need]; [reflexivity|].
  rewrite <- OE, <- OU, <- Hg. destruct o; reflexivity.
Qed.
Theorem C46_bpod_adjoint sqrt (o : bpod_obj F) arg basis bv st (E : list F) (L : arr F) idx modes :
  bh_sing_vals o = Some E -> bh_L o = Some L -> nc L = length E ->
  given arg (bh_adjoint o) = Some basis -> holds st basis bv -> basis <> [] -> nr L = length basis ->
  outputs basis idx modes ->
  runs S P tag_ub eager st (BPOD_adjoint_modes sqrt o (Some (Cols idx)) modes arg)
    (modes_made S bv (fun i j => NdArray.ent L i j * (1 / sqrt (at1 E j))) (length E) idx modes
       (BpodObj (Some L) (bh_R o) (Some E) (bh_Hankel o) (bh_direct o) (Some basis)
          (bh_direct_coeffs o) (bh_adjoint_coeffs o)) st).
Proof.
  intros OE OU Uc Hg Hb Nb Ur Hout. destruct (scaled_cols sqrt L E _ Ur Uc) as (B & EB & B1 & B2 & B3).
  eapply runs_combine; eauto. unfold BPOD_adjoint_modes.
  destruct arg as [a|]; simpl in Hg; [injection Hg as ->|]; cbn [bh_sing_vals bh_R bh_direct bh_L bh_adjoint bh_Hankel bh_direct_coeffs bh_adjoint_coeffs];
    rewrite OE, OU, ?Hg; cbn [need hbind]; rewrite EB; cbn [hlift hbind need]; [reflexivity|].
  rewrite <- OE, <- OU, <- Hg. destruct o; reflexivity.
Qed.

(** What a DMD object holds after a decomposition of [m] pairs of vectors. *)
Record dmd_has (tls : bool) (o : dmd_obj F) (m : nat) (w : list F) (R L : arr F) (E : list F) (U Vs : arr F) : Prop := {
  has_w : dh_eigvals o = Some w; has_R : dh_R o = Some R; has_L : dh_L o = Some L;
  has_E : dh_cvals o = Some E; has_U : dh_cvecs o = Some U;
  has_Vs : tls = true -> dh_svecs o = Some Vs /\ nr Vs = m;
  has_lw : length w = length E; has_Ur : nr U = m; has_Uc : nc U = length E;
  has_Rr : nr R = length E; has_Rc : nc R = length E; has_Lr : nr L = length E; has_Lc : nc L = length E
}.
(** The unadvanced vectors among [vecs]: all of them, or all but the last of a sequence. *)
Definition unadvanced (m : nat) (vecs basis : list loc) : Prop :=
  (length vecs = m + 1 /\ basis = removelast vecs \/ length vecs = m /\ basis = vecs)%nat.

Lemma build_coeffs_has tls sqrt o m w R L E U Vs B : dmd_has tls o m w R L E U Vs ->
  nr B = length E -> nc B = length E ->
  exists C, build_coeffs tls sqrt o (Some B) = HRet C /\ nr C = m /\ nc C = length E /\
    meq m (length E) (NdArray.ent C) (mode_coeffs sqrt m (projection tls Vs) E (NdArray.ent U) (NdArray.ent B)).
Proof.
  intros [] HB1 HB2. apply build_coeffs_ok; auto; intros Ht; apply has_Vs0; auto.
Qed.
Lemma set_has tls o m w R L E U Vs v a : dmd_has tls o m w R L E U Vs ->
  dmd_has tls (set_handles o v a) m w R L E U Vs.
Proof. intros []. split; auto. Qed.
Lemma set_handles_same (o : dmd_obj F) v a : dh_vecs o = v -> dh_adv o = a -> set_handles o v a = o.
Proof. intros <- <-. destruct o; reflexivity. Qed.

Lemma modes_of_combine tls sqrt o m w R L E U Vs B vecs basis idx modes : dmd_has tls o m w R L E U Vs ->
  nr B = length E -> nc B = length E -> dh_vecs o = Some vecs -> unadvanced m vecs basis ->
  exists C, DMD_modes_of tls sqrt o (Some B) (Some (Cols idx)) modes
      = hbind (combine modes basis C (Some (Cols idx))) (fun _ => HRet o) /\
    nr C = m /\ nc C = length E /\
    meq m (length E) (NdArray.ent C) (mode_coeffs sqrt m (projection tls Vs) E (NdArray.ent U) (NdArray.ent B)).
Proof.
  intros Hh B1 B2 Hv Hun. destruct (build_coeffs_has tls sqrt o m w R L E U Vs B Hh B1 B2) as (C & HC & C1 & C2 & C3).
  exists C. split; [|auto]. unfold DMD_modes_of. rewrite HC, Hv. cbn [hbind need]. rewrite C1.
  destruct Hun as [[L0 ->]|[L0 ->]]; rewrite L0, Nat.eqb_refl; [reflexivity|].
  rewrite (proj2 (Nat.eqb_neq m (m + 1))) by lia. reflexivity.
Qed.

(** compute_proj_modes and compute_adjoint_modes of DMDHandles and TLSqrDMDHandles. *)
Theorem C46_dmd_proj tls sqrt (o : dmd_obj F) m w R L E U Vs arg vecs basis bv st idx modes :
  dmd_has tls o m w R L E U Vs -> given arg (dh_vecs o) = Some vecs -> unadvanced m vecs basis ->
  holds st basis bv -> (0 < m)%nat -> outputs basis idx modes ->
  runs S P tag_ub eager st (DMD_proj_modes tls sqrt o (Some (Cols idx)) modes arg)
    (modes_made S bv (mode_coeffs sqrt m (projection tls Vs) E (NdArray.ent U) (NdArray.ent R)) (length E) idx modes
       (set_handles o (Some vecs) (dh_adv o)) st).
Proof.
  intros Hh Hg Hun Hb Hm Hout.
  assert (Lb : length basis = m).
  { destruct Hun as [[L0 ->]|[L0 ->]]; [rewrite removelast_length|]; lia. }
  destruct (modes_of_combine tls sqrt (set_handles o (Some vecs) (dh_adv o)) m w R L E U Vs R vecs basis idx modes)
    as (C & EC & C1 & C2 & C3); auto; try apply Hh; try reflexivity; [apply set_has; auto|].
  eapply (runs_combine _ _ st basis bv C); eauto.
  - unfold DMD_proj_modes. rewrite <- EC.
    destruct arg as [a|]; simpl in Hg; [injection Hg as ->|]; cbn [dh_R set_handles].
    + rewrite (has_R _ _ _ _ _ _ _ _ _ Hh). reflexivity.
    + rewrite (has_R _ _ _ _ _ _ _ _ _ Hh). rewrite set_handles_same; auto.
  - congruence.
  - rewrite Lb. exact C3.
  - intros ->. simpl in Lb. lia.
Qed.
Theorem C46_dmd_adjoint tls sqrt (o : dmd_obj F) m w R L E U Vs arg vecs basis bv st idx modes :
  dmd_has tls o m w R L E U Vs -> given arg (dh_vecs o) = Some vecs -> unadvanced m vecs basis ->
  holds st basis bv -> (0 < m)%nat -> outputs basis idx modes ->
  runs S P tag_ub eager st (DMD_adjoint_modes tls sqrt o (Some (Cols idx)) modes arg)
    (modes_made S bv (mode_coeffs sqrt m (projection tls Vs) E (NdArray.ent U) (NdArray.ent L)) (length E) idx modes
       (set_handles o (Some vecs) (dh_adv o)) st).
Proof.
  intros Hh Hg Hun Hb Hm Hout.
  assert (Lb : length basis = m).
  { destruct Hun as [[L0 ->]|[L0 ->]]; [rewrite removelast_length|]; lia. }
  destruct (modes_of_combine tls sqrt (set_handles o (Some vecs) (dh_adv o)) m w R L E U Vs L vecs basis idx modes)
    as (C & EC & C1 & C2 & C3); auto; try apply Hh; try reflexivity; [apply set_has; auto|].
  eapply (runs_combine _ _ st basis bv C); eauto.
  - unfold DMD_adjoint_modes. rewrite <- EC.
    destruct arg as [a|]; simpl in Hg; [injection Hg as ->|]; cbn [dh_L set_handles].
    + rewrite (has_L _ _ _ _ _ _ _ _ _ Hh). reflexivity.
    + rewrite (has_L _ _ _ _ _ _ _ _ _ Hh). rewrite set_handles_same; auto.
  - congruence.
  - rewrite Lb. exact C3.
  - intros ->. simpl in Lb. lia.
Qed.

(** compute_exact_modes: the advanced vectors are those given, or those remembered, or
    all but the first of the sequence remembered. *)
Definition advanced (m : nat) (adv vecs : option (list loc)) (basis : list loc) : Prop :=
  match adv with
  | Some a => basis = a
  | None => exists v, vecs = Some v /\ length v = (m + 1)%nat /\ basis = tl v
  end.
Theorem C46_dmd_exact tls sqrt (o : dmd_obj F) m w R L E U Vs arg basis bv st idx modes :
  dmd_has tls o m w R L E U Vs -> advanced m (given arg (dh_adv o)) (dh_vecs o) basis -> length basis = m ->
  holds st basis bv -> (0 < m)%nat -> outputs basis idx modes ->
  runs S P tag_ub eager st (DMD_exact_modes tls sqrt o (Some (Cols idx)) modes arg)
    (modes_made S bv (fun i j => mode_coeffs sqrt m (projection tls Vs) E (NdArray.ent U) (NdArray.ent R) i j * (1 / at1 w j))
       (length E) idx modes (set_handles o (dh_vecs o) (given arg (dh_adv o))) st).
Proof.
  intros Hh Ha Lb Hb Hm Hout. set (o' := set_handles o (dh_vecs o) (given arg (dh_adv o))).
  pose proof (set_has tls o m w R L E U Vs (dh_vecs o) (given arg (dh_adv o)) Hh) as Hh'. fold o' in Hh'.
  assert (HC : exists C, build_exact tls sqrt o' = HRet C /\ nr C = m /\ nc C = length E /\
    meq m (length E) (NdArray.ent C) (fun i j => mode_coeffs sqrt m (projection tls Vs) E (NdArray.ent U) (NdArray.ent R) i j * (1 / at1 w j))).
  { destruct Hh'. destruct (build_exact_ok tls sqrt o' m w R L E U Vs (eye m)) as (C & HC & C1 & C2 & C3); auto;
      try (intros Ht; apply has_Vs0; auto).
    exists C. do 3 (split; [auto|]). rewrite C3. split. intros i j Hi Hj.
    rewrite (meq_at _ _ _ _ (mmul_diag_r m (length E) _ _) i j Hi Hj). reflexivity. }
  destruct HC as (C & EC & C1 & C2 & C3).
  eapply (runs_combine _ _ st basis bv C); eauto.
  - unfold DMD_exact_modes.
    replace (match arg with Some a => set_handles o (dh_vecs o) (Some a) | None => o end) with o'
      by (unfold o'; destruct arg; simpl; [reflexivity|apply set_handles_same; auto]).
    rewrite EC. cbn [hbind]. change (dh_adv o') with (given arg (dh_adv o)). change (dh_vecs o') with (dh_vecs o).
    destruct (given arg (dh_adv o)) as [a|]; simpl in Ha.
    + rewrite Ha. reflexivity.
    + destruct Ha as (v & -> & Lv & ->). rewrite C1, Lv, Nat.eqb_refl. reflexivity.
  - congruence.
  - rewrite Lb. exact C3.
  - intros ->. simpl in Lb. lia.
Qed.

(** The modes built from the images of the vectors under a linear map are the images of
    the modes ([T'] is the adjoint of [T]), as far as inner products can tell. *)
Theorem C46_linear_image {A} (o' o'' : A) (T T' : V -> V) bv (C : mat F) n idx modes modes' st st1 st2 r1 r2 js :
  (forall u v, ip S u (T v) = ip S (T' u) v) -> wrap_all n idx = Ok js ->
  modes_made S bv C n idx modes o' st st1 r1 ->
  modes_made S (map T bv) C n idx modes' o'' st st2 r2 ->
  exists ms ms', holds st1 modes ms /\ holds st2 modes' ms' /\ length ms = length js /\ length ms' = length js /\
    forall a d u, a < length js -> ip S u (nth a ms' d) = ip S u (T (nth a ms d)).
Proof.
  unfold modes_made. intros HT -> (_ & _ & ms & H1 & L1 & C1) (_ & _ & ms' & H2 & L2 & C2).
  exists ms, ms'. do 4 (split; [auto|]). intros a d u Ha.
  rewrite (C2 a d Ha u), HT, (C1 a d Ha (T' u)), map_length. apply sum_ext. intros i Hi. f_equal.
  rewrite (nth_indep _ _ (T (nth a ms d))) by (rewrite map_length; auto). rewrite map_nth, HT. reflexivity.
Qed.
End Modes.

(** Handles 3 and 4, given to the call, replace 1 and 2. *)
Example C46_example eager :
  runs podh_space 2 10 eager (<[3%nat := fun i => NdArray.ent ex_D i 1%nat]> (<[4%nat := fun i => NdArray.ent ex_D i 0%nat]> podh_store))
    (POD_compute_modes ex_sqrt (PodObj (Some ex_cw) (Some ex_cV) (Some [1; 2]%nat) None None)
       (Some (Cols [1; -2]%Z)) [10; 11]%nat (Some [3; 4]%nat))
    (fun st' r => exists o ms, r = Ok o /\ ph_vecs o = Some [3; 4]%nat /\ holds st' [10; 11]%nat ms /\ length ms = 2%nat /\
       forall a d, a < 2 -> combination podh_space [fun i => NdArray.ent ex_D i 1%nat; fun i => NdArray.ent ex_D i 0%nat]
         (fun i => NdArray.ent ex_cV i (1 - a)%nat * (1 / ex_sqrt (at1 ex_cw (1 - a)%nat))) (nth a ms d)).
Proof.
  assert (HW : hermitian 2 podh_W) by (apply meqb_true; vm_compute; reflexivity).
  eapply runs_mono; [apply (C46_pod podh_space (wspace_ip 2 podh_W 6 3 1 HW) (Some 1%Z) 2 10 eager
    ltac:(split; [split; [simpl; lia|]; split; [simpl; lia|reflexivity]|simpl; lia]) ex_sqrt _ _ [3; 4]%nat
    [fun i => NdArray.ent ex_D i 1%nat; fun i => NdArray.ent ex_D i 0%nat] _ ex_cw ex_cV)|]; try reflexivity.
  - repeat constructor.
  - discriminate.
  - split; [reflexivity|]. split; [apply (bool_decide_unpack (NoDup [10; 11]%nat)); reflexivity|].
    intros h Hh. apply (bool_decide_unpack (h ∉ [10; 11]%nat)).
    repeat (apply elem_of_cons in Hh; destruct Hh as [->|Hh]; [reflexivity|]). inversion Hh.
  - unfold modes_made. change (wrap_all (length ex_cw) [1; -2]%Z) with (Ok [1; 0]%nat). cbv iota.
    intros st' r (-> & _ & ms & H1 & H2 & H3). eexists _, ms. do 4 (split; [auto|]).
    intros a d Ha. specialize (H3 a d Ha). destruct a as [|[|]]; [exact H3|exact H3|lia].
Qed.

(** The hypotheses of the others, met by the same vectors: BPOD with direct vectors 3, 4 and
    adjoint vectors 1, 2; DMD with the sequence 1, 2, 3, from which the first two are taken,
    and with advanced vectors 3, 4 given. *)
Definition md_store : gmap loc (nat -> QI) :=
  <[3%nat := fun i => NdArray.ent ex_D i 1%nat]> (<[4%nat := fun i => NdArray.ent ex_D i 0%nat]> podh_store).
Definition md_bpod : bpod_obj QI :=
  BpodObj (Some ex_cV) (Some ex_V) (Some ex_cw) None (Some [1; 2]%nat) (Some [1; 2]%nat) None None.
Definition md_dmd : dmd_obj QI :=
  DmdObj (Some ex_lw) (Some ex_lR) (Some ex_lL) (Some ex_E) (Some ex_V) None None None None None
    (Some [1; 2; 3]%nat) None None None.
Lemma md_outputs basis : Forall (fun h => h < 10)%nat basis -> outputs basis [1; -2]%Z [10; 11]%nat.
Proof.
  intros Hb. split; [reflexivity|]. split; [apply (bool_decide_unpack (NoDup [10; 11]%nat)); reflexivity|].
  intros h Hh Hin. rewrite Forall_forall in Hb. specialize (Hb h Hh). rewrite !elem_of_cons in Hin.
  destruct Hin as [->|[->|Hin]]; [lia|lia|inversion Hin].
Qed.
Lemma md_has : dmd_has false md_dmd 2 ex_lw ex_lR ex_lL ex_E ex_V (eye 0).
Proof. split; try reflexivity. discriminate. Qed.
Definition md_v1 (i : nat) : QI := NdArray.ent ex_D i 0%nat.
Definition md_v2 (i : nat) : QI := NdArray.ent ex_D i 1%nat.
Example C46_example_others :
  (given (Some [3; 4]%nat) (bh_direct md_bpod) = Some [3; 4]%nat /\ holds md_store [3; 4]%nat [md_v2; md_v1] /\
   nc ex_V = length ex_cw /\ nr ex_V = 2%nat /\ outputs [3; 4]%nat [1; -2]%Z [10; 11]%nat) /\
  (given None (bh_adjoint md_bpod) = Some [1; 2]%nat /\ holds md_store [1; 2]%nat [md_v1; md_v2] /\
   nc ex_cV = length ex_cw /\ nr ex_cV = 2%nat /\ outputs [1; 2]%nat [1; -2]%Z [10; 11]%nat) /\
  (dmd_has false md_dmd 2 ex_lw ex_lR ex_lL ex_E ex_V (eye 0) /\
   given None (dh_vecs md_dmd) = Some [1; 2; 3]%nat /\ unadvanced 2 [1; 2; 3]%nat [1; 2]%nat) /\
  advanced 2 (given (Some [3; 4]%nat) (dh_adv md_dmd)) (dh_vecs md_dmd) [3; 4]%nat /\
  advanced 2 (given None (dh_adv md_dmd)) (dh_vecs md_dmd) [2; 3]%nat.
Proof.
  split; [|split; [|split; [|split]]].
  - do 4 (split; [first [reflexivity|repeat constructor]|]). apply md_outputs. repeat constructor; lia.
  - do 4 (split; [first [reflexivity|repeat constructor]|]). apply md_outputs. repeat constructor; lia.
  - split; [apply md_has|]. split; [reflexivity|]. left. split; reflexivity.
  - reflexivity.
  - exists [1; 2; 3]%nat. repeat split; reflexivity.
Qed.
Example C46_dmd_example eager :
  runs podh_space 2 10 eager md_store
    (DMD_exact_modes false ex_sqrt md_dmd (Some (Cols [1; -2]%Z)) [10; 11]%nat (Some [3; 4]%nat))
    (fun st' r => exists o, r = Ok o /\ dh_vecs o = Some [1; 2; 3]%nat /\ dh_adv o = Some [3; 4]%nat).
Proof.
  assert (HW : hermitian 2 podh_W) by (apply meqb_true; vm_compute; reflexivity).
  eapply runs_mono; [apply (C46_dmd_exact podh_space (wspace_ip 2 podh_W 6 3 1 HW) (Some 1%Z) 2 10 eager
    ltac:(split; [split; [simpl; lia|]; split; [simpl; lia|reflexivity]|simpl; lia]) false ex_sqrt md_dmd 2 ex_lw ex_lR ex_lL
    ex_E ex_V (eye 0) (Some [3; 4]%nat) [3; 4]%nat
    [fun i => NdArray.ent ex_D i 1%nat; fun i => NdArray.ent ex_D i 0%nat] md_store [1; -2]%Z [10; 11]%nat)|].
  - apply md_has.
  - reflexivity.
  - reflexivity.
  - repeat constructor.
  - lia.
  - apply md_outputs. repeat constructor; lia.
  - unfold modes_made. change (wrap_all (length ex_E) [1; -2]%Z) with (Ok [1; 0]%nat). cbv iota.
    intros st' r (-> & _). eexists. repeat split; reflexivity.
Qed.
(** Multiplying vectors by i: the adjoint is multiplication by -i. *)
Example C46_linear_image_example (u v : nat -> QI) :
  ip podh_space u (fun i => sum 2 (fun j => mdiag (fun _ => qi 0 1 1) i j * v j))
  = ip podh_space (fun i => sum 2 (fun j => mdiag (fun _ => qi 0 (-1) 1) i j * u j)) v.
Proof.
  symmetry. apply (wspace_adjoint 2 podh_W 6 3 1). apply meqb_true. vm_compute. reflexivity.
Qed.

Print Assumptions C46_pod.
Print Assumptions C46_bpod_direct.
Print Assumptions C46_bpod_adjoint.
Print Assumptions C46_dmd_proj.
Print Assumptions C46_dmd_adjoint.
Print Assumptions C46_dmd_exact.
Print Assumptions C46_linear_image.
