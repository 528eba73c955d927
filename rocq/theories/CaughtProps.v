(** Property C67, when exceptions are caught: which call the attributes of a handle object
    come from, after any sequence of calls some of which raise. *)
From stdpp Require Import gmap list.
From Coq Require Import ZArith Lia.
From Verif Require Import Prelude Field FieldInst Matrix NdArray DecompModel DecompProofs DecompProps VSArraysModel VSArraysProofs
  PodModel PodProofs PodProps BpodModel HankelModel DmdModel DmdProofs DmdCore TlsModel Spmd LinCombModel InnerProdProps
  HandlesModel HandlesProofs HandlesSpace HandlesExamples PodHandlesModel BpodHandlesModel DmdHandlesModel DmdHandlesProofs
  TlsExamples DmdExamples PodHandlesProps ModesProps LeftModel LeftProps HistoryModel HistoryProps CaughtModel.
Open Scope nat_scope.

Definition is_ok {A} (r : res A) : bool := match r with Ok _ => true | Raise _ => false end.
(** What a call returned, if it did. *)
Definition got {A X} (f : A -> option X) (r : res A) : option X := match r with Ok a => f a | Raise _ => None end.

Section Proofs.
Context {F : sfield} (sqrt : F -> F).

Lemma returns_attempt {A B} (R : B -> Prop) failed (done : A -> B) (h : hprog F A) :
  (forall e, R (failed e)) -> returns (fun a => R (done a)) h -> returns R (attempt failed done h).
Proof. intros Hf. induction h; cbn [returns attempt]; auto. destruct (lin_coeffs _ _ _ _); cbn [returns]; auto. Qed.
Lemma returns_catch {A B} (R : B -> Prop) d bcast (call : res A) (k : res A -> hprog F B) :
  (forall r, returns R (k r)) -> returns R (catch_call d bcast call k).
Proof. intros H. unfold catch_call. destruct call; [|destruct d]; auto; apply returns_all; auto. Qed.
Lemma history_kept_log {O C R X} (do : O -> C -> hprog F (O * R)) (f : O -> X) (sets : C * R -> bool) :
  (forall o c, returns (fun p => sets (c, snd p) = false -> f (fst p) = f o) (do o c)) ->
  forall calls o, returns (fun p => existsb sets (snd p) = false -> f (fst p) = f o) (history do calls o []).
Proof.
  intros H calls o. apply (history_inv do (fun o' log => existsb sets log = false -> f o' = f o)); [|reflexivity].
  intros o1 log c Hi. eapply returns_mono; [|apply H]. cbn beta. intros p Hp E. cbn [existsb] in E.
  apply orb_false_iff in E. destruct E as [E1 E2]. rewrite Hp by exact E1. auto.
Qed.
Ltac walk' := repeat first [ apply returns_catch; intros ? | apply returns_all; intros ? | match goal with
  | |- returns _ (HIp _ _ _) => intros ? | |- returns _ (HSymm _ _) => intros ? | |- returns _ (HCall _ _) => intros ?
  | |- returns _ (HLin _ _ _ _ _) => cbn [returns] | |- returns _ (match ?x with _ => _ end) => destruct x
  | |- returns _ (HFail _) => exact I end ].

(** ** POD *)

Lemma pod_left d el argsort (o : pod_obj F) v atol rtol : returns (fun p =>
    ph_vecs (fst p) = Some v /\ ph_coeffs (fst p) = ph_coeffs o /\
    (is_ok (snd p) = false -> (ph_eigvals (fst p), ph_eigvecs (fst p)) = (ph_eigvals o, ph_eigvecs o)))
  (POD_decomp_left d el argsort o v atol rtol).
Proof. unfold POD_decomp_left. walk'; cbn; repeat split; discriminate. Qed.
Lemma pod_try_step d el argsort (o : pod_obj F) c : returns (fun p =>
    ph_vecs (fst p) = match pod_given c with Some v => Some v | None => ph_vecs o end /\
    ph_coeffs (fst p) = match got (fun x => x) (snd p) with Some x => Some x | None => ph_coeffs o end /\
    (pod_decomposes c && is_ok (snd p) = false -> (ph_eigvals (fst p), ph_eigvecs (fst p)) = (ph_eigvals o, ph_eigvecs o)) /\
    (pod_correlates c = false -> ph_corr (fst p) = ph_corr o)) (pod_try sqrt d el argsort o c).
Proof.
  destruct c as [v atol rtol|atol rtol|i m v| | | |]; cbn [pod_try pod_given pod_decomposes pod_correlates andb].
  - eapply returns_bind; [apply pod_left|]. intros [o' r] (H1 & H2 & H3). cbn in *. destruct r; cbn; repeat split; auto; discriminate.
  - apply returns_catch. intros [ev|e]; cbn; repeat split; discriminate.
  - apply returns_attempt.
    + intros e. destruct v; cbn; repeat split.
    + eapply returns_mono; [|apply pod_modes_obj]. cbn beta. intros o' ->. destruct v; cbn; repeat split.
  - apply returns_attempt; [intros e; cbn; repeat split|].
    unfold POD_proj_coeffs. walk'; cbn; repeat split.
  - cbn. repeat split; discriminate.
  - cbn. repeat split; discriminate.
  - cbn. repeat split; discriminate.
Qed.
(** Vectors of calls that raised count; the decomposition is that of the last call that
    did not raise. *)
Theorem C67_pod_caught d el argsort calls (o : pod_obj F) :
  returns (fun p => let o' := fst p in let log := snd p in map fst log = rev calls /\
      ph_vecs o' = newest (fun e => pod_given (fst e)) log (ph_vecs o) /\
      ph_coeffs o' = newest (fun e => got (fun x => x) (snd e)) log (ph_coeffs o) /\
      (existsb (fun e => pod_decomposes (fst e) && is_ok (snd e)) log = false ->
       (ph_eigvals o', ph_eigvecs o') = (ph_eigvals o, ph_eigvecs o)) /\
      (existsb pod_correlates calls = false -> ph_corr o' = ph_corr o))
    (history (pod_try sqrt d el argsort) calls o []).
Proof.
  apply returns_and; [apply history_log|].
  repeat apply returns_and;
    [apply history_newest|apply history_newest
    |apply (history_kept_log (pod_try sqrt d el argsort) (fun o => (ph_eigvals o, ph_eigvecs o)))
    |apply (history_kept (pod_try sqrt d el argsort) ph_corr)];
    intros o1 c; (eapply returns_mono; [|apply pod_try_step]); cbn beta; intros p H; apply H.
Qed.

(** ** BPOD *)

Lemma bpod_left dd lapack (o : bpod_obj F) d a p q atol rtol : returns (fun r =>
    bh_direct (fst r) = Some d /\ bh_adjoint (fst r) = Some a /\
    bh_direct_coeffs (fst r) = bh_direct_coeffs o /\ bh_adjoint_coeffs (fst r) = bh_adjoint_coeffs o /\
    (is_ok (snd r) = false -> (bh_L (fst r), bh_R (fst r), bh_sing_vals (fst r)) = (bh_L o, bh_R o, bh_sing_vals o)))
  (BPOD_decomp_left dd lapack o d a p q atol rtol).
Proof. unfold BPOD_decomp_left. walk'; cbn; repeat split; discriminate. Qed.
Lemma bpod_try_step dd lapack (o : bpod_obj F) c : returns (fun p =>
    bh_direct (fst p) = match bpod_direct c with Some v => Some v | None => bh_direct o end /\
    bh_adjoint (fst p) = match bpod_adjoint c with Some v => Some v | None => bh_adjoint o end /\
    bh_direct_coeffs (fst p) = match got fst (snd p) with Some x => Some x | None => bh_direct_coeffs o end /\
    bh_adjoint_coeffs (fst p) = match got snd (snd p) with Some x => Some x | None => bh_adjoint_coeffs o end /\
    (bpod_decomposes c && is_ok (snd p) = false ->
     (bh_L (fst p), bh_R (fst p), bh_sing_vals (fst p)) = (bh_L o, bh_R o, bh_sing_vals o)) /\
    (bpod_assembles c = false -> bh_Hankel (fst p) = bh_Hankel o)) (bpod_try sqrt dd lapack o c).
Proof.
  destruct c as [d a p q atol rtol|atol rtol|i m v|i m v| | | | | |]; cbn [bpod_try bpod_direct bpod_adjoint bpod_decomposes bpod_assembles andb].
  - eapply returns_bind; [apply bpod_left|]. intros [o' r] (H1 & H2 & H3 & H4 & H5). cbn in *. destruct r; cbn; repeat split; auto; discriminate.
  - apply returns_catch. intros [usv|e]; cbn; repeat split; discriminate.
  - apply returns_attempt.
    + intros e. destruct v; cbn; repeat split.
    + eapply returns_mono; [|apply bpod_direct_obj]. cbn beta. intros o' ->. destruct v; cbn; repeat split.
  - apply returns_attempt.
    + intros e. destruct v; cbn; repeat split.
    + eapply returns_mono; [|apply bpod_adjoint_obj]. cbn beta. intros o' ->. destruct v; cbn; repeat split.
  - apply returns_attempt; [intros e; cbn; repeat split|]. unfold BPOD_direct_coeffs. walk'; cbn; repeat split.
  - apply returns_attempt; [intros e; cbn; repeat split|]. unfold BPOD_adjoint_coeffs. walk'; cbn; repeat split.
  - cbn. repeat split; discriminate.
  - cbn. repeat split; discriminate.
  - cbn. repeat split; discriminate.
  - cbn. repeat split; discriminate.
Qed.
Theorem C67_bpod_caught dd lapack calls (o : bpod_obj F) :
  returns (fun p => let o' := fst p in let log := snd p in map fst log = rev calls /\
      bh_direct o' = newest (fun e => bpod_direct (fst e)) log (bh_direct o) /\
      bh_adjoint o' = newest (fun e => bpod_adjoint (fst e)) log (bh_adjoint o) /\
      bh_direct_coeffs o' = newest (fun e => got fst (snd e)) log (bh_direct_coeffs o) /\
      bh_adjoint_coeffs o' = newest (fun e => got snd (snd e)) log (bh_adjoint_coeffs o) /\
      (existsb (fun e => bpod_decomposes (fst e) && is_ok (snd e)) log = false ->
       (bh_L o', bh_R o', bh_sing_vals o') = (bh_L o, bh_R o, bh_sing_vals o)) /\
      (existsb bpod_assembles calls = false -> bh_Hankel o' = bh_Hankel o))
    (history (bpod_try sqrt dd lapack) calls o []).
Proof.
  apply returns_and; [apply history_log|].
  repeat apply returns_and;
    [apply history_newest|apply history_newest|apply history_newest|apply history_newest
    |apply (history_kept_log (bpod_try sqrt dd lapack) (fun o => (bh_L o, bh_R o, bh_sing_vals o)))
    |apply (history_kept (bpod_try sqrt dd lapack) bh_Hankel)];
    intros o1 c; (eapply returns_mono; [|apply bpod_try_step]); cbn beta; intros p H; apply H.
Qed.

(** ** DMD *)

Definition low_order (o : dmd_obj F) := (dh_eigvals o, dh_R o, dh_L o).
Definition eigenvectors (o : dmd_obj F) := (dh_cvals o, dh_cvecs o, dh_svals o, dh_svecs o).
(** What compute_eigendecomp keeps, even when it raises. *)
Definition kept_by_eigen (tls : bool) (o : dmd_obj F) (p : dmd_obj F * res unit) : Prop :=
  (dh_vecs (fst p), dh_adv (fst p), dh_spec (fst p), dh_coeffs (fst p), dh_corr (fst p), dh_cross (fst p), dh_adv_corr (fst p)) =
  (dh_vecs o, dh_adv o, dh_spec o, dh_coeffs o, dh_corr o, dh_cross o, dh_adv_corr o) /\
  (is_ok (snd p) = false -> low_order (fst p) = low_order o) /\
  (tls = false -> (dh_svals (fst p), dh_svecs (fst p)) = (dh_svals o, dh_svecs o)).
Lemma dmd_eigen_left d el argsort eig (o : dmd_obj F) C K atol mx :
  returns (kept_by_eigen false o) (DMD_eigendecomp_left d el argsort eig sqrt o C K atol mx).
Proof. unfold DMD_eigendecomp_left. walk'; unfold kept_by_eigen; cbn; repeat split; discriminate. Qed.
Lemma tls_eigen_left d el argsort eig (o : dmd_obj F) C K G atol mx :
  returns (kept_by_eigen true o) (TLS_eigendecomp_left d el argsort eig sqrt o C K G atol mx).
Proof. unfold TLS_eigendecomp_left. walk'; unfold kept_by_eigen; cbn; repeat split; discriminate. Qed.
Lemma dmd_eigen_try (tls d : bool) el argsort eig (o : dmd_obj F) atol mx :
  returns (kept_by_eigen tls o) ((if tls then TLS_eigen_try sqrt else DMD_eigen_try sqrt) d el argsort eig o atol mx).
Proof.
  destruct tls; [unfold TLS_eigen_try|unfold DMD_eigen_try].
  - destruct (dh_corr o) as [C|], (dh_adv_corr o) as [G|], (dh_cross o) as [K|]; try (cbn; repeat split; discriminate);
      [apply tls_eigen_left|]. walk'; unfold kept_by_eigen; cbn; repeat split; discriminate.
  - destruct (dh_corr o) as [C|], (dh_cross o) as [K|]; [apply dmd_eigen_left| | |];
      walk'; unfold kept_by_eigen; cbn; repeat split; discriminate.
Qed.
Lemma dmd_left (tls d : bool) el argsort eig (o : dmd_obj F) v a atol mx : returns (fun p =>
    dh_vecs (fst p) = Some v /\ dh_adv (fst p) = given a (dh_adv o) /\ dh_spec (fst p) = dh_spec o /\
    dh_coeffs (fst p) = dh_coeffs o /\ (tls = false -> dh_adv_corr (fst p) = dh_adv_corr o) /\
    (is_ok (snd p) = false -> low_order (fst p) = low_order o) /\
    (tls = false -> (dh_svals (fst p), dh_svecs (fst p)) = (dh_svals o, dh_svecs o)))
  ((if tls then TLS_decomp_left else DMD_decomp_left) d el argsort eig sqrt o v a atol mx).
Proof.
  destruct tls; [unfold TLS_decomp_left|unfold DMD_decomp_left]; (destruct a as [a|]; [destruct (_ =? _)|]);
    try (cbn; repeat split; discriminate);
    repeat (apply returns_all; intros ?);
    (eapply returns_mono; [|apply tls_eigen_left || apply dmd_eigen_left]);
    intros p (E & H & G); cbn in E; injection E as E1 E2 E3 E4 E5 E6 E7; cbn; repeat split; auto; discriminate.
Qed.
Definition coeffs_failed (e : dmd_call F * res (option (nd F) * option (arr F * arr F))) : bool :=
  match fst e with DCoeffs => negb (is_ok (snd e)) | _ => false end.
Lemma dmd_try_step d (tls : bool) el argsort eig (o : dmd_obj F) c : returns (fun p =>
    dh_vecs (fst p) = match dmd_given c with Some v => Some v | None => dh_vecs o end /\
    dh_adv (fst p) = match dmd_advanced c with Some v => Some v | None => dh_adv o end /\
    dh_spec (fst p) = match got fst (snd p) with Some x => Some x | None => dh_spec o end /\
    dh_coeffs (fst p) = match got snd (snd p) with Some x => Some x | None => dh_coeffs o end /\
    (dmd_decomposes c && is_ok (snd p) = false -> low_order (fst p) = low_order o) /\
    (dmd_decomposes c = false -> eigenvectors (fst p) = eigenvectors o) /\
    (dmd_correlates c = false -> dh_corr (fst p) = dh_corr o) /\
    (dmd_crosses c = false -> dh_cross (fst p) = dh_cross o) /\
    (dmd_advances tls c = false -> dh_adv_corr (fst p) = dh_adv_corr o) /\
    (tls = false -> (dh_svals (fst p), dh_svecs (fst p)) = (dh_svals o, dh_svecs o))) (dmd_try sqrt d tls el argsort eig o c).
Proof.
  destruct c as [v a atol rtol mx|atol rtol mx|i m a|i m v|i m v| | | | | | | |];
    cbn [dmd_try dmd_given dmd_advanced dmd_decomposes dmd_correlates dmd_crosses dmd_advances andb].
  - eapply returns_bind; [apply dmd_left|]. intros [o' r] (H1 & H2 & H3 & H4 & H5 & H6 & H7). cbn in *.
    destruct r; cbn; repeat split; auto; discriminate.
  - eapply returns_bind; [apply dmd_eigen_try|]. intros [o' r] (E & H & G). cbn in *. injection E as E1 E2 E3 E4 E5 E6 E7.
    destruct r; cbn; repeat split; auto; discriminate.
  - apply returns_attempt; [intros e; destruct a; cbn; repeat split|].
    eapply returns_mono; [|apply dmd_exact_obj]. cbn beta. intros o' ->. destruct a; cbn; repeat split.
  - apply returns_attempt; [intros e; destruct v; cbn; repeat split|].
    unfold DMD_proj_modes. eapply returns_mono; [|apply dmd_modes_obj]. cbn beta. intros o' ->. destruct v; cbn; repeat split.
  - apply returns_attempt; [intros e; destruct v; cbn; repeat split|].
    unfold DMD_adjoint_modes. eapply returns_mono; [|apply dmd_modes_obj]. cbn beta. intros o' ->. destruct v; cbn; repeat split.
  - apply returns_attempt; [intros e; cbn; repeat split|]. unfold DMD_spectrum. walk'; cbn; repeat split.
  - apply returns_attempt; [intros e; cbn; repeat split|]. unfold DMD_proj_coeffs. walk'; cbn; repeat split.
  - destruct tls; cbn; repeat split; discriminate.
  - cbn. repeat split; discriminate.
  - cbn. repeat split; discriminate.
  - cbn. repeat split; discriminate.
  - cbn. repeat split; discriminate.
  - cbn. repeat split; discriminate.
Qed.
(** The eigenvalues and eigenvectors of the low-order map are those of the last call that
    did not raise, the eigenvectors of the correlation arrays may be of a later one.  Of the
    coefficients nothing is said when compute_proj_coeffs raised. *)
Theorem C67_dmd_caught d tls el argsort eig calls (o : dmd_obj F) :
  returns (fun p => let o' := fst p in let log := snd p in map fst log = rev calls /\
      dh_vecs o' = newest (fun e => dmd_given (fst e)) log (dh_vecs o) /\
      dh_adv o' = newest (fun e => dmd_advanced (fst e)) log (dh_adv o) /\
      dh_spec o' = newest (fun e => got fst (snd e)) log (dh_spec o) /\
      (existsb coeffs_failed log = false -> dh_coeffs o' = newest (fun e => got snd (snd e)) log (dh_coeffs o)) /\
      (existsb (fun e => dmd_decomposes (fst e) && is_ok (snd e)) log = false -> low_order o' = low_order o) /\
      (existsb dmd_decomposes calls = false -> eigenvectors o' = eigenvectors o) /\
      (existsb dmd_correlates calls = false -> dh_corr o' = dh_corr o) /\
      (existsb dmd_crosses calls = false -> dh_cross o' = dh_cross o) /\
      (existsb (dmd_advances tls) calls = false -> dh_adv_corr o' = dh_adv_corr o) /\
      (tls = false -> (dh_svals o', dh_svecs o') = (dh_svals o, dh_svecs o)))
    (history (dmd_try sqrt d tls el argsort eig) calls o []).
Proof.
  apply returns_and; [apply history_log|].
  apply returns_and; [|apply returns_and; [|apply returns_and; [|apply returns_and; [
    eapply returns_mono with (R := fun p => dh_coeffs (fst p) = newest (fun e => got snd (snd e)) (snd p) (dh_coeffs o)); [auto|]|]]]].
  1-4: apply history_newest.
  5: repeat apply returns_and; [
     apply (history_kept_log (dmd_try sqrt d tls el argsort eig) low_order)
    |apply (history_kept (dmd_try sqrt d tls el argsort eig) eigenvectors)
    |apply (history_kept (dmd_try sqrt d tls el argsort eig) dh_corr)
    |apply (history_kept (dmd_try sqrt d tls el argsort eig) dh_cross)
    |apply (history_kept (dmd_try sqrt d tls el argsort eig) dh_adv_corr)
    |eapply returns_mono; [|apply (history_kept (dmd_try sqrt d tls el argsort eig) (fun o => (dh_svals o, dh_svecs o)) (fun _ => tls))];
     [cbn beta; intros p H Ht; apply H; rewrite Ht; clear; induction calls; auto|]].
  all: intros o1 c; (eapply returns_mono; [|apply dmd_try_step]); cbn beta; intros p H; apply H.
Qed.

(** compute_proj_coeffs: returns with both arrays assigned; raises with adv_proj_coeffs
    unchanged, and proj_coeffs either unchanged or that of the current decomposition. *)
Theorem C67_coeffs_left tls (o : dmd_obj F) c :
  match DMD_coeffs_left sqrt tls o c with
  | (c', Ok p) => c' = (Some (fst p), Some (snd p)) /\ DMD_proj_coeffs tls sqrt o = HRet (set_coeffs o p, p)
  | (c', Raise e) => DMD_proj_coeffs tls sqrt o = HFail e /\ snd c' = snd c /\
      (fst c' = fst c \/ exists L E V SVh pc, dh_L o = Some L /\ dh_cvals o = Some E /\ dh_cvecs o = Some V /\
         dot (diag (map sqrt E)) (conj_T V) = Ok SVh /\ dot (conj_T L) SVh = Ok pc /\ fst c' = Some pc)
  end.
Proof.
  unfold DMD_coeffs_left. destruct (dh_L o) as [L|] eqn:EL.
  2: { unfold DMD_proj_coeffs. rewrite EL. cbn. auto. }
  destruct (dh_cvals o) as [E|] eqn:EE.
  2: { unfold DMD_proj_coeffs. rewrite EL, EE. cbn. auto. }
  destruct (dh_cvecs o) as [V|] eqn:EV.
  2: { unfold DMD_proj_coeffs. rewrite EL, EE, EV. cbn. auto. }
  destruct (dot (diag (map sqrt E)) (conj_T V)) as [SVh|e] eqn:E1; cbn [rbind].
  2: { unfold DMD_proj_coeffs. rewrite EL, EE, EV. cbn [need hbind]. rewrite E1. cbn. auto. }
  destruct (dot (conj_T L) SVh) as [pc|e] eqn:E2.
  2: { unfold DMD_proj_coeffs. rewrite EL, EE, EV. cbn [need hbind]. rewrite E1. cbn [rbind]. rewrite E2. cbn. auto. }
  assert (G : (exists apc, DMD_proj_coeffs tls sqrt o = HRet (set_coeffs o (pc, apc), (pc, apc))) \/
              (exists e, DMD_proj_coeffs tls sqrt o = HFail e)).
  { unfold DMD_proj_coeffs. rewrite EL, EE, EV. cbn [need hbind]. rewrite E1. cbn [rbind]. rewrite E2. cbn [hlift hbind].
    destruct tls, (dh_svecs o), (dh_cross o); cbn [need hbind]; eauto; destruct (rbind _ _); cbn [hlift hbind]; eauto. }
  destruct G as [(apc & ->)|(e & ->)]; cbn [fst snd]; [auto|].
  split; [reflexivity|]. split; [reflexivity|]. right. exists L, E, V, SVh, pc. auto 10.
Qed.
(** So a call that raises can leave a pair of two decompositions. *)
Theorem C67_coeffs_mixed tls (o : dmd_obj F) c L E V :
  dh_L o = Some L -> dh_cvals o = Some E -> dh_cvecs o = Some V -> nc V = length E -> nr L = length E ->
  dh_cross o = None ->
  exists pc e, DMD_coeffs_left sqrt tls o c = ((Some pc, snd c), Raise e) /\ nr pc = nc L /\ nc pc = nr V /\
    meq (nc L) (nr V) (NdArray.ent pc) (mmul (length E) (madj (NdArray.ent L))
      (mmul (length E) (mdiag (at1 (map sqrt E))) (madj (NdArray.ent V)))).
Proof.
  intros EL EE EV HV HL EK. unfold DMD_coeffs_left. rewrite EL, EE, EV.
  assert (E1 : dot (diag (map sqrt E)) (conj_T V) = Ok (Arr (length E) (nr V) (mmul (length E) (mdiag (at1 (map sqrt E))) (madj (NdArray.ent V))))).
  { apply dot_mul; cbn [diag nr nc conj_T]; rewrite ?map_length; auto. }
  rewrite E1. cbn [rbind].
  assert (E2 : dot (conj_T L) (Arr (length E) (nr V) (mmul (length E) (mdiag (at1 (map sqrt E))) (madj (NdArray.ent V))))
     = Ok (Arr (nc L) (nr V) (mmul (length E) (madj (NdArray.ent L)) (mmul (length E) (mdiag (at1 (map sqrt E))) (madj (NdArray.ent V)))))).
  { apply dot_mul; auto. }
  rewrite E2. exists (Arr (nc L) (nr V) (mmul (length E) (madj (NdArray.ent L)) (mmul (length E) (mdiag (at1 (map sqrt E))) (madj (NdArray.ent V))))).
  assert (G : exists e, DMD_proj_coeffs tls sqrt o = HFail e).
  { unfold DMD_proj_coeffs. rewrite EL, EE, EV. cbn [need hbind]. rewrite E1. cbn [rbind]. rewrite E2. cbn [hlift hbind].
    rewrite EK. destruct tls, (dh_svecs o); cbn [need hbind]; eauto. }
  destruct G as (e & ->). exists e. split; [reflexivity|]. do 2 (split; [reflexivity|]). reflexivity.
Qed.
End Proofs.

(** ** Executions *)

Section Runs.
Context {F : sfield} {V : Type} (S : space F V).

(** The [try] statement: whatever a method does, raised or returned, is what [attempt] returns. *)
Lemma ok_attempt {A B} failed (done : A -> B) (h : hprog F A) : forall st Q,
  ok S st h Q ->
  ok S st (attempt failed done h) (fun st' r => exists r0, Q st' r0 /\ r = Ok (match r0 with Ok a => done a | Raise e => failed e end)).
Proof.
  induction h as [a|e|rows cols k IH|vecs k IH|call k IH|sums basis coeff idx k IH];
    intros st Q H; cbn [ok attempt] in *; eauto.
  - destruct H as (rv & cv & H1 & H2 & H3 & H4 & H5). exists rv, cv. do 4 (split; [auto|]). auto.
  - destruct H as (vs & H1 & H2 & H3). exists vs. do 2 (split; [auto|]). auto.
  - destruct H as (l & H1 & H2). exists l. auto.
  - destruct (lin_coeffs _ _ _ _) as [rows|e] eqn:E; cbn [ok]; [|eauto]. rewrite E.
    destruct H as (bv & H1 & H2 & H3 & H4 & H5). exists bv. do 4 (split; [auto|]). intros st' Hw. auto.
Qed.
Theorem C67_attempt {A B} limit P tag_ub eager failed (done : A -> B) (h : hprog F A) st Q :
  ip_space S -> set_up limit P tag_ub S -> ok S st h Q ->
  runs S P tag_ub eager st (attempt failed done h)
    (fun st' r => exists r0, Q st' r0 /\ r = Ok (match r0 with Ok a => done a | Raise e => failed e end)).
Proof. intros HS Hu H. eapply ok_runs; eauto using ok_attempt. Qed.
End Runs.

(** ** Agreement with the models without [try] *)

Definition reraise {F : sfield} {O A} (h : hprog F (O * res A)) : hprog F (O * A) :=
  hbind h (fun p => match snd p with Ok a => HRet (fst p, a) | Raise e => HFail e end).
Theorem C67_eigen_same {F : sfield} :
  (forall sqrt el argsort (o : pod_obj F) atol rtol,
     hsame (reraise (pod_try sqrt true el argsort o (PEigen atol rtol))) (pod_do sqrt el argsort o (PEigen atol rtol))) /\
  (forall sqrt lapack (o : bpod_obj F) atol rtol,
     hsame (reraise (bpod_try sqrt true lapack o (BSVD atol rtol))) (bpod_do sqrt lapack o (BSVD atol rtol))) /\
  (forall tls sqrt el argsort eig (o : dmd_obj F) atol rtol mx, tls = true \/ dh_corr o <> None ->
     hsame (reraise (dmd_try sqrt true tls el argsort eig o (DEigen atol rtol mx)))
       (dmd_do sqrt tls el argsort eig o (DEigen atol rtol mx))).
Proof.
  assert (CC : forall A B (bc : res A -> hprog F A) call (k : res A -> hprog F B),
    catch_call true bc call k = hbind (bc call) (fun x => k (Ok x))) by (intros; destruct call; reflexivity).
  split; [|split].
  - intros sqrt el argsort o atol rtol. cbn [pod_try pod_do]. unfold reraise, POD_eigendecomp. rewrite CC.
    unfold bcast_eigh. cbn [hbind]. constructor. intros l. destruct l as [|[] [|[] [|]]]; cbn [hbind]; apply hsame_refl.
  - intros sqrt lapack o atol rtol. cbn [bpod_try bpod_do]. unfold reraise, BPOD_SVD. rewrite CC.
    unfold bcast_svd. cbn [hbind]. constructor. intros l. destruct l as [|[] [|[] [|[] [|]]]]; cbn [hbind]; apply hsame_refl.
  - intros tls sqrt el argsort eig o atol rtol mx HC. cbn [dmd_try dmd_do]. unfold reraise. destruct tls.
    + unfold TLS_eigen_try, TLS_eigendecomp.
      destruct (dh_corr o) as [C|]; [|apply hsame_refl]. destruct (dh_adv_corr o) as [G|]; [|apply hsame_refl].
      destruct (dh_cross o) as [K|]; [unfold TLS_eigendecomp_left|]; cbn [need hbind];
      (destruct (add_arr C G) as [sum|e]; cbn [hlift hbind]; [|apply hsame_refl]);
      rewrite CC; unfold bcast_eigh at 1 3; cbn [hbind]; constructor;
      intros l; destruct l as [|[] [|[] [|]]]; cbn [hbind need]; try apply hsame_refl;
      cbn [fst snd]; (destruct (TLS_proj_corr _ _) as [PC|e]; cbn [hlift hbind]; [|apply hsame_refl]);
      rewrite CC; unfold bcast_eigh; cbn [hbind]; constructor;
      intros l'; destruct l' as [|[] [|[] [|]]]; cbn [hbind need]; try apply hsame_refl.
      cbn [fst snd]. destruct (TLS_low _ _ _ _ _) as [M|e]; cbn [hlift hbind]; [|apply hsame_refl].
      rewrite CC. unfold bcast_eig. cbn [hbind]. constructor.
      intros l''. destruct l'' as [|[] [|[] [|[] [|]]]]; cbn [hbind]; apply hsame_refl.
    + unfold DMD_eigen_try, DMD_eigendecomp.
      destruct (dh_corr o) as [C|]; [|destruct HC as [HC|HC]; [discriminate|destruct (HC eq_refl)]].
      destruct (dh_cross o) as [K|]; [unfold DMD_eigendecomp_left|];
      rewrite CC; unfold bcast_eigh at 1; cbn [hbind]; constructor;
      intros l; destruct l as [|[] [|[] [|]]]; cbn [hbind need]; try apply hsame_refl.
      * cbn [fst snd]. destruct (DMD_low _ _ _ _) as [M|e]; cbn [hlift hbind]; [|apply hsame_refl].
        rewrite CC. unfold bcast_eig. cbn [hbind]. constructor.
        intros l'. destruct l' as [|[] [|[] [|[] [|]]]]; cbn [hbind]; apply hsame_refl.
Qed.

Lemma reraise_uncaught {F : sfield} {O A} (x : A) (h : hprog F (O * res unit)) : forall h',
  hsame (uncaught h) h' ->
  hsame (reraise (hbind h (fun p => HRet (fst p, rmap (fun _ => x) (snd p))))) (hbind h' (fun o => HRet (o, x))).
Proof.
  unfold reraise, uncaught. induction h as [[o [u|e]]| |? ? ? IH|? ? IH|? ? IH|? ? ? ? ? IH]; intros h' H; cbn in H; inversion H; subst;
    cbn; constructor; auto; intros; apply IH; auto.
Qed.
(** compute_decomp: the [try] statement reports an exception exactly if the method raises. *)
Theorem C67_decomp_same {F : sfield} :
  (forall sqrt el argsort (o : pod_obj F) v atol rtol,
     hsame (reraise (pod_try sqrt true el argsort o (PDecomp v atol rtol))) (pod_do sqrt el argsort o (PDecomp v atol rtol))) /\
  (forall sqrt lapack (o : bpod_obj F) d a p q atol rtol,
     hsame (reraise (bpod_try sqrt true lapack o (BDecomp d a p q atol rtol))) (bpod_do sqrt lapack o (BDecomp d a p q atol rtol))) /\
  (forall tls sqrt el argsort eig (o : dmd_obj F) v a atol rtol mx,
     hsame (reraise (dmd_try sqrt true tls el argsort eig o (DDecomp v a atol rtol mx)))
       (dmd_do sqrt tls el argsort eig o (DDecomp v a atol rtol mx))).
Proof.
  destruct (@C66_same F) as (H1 & H2 & H3). split; [|split].
  - intros. apply reraise_uncaught, H1.
  - intros. apply reraise_uncaught, H2.
  - intros. cbn [dmd_try dmd_do]. apply reraise_uncaught. destruct tls; [apply C66_tls_same|apply H3].
Qed.

(** ** Examples *)

Open Scope k_scope.
(** LAPACK fails for the vectors 3 and 4, then modes are computed with too many handles: the
    vectors are those of the call that raised last. *)
Definition ct_el (C : arr QI) : res (list QI * arr QI) := Raise LinAlgError.
Definition ct_calls : list (pod_call QI) := [PDecomp [3; 4]%nat None None; PCoeffs; PModes None [10; 11; 12]%nat (Some [1; 2]%nat)].
Example C67_pod_caught_example (o : pod_obj QI) :
  returns (fun p => ph_vecs (fst p) = Some [1; 2]%nat) (history (pod_try ex_sqrt false ct_el hs_argsort) ct_calls o []).
Proof.
  eapply returns_mono; [|apply C67_pod_caught]. cbv zeta beta. intros p (H1 & H2 & _).
  rewrite H2, (newest_calls _ _ _ _ H1). reflexivity.
Qed.
Example C67_bpod_caught_example d lapack (o : bpod_obj QI) :
  returns (fun p => bh_direct (fst p) = Some [1; 2]%nat /\ bh_adjoint (fst p) = Some [5; 6]%nat)
    (history (bpod_try ex_sqrt d lapack) [BDecomp [3; 4]%nat [5; 6]%nat 1 0 None None; BDirect None [7]%nat (Some [1; 2]%nat); BAdjointCoeffs] o []).
Proof.
  eapply returns_mono; [|apply C67_bpod_caught]. cbv zeta beta. intros p (H1 & H2 & H3 & _).
  rewrite H2, H3, !(newest_calls _ _ _ _ H1). auto.
Qed.
Example C67_dmd_caught_example d tls el argsort eig (o : dmd_obj QI) :
  returns (fun p => dh_vecs (fst p) = Some [3; 4]%nat /\ dh_adv (fst p) = Some [5]%nat)
    (history (dmd_try ex_sqrt d tls el argsort eig) [DDecomp [3; 4]%nat (Some [5]%nat) None None None; DSpectrum; DEigen None None None] o []).
Proof.
  eapply returns_mono; [|apply C67_dmd_caught]. cbv zeta beta. intros p (H1 & H2 & H3 & _).
  rewrite H2, H3, !(newest_calls _ _ _ _ H1). auto.
Qed.
(** Without eigenvectors compute_modes raises TypeError on both processes; the [try]
    statements catch it, and the object has the new vectors. *)
Example C67_attempt_example eager :
  runs podh_space 2 10 eager podh_store (pod_try ex_sqrt true ct_el hs_argsort POD_new (PModes None [10]%nat (Some [1; 2]%nat)))
    (fun st' r => exists r0, (st' = podh_store /\ r0 = Raise TypeError) /\
       r = Ok (match r0 with Ok a => (a, Ok None) | Raise e => (PodObj None None (Some [1; 2]%nat) None None, Raise e) end)).
Proof.
  cbn [pod_try]. apply (C67_attempt podh_space (Some 1%Z) 2 10 eager); [exact podh_ip|exact podh_set_up|].
  cbn. auto.
Qed.
(** The cross-correlation array was never computed. *)
Definition ct_dmd (K : option (arr QI)) : dmd_obj QI :=
  DmdObj (Some [qi 1 0 2]) (Some (Arr 1 1 mid)) (Some (Arr 1 1 mid)) (Some [qi 4 0 1]) (Some (Arr 2 1 mid)) None
    (Some (Arr 2 1 mid)) None K None (Some [1; 1; 1; 1]%nat) None None None.
Example C67_coeffs_left_example :
  match DMD_coeffs_left (fun x => x) false (ct_dmd None) (None, Some (eye 3)) with
  | (c', Ok _) => False
  | (c', Raise e) => e = TypeError /\ snd c' = Some (eye 3)
  end.
Proof.
  pose proof (C67_coeffs_left (fun x => x) false (ct_dmd None) (None, Some (eye 3))) as H.
  destruct (DMD_coeffs_left _ _ _ _) as [c' [p|e]].
  - destruct H as [_ H]. discriminate H.
  - destruct H as (H1 & H2 & _). split; [|exact H2]. injection H1 as <-. reflexivity.
Qed.
Example C67_coeffs_mixed_example : exists pc e,
  DMD_coeffs_left (fun x => x) true (ct_dmd None) (Some (eye 3), Some (eye 3)) = ((Some pc, Some (eye 3)), Raise e) /\
  nr pc = 1%nat /\ nc pc = 2%nat.
Proof.
  destruct (C67_coeffs_mixed (fun x => x) true (ct_dmd None) (Some (eye 3), Some (eye 3)) (Arr 1 1 mid) [qi 4 0 1] (Arr 2 1 mid)
    eq_refl eq_refl eq_refl eq_refl eq_refl eq_refl) as (pc & e & H1 & H2 & H3 & _).
  exists pc, e. auto.
Qed.
Example C67_eigen_same_example el argsort eig :
  hsame (reraise (dmd_try ex_sqrt true false el argsort eig (DmdObj None None None None None None None (Some ex_cV) None None None None None None) (DEigen None None None)))
    (dmd_do ex_sqrt false el argsort eig (DmdObj None None None None None None None (Some ex_cV) None None None None None None) (DEigen None None None)).
Proof. apply C67_eigen_same. right. discriminate. Qed.

Example C67_decomp_same_example el argsort :
  hsame (reraise (pod_try ex_sqrt true el argsort (POD_new (F := QI)) (PDecomp [1; 2]%nat (Some (qi 1 0 1000)) None)))
    (pod_do ex_sqrt el argsort POD_new (PDecomp [1; 2]%nat (Some (qi 1 0 1000)) None)).
Proof. apply C67_decomp_same. Qed.

Print Assumptions C67_pod_caught.
Print Assumptions C67_bpod_caught.
Print Assumptions C67_dmd_caught.
Print Assumptions C67_coeffs_left.
Print Assumptions C67_coeffs_mixed.
Print Assumptions C67_attempt.
Print Assumptions C67_eigen_same.
Print Assumptions C67_decomp_same.
