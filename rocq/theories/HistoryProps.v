(** Property C67: which call the attributes of a handle object come from, after any sequence
    of calls. *)
From stdpp Require Import gmap list.
From Coq Require Import ZArith Lia.
From Verif Require Import Prelude Field FieldInst Matrix NdArray DecompModel DecompProofs DecompProps VSArraysModel VSArraysProofs
  PodModel PodProofs PodProps BpodModel HankelModel DmdModel DmdProofs DmdCore TlsModel Spmd LinCombModel InnerProdProps
  HandlesModel HandlesProofs HandlesSpace HandlesExamples PodHandlesModel BpodHandlesModel DmdHandlesModel DmdHandlesProofs
  TlsExamples DmdExamples PodHandlesProps ModesProps HistoryModel.
Open Scope nat_scope.

(** The newest of the values in a log (the last entry first), or else [x]. *)
Fixpoint newest {E X : Type} (f : E -> option X) (log : list E) (x : option X) : option X :=
  match log with
  | [] => x
  | e :: log => match f e with Some y => Some y | None => newest f log x end
  end.

Section Proofs.
Context {F : sfield} (sqrt : F -> F).

Lemma returns_mono {A} (R R' : A -> Prop) (h : hprog F A) : (forall a, R a -> R' a) -> returns R h -> returns R' h.
Proof. intros H. induction h; simpl; auto. Qed.
Lemma returns_and {A} (R R' : A -> Prop) (h : hprog F A) : returns R h -> returns R' h -> returns (fun a => R a /\ R' a) h.
Proof. induction h; simpl; auto. Qed.
Lemma history_inv {O C R} (do : O -> C -> hprog F (O * R)) (I : O -> list (C * R) -> Prop) :
  (forall o log c, I o log -> returns (fun p => I (fst p) ((c, snd p) :: log)) (do o c)) ->
  forall calls o log, I o log -> returns (fun p => I (fst p) (snd p)) (history do calls o log).
Proof.
  intros H calls. induction calls as [|c calls IH]; intros o log Hi; [exact Hi|].
  cbn [history]. eapply returns_bind; [apply H; exact Hi|]. intros p Hp. apply IH. exact Hp.
Qed.
(** The log has the calls made. *)
Lemma history_calls {O C R} (do : O -> C -> hprog F (O * R)) calls : forall o log,
  returns (fun p => map fst (snd p) = rev calls ++ map fst log) (history do calls o log).
Proof.
  induction calls as [|c calls IH]; intros o log; [reflexivity|]. cbn [history]. apply returns_all. intros p.
  eapply returns_mono; [|apply IH]. intros q Hq. cbn beta in Hq. rewrite Hq. cbn [map fst rev]. rewrite <- app_assoc. reflexivity.
Qed.
Lemma history_log {O C R} (do : O -> C -> hprog F (O * R)) calls o :
  returns (fun p => map fst (snd p) = rev calls) (history do calls o []).
Proof. eapply returns_mono; [|apply history_calls]. cbn beta. intros p ->. apply app_nil_r. Qed.
(** What every call keeps is kept. *)
Lemma history_keep {O C R X} (do : O -> C -> hprog F (O * R)) (f : O -> X) (keeps : C -> bool) :
  (forall o c, keeps c = true -> returns (fun p => f (fst p) = f o) (do o c)) ->
  forall calls o log, forallb keeps calls = true -> returns (fun p => f (fst p) = f o) (history do calls o log).
Proof.
  intros H calls. induction calls as [|c calls IH]; intros o log Hk; [reflexivity|].
  cbn [history forallb] in *. apply andb_prop in Hk. destruct Hk as [Hc Hk].
  eapply returns_bind; [apply H; exact Hc|]. intros p Hp. cbn beta in Hp.
  eapply returns_mono; [|apply IH; exact Hk]. intros q Hq. cbn beta in Hq. congruence.
Qed.

Lemma history_newest {O C R X} (do : O -> C -> hprog F (O * R)) (f : O -> option X) (g : C * R -> option X) :
  (forall o c, returns (fun p => f (fst p) = match g (c, snd p) with Some x => Some x | None => f o end) (do o c)) ->
  forall calls o, returns (fun p => f (fst p) = newest g (snd p) (f o)) (history do calls o []).
Proof.
  intros H calls o. apply (history_inv do (fun o' log => f o' = newest g log (f o))); [|reflexivity].
  intros o1 log c Hi. eapply returns_mono; [|apply H]. cbn beta. intros p ->. cbn [newest]. rewrite Hi. reflexivity.
Qed.
Lemma history_kept {O C R X} (do : O -> C -> hprog F (O * R)) (f : O -> X) (sets : C -> bool) :
  (forall o c, returns (fun p => sets c = false -> f (fst p) = f o) (do o c)) ->
  forall calls o, returns (fun p => existsb sets calls = false -> f (fst p) = f o) (history do calls o []).
Proof.
  intros H calls o. destruct (existsb sets calls) eqn:E; [eapply returns_mono; [|apply returns_True]; discriminate|].
  eapply returns_mono; [intros p Hp _; exact Hp|].
  apply (history_keep do f (fun c => negb (sets c))).
  - intros o1 c Hc. eapply returns_mono; [|apply H]. cbn beta. intros p Hp. apply Hp. destruct (sets c); auto; discriminate.
  - revert E. induction calls as [|c l IH]; [reflexivity|]. cbn [existsb forallb]. intros E. apply orb_false_iff in E.
    destruct E as [-> E]. cbn [negb andb]. auto.
Qed.

Ltac walk := repeat first [ apply returns_all; intros ? | match goal with
  | |- returns _ (HIp _ _ _) => intros ? | |- returns _ (HSymm _ _) => intros ? | |- returns _ (HCall _ _) => intros ?
  | |- returns _ (HLin _ _ _ _ _) => cbn [returns] | |- returns _ (match ?x with _ => _ end) => destruct x
  | |- returns _ (HFail _) => exact I end ].

(** ** POD *)

Definition pod_given (c : pod_call F) : option (list loc) :=
  match c with PDecomp v _ _ => Some v | PModes _ _ v => v | _ => None end.
Definition pod_decomposes (c : pod_call F) : bool :=
  match c with PDecomp _ _ _ | PEigen _ _ | PGet _ _ => true | _ => false end.
Definition pod_correlates (c : pod_call F) : bool := match c with PDecomp _ _ _ | PGetCorr _ => true | _ => false end.

Lemma pod_modes_obj (o : pod_obj F) i m v :
  returns (fun o' => o' = PodObj (ph_eigvals o) (ph_eigvecs o) (given v (ph_vecs o)) (ph_corr o) (ph_coeffs o))
    (POD_compute_modes sqrt o i m v).
Proof. destruct o, v; unfold POD_compute_modes; walk; reflexivity. Qed.
Lemma pod_step el argsort (o : pod_obj F) c : returns (fun p =>
    ph_vecs (fst p) = match pod_given c with Some v => Some v | None => ph_vecs o end /\
    ph_coeffs (fst p) = match snd p with Some x => Some x | None => ph_coeffs o end /\
    (pod_decomposes c = false -> ph_eigvals (fst p) = ph_eigvals o /\ ph_eigvecs (fst p) = ph_eigvecs o) /\
    (pod_correlates c = false -> ph_corr (fst p) = ph_corr o)) (pod_do sqrt el argsort o c).
Proof.
  destruct c as [v atol rtol|atol rtol|i m v| | | |]; cbn [pod_do pod_given pod_decomposes pod_correlates].
  - unfold POD_decomp, POD_eigendecomp, symm_inner_products, bcast_eigh. cbn [hbind]. intros C. cbn [hbind]. intros l.
    destruct l as [|[] [|[] [|]]]; cbn [hbind]; try exact I. cbn. repeat split; congruence.
  - unfold POD_eigendecomp, bcast_eigh. cbn [hbind]. intros l.
    destruct l as [|[] [|[] [|]]]; cbn [hbind]; try exact I. cbn. repeat split; congruence.
  - eapply returns_bind; [apply pod_modes_obj|]. intros a ->. destruct v; cbn; repeat split; auto.
  - unfold POD_proj_coeffs. eapply returns_bind with (R := fun p => exists c, p =
      (PodObj (ph_eigvals o) (ph_eigvecs o) (ph_vecs o) (ph_corr o) (Some c), c)).
    + walk. cbn. eauto.
    + intros a (c & ->). cbn. repeat split; auto.
  - cbn. repeat split; congruence.
  - cbn. repeat split; congruence.
  - cbn. repeat split; congruence.
Qed.

(** The vectors are the newest given to compute_decomp or compute_modes, the coefficients
    those of the newest compute_proj_coeffs or get_proj_coeffs, whatever decomposition
    came later; the other attributes change in the calls that set them. *)
Theorem C67_pod el argsort calls (o : pod_obj F) :
  returns (fun p => let o' := fst p in let log := snd p in map fst log = rev calls /\
      ph_vecs o' = newest (fun e => pod_given (fst e)) log (ph_vecs o) /\
      ph_coeffs o' = newest snd log (ph_coeffs o) /\
      (existsb pod_decomposes calls = false -> (ph_eigvals o', ph_eigvecs o') = (ph_eigvals o, ph_eigvecs o)) /\
      (existsb pod_correlates calls = false -> ph_corr o' = ph_corr o))
    (history (pod_do sqrt el argsort) calls o []).
Proof.
  apply returns_and; [apply history_log|].
  apply returns_and; [|apply returns_and; [|apply returns_and]].
  - apply history_newest. intros o1 c. eapply returns_mono; [|apply pod_step]. cbn beta. intros p H. apply H.
  - apply history_newest. intros o1 c. eapply returns_mono; [|apply pod_step]. cbn beta. intros p H. apply H.
  - apply (history_kept (pod_do sqrt el argsort) (fun o => (ph_eigvals o, ph_eigvecs o))).
    intros o1 c. eapply returns_mono; [|apply pod_step]. cbn beta. intros p (_ & _ & H & _) E. destruct (H E) as [-> ->]. reflexivity.
  - apply (history_kept (pod_do sqrt el argsort) ph_corr).
    intros o1 c. eapply returns_mono; [|apply pod_step]. cbn beta. intros p H. apply H.
Qed.

(** ** BPOD *)

Definition bpod_direct (c : bpod_call F) : option (list loc) :=
  match c with BDecomp d _ _ _ _ _ => Some d | BDirect _ _ v => v | _ => None end.
Definition bpod_adjoint (c : bpod_call F) : option (list loc) :=
  match c with BDecomp _ a _ _ _ _ => Some a | BAdjoint _ _ v => v | _ => None end.
Definition bpod_decomposes (c : bpod_call F) : bool :=
  match c with BDecomp _ _ _ _ _ _ | BSVD _ _ | BGet _ _ _ => true | _ => false end.
Definition bpod_assembles (c : bpod_call F) : bool := match c with BDecomp _ _ _ _ _ _ | BGetHankel _ => true | _ => false end.

Lemma bpod_direct_obj (o : bpod_obj F) i m v :
  returns (fun o' => o' = BpodObj (bh_L o) (bh_R o) (bh_sing_vals o) (bh_Hankel o) (given v (bh_direct o)) (bh_adjoint o)
      (bh_direct_coeffs o) (bh_adjoint_coeffs o)) (BPOD_direct_modes sqrt o i m v).
Proof. destruct o, v; unfold BPOD_direct_modes; walk; reflexivity. Qed.
Lemma bpod_adjoint_obj (o : bpod_obj F) i m v :
  returns (fun o' => o' = BpodObj (bh_L o) (bh_R o) (bh_sing_vals o) (bh_Hankel o) (bh_direct o) (given v (bh_adjoint o))
      (bh_direct_coeffs o) (bh_adjoint_coeffs o)) (BPOD_adjoint_modes sqrt o i m v).
Proof. destruct o, v; unfold BPOD_adjoint_modes; walk; reflexivity. Qed.
Lemma bpod_svd_obj lapack (o : bpod_obj F) atol rtol : returns (fun o' => exists L R s, o' =
    BpodObj (Some L) (Some R) (Some s) (bh_Hankel o) (bh_direct o) (bh_adjoint o) (bh_direct_coeffs o) (bh_adjoint_coeffs o))
  (BPOD_SVD lapack o atol rtol).
Proof. unfold BPOD_SVD. apply returns_all. intros usv. cbn. eauto. Qed.
Lemma bpod_step lapack (o : bpod_obj F) c : returns (fun p =>
    bh_direct (fst p) = match bpod_direct c with Some v => Some v | None => bh_direct o end /\
    bh_adjoint (fst p) = match bpod_adjoint c with Some v => Some v | None => bh_adjoint o end /\
    bh_direct_coeffs (fst p) = match fst (snd p) with Some x => Some x | None => bh_direct_coeffs o end /\
    bh_adjoint_coeffs (fst p) = match snd (snd p) with Some x => Some x | None => bh_adjoint_coeffs o end /\
    (bpod_decomposes c = false ->
     (bh_L (fst p), bh_R (fst p), bh_sing_vals (fst p)) = (bh_L o, bh_R o, bh_sing_vals o)) /\
    (bpod_assembles c = false -> bh_Hankel (fst p) = bh_Hankel o)) (bpod_do sqrt lapack o c).
Proof.
  destruct c as [d a p q atol rtol|atol rtol|i m v|i m v| | | | | |]; cbn [bpod_do bpod_direct bpod_adjoint bpod_decomposes bpod_assembles].
  - unfold BPOD_decomp. eapply returns_bind with (R := fun o' => bh_direct o' = Some d /\ bh_adjoint o' = Some a /\
      bh_direct_coeffs o' = bh_direct_coeffs o /\ bh_adjoint_coeffs o' = bh_adjoint_coeffs o).
    + do 5 (apply returns_all; intros ?). eapply returns_mono; [|apply bpod_svd_obj]. intros o' (L & R & s & ->). cbn. auto.
    + intros o' (H1 & H2 & H3 & H4). cbn. repeat split; auto; discriminate.
  - eapply returns_bind; [apply bpod_svd_obj|]. intros o' (L & R & s & ->). cbn. repeat split; auto; discriminate.
  - eapply returns_bind; [apply bpod_direct_obj|]. intros a ->. destruct v; cbn; repeat split; auto.
  - eapply returns_bind; [apply bpod_adjoint_obj|]. intros a ->. destruct v; cbn; repeat split; auto.
  - unfold BPOD_direct_coeffs. apply returns_bind with (R := fun p => exists c, p =
      (BpodObj (bh_L o) (bh_R o) (bh_sing_vals o) (bh_Hankel o) (bh_direct o) (bh_adjoint o) (Some c) (bh_adjoint_coeffs o), c)).
    + walk. cbn. eauto.
    + intros a (c & ->). cbn. repeat split; auto.
  - unfold BPOD_adjoint_coeffs. apply returns_bind with (R := fun p => exists c, p =
      (BpodObj (bh_L o) (bh_R o) (bh_sing_vals o) (bh_Hankel o) (bh_direct o) (bh_adjoint o) (bh_direct_coeffs o) (Some c), c)).
    + walk. cbn. eauto.
    + intros a (c & ->). cbn. repeat split; auto.
  - cbn. repeat split; congruence.
  - cbn. repeat split; congruence.
  - cbn. repeat split; congruence.
  - cbn. repeat split; congruence.
Qed.
Theorem C67_bpod lapack calls (o : bpod_obj F) :
  returns (fun p => let o' := fst p in let log := snd p in map fst log = rev calls /\
      bh_direct o' = newest (fun e => bpod_direct (fst e)) log (bh_direct o) /\
      bh_adjoint o' = newest (fun e => bpod_adjoint (fst e)) log (bh_adjoint o) /\
      bh_direct_coeffs o' = newest (fun e => fst (snd e)) log (bh_direct_coeffs o) /\
      bh_adjoint_coeffs o' = newest (fun e => snd (snd e)) log (bh_adjoint_coeffs o) /\
      (existsb bpod_decomposes calls = false ->
       (bh_L o', bh_R o', bh_sing_vals o') = (bh_L o, bh_R o, bh_sing_vals o)) /\
      (existsb bpod_assembles calls = false -> bh_Hankel o' = bh_Hankel o))
    (history (bpod_do sqrt lapack) calls o []).
Proof.
  apply returns_and; [apply history_log|].
  apply returns_and; [|apply returns_and; [|apply returns_and; [|apply returns_and; [|apply returns_and]]]].
  - apply history_newest. intros o1 c. eapply returns_mono; [|apply bpod_step]. cbn beta. intros p H. apply H.
  - apply history_newest. intros o1 c. eapply returns_mono; [|apply bpod_step]. cbn beta. intros p H. apply H.
  - apply history_newest. intros o1 c. eapply returns_mono; [|apply bpod_step]. cbn beta. intros p H. apply H.
  - apply history_newest. intros o1 c. eapply returns_mono; [|apply bpod_step]. cbn beta. intros p H. apply H.
  - apply (history_kept (bpod_do sqrt lapack) (fun o => (bh_L o, bh_R o, bh_sing_vals o))).
    intros o1 c. eapply returns_mono; [|apply bpod_step]. cbn beta. intros p H. apply H.
  - apply (history_kept (bpod_do sqrt lapack) bh_Hankel).
    intros o1 c. eapply returns_mono; [|apply bpod_step]. cbn beta. intros p H. apply H.
Qed.

(** ** DMD *)

Definition dmd_given (c : dmd_call F) : option (list loc) :=
  match c with DDecomp v _ _ _ _ => Some v | DProj _ _ v | DAdjoint _ _ v => v | _ => None end.
Definition dmd_advanced (c : dmd_call F) : option (list loc) :=
  match c with DDecomp _ a _ _ _ => a | DExact _ _ a => a | _ => None end.
Definition dmd_decomposes (c : dmd_call F) : bool :=
  match c with DDecomp _ _ _ _ _ | DEigen _ _ _ | DGet _ _ _ _ _ _ => true | _ => false end.
Definition dmd_correlates (c : dmd_call F) : bool := match c with DDecomp _ _ _ _ _ | DGetCorr _ => true | _ => false end.
Definition dmd_crosses (c : dmd_call F) : bool := match c with DDecomp _ _ _ _ _ | DGetCross _ => true | _ => false end.
Definition dmd_advances (tls : bool) (c : dmd_call F) : bool :=
  match c with DDecomp _ _ _ _ _ => tls | DGetAdvCorr _ => true | _ => false end.
Definition decomp_of (o : dmd_obj F) :=
  (dh_eigvals o, dh_R o, dh_L o, dh_cvals o, dh_cvecs o, dh_svals o, dh_svecs o).

Lemma dmd_modes_obj tls (o : dmd_obj F) B i m : returns (fun o' => o' = o) (DMD_modes_of tls sqrt o B i m).
Proof. unfold DMD_modes_of. walk; reflexivity. Qed.
Lemma dmd_exact_obj tls (o : dmd_obj F) i m a :
  returns (fun o' => o' = set_handles o (dh_vecs o) (given a (dh_adv o))) (DMD_exact_modes tls sqrt o i m a).
Proof.
  destruct o as [ew R L cw cv sw sv co cr ac vs [adv|] sp cf], a; unfold DMD_exact_modes; apply returns_all; intros B;
    cbn [dh_adv dh_vecs set_handles]; walk; reflexivity.
Qed.
(** compute_eigendecomp sets the decomposition only. *)
Definition redecomposed (o o' : dmd_obj F) : Prop :=
  exists w R L E V Es Vs, o' = set_decomp o w R L E V Es Vs.
Lemma dmd_eigen_obj (tls : bool) el argsort eig (o : dmd_obj F) atol rtol mx : returns (redecomposed o)
  ((if tls then TLS_eigendecomp else DMD_eigendecomp) el argsort eig sqrt o atol rtol mx).
Proof.
  destruct tls; [unfold TLS_eigendecomp|unfold DMD_eigendecomp]; walk; unfold redecomposed; cbn [returns]; do 7 eexists; reflexivity.
Qed.
Lemma dmd_decomp_obj (tls : bool) el argsort eig (o : dmd_obj F) v a atol rtol mx : returns (fun o' =>
    dh_vecs o' = Some v /\ dh_adv o' = given a (dh_adv o) /\ dh_spec o' = dh_spec o /\ dh_coeffs o' = dh_coeffs o /\
    (tls = false -> dh_adv_corr o' = dh_adv_corr o))
  ((if tls then TLS_decomp else DMD_decomp) el argsort eig sqrt o v a atol rtol mx).
Proof.
  assert (SH : returns (fun o' => o' = set_handles o (Some v) (given a (dh_adv o))) (DMD_set_handles o v a)).
  { unfold DMD_set_handles. destruct a; [destruct (_ =? _)|]; reflexivity || exact I. }
  destruct tls; [unfold TLS_decomp|unfold DMD_decomp]; (eapply returns_bind; [exact SH|]); intros o1 ->.
  - apply returns_bind with (R := fun o' => exists C K G, o' = set_corr (set_handles o (Some v) (given a (dh_adv o))) C K G).
    { destruct a; walk; cbn [returns]; eauto. }
    intros o1 (C & K & G & ->). eapply returns_mono; [|apply (dmd_eigen_obj true)].
    intros o' (w & R & L & E & V & Es & Vs & ->). cbn. repeat split; discriminate.
  - apply returns_bind with (R := fun o' => exists C K, o' = set_corr (set_handles o (Some v) (given a (dh_adv o))) C K (dh_adv_corr o)).
    { destruct a; walk; cbn [returns]; eauto. }
    intros o1 (C & K & ->). eapply returns_mono; [|apply (dmd_eigen_obj false)].
    intros o' (w & R & L & E & V & Es & Vs & ->). cbn. repeat split.
Qed.
Lemma dmd_step tls el argsort eig (o : dmd_obj F) c : returns (fun p =>
    dh_vecs (fst p) = match dmd_given c with Some v => Some v | None => dh_vecs o end /\
    dh_adv (fst p) = match dmd_advanced c with Some v => Some v | None => dh_adv o end /\
    dh_spec (fst p) = match fst (snd p) with Some x => Some x | None => dh_spec o end /\
    dh_coeffs (fst p) = match snd (snd p) with Some x => Some x | None => dh_coeffs o end /\
    (dmd_decomposes c = false -> decomp_of (fst p) = decomp_of o) /\
    (dmd_correlates c = false -> dh_corr (fst p) = dh_corr o) /\
    (dmd_crosses c = false -> dh_cross (fst p) = dh_cross o) /\
    (dmd_advances tls c = false -> dh_adv_corr (fst p) = dh_adv_corr o)) (dmd_do sqrt tls el argsort eig o c).
Proof.
  destruct c as [v a atol rtol mx|atol rtol mx|i m a|i m v|i m v| | | | | | | |];
    cbn [dmd_do dmd_given dmd_advanced dmd_decomposes dmd_correlates dmd_crosses dmd_advances].
  - eapply returns_bind; [apply dmd_decomp_obj|]. intros o' (H1 & H2 & H3 & H4 & H5). cbn. repeat split; auto; discriminate.
  - eapply returns_bind; [apply dmd_eigen_obj|]. intros o' (w & R & L & E & V & Es & Vs & ->). cbn. repeat split; discriminate.
  - eapply returns_bind; [apply dmd_exact_obj|]. intros o' ->. destruct a; cbn; repeat split.
  - unfold DMD_proj_modes. eapply returns_bind; [apply dmd_modes_obj|]. intros o' ->. destruct v; cbn; repeat split.
  - unfold DMD_adjoint_modes. eapply returns_bind; [apply dmd_modes_obj|]. intros o' ->. destruct v; cbn; repeat split.
  - unfold DMD_spectrum. apply returns_bind with (R := fun p => fst p = set_spec o (snd p)).
    + walk. reflexivity.
    + intros [o' s] E. cbn in E. subst o'. cbn. repeat split.
  - unfold DMD_proj_coeffs. apply returns_bind with (R := fun p => fst p = set_coeffs o (snd p)).
    + walk; reflexivity.
    + intros [o' s] E. cbn in E. subst o'. cbn. repeat split.
  - destruct tls; cbn; repeat split; discriminate.
  - cbn. repeat split; discriminate.
  - cbn. repeat split; discriminate.
  - cbn. repeat split; discriminate.
  - cbn. repeat split; discriminate.
  - cbn. repeat split; discriminate.
Qed.
Theorem C67_dmd tls el argsort eig calls (o : dmd_obj F) :
  returns (fun p => let o' := fst p in let log := snd p in map fst log = rev calls /\
      dh_vecs o' = newest (fun e => dmd_given (fst e)) log (dh_vecs o) /\
      dh_adv o' = newest (fun e => dmd_advanced (fst e)) log (dh_adv o) /\
      dh_spec o' = newest (fun e => fst (snd e)) log (dh_spec o) /\
      dh_coeffs o' = newest (fun e => snd (snd e)) log (dh_coeffs o) /\
      (existsb dmd_decomposes calls = false -> decomp_of o' = decomp_of o) /\
      (existsb dmd_correlates calls = false -> dh_corr o' = dh_corr o) /\
      (existsb dmd_crosses calls = false -> dh_cross o' = dh_cross o) /\
      (existsb (dmd_advances tls) calls = false -> dh_adv_corr o' = dh_adv_corr o))
    (history (dmd_do sqrt tls el argsort eig) calls o []).
Proof.
  apply returns_and; [apply history_log|].
  repeat apply returns_and;
    [apply history_newest|apply history_newest|apply history_newest|apply history_newest
    |apply (history_kept (dmd_do sqrt tls el argsort eig) decomp_of)
    |apply (history_kept (dmd_do sqrt tls el argsort eig) dh_corr)
    |apply (history_kept (dmd_do sqrt tls el argsort eig) dh_cross)
    |apply (history_kept (dmd_do sqrt tls el argsort eig) dh_adv_corr)];
    intros o1 c; (eapply returns_mono; [|apply dmd_step]); cbn beta; intros p H; apply H.
Qed.
End Proofs.

(** ** Executions *)

Section Runs.
Context {F : sfield} {V : Type} (S : space F V).

Lemma ok_returns {A} (R : A -> Prop) (h : hprog F A) : forall st Q,
  ok S st h Q -> returns R h -> ok S st h (fun st' r => Q st' r /\ match r with Ok a => R a | Raise _ => True end).
Proof.
  induction h as [a|e|rows cols k IH|vecs k IH|call k IH|sums basis coeff idx k IH];
    intros st Q H HR; simpl in *; auto.
  - destruct H as (rv & cv & H1 & H2 & H3 & H4 & H5). exists rv, cv. do 4 (split; [auto|]). auto.
  - destruct H as (vs & H1 & H2 & H3). exists vs. do 2 (split; [auto|]). auto.
  - destruct H as (l & H1 & H2). exists l. auto.
  - destruct (lin_coeffs _ _ _ _); auto. destruct H as (bv & H1 & H2 & H3 & H4 & H5).
    exists bv. do 4 (split; [auto|]). intros st' Hw. auto.
Qed.
(** What [C67_pod], [C67_bpod] and [C67_dmd] say of every value that may be returned holds
    at the end of every execution on P processes, on all of them. *)
Theorem C67_runs {A} limit P tag_ub eager (R : A -> Prop) (h : hprog F A) st Q :
  ip_space S -> set_up limit P tag_ub S -> ok S st h Q -> returns R h ->
  runs S P tag_ub eager st h (fun st' r => Q st' r /\ match r with Ok a => R a | Raise _ => True end).
Proof. intros HS Hu H HR. eapply ok_runs; eauto using ok_returns. Qed.

(** The coefficients of one decomposition stay when another one is computed. *)
Theorem C67_stale limit P tag_ub eager sqrt el argsort o vecs vs vecs' vs' st atol rtol atol' rtol' E U E' U' pc :
  ip_space S -> set_up limit P tag_ub S ->
  holds st vecs vs -> vecs <> [] -> holds st vecs' vs' -> vecs' <> [] ->
  eigh el argsort (gram S vs vs) atol rtol true = Ok (E, U) ->
  eigh el argsort (gram S vs' vs') atol' rtol' true = Ok (E', U') ->
  dot (diag (map sqrt E)) (conj_T U) = Ok pc ->
  runs S P tag_ub eager st
    (history (pod_do sqrt el argsort) [PDecomp vecs atol rtol; PCoeffs; PDecomp vecs' atol' rtol'] o [])
    (fun st' r => st' = st /\ rmap fst r = Ok (PodObj (Some E') (Some U') (Some vecs') (Some (gram S vs' vs')) (Some pc))).
Proof.
  intros HS Hu Hv Nv Hv' Nv' HE HE' Hpc. apply (ok_runs S limit); auto.
  cbn [history pod_do]. unfold POD_decomp, POD_eigendecomp, POD_proj_coeffs.
  repeat apply ok_bind. eapply ok_symm; [exact Hv|exact Nv|]. cbn [ph_corr].
  eapply ok_eigh; [exact HE|]. cbn.
  repeat apply ok_bind. rewrite Hpc. cbn.
  exists vs'. split; [exact Hv'|]. split; [exact Nv'|].
  exists [InnerProdModel.IVec E'; pack U']. rewrite HE'. split; [reflexivity|]. destruct U'. cbn. auto.
Qed.
End Runs.

(** ** Examples *)

Open Scope k_scope.
Section Examples.
Definition hs_el (C : arr QI) : res (list QI * arr QI) :=
  if (nr C =? 2)%nat then Ok (ex_cw, ex_cV) else Ok ([NdArray.ent C 0%nat 0%nat], of_rows 1 [[q 1]]).
Definition hs_argsort (w : list QI) : list nat := seq 0 (length w).
Definition hs_do := pod_do ex_sqrt hs_el hs_argsort.

Definition hs_vs : list (nat -> QI) := [fun i => NdArray.ent ex_D i 0%nat; fun i => NdArray.ent ex_D i 1%nat].
Definition hs_pc : arr QI := of_rows 2 [[q 2 * qi 3 0 5; q 2 * qi 0 (-4) 5]; [qi 0 (-4) 5; qi 3 0 5]].
Lemma aeqb_aeq (A B : arr QI) : aeqb A B = true -> aeq A B.
Proof.
  unfold aeqb. intros H. apply andb_prop in H. destruct H as [H H3]. apply andb_prop in H. destruct H as [H1 H2].
  apply Nat.eqb_eq in H1, H2. split; [exact H1|]. split; [exact H2|]. apply meqb_true. exact H3.
Qed.
Lemma is_ok_ex {A} (f : A -> bool) (r : res A) :
  match r with Ok a => f a | Raise _ => false end = true -> exists a, r = Ok a /\ f a = true.
Proof. destruct r as [a|]; [eauto|discriminate]. Qed.

(** The coefficients of two vectors, kept beside the decomposition of one: put_proj_coeffs
    then writes a two by two array. *)
Example C67_stale_example eager : exists E' U' C' pc,
  runs podh_space 2 10 eager podh_store
    (history hs_do [PDecomp [1; 2]%nat (Some (qi 1 0 1000)) None; PCoeffs; PDecomp [2]%nat (Some (qi 1 0 1000)) None] POD_new [])
    (fun st' r => st' = podh_store /\ rmap fst r = Ok (PodObj (Some E') (Some U') (Some [2]%nat) (Some C') (Some pc))) /\
  length E' = 1%nat /\ aeq pc hs_pc.
Proof.
  destruct (is_ok_ex (fun p => match dot (diag (map ex_sqrt (fst p))) (conj_T (snd p)) with Ok pc => aeqb pc hs_pc | _ => false end)
    (eigh hs_el hs_argsort (gram podh_space hs_vs hs_vs) (Some (qi 1 0 1000)) None true)) as ((E & U) & H1 & Hp);
    [vm_compute; reflexivity|].
  destruct (is_ok_ex _ _ Hp) as (pc & Hpc & T). cbn [fst snd] in *.
  destruct (is_ok_ex (fun p => (length (fst p) =? 1)%nat)
    (eigh hs_el hs_argsort (gram podh_space (tl hs_vs) (tl hs_vs)) (Some (qi 1 0 1000)) None true)) as ((E' & U') & H2 & L);
    [vm_compute; reflexivity|].
  exists E', U', (gram podh_space (tl hs_vs) (tl hs_vs)), pc. split; [|split].
  - eapply (C67_stale podh_space (Some 1%Z) 2 10 eager ex_sqrt hs_el hs_argsort POD_new [1; 2]%nat hs_vs [2]%nat (tl hs_vs) podh_store
      (Some (qi 1 0 1000)) None (Some (qi 1 0 1000)) None E U E' U' pc).
    + exact podh_ip.
    + exact podh_set_up.
    + repeat constructor.
    + clear. discriminate.
    + repeat constructor.
    + clear. discriminate.
    + exact H1.
    + exact H2.
    + exact Hpc.
  - apply Nat.eqb_eq, L.
  - apply aeqb_aeq, T.
Qed.

Lemma newest_calls {C R X : Type} (f : C -> option X) (log : list (C * R)) calls x :
  map fst log = rev calls -> newest (fun e => f (fst e)) log x = newest f (rev calls) x.
Proof. intros <-. induction log as [|e log IH]; [reflexivity|]. cbn [newest map]. rewrite IH. reflexivity. Qed.

(** The vectors that compute_modes is given replace those of compute_decomp; get_decomp
    leaves the correlation array; the coefficients are those that get_proj_coeffs read. *)
Example C67_pod_example (E : list QI) (V c : arr QI) (o : pod_obj QI) :
  returns (fun p => ph_vecs (fst p) = Some [3; 4]%nat /\ ph_corr (fst p) = ph_corr o)
    (history hs_do [PEigen None None; PModes None [10]%nat (Some [3; 4]%nat); PGetCoeffs c; PModes None [10]%nat None; PGet E V] o []).
Proof.
  eapply returns_mono; [|apply C67_pod]. cbv zeta beta. intros p (H1 & H2 & _ & _ & H3). split; [|exact (H3 eq_refl)].
  rewrite H2, (newest_calls _ _ _ _ H1). reflexivity.
Qed.
Example C67_runs_example eager : 
  runs podh_space 2 10 eager podh_store
    (history hs_do [PGetCoeffs hs_pc; PDecomp [1; 2]%nat (Some (qi 1 0 1000)) None] POD_new [])
    (fun st' r => (st' = podh_store /\ rmap (fun _ => tt) r = Ok tt) /\
       match r with Ok p => ph_vecs (fst p) = Some [1; 2]%nat | Raise _ => True end).
Proof.
  apply (C67_runs podh_space (Some 1%Z) 2 10 eager (fun p => ph_vecs (fst p) = Some [1; 2]%nat)).
  - exact podh_ip.
  - exact podh_set_up.
  - destruct (is_ok_ex (fun _ => true)
      (eigh hs_el hs_argsort (gram podh_space hs_vs hs_vs) (Some (qi 1 0 1000)) None true)) as ((E & U) & H1 & _);
      [vm_compute; reflexivity|].
    cbn [history]. unfold hs_do. cbn [pod_do hbind]. unfold POD_decomp, POD_eigendecomp. repeat apply ok_bind.
    apply (ok_symm podh_space [1; 2]%nat hs_vs); [repeat constructor|clear; discriminate|]. cbn [ph_corr].
    eapply ok_eigh; [exact H1|]. cbn. auto.
  - eapply returns_mono; [|apply C67_pod]. cbv zeta beta. intros p (H1 & H2 & _).
    rewrite H2, (newest_calls _ _ _ _ H1). reflexivity.
Qed.
(** New direct vectors for the direct modes; the Hankel matrix stays that of the decomposition. *)
Example C67_bpod_example lapack (o : bpod_obj QI) (c : arr QI) :
  returns (fun p => bh_direct (fst p) = Some [5; 6]%nat /\ bh_adjoint (fst p) = bh_adjoint o /\
      (bh_L (fst p), bh_R (fst p), bh_sing_vals (fst p)) = (bh_L o, bh_R o, bh_sing_vals o) /\ bh_Hankel (fst p) = bh_Hankel o)
    (history (bpod_do ex_sqrt lapack) [BDirect None [10]%nat (Some [5; 6]%nat); BDirectCoeffs; BAdjoint None [11]%nat None; BGetAdjoint c] o []).
Proof.
  eapply returns_mono; [|apply C67_bpod]. cbv zeta beta. intros p (H1 & H2 & H3 & _ & _ & H4 & H5).
  split; [rewrite H2, (newest_calls _ _ _ _ H1); reflexivity|].
  split; [rewrite H3, (newest_calls _ _ _ _ H1); reflexivity|]. split; [exact (H4 eq_refl)|exact (H5 eq_refl)].
Qed.
(** get_decomp then compute_proj_coeffs: the cross-correlation array is the one that the
    object had before. *)
Example C67_dmd_example tls el argsort eig (o : dmd_obj QI) w R L E V sum s :
  returns (fun p => dh_cross (fst p) = dh_cross o /\ dh_vecs (fst p) = Some [7]%nat /\ dh_adv (fst p) = Some [8]%nat)
    (history (dmd_do ex_sqrt tls el argsort eig)
       [DGet w R L E V sum; DProj None [10]%nat (Some [7]%nat); DExact None [11]%nat (Some [8]%nat); DCoeffs; DGetSpectral s] o []).
Proof.
  eapply returns_mono; [|apply C67_dmd]. cbv zeta beta. intros p (H1 & H2 & H3 & _ & _ & _ & _ & H4 & _).
  split; [exact (H4 eq_refl)|].
  split; [rewrite H2, (newest_calls _ _ _ _ H1); reflexivity|rewrite H3, (newest_calls _ _ _ _ H1); reflexivity].
Qed.
End Examples.

Print Assumptions C67_pod.
Print Assumptions C67_bpod.
Print Assumptions C67_dmd.
Print Assumptions C67_runs.
Print Assumptions C67_stale.
