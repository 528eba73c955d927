(** Property C25: which vectors a DMD handle object uses after a history of calls, and
    the part of C26 about DMDHandles. *)
From stdpp Require Import gmap list.
From Coq Require Import ZArith Lia Field Ring Setoid Morphisms.
From Verif Require Import Prelude Field FieldInst Matrix NdArray DecompModel DecompProofs DecompProps
  VSArraysModel VSArraysProofs PodModel PodProofs PodProps BpodModel DmdModel DmdProofs DmdCore DmdSnaps DmdProps
  TlsModel TlsProofs TlsProps
  Spmd InnerProdModel LinCombModel InnerProdProps HandlesModel HandlesProofs HandlesSpace DmdHandlesModel DmdHandlesProofs
  DmdHandlesModes DmdHandlesDecomp DmdHandlesProps.
Open Scope nat_scope.
Open Scope k_scope.

(** A call of a method of a DMDHandles or TLSqrDMDHandles object. *)
Inductive dmd_call (F : sfield) :=
| CDecomp (vecs : list loc) (adv : option (list loc)) (atol rtol : option F) (mx : option nat)
| CExact (idx : option col_index) (hs : list loc) (adv : option (list loc))
| CProj (idx : option col_index) (hs : list loc) (vecs : option (list loc))
| CAdjoint (idx : option col_index) (hs : list loc) (vecs : option (list loc))
| CSpectrum
| CCoeffs.
Arguments CDecomp {F}. Arguments CExact {F}. Arguments CProj {F}. Arguments CAdjoint {F}.
Arguments CSpectrum {F}. Arguments CCoeffs {F}.

Section History.
Context {F : sfield}.
Context (tls : bool) (el : arr F -> res (list F * arr F)) (argsort : list F -> list nat)
  (eig : arr F -> res (list F * arr F * arr F)) (sqrt : F -> F).

Definition do_call (o : dmd_obj F) (c : dmd_call F) : hprog F (dmd_obj F) :=
  match c with
  | CDecomp v a atol rtol mx => if tls then TLS_decomp el argsort eig sqrt o v a atol rtol mx
                                else DMD_decomp el argsort eig sqrt o v a atol rtol mx
  | CExact idx hs a => DMD_exact_modes tls sqrt o idx hs a
  | CProj idx hs v => DMD_proj_modes tls sqrt o idx hs v
  | CAdjoint idx hs v => DMD_adjoint_modes tls sqrt o idx hs v
  | CSpectrum => hbind (DMD_spectrum sqrt o) (fun r => HRet (fst r))
  | CCoeffs => hbind (DMD_proj_coeffs tls sqrt o) (fun r => HRet (fst r))
  end.
Fixpoint do_calls (o : dmd_obj F) (cs : list (dmd_call F)) : hprog F (dmd_obj F) :=
  match cs with
  | [] => HRet o
  | c :: cs => hbind (do_call o c) (fun o => do_calls o cs)
  end.

(** The vectors the caller means: those of the latest decomposition, or given to a
    method since; and whether a call gives advanced vectors. *)
Definition meant_step (cur : option (list loc) * option (list loc)) (c : dmd_call F)
    : option (list loc) * option (list loc) :=
  match c with
  | CDecomp v a _ _ _ => (Some v, a)
  | CExact _ _ (Some a) => (fst cur, Some a)
  | CProj _ _ (Some v) | CAdjoint _ _ (Some v) => (Some v, snd cur)
  | _ => cur
  end.
Definition meant (cs : list (dmd_call F)) : option (list loc) * option (list loc) :=
  fold_left meant_step cs (None, None).
Definition gives_adv (c : dmd_call F) : bool :=
  match c with CDecomp _ (Some _) _ _ _ | CExact _ _ (Some _) => true | _ => false end.

(** No sequential decomposition follows a call that gives advanced vectors. *)
Definition settled (cs : list (dmd_call F)) : Prop :=
  forall cs1 v atol rtol mx cs2, cs = cs1 ++ CDecomp v None atol rtol mx :: cs2 ->
    Forall (fun c => gives_adv c = false) cs1.

(** The advanced vectors meant. *)
Definition advanced (cur : option (list loc) * option (list loc)) : option (list loc) :=
  match cur with
  | (_, Some a) => Some a
  | (Some v, None) => Some (tl v)
  | (None, None) => None
  end.

(** Every linear combination formed satisfies [Q sums basis]. *)
Fixpoint combines {A} (Q : list loc -> list loc -> Prop) (h : hprog F A) : Prop :=
  match h with
  | HRet _ | HFail _ => True
  | HIp _ _ k | HSymm _ k => forall a, combines Q (k a)
  | HCall _ k => forall l, combines Q (k l)
  | HLin sums basis _ _ k => Q sums basis /\ combines Q k
  end.

Lemma do_calls_app o cs c : forall Q, returns (fun o => returns Q (do_call o c)) (do_calls o cs) ->
  returns Q (do_calls o (cs ++ [c])).
Proof.
  revert o. induction cs as [|c0 cs IH]; intros o Q H; simpl in *.
  - apply (returns_bind Q); auto.
  - revert H. generalize (do_call o c0). induction h; simpl; auto.
Qed.

Lemma combines_bind {A B} Q (h : hprog F A) (f : A -> hprog F B) :
  combines Q h -> (forall a, combines Q (f a)) -> combines Q (hbind h f).
Proof. induction h; simpl; auto. intros [? ?] ?. auto. Qed.
Lemma combines_lift {A} Q (r : res A) : combines Q (hlift r).
Proof. destruct r; exact I. Qed.
Lemma combines_need {A} Q e (x : option A) : combines Q (need e x).
Proof. destruct x; exact I. Qed.
Lemma build_combines Q o B : combines Q (build_exact tls sqrt o) /\ combines Q (build_coeffs tls sqrt o B).
Proof.
  split; [unfold build_exact|unfold build_coeffs];
    repeat (apply combines_bind; [first [apply combines_lift|apply combines_need|
      destruct tls; [apply combines_need|exact I]]|intros ?]); apply combines_lift.
Qed.

Definition holds_handles (cur : option (list loc) * option (list loc)) (o : dmd_obj F) : Prop :=
  dh_vecs o = fst cur /\ dh_adv o = snd cur.

(** The object holds the vectors meant. *)
Lemma step_holds cur o c : holds_handles cur o ->
  (forall v atol rtol mx, c = CDecomp v None atol rtol mx -> snd cur = None) ->
  returns (holds_handles (meant_step cur c)) (do_call o c).
Proof.
  intros [H1 H2] Hs.
  assert (EX : forall idx hs a, returns (holds_handles (meant_step cur (CExact idx hs a))) (DMD_exact_modes tls sqrt o idx hs a)).
  { intros idx hs a. unfold DMD_exact_modes. apply returns_all. intros B.
    destruct a as [a|]; cbn [set_handles dh_adv dh_vecs meant_step].
    - simpl. split; auto.
    - rewrite H1, H2. destruct cur as [[v|] [a|]]; simpl in *; try exact I; try (split; auto; fail).
      destruct (_ =? _)%nat; simpl; [split; auto|exact I]. }
  assert (MO : forall o' cur' B idx hs, holds_handles cur' o' -> returns (holds_handles cur') (DMD_modes_of tls sqrt o' B idx hs)).
  { intros o' cur' B idx hs Ho. unfold DMD_modes_of. do 2 (apply returns_all; intros ?).
    do 2 (destruct (_ =? _)%nat; simpl; auto). }
  destruct c as [v a atol rtol mx|idx hs a|idx hs v|idx hs v| |]; simpl do_call.
  - assert (EA : adv_after o a = a).
    { destruct a as [a|]; simpl; auto. rewrite H2. eapply Hs. reflexivity. }
    destruct (returns_decomp el argsort eig sqrt o v a atol rtol mx) as [A B]. rewrite EA in *.
    destruct tls; [exact B|exact A].
  - apply EX.
  - unfold DMD_proj_modes. apply MO. destruct v; split; auto.
  - unfold DMD_adjoint_modes. apply MO. destruct v; split; auto.
  - apply (returns_bind (fun r => holds_handles cur (fst r))); [|intros r Hr; exact Hr].
    unfold DMD_spectrum. do 4 (apply returns_all; intros ?). split; auto.
  - apply (returns_bind (fun r => holds_handles cur (fst r))); [|intros r Hr; exact Hr].
    unfold DMD_proj_coeffs. do 7 (apply returns_all; intros ?). split; auto.
Qed.

Lemma meant_no_adv cs : Forall (fun c => gives_adv c = false) cs -> snd (meant cs) = None.
Proof.
  induction cs as [|c cs IH] using rev_ind; intros H; [reflexivity|].
  apply Forall_app in H. destruct H as [H1 H2]. inversion H2 as [|? ? Hc _]; subst.
  unfold meant in *. rewrite fold_left_app. simpl. specialize (IH H1).
  destruct c as [v [a|] ? ? ?|idx hs [a|]|idx hs [v|]|idx hs [v|]| |]; simpl in *; auto; discriminate.
Qed.

Lemma settled_app cs c : settled (cs ++ [c]) -> settled cs.
Proof.
  intros H cs1 v atol rtol mx cs2 E. apply (H cs1 v atol rtol mx (cs2 ++ [c])).
  rewrite E, <- app_assoc. reflexivity.
Qed.

(** C25: after any settled history, the object holds the vectors meant... *)
Theorem C25_history cs : settled cs -> returns (holds_handles (meant cs)) (do_calls DMD_new cs).
Proof.
  induction cs as [|c cs IH] using rev_ind; intros H; [split; reflexivity|].
  apply do_calls_app. pose proof (IH (settled_app _ _ H)) as H1.
  assert (G : forall Q R (h : hprog F (dmd_obj F)), returns Q h -> (forall o, Q o -> R o : Prop) -> returns R h).
  { intros Q R h. induction h; simpl; auto. }
  apply (G (holds_handles (meant cs))); [exact H1|]. intros o Ho.
  unfold meant. rewrite fold_left_app. simpl. apply step_holds; auto.
  intros v atol rtol mx ->. apply meant_no_adv. apply (H cs v atol rtol mx []). reflexivity.
Qed.

(** ... so exact modes combine the advanced vectors meant, and projected and adjoint
    modes the vectors meant. *)
Theorem C25_exact cs idx hs : settled cs ->
  returns (fun o => combines (fun sums basis => sums = hs /\ Some basis = advanced (meant cs))
                      (do_call o (CExact idx hs None))) (do_calls DMD_new cs).
Proof.
  intros H. pose proof (C25_history cs H) as H1.
  assert (G : forall Q R (h : hprog F (dmd_obj F)), returns Q h -> (forall o, Q o -> R o : Prop) -> returns R h).
  { intros Q R h. induction h; simpl; auto. }
  apply (G _ _ _ H1). intros o [Hv Ha]. simpl do_call. unfold DMD_exact_modes.
  apply combines_bind; [apply build_combines; exact None|]. intros B. rewrite Hv, Ha.
  destruct (meant cs) as [[v|] [a|]]; simpl; auto.
  destruct (_ =? _)%nat; simpl; auto.
Qed.
Theorem C25_proj cs idx hs c : settled cs -> c = CProj idx hs None \/ c = CAdjoint idx hs None ->
  returns (fun o => combines (fun sums basis => sums = hs /\
                      exists v, fst (meant cs) = Some v /\ (basis = v \/ basis = removelast v))
                      (do_call o c)) (do_calls DMD_new cs).
Proof.
  intros H Hc. pose proof (C25_history cs H) as H1.
  assert (G : forall Q R (h : hprog F (dmd_obj F)), returns Q h -> (forall o, Q o -> R o : Prop) -> returns R h).
  { intros Q R h. induction h; simpl; auto. }
  apply (G _ _ _ H1). intros o [Hv Ha].
  assert (K : forall B, combines (fun sums basis => sums = hs /\
    exists v, fst (meant cs) = Some v /\ (basis = v \/ basis = removelast v)) (DMD_modes_of tls sqrt o B idx hs)).
  { intros B. unfold DMD_modes_of. apply combines_bind; [apply build_combines|]. intros M. rewrite Hv.
    destruct (fst (meant cs)) as [v|]; [|exact I]. cbn [need hbind].
    destruct (_ =? _)%nat; [simpl; eauto 6|]. destruct (_ =? _)%nat; simpl; eauto 6. }
  destruct Hc as [-> | ->]; simpl do_call; apply K.
Qed.

(** Any history: a sequential decomposition keeps the advanced vectors the object had
    before, and exact modes combine those. *)
Theorem C25_stale o v atol rtol mx idx hs a : dh_adv o = Some a ->
  returns (fun o' => combines (fun sums basis => sums = hs /\ basis = a) (do_call o' (CExact idx hs None)))
    (do_call o (CDecomp v None atol rtol mx)).
Proof.
  intros Ha.
  assert (H1 : returns (with_handles v (Some a)) (do_call o (CDecomp v None atol rtol mx))).
  { destruct (returns_decomp el argsort eig sqrt o v None atol rtol mx) as [A B]. simpl adv_after in *. rewrite Ha in *.
    simpl do_call. destruct tls; [exact B|exact A]. }
  assert (G : forall Q R (h : hprog F (dmd_obj F)), returns Q h -> (forall o, Q o -> R o : Prop) -> returns R h).
  { intros Q R h. induction h; simpl; auto. }
  apply (G _ _ _ H1). intros o' [Hv' Ha']. simpl do_call. unfold DMD_exact_modes.
  apply combines_bind; [apply build_combines; exact None|]. intros B. rewrite Hv', Ha'. simpl. auto.
Qed.

End History.

Section Runs.
Context {F : sfield} {V : Type} (S : space F V) (HS : ip_space S).

(** Mismatched numbers of vectors. *)
Theorem C25_count tls limit P tag_ub eager el argsort eig sqrt (o : dmd_obj F) vecs adv st atol rtol mx :
  set_up limit P tag_ub S -> length vecs <> length adv ->
  runs S P tag_ub eager st (do_call tls el argsort eig sqrt o (CDecomp vecs (Some adv) atol rtol mx))
    (fun st' r => st' = st /\ r = Raise ValueError).
Proof.
  intros Hup Hne.
  assert (E : do_call tls el argsort eig sqrt o (CDecomp vecs (Some adv) atol rtol mx) = HFail ValueError).
  { simpl. unfold TLS_decomp, DMD_decomp, DMD_set_handles. rewrite (proj2 (Nat.eqb_neq _ _) Hne). destruct tls; reflexivity. }
  rewrite E. apply (ok_runs S limit); auto. split; reflexivity.
Qed.

(** An object whose advanced vectors are [a], whatever its vectors: its exact modes are
    combinations of the vectors at [a]. *)
Theorem C25_stale_modes limit P tag_ub eager sqrt (o : dmd_obj F) a av m w R L E U K st ei eh :
  set_up limit P tag_ub S -> dh_adv o = Some a -> holds st a av -> length av = m -> (0 < m)%nat ->
  dh_eigvals o = Some w -> dh_R o = Some R -> dh_cvals o = Some E -> dh_cvecs o = Some U ->
  nr U = m -> nc U = length E -> nr R = length E -> nc R = length E -> length w = length E ->
  nr L = length E -> nc L = length E -> nr K = m -> nc K = m -> dh_L o = Some L -> dh_cross o = Some K ->
  length eh = length ei -> NoDup eh -> (forall h, h ∈ a -> h ∉ eh) ->
  forall ejs, wrap_all (length E) ei = Ok ejs ->
  runs S P tag_ub eager st (DMD_exact_modes false sqrt o (Some (Cols ei)) eh None)
    (fun st' r => r = Ok o /\ unchanged_but st st' eh /\
      exists ems, holds st' eh ems /\ forall b d, b < length ejs -> at1 w (nth b ejs O) <> 0 ->
        combination S av (fun i => mode_coeffs sqrt m mid E (NdArray.ent U) (NdArray.ent R) i (nth b ejs O)
                                   * (1 / at1 w (nth b ejs O))) (nth b ems d)).
Proof.
  intros Hup Ha Hav La Hm Ow OR OE OU Ur Uc R1 R2 Lw L1 L2 Kr Kc OL OK_ Le Hnd Hdis ejs Hej.
  destruct (build_exact_ok false sqrt o m w R L E U (eye 0) K) as (be & Hbe & be1 & be2 & be3); auto; try discriminate.
  apply (ok_runs S limit); auto.
  unfold DMD_exact_modes. rewrite Hbe. cbn [hbind]. rewrite Ha.
  assert (Na : a <> []) by (intros ->; inversion Hav; subst; simpl in Hm; lia).
  apply (ok_combine S eh a be ei av); auto; [rewrite be1, (Forall2_length _ _ _ Hav); auto|intros h Hh Hin; apply (Hdis h); auto|].
  rewrite be2, Hej. intros st1 ems Lej Hej' Hems Lems Heco Hun1. cbn [ok].
  split; [reflexivity|]. split; [exact Hun1|]. exists ems. split; [exact Hems|].
  intros b d Hb Hw. eapply combination_ext; [|apply (Heco b d); congruence].
  assert (JE : nth b ejs O < length E) by (apply nth_js; auto).
  intros i Hi. unfold mcols. rewrite La in Hi. rewrite (meq_at _ _ _ _ be3 i _ Hi JE).
  rewrite (meq_at _ _ _ _ (mmul_diag_r m (length E) _ _) i _ Hi JE). reflexivity.
Qed.

(** C26: the relative tolerance given to compute_decomp has no effect. *)
Theorem C26_handles_rtol tls el argsort eig sqrt (o : dmd_obj F) vecs adv atol rtol rtol' mx :
  do_call tls el argsort eig sqrt o (CDecomp vecs adv atol rtol mx)
  = do_call tls el argsort eig sqrt o (CDecomp vecs adv atol rtol' mx).
Proof. reflexivity. Qed.
End Runs.

(** ** Examples *)

Definition ex_d1 : dmd_call QI := CDecomp [1]%nat (Some [2]%nat) None None None.
Definition ex_d2 : dmd_call QI := CDecomp [3; 4]%nat None None None None.

(** C25 is false without the restriction: after a split and then a sequential
    decomposition exact modes combine the advanced vectors of the first. *)
Theorem C25_refuted : exists (cs : list (dmd_call QI)) hs,
  ~ (forall el argsort eig sqrt idx,
      returns (fun o => combines (fun sums basis => sums = hs /\ Some basis = advanced (meant cs))
                          (do_call false el argsort eig sqrt o (CExact idx hs None)))
        (do_calls false el argsort eig sqrt DMD_new cs)).
Proof.
  exists [ex_d1; ex_d2], [9]%nat. intros H.
  specialize (H (fun _ => Raise LinAlgError) (fun _ => []) (fun _ => Raise LinAlgError) (fun x => x) None).
  cbn in H. specialize (H (eye 1) (eye 1) [IVec [q 1]; IArr 1 1 mid]).
  cbn in H. specialize (H [IVec [q 1]; IArr 1 1 mid; IArr 1 1 mid]).
  cbn in H. specialize (H (eye 2) [IVec [q 1]; IArr 1 1 mid]).
  cbn in H. specialize (H [IVec [q 1]; IArr 1 1 mid; IArr 1 1 mid]).
  cbn in H. destruct H as ((_ & H) & _). discriminate.
Qed.

Example C25_example : settled [ex_d2; ex_d1; CExact None [9]%nat None] /\
  meant [ex_d2; ex_d1; CExact None [9]%nat None] = (Some [1]%nat, Some [2]%nat) /\ ~ settled [ex_d1; ex_d2].
Proof.
  split; [|split; [reflexivity|]].
  - intros [|c1 [|c2 [|c3 [|c4 cs]]]] v atol rtol mx cs2 E; simpl in E; inversion E; subst; auto.
  - intros H. specialize (H [ex_d1] [3; 4]%nat None None None [] eq_refl). inversion H. discriminate.
Qed.

Example C25_history_example tls el argsort eig sqrt :
  returns (holds_handles (Some [1]%nat, Some [2]%nat))
    (do_calls tls el argsort eig sqrt DMD_new [ex_d2; ex_d1; CExact None [9]%nat None]).
Proof.
  apply (C25_history tls el argsort eig sqrt [ex_d2; ex_d1; CExact None [9]%nat None]). apply C25_example.
Qed.

Example C25_exact_example tls el argsort eig sqrt :
  returns (fun o => combines (fun sums basis => sums = [7; 8]%nat /\ Some basis = Some [2]%nat)
             (do_call tls el argsort eig sqrt o (CExact (Some (Cols [0; 1]%Z)) [7; 8]%nat None)))
    (do_calls tls el argsort eig sqrt DMD_new [ex_d2; ex_d1; CExact None [9]%nat None]).
Proof.
  apply (C25_exact tls el argsort eig sqrt [ex_d2; ex_d1; CExact None [9]%nat None]). apply C25_example.
Qed.

Example C25_proj_example tls el argsort eig sqrt :
  returns (fun o => combines (fun sums basis => sums = [7]%nat /\
             exists v, Some [1]%nat = Some v /\ (basis = v \/ basis = removelast v))
             (do_call tls el argsort eig sqrt o (CAdjoint (Some (Cols [0]%Z)) [7]%nat None)))
    (do_calls tls el argsort eig sqrt DMD_new [ex_d2; ex_d1; CExact None [9]%nat None]).
Proof.
  apply (C25_proj tls el argsort eig sqrt [ex_d2; ex_d1; CExact None [9]%nat None] (Some (Cols [0]%Z)) [7]%nat);
    [apply C25_example|right; reflexivity].
Qed.

Example C26_handles_rtol_example el argsort eig sqrt :
  do_call false el argsort eig sqrt (DMD_new (F := QI))
    (CDecomp [3; 4]%nat None (Some (qi 1 0 8)) (Some (qi 1 0 2)) (Some 1%nat))
  = do_call false el argsort eig sqrt DMD_new (CDecomp [3; 4]%nat None (Some (qi 1 0 8)) None (Some 1%nat)).
Proof. apply C26_handles_rtol. Qed.

Print Assumptions C25_history.
Print Assumptions C25_exact.
Print Assumptions C25_proj.
Print Assumptions C25_stale.
Print Assumptions C25_count.
Print Assumptions C25_stale_modes.
Print Assumptions C25_refuted.
Print Assumptions C26_handles_rtol.
