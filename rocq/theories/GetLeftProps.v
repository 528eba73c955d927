(** Property C67, for get methods that raise: what they leave, and which call the
    attributes come from after any sequence of calls with them. *)
From stdpp Require Import gmap list.
From Coq Require Import ZArith Lia.
From Verif Require Import Prelude Field FieldInst Matrix NdArray DecompModel DecompProofs DecompProps VSArraysModel VSArraysProofs
  PodModel PodProofs PodProps BpodModel HankelModel DmdModel DmdProofs DmdCore TlsModel Spmd LinCombModel InnerProdProps
  HandlesModel HandlesProofs HandlesSpace HandlesExamples PodHandlesModel BpodHandlesModel DmdHandlesModel DmdHandlesProofs
  TlsExamples DmdExamples PodHandlesProps ModesProps LeftModel LeftProps HistoryModel HistoryProps CaughtModel CaughtProps GetLeftModel.
Open Scope nat_scope.

Section Proofs.
Context {F : sfield} (sqrt : F -> F).

(** The new value if it and all before it could be read, the old one otherwise. *)
Definition read {X} (before : bool) (r : res X) (old : option X) : option X :=
  match r with Ok x => if before then Some x else old | Raise _ => old end.
(** The first exception. *)
Fixpoint first_exn (l : list (option exn)) : res unit :=
  match l with [] => Ok tt | Some e :: _ => Raise e | None :: l => first_exn l end.
Definition exn_of {X} (r : res X) : option exn := match r with Ok _ => None | Raise e => Some e end.

(** ** One call *)

(** The eigenvalues are new as soon as their source could be read, the eigenvectors only if
    both could. *)
Theorem C67_pod_get (o : pod_obj F) a b :
  pod_get_left o (PRead a b) =
    (PodObj (read true a (ph_eigvals o)) (read (is_ok a) b (ph_eigvecs o)) (ph_vecs o) (ph_corr o) (ph_coeffs o),
     first_exn [exn_of a; exn_of b]).
Proof. destruct o, a, b; reflexivity. Qed.
Theorem C67_bpod_get (o : bpod_obj F) a b c :
  bpod_get_left o (BRead a b c) =
    (BpodObj (read (is_ok a) b (bh_L o)) (read (is_ok a && is_ok b) c (bh_R o)) (read true a (bh_sing_vals o))
       (bh_Hankel o) (bh_direct o) (bh_adjoint o) (bh_direct_coeffs o) (bh_adjoint_coeffs o),
     first_exn [exn_of a; exn_of b; exn_of c]).
Proof. destruct o, a, b, c; reflexivity. Qed.
Theorem C67_dmd_get (o : dmd_obj F) w R L Es Vs E V :
  dmd_get_left false o w R L Es Vs E V =
    (DmdObj (read true w (dh_eigvals o)) (read (is_ok w) R (dh_R o)) (read (is_ok w && is_ok R) L (dh_L o))
       (read (is_ok w && is_ok R && is_ok L) E (dh_cvals o))
       (read (is_ok w && is_ok R && is_ok L && is_ok E) V (dh_cvecs o)) (dh_svals o) (dh_svecs o)
       (dh_corr o) (dh_cross o) (dh_adv_corr o) (dh_vecs o) (dh_adv o) (dh_spec o) (dh_coeffs o),
     first_exn [exn_of w; exn_of R; exn_of L; exn_of E; exn_of V]).
Proof. destruct o, w, R, L, E, V; reflexivity. Qed.
Theorem C67_tls_get (o : dmd_obj F) w R L Es Vs E V :
  dmd_get_left true o w R L Es Vs E V =
    (DmdObj (read true w (dh_eigvals o)) (read (is_ok w) R (dh_R o)) (read (is_ok w && is_ok R) L (dh_L o))
       (read (is_ok w && is_ok R && is_ok L && is_ok Es && is_ok Vs) E (dh_cvals o))
       (read (is_ok w && is_ok R && is_ok L && is_ok Es && is_ok Vs && is_ok E) V (dh_cvecs o))
       (read (is_ok w && is_ok R && is_ok L) Es (dh_svals o))
       (read (is_ok w && is_ok R && is_ok L && is_ok Es) Vs (dh_svecs o))
       (dh_corr o) (dh_cross o) (dh_adv_corr o) (dh_vecs o) (dh_adv o) (dh_spec o) (dh_coeffs o),
     first_exn [exn_of w; exn_of R; exn_of L; exn_of Es; exn_of Vs; exn_of E; exn_of V]).
Proof. destruct o, w, R, L, Es, Vs, E, V; reflexivity. Qed.
Theorem C67_get_coeffs (c : option (arr F) * option (arr F)) a b :
  dmd_get_coeffs_left c a b = (read true a (fst c), read (is_ok a) b (snd c), first_exn [exn_of a; exn_of b]).
Proof. destruct c, a, b; reflexivity. Qed.

(** With sources that can all be read, this is the call of HistoryModel.v. *)
Theorem C67_get_same distributed tls el argsort eig lapack (p : pod_obj F) (b : bpod_obj F) (o : dmd_obj F) w V s L R Es Vs E Vc :
  (pod_try_get sqrt distributed el argsort p (inr (PRead (Ok w) (Ok V))) =
   hbind (pod_do sqrt el argsort p (PGet w V)) (fun q => HRet (fst q, Ok (snd q)))) /\
  (bpod_try_get sqrt distributed lapack b (inr (BRead (Ok s) (Ok L) (Ok R))) =
   hbind (bpod_do sqrt lapack b (BGet s L R)) (fun q => HRet (fst q, Ok (snd q)))) /\
  (dmd_try_get sqrt distributed tls el argsort eig o (inr (DRead (Ok w) (Ok R) (Ok L) (Ok Es) (Ok Vs) (Ok E) (Ok Vc))) =
   hbind (dmd_do sqrt tls el argsort eig o (DGet w R L E Vc (Es, Vs))) (fun q => HRet (fst q, Ok (snd q)))).
Proof. destruct tls; repeat split. Qed.
(** A get method caught leaves the object of [pod_get_left] and its like, and reports the
    exception, if there is one. *)
Definition told {A B} (r : res A) (b : B) : res B := match r with Ok _ => Ok b | Raise e => Raise e end.
Theorem C67_get_told distributed tls el argsort eig lapack (p : pod_obj F) (b : bpod_obj F) (o : dmd_obj F) g h w R L Es Vs E Vc e :
  pod_try_get sqrt distributed el argsort p (inr g) = HRet (fst (pod_get_left p g), told (snd (pod_get_left p g)) None) /\
  bpod_try_get sqrt distributed lapack b (inr h) = HRet (fst (bpod_get_left b h), told (snd (bpod_get_left b h)) (None, None)) /\
  dmd_try_get sqrt distributed tls el argsort eig o (inr (DRead w R L Es Vs E Vc)) =
    HRet (fst (dmd_get_left tls o w R L Es Vs E Vc), told (snd (dmd_get_left tls o w R L Es Vs E Vc)) (None, None)) /\
  dmd_try_get sqrt distributed tls el argsort eig o (inr (DReadRaises e)) = HRet (o, Raise e).
Proof. repeat split. Qed.

(** ** Sequences *)

(** What a call of either kind gives, if it gives it. *)
Definition either {C G X} (f : C -> X) (g : G -> X) (c : C + G) : X := match c with inl c => f c | inr c => g c end.

(** POD: does the call set the eigenvalues, or the eigenvectors? *)
Definition pod_sets_vals {R} (e : (pod_call F + pod_get F) * res R) : bool :=
  match fst e with
  | inl c => pod_decomposes c && is_ok (snd e)
  | inr (PRead a _) => is_ok a
  | _ => false
  end.
Definition pod_sets_vecs {R} (e : (pod_call F + pod_get F) * res R) : bool :=
  match fst e with
  | inl c => pod_decomposes c && is_ok (snd e)
  | inr (PRead a b) => is_ok a && is_ok b
  | _ => false
  end.
Definition pod_coeffs (e : (pod_call F + pod_get F) * res (option (arr F))) : option (arr F) :=
  match fst e with
  | inl _ => got (fun x => x) (snd e)
  | inr (PReadCoeffs (Ok c)) => Some c
  | _ => None
  end.
Definition pod_corrs (c : pod_call F + pod_get F) : bool :=
  either pod_correlates (fun g => match g with PReadCorr r => is_ok r | _ => false end) c.
Lemma pod_try_get_step d el argsort (o : pod_obj F) c : returns (fun p =>
    ph_vecs (fst p) = match either pod_given (fun _ => None) c with Some v => Some v | None => ph_vecs o end /\
    ph_coeffs (fst p) = match pod_coeffs (c, snd p) with Some x => Some x | None => ph_coeffs o end /\
    (pod_sets_vals (c, snd p) = false -> ph_eigvals (fst p) = ph_eigvals o) /\
    (pod_sets_vecs (c, snd p) = false -> ph_eigvecs (fst p) = ph_eigvecs o) /\
    (pod_corrs c = false -> ph_corr (fst p) = ph_corr o)) (pod_try_get sqrt d el argsort o c).
Proof.
  destruct c as [c|[a b|r|r]]; cbn [pod_try_get].
  - eapply returns_mono; [|apply pod_try_step]. cbn beta. intros p (H1 & H2 & H3 & H4).
    cbn [either pod_sets_vals pod_sets_vecs pod_coeffs pod_corrs fst snd].
    repeat split; auto; intros E; specialize (H3 E); congruence.
  - rewrite C67_pod_get. destruct a, b; cbn; repeat split; auto; discriminate.
  - destruct r; cbn; repeat split; auto; discriminate.
  - destruct r; cbn; repeat split; auto; discriminate.
Qed.
Theorem C67_pod_gets d el argsort calls (o : pod_obj F) :
  returns (fun p => let o' := fst p in let log := snd p in map fst log = rev calls /\
      ph_vecs o' = newest (fun e => either pod_given (fun _ => None) (fst e)) log (ph_vecs o) /\
      ph_coeffs o' = newest pod_coeffs log (ph_coeffs o) /\
      (existsb pod_sets_vals log = false -> ph_eigvals o' = ph_eigvals o) /\
      (existsb pod_sets_vecs log = false -> ph_eigvecs o' = ph_eigvecs o) /\
      (existsb pod_corrs calls = false -> ph_corr o' = ph_corr o))
    (history (pod_try_get sqrt d el argsort) calls o []).
Proof.
  apply returns_and; [apply history_log|].
  repeat apply returns_and;
    [apply history_newest|apply history_newest
    |apply (history_kept_log (pod_try_get sqrt d el argsort) ph_eigvals)
    |apply (history_kept_log (pod_try_get sqrt d el argsort) ph_eigvecs)
    |apply (history_kept (pod_try_get sqrt d el argsort) ph_corr)];
    intros o1 c; (eapply returns_mono; [|apply pod_try_get_step]); cbn beta; intros p H; apply H.
Qed.

(** BPOD: the singular values, the left and the right singular vectors. *)
Definition bpod_sets (k : nat) {R} (e : (bpod_call F + bpod_get F) * res R) : bool :=
  match fst e with
  | inl c => bpod_decomposes c && is_ok (snd e)
  | inr (BRead a b c) => forallb (fun x => x) (take k [is_ok a; is_ok b; is_ok c])
  | _ => false
  end.
Definition bpod_direct_got (e : (bpod_call F + bpod_get F) * res (option (arr F) * option (arr F))) : option (arr F) :=
  match fst e with
  | inl _ => got fst (snd e)
  | inr (BReadDirect (Ok c)) => Some c
  | _ => None
  end.
Definition bpod_adjoint_got (e : (bpod_call F + bpod_get F) * res (option (arr F) * option (arr F))) : option (arr F) :=
  match fst e with
  | inl _ => got snd (snd e)
  | inr (BReadAdjoint (Ok c)) => Some c
  | _ => None
  end.
Definition bpod_Hankels (c : bpod_call F + bpod_get F) : bool :=
  either bpod_assembles (fun g => match g with BReadHankel r => is_ok r | _ => false end) c.
Lemma bpod_try_get_step d lapack (o : bpod_obj F) c : returns (fun p =>
    bh_direct (fst p) = match either bpod_direct (fun _ => None) c with Some v => Some v | None => bh_direct o end /\
    bh_adjoint (fst p) = match either bpod_adjoint (fun _ => None) c with Some v => Some v | None => bh_adjoint o end /\
    bh_direct_coeffs (fst p) = match bpod_direct_got (c, snd p) with Some x => Some x | None => bh_direct_coeffs o end /\
    bh_adjoint_coeffs (fst p) = match bpod_adjoint_got (c, snd p) with Some x => Some x | None => bh_adjoint_coeffs o end /\
    (bpod_sets 1 (c, snd p) = false -> bh_sing_vals (fst p) = bh_sing_vals o) /\
    (bpod_sets 2 (c, snd p) = false -> bh_L (fst p) = bh_L o) /\
    (bpod_sets 3 (c, snd p) = false -> bh_R (fst p) = bh_R o) /\
    (bpod_Hankels c = false -> bh_Hankel (fst p) = bh_Hankel o)) (bpod_try_get sqrt d lapack o c).
Proof.
  destruct c as [c|[a b c|r|r|r]]; cbn [bpod_try_get].
  - eapply returns_mono; [|apply bpod_try_step]. cbn beta. intros p (H1 & H2 & H3 & H4 & H5 & H6).
    cbn [either bpod_sets bpod_direct_got bpod_adjoint_got bpod_Hankels fst snd].
    repeat split; auto; intros E; specialize (H5 E); congruence.
  - rewrite C67_bpod_get. destruct a, b, c; cbn; repeat split; auto; discriminate.
  - destruct r; cbn; repeat split; auto; discriminate.
  - destruct r; cbn; repeat split; auto; discriminate.
  - destruct r; cbn; repeat split; auto; discriminate.
Qed.
Theorem C67_bpod_gets d lapack calls (o : bpod_obj F) :
  returns (fun p => let o' := fst p in let log := snd p in map fst log = rev calls /\
      bh_direct o' = newest (fun e => either bpod_direct (fun _ => None) (fst e)) log (bh_direct o) /\
      bh_adjoint o' = newest (fun e => either bpod_adjoint (fun _ => None) (fst e)) log (bh_adjoint o) /\
      bh_direct_coeffs o' = newest bpod_direct_got log (bh_direct_coeffs o) /\
      bh_adjoint_coeffs o' = newest bpod_adjoint_got log (bh_adjoint_coeffs o) /\
      (existsb (bpod_sets 1) log = false -> bh_sing_vals o' = bh_sing_vals o) /\
      (existsb (bpod_sets 2) log = false -> bh_L o' = bh_L o) /\
      (existsb (bpod_sets 3) log = false -> bh_R o' = bh_R o) /\
      (existsb bpod_Hankels calls = false -> bh_Hankel o' = bh_Hankel o))
    (history (bpod_try_get sqrt d lapack) calls o []).
Proof.
  apply returns_and; [apply history_log|].
  repeat apply returns_and;
    [apply history_newest|apply history_newest|apply history_newest|apply history_newest
    |apply (history_kept_log (bpod_try_get sqrt d lapack) bh_sing_vals)
    |apply (history_kept_log (bpod_try_get sqrt d lapack) bh_L)
    |apply (history_kept_log (bpod_try_get sqrt d lapack) bh_R)
    |apply (history_kept (bpod_try_get sqrt d lapack) bh_Hankel)];
    intros o1 c; (eapply returns_mono; [|apply bpod_try_get_step]); cbn beta; intros p H; apply H.
Qed.

(** DMD: the eigenvalues, the right and the left eigenvectors of the low-order map; the
    eigenvalues and eigenvectors of the correlation arrays, of which the first is read
    fourth. *)
Definition dmd_sets (k : nat) {R} (e : (dmd_call F + dmd_get F) * res R) : bool :=
  match fst e with
  | inl c => dmd_decomposes c && is_ok (snd e)
  | inr (DRead w R L _ _ _ _) => forallb (fun x => x) (take k [is_ok w; is_ok R; is_ok L])
  | _ => false
  end.
Definition dmd_sets_corr (tls : bool) (c : dmd_call F + dmd_get F) : bool :=
  either dmd_decomposes (fun g => match g with
    | DRead w R L Es _ E _ => is_ok w && is_ok R && is_ok L && (if tls then is_ok Es else is_ok E)
    | _ => false end) c.
Definition of_call {C G X} (e : (C + G) * X) : option (C * X) := match fst e with inl c => Some (c, snd e) | inr _ => None end.
Definition dmd_coeffs_failed (e : (dmd_call F + dmd_get F) * res (option (nd F) * option (arr F * arr F))) : bool :=
  match of_call e with Some e => coeffs_failed e | None => false end.
Lemma dmd_try_get_step d (tls : bool) el argsort eig (o : dmd_obj F) c : returns (fun p =>
    dh_vecs (fst p) = match either dmd_given (fun _ => None) c with Some v => Some v | None => dh_vecs o end /\
    dh_adv (fst p) = match either dmd_advanced (fun _ => None) c with Some v => Some v | None => dh_adv o end /\
    dh_spec (fst p) = match got fst (snd p) with Some x => Some x | None => dh_spec o end /\
    dh_coeffs (fst p) = match got snd (snd p) with Some x => Some x | None => dh_coeffs o end /\
    (dmd_sets 1 (c, snd p) = false -> dh_eigvals (fst p) = dh_eigvals o) /\
    (dmd_sets 2 (c, snd p) = false -> dh_R (fst p) = dh_R o) /\
    (dmd_sets 3 (c, snd p) = false -> dh_L (fst p) = dh_L o) /\
    (dmd_sets_corr tls c = false -> eigenvectors (fst p) = eigenvectors o) /\
    (either dmd_correlates (fun _ => false) c = false -> dh_corr (fst p) = dh_corr o) /\
    (either dmd_crosses (fun _ => false) c = false -> dh_cross (fst p) = dh_cross o) /\
    (either (dmd_advances tls) (fun _ => false) c = false -> dh_adv_corr (fst p) = dh_adv_corr o) /\
    (tls = false -> (dh_svals (fst p), dh_svecs (fst p)) = (dh_svals o, dh_svecs o))) (dmd_try_get sqrt d tls el argsort eig o c).
Proof.
  destruct c as [c|[w R L Es Vs E V|e]]; cbn [dmd_try_get].
  - eapply returns_mono; [|apply dmd_try_step]. cbn beta. unfold low_order.
    intros p (H1 & H2 & H3 & H4 & H5 & H6 & H7 & H8 & H9 & H10).
    cbn [either dmd_sets dmd_sets_corr fst snd].
    repeat split; auto; intros E; specialize (H5 E); congruence.
  - destruct tls; [rewrite C67_tls_get|rewrite C67_dmd_get].
    + destruct w, R, L, Es, Vs, E, V; cbn; repeat split; auto; discriminate.
    + destruct w, R, L, E, V; cbn; repeat split; auto; discriminate.
  - cbn. repeat split.
Qed.
Theorem C67_dmd_gets d tls el argsort eig calls (o : dmd_obj F) :
  returns (fun p => let o' := fst p in let log := snd p in map fst log = rev calls /\
      dh_vecs o' = newest (fun e => either dmd_given (fun _ => None) (fst e)) log (dh_vecs o) /\
      dh_adv o' = newest (fun e => either dmd_advanced (fun _ => None) (fst e)) log (dh_adv o) /\
      dh_spec o' = newest (fun e => got fst (snd e)) log (dh_spec o) /\
      (existsb dmd_coeffs_failed log = false -> dh_coeffs o' = newest (fun e => got snd (snd e)) log (dh_coeffs o)) /\
      (existsb (dmd_sets 1) log = false -> dh_eigvals o' = dh_eigvals o) /\
      (existsb (dmd_sets 2) log = false -> dh_R o' = dh_R o) /\
      (existsb (dmd_sets 3) log = false -> dh_L o' = dh_L o) /\
      (existsb (dmd_sets_corr tls) calls = false -> eigenvectors o' = eigenvectors o) /\
      (existsb (either dmd_correlates (fun _ => false)) calls = false -> dh_corr o' = dh_corr o) /\
      (existsb (either dmd_crosses (fun _ => false)) calls = false -> dh_cross o' = dh_cross o) /\
      (existsb (either (dmd_advances tls) (fun _ => false)) calls = false -> dh_adv_corr o' = dh_adv_corr o) /\
      (tls = false -> (dh_svals o', dh_svecs o') = (dh_svals o, dh_svecs o)))
    (history (dmd_try_get sqrt d tls el argsort eig) calls o []).
Proof.
  apply returns_and; [apply history_log|].
  apply returns_and; [|apply returns_and; [|apply returns_and; [|apply returns_and; [
    eapply returns_mono with (R := fun p => dh_coeffs (fst p) = newest (fun e => got snd (snd e)) (snd p) (dh_coeffs o)); [auto|]|]]]].
  1-4: apply history_newest.
  5: repeat apply returns_and; [
     apply (history_kept_log (dmd_try_get sqrt d tls el argsort eig) dh_eigvals)
    |apply (history_kept_log (dmd_try_get sqrt d tls el argsort eig) dh_R)
    |apply (history_kept_log (dmd_try_get sqrt d tls el argsort eig) dh_L)
    |apply (history_kept (dmd_try_get sqrt d tls el argsort eig) eigenvectors)
    |apply (history_kept (dmd_try_get sqrt d tls el argsort eig) dh_corr)
    |apply (history_kept (dmd_try_get sqrt d tls el argsort eig) dh_cross)
    |apply (history_kept (dmd_try_get sqrt d tls el argsort eig) dh_adv_corr)
    |eapply returns_mono; [|apply (history_kept (dmd_try_get sqrt d tls el argsort eig) (fun o => (dh_svals o, dh_svecs o)) (fun _ => tls))];
     [cbn beta; intros p H Ht; apply H; rewrite Ht; clear; induction calls; auto|]].
  all: intros o1 c; (eapply returns_mono; [|apply dmd_try_get_step]); cbn beta; intros p H; apply H.
Qed.
End Proofs.

(** ** Examples *)

(** The file of the eigenvectors is missing: the eigenvalues are those of the file, the
    eigenvectors those of the decomposition before. *)
Example C67_pod_get_example :
  pod_get_left (PodObj (Some [qi 4 0 1]) (Some (Arr 2 1 mid)) (Some [1; 2]%nat) None None) (PRead (Ok [qi 9 0 1; qi 1 0 1]) (Raise OSError)) =
  (PodObj (Some [qi 9 0 1; qi 1 0 1]) (Some (Arr 2 1 mid)) (Some [1; 2]%nat) None None, Raise OSError).
Proof. rewrite C67_pod_get. reflexivity. Qed.
Example C67_bpod_get_example :
  bpod_get_left (BpodObj None None None None (Some [1; 2]%nat) None None None) (BRead (Ok [qi 9 0 1]) (Ok (Arr 2 1 mid)) (Raise OSError)) =
  (BpodObj (Some (Arr 2 1 mid)) None (Some [qi 9 0 1]) None (Some [1; 2]%nat) None None None, Raise OSError).
Proof. rewrite C67_bpod_get. reflexivity. Qed.
Example C67_dmd_get_example :
  let p := dmd_get_left false (ct_dmd None) (Ok [qi 3 0 1]) (Ok (Arr 1 1 mid)) (Raise OSError) (Raise ValueError) (Raise ValueError) (Raise ValueError) (Raise ValueError) in
  dh_eigvals (fst p) = Some [qi 3 0 1] /\ dh_cvals (fst p) = Some [qi 4 0 1] /\ snd p = Raise OSError.
Proof. cbv zeta. rewrite C67_dmd_get. auto. Qed.
Example C67_tls_get_example :
  let p := dmd_get_left true (ct_dmd None) (Ok [qi 3 0 1]) (Ok (Arr 1 1 mid)) (Ok (Arr 1 1 mid)) (Ok [qi 7 0 1]) (Raise OSError) (Ok [qi 5 0 1]) (Raise ValueError) in
  dh_svals (fst p) = Some [qi 7 0 1] /\ dh_svecs (fst p) = Some (Arr 2 1 mid) /\ dh_cvals (fst p) = Some [qi 4 0 1] /\ snd p = Raise OSError.
Proof. cbv zeta. rewrite C67_tls_get. auto. Qed.
Example C67_get_coeffs_example :
  dmd_get_coeffs_left (F := QI) (Some (eye 2), Some (eye 2)) (Ok (eye 3)) (Raise OSError) = (Some (eye 3), Some (eye 2), Raise OSError).
Proof. rewrite C67_get_coeffs. reflexivity. Qed.
Example C67_get_same_example el argsort :
  pod_try_get ex_sqrt true el argsort (POD_new (F := QI)) (inr (PRead (Ok [qi 4 0 1]) (Ok (Arr 2 1 mid)))) =
  HRet (PodObj (Some [qi 4 0 1]) (Some (Arr 2 1 mid)) None None None, Ok None).
Proof.
  destruct (C67_get_same ex_sqrt true true el argsort (fun _ => Raise OSError) (fun _ => Raise OSError) POD_new
    (BpodObj None None None None None None None None) (ct_dmd None) [qi 4 0 1] (Arr 2 1 mid) [] (Arr 2 1 mid) (Arr 2 1 mid) [] (Arr 2 1 mid)
    [] (Arr 2 1 mid)) as [-> _]. reflexivity.
Qed.
Lemma newest_log {C R X} (f : C -> option X) (log : list (C * R)) calls x :
  map fst log = calls -> newest (fun e => f (fst e)) log x = newest f calls x.
Proof. intros <-. induction log as [|e log IH]; [reflexivity|]. cbn [newest map]. rewrite IH. reflexivity. Qed.
(** compute_modes, then get_decomp with the second file missing, then compute_modes. *)
(** The eigenvectors cannot be read: the exception is reported, the new eigenvalues are kept. *)
Example C67_get_told_example distributed el argsort (p : pod_obj QI) :
  pod_try_get ex_sqrt distributed el argsort p (inr (PRead (Ok [q 2]) (Raise OSError))) =
  HRet (PodObj (Some [q 2]) (ph_eigvecs p) (ph_vecs p) (ph_corr p) (ph_coeffs p), Raise OSError).
Proof.
  destruct (C67_get_told ex_sqrt distributed false el argsort (fun _ => Raise ValueError) (fun _ => Raise ValueError) p BPOD_new DMD_new
    (PRead (Ok [q 2]) (Raise OSError)) (BReadHankel (Raise OSError)) (Ok []) (Ok (eye 0)) (Ok (eye 0)) (Ok []) (Ok (eye 0)) (Ok [])
    (Ok (eye 0)) OSError) as [H _]. exact H.
Qed.
Example C67_pod_gets_example el argsort (o : pod_obj QI) :
  returns (fun p => ph_vecs (fst p) = Some [3; 4]%nat /\ ph_corr (fst p) = ph_corr o)
    (history (pod_try_get ex_sqrt false el argsort)
       [inl (PModes None [10]%nat (Some [3; 4]%nat)); inr (PRead (Ok [qi 4 0 1]) (Raise OSError)); inl (PModes None [10]%nat None)] o []).
Proof.
  eapply returns_mono; [|apply C67_pod_gets]. cbv zeta beta. intros p (H1 & H2 & _ & _ & _ & H6).
  rewrite H2, (newest_log _ _ _ _ H1). split; [reflexivity|]. apply H6. reflexivity.
Qed.
Example C67_bpod_gets_example d lapack (o : bpod_obj QI) :
  returns (fun p => bh_direct (fst p) = Some [3; 4]%nat /\ bh_Hankel (fst p) = bh_Hankel o)
    (history (bpod_try_get ex_sqrt d lapack)
       [inl (BDirect None [7]%nat (Some [3; 4]%nat)); inr (BRead (Ok [qi 4 0 1]) (Raise OSError) (Raise OSError)); inr (BReadHankel (Raise OSError))] o []).
Proof.
  eapply returns_mono; [|apply C67_bpod_gets]. cbv zeta beta. intros p (H1 & H2 & _ & _ & _ & _ & _ & _ & H6).
  rewrite H2, (newest_log _ _ _ _ H1). split; [reflexivity|]. apply H6. reflexivity.
Qed.
Example C67_dmd_gets_example d el argsort eig (o : dmd_obj QI) :
  returns (fun p => dh_vecs (fst p) = Some [3; 4]%nat /\ eigenvectors (fst p) = eigenvectors o)
    (history (dmd_try_get ex_sqrt d true el argsort eig)
       [inl (DProj None [7]%nat (Some [3; 4]%nat)); inr (DRead (Ok [qi 4 0 1]) (Ok (Arr 1 1 mid)) (Ok (Arr 1 1 mid)) (Raise OSError) (Raise OSError) (Raise OSError) (Raise OSError));
        inr (DReadRaises OSError)] o []).
Proof.
  eapply returns_mono; [|apply C67_dmd_gets]. cbv zeta beta. intros p (H1 & H2 & _ & _ & _ & _ & _ & _ & H6 & _).
  rewrite H2, (newest_log _ _ _ _ H1). split; [reflexivity|]. apply H6. reflexivity.
Qed.

Print Assumptions C67_pod_get.
Print Assumptions C67_bpod_get.
Print Assumptions C67_dmd_get.
Print Assumptions C67_tls_get.
Print Assumptions C67_get_coeffs.
Print Assumptions C67_get_same.
Print Assumptions C67_get_told.
Print Assumptions C67_pod_gets.
Print Assumptions C67_bpod_gets.
Print Assumptions C67_dmd_gets.
