(** Property C70 for the array functions: a change of coordinates of the data and the
    weights changes no eigenvalue and no coefficient, and the modes change with the data.
    Nothing is assumed of LAPACK but that it looks at shape and entries. *)
From stdpp Require Import gmap list.
From Coq Require Import ZArith Lia Field Ring Setoid Morphisms.
From Verif Require Import Prelude Field FieldInst Matrix NdArray DecompModel DecompProofs DecompProps
  VSArraysModel VSArraysProofs PodModel PodProofs PodProps BpodModel DmdModel DmdProofs DmdCore DmdSnaps DmdProps TlsModel TlsProofs TlsProps
  DmdExamples TlsExamples.
Open Scope nat_scope.
Open Scope k_scope.

(** Both return, with related values, or both raise the same exception. *)
Definition both {A B} (R : A -> B -> Prop) (r : res A) (r' : res B) : Prop :=
  match r, r' with Ok a, Ok b => R a b | Raise e, Raise e' => e = e' | _, _ => False end.

Section Move.
Context {F : sfield}.

(** The columns of [A'] are the images of those of [A] under [T], which has [n] columns. *)
Definition moved (n : nat) (T : mat F) (A A' : arr F) : Prop :=
  nr A = n /\ nc A' = nc A /\ meq (nr A') (nc A) (NdArray.ent A') (mmul n T (NdArray.ent A)).

(** [T] maps vectors of [n] entries to vectors of [n'] entries and keeps inner products. *)
Definition keeps (n n' : nat) (ws ws' : weights F) (T : mat F) : Prop :=
  wfits n ws /\ wfits n' ws' /\ meq n n (wip n' (wmat ws') T T) (wmat ws).

Lemma bind_both {A A' B B'} (R : A -> A' -> Prop) (Q : B -> B' -> Prop) r r' (f : A -> res B) (f' : A' -> res B') :
  both R r r' -> (forall a a', R a a' -> both Q (f a) (f' a')) -> both Q (rbind r f) (rbind r' f').
Proof. destruct r, r'; simpl; intros H G; auto; contradiction. Qed.
Lemma bind_same {A B B'} (Q : B -> B' -> Prop) (r : res A) (f : A -> res B) (f' : A -> res B') :
  (forall a, both Q (f a) (f' a)) -> both Q (rbind r f) (rbind r f').
Proof. destruct r; simpl; auto. Qed.

Lemma ip_moved n n' ws ws' T (X X' Y Y' : arr F) : keeps n n' ws ws' T -> nr X' = n' -> nr Y' = n' ->
  moved n T X X' -> moved n T Y Y' -> both aeq (inner_product_array ws X Y) (inner_product_array ws' X' Y').
Proof.
  intros (W1 & W2 & W3) R1 R2 (X1 & X2 & X3) (Y1 & Y2 & Y3).
  destruct (ip_ok ws X Y) as (C & -> & C1 & C2 & C3); [congruence|rewrite X1; auto|].
  destruct (ip_ok ws' X' Y') as (C' & -> & C1' & C2' & C3'); [congruence|rewrite R1; auto|].
  simpl. split; [congruence|]. split; [congruence|]. rewrite C1, C2, C3.
  rewrite X2, Y2, R1 in C3'. rewrite C3'. rewrite R1 in X3. rewrite R2 in Y3. rewrite X1.
  rewrite <- W3. unfold wip. rewrite X3, Y3, madj_mmul, !mmul_assoc. reflexivity.
Qed.
Lemma lin_moved n T (X X' B : arr F) idx : moved n T X X' ->
  both (fun M M' => moved n T M M' /\ nr M' = nr X') (lin_combine X B idx) (lin_combine X' B idx).
Proof.
  intros (X1 & X2 & X3). unfold lin_combine. apply bind_same. intros C. unfold dot. rewrite X2.
  destruct (nc X =? nr C)%nat; simpl; [|reflexivity]. split; [|reflexivity]. split; [auto|]. split; [reflexivity|].
  cbn [nr nc NdArray.ent]. rewrite X3, mmul_assoc. reflexivity.
Qed.

(** compute_POD_arrays_snaps_method. *)
Record pod_moved (n : nat) (T : mat F) (r r' : pod_results F) : Prop := {
  pv_eigvals : p_eigvals r' = p_eigvals r; pv_eigvecs : p_eigvecs r' = p_eigvecs r;
  pv_coeffs : p_coeffs r' = p_coeffs r; pv_modes : moved n T (p_modes r) (p_modes r');
  pv_corr : match p_corr r, p_corr r' with Some C, Some C' => aeq C C' | _, _ => False end
}.
Theorem C70_POD_arrays el argsort sqrt dist (X X' : arr F) idx wopt wopt' ws ws' T atol rtol :
  extensional el -> set_weights wopt = Ok ws -> set_weights wopt' = Ok ws' ->
  keeps (nr X) (nr X') ws ws' T -> moved (nr X) T X X' ->
  both (pod_moved (nr X) T) (POD_snaps el argsort sqrt dist X idx wopt atol rtol)
    (POD_snaps el argsort sqrt dist X' idx wopt' atol rtol).
Proof.
  intros He E1 E2 HK HM. unfold POD_snaps. destruct dist; [reflexivity|]. rewrite E1, E2. cbn [rbind].
  eapply bind_both; [apply (ip_moved (nr X) (nr X') ws ws' T); auto|]. intros C C' HC.
  assert (EQ : eigh el argsort C' atol rtol true = eigh el argsort C atol rtol true).
  { unfold eigh. rewrite (He C C' HC). reflexivity. }
  rewrite EQ. apply bind_same. intros [E U]. cbn [fst snd]. apply bind_same. intros B.
  eapply bind_both; [apply (lin_moved (nr X) T); auto|]. intros M M' [HM' _]. apply bind_same. intros pc.
  simpl. split; auto.
Qed.

(** compute_DMD_arrays_snaps_method. *)
Definition corr_moved (c c' : option (arr F * arr F)) : Prop :=
  match c, c' with Some c, Some c' => aeq (fst c) (fst c') /\ aeq (snd c) (snd c') | None, None => True | _, _ => False end.
Record dmd_moved (n : nat) (T : mat F) (r r' : dmd_results F) : Prop := {
  dv_eigvals : d_eigvals r' = d_eigvals r; dv_spectral : d_spectral r' = d_spectral r;
  dv_coeffs : d_proj_coeffs r' = d_proj_coeffs r; dv_adv : aeq (d_adv_proj_coeffs r) (d_adv_proj_coeffs r');
  dv_R : d_R r' = d_R r; dv_L : d_L r' = d_L r; dv_cvals : d_cvals r' = d_cvals r; dv_cvecs : d_cvecs r' = d_cvecs r;
  dv_exact : moved n T (d_exact r) (d_exact r'); dv_proj : moved n T (d_proj r) (d_proj r');
  dv_adjoint : moved n T (d_adjoint r) (d_adjoint r'); dv_corr : corr_moved (d_corr r) (d_corr r')
}.

Lemma dot_l (A B B' : arr F) : aeq B B' -> both aeq (dot A B) (dot A B').
Proof.
  intros (H1 & H2 & H3). unfold dot. rewrite <- H1. destruct (Nat.eqb_spec (nc A) (nr B)) as [E|]; simpl; [|reflexivity].
  split; [reflexivity|]. split; [exact H2|]. cbn [nr nc NdArray.ent]. rewrite E, H3. reflexivity.
Qed.
Lemma dot_r (A A' B : arr F) : aeq A A' -> both aeq (dot A B) (dot A' B).
Proof.
  intros (H1 & H2 & H3). unfold dot. rewrite <- H2. destruct (nc A =? nr B)%nat; simpl; [|reflexivity].
  split; [exact H1|]. split; [reflexivity|]. cbn [nr nc NdArray.ent]. rewrite H3. reflexivity.
Qed.
Lemma col_slice_moved n T a b (X X' : arr F) : moved n T X X' -> b <= nc X -> moved n T (col_slice a b X) (col_slice a b X').
Proof.
  intros (H1 & H2 & H3) Hb. split; [exact H1|]. split; [simpl; rewrite ?H2; reflexivity|].
  split. intros i j Hi Hj. cbn in *. rewrite (meq_at _ _ _ _ H3) by lia. reflexivity.
Qed.
Lemma slices_aeq a b c d (A A' : arr F) : aeq A A' -> b <= nr A -> d <= nc A ->
  aeq (col_slice c d (row_slice a b A)) (col_slice c d (row_slice a b A')).
Proof.
  intros (H1 & H2 & H3) Hb Hd. split; [simpl; congruence|]. split; [simpl; congruence|].
  split. intros i j Hi Hj. cbn in *. apply H3; lia.
Qed.
Definition moved_opt (n : nat) (T : mat F) (A A' : option (arr F)) : Prop :=
  match A, A' with Some A, Some A' => moved n T A A' | None, None => True | _, _ => False end.

Lemma modes_moved n T (X X' : arr F) adv adv' idx e p a : moved n T X X' -> moved_opt n T adv adv' ->
  both (fun M M' => moved n T (fst (fst M)) (fst (fst M')) /\ moved n T (snd (fst M)) (snd (fst M')) /\ moved n T (snd M) (snd M'))
    (DMD_modes X adv idx e p a) (DMD_modes X' adv' idx e p a).
Proof.
  intros HX HA. unfold DMD_modes. pose proof HX as (_ & H2 & _). rewrite H2.
  assert (G : forall A A' B B' C C', moved n T A A' -> moved n T B B' -> moved n T C C' ->
    both (fun M M' => moved n T (fst (fst M)) (fst (fst M')) /\ moved n T (snd (fst M)) (snd (fst M')) /\ moved n T (snd M) (snd M'))
      (e <-? lin_combine A e idx ; p <-? lin_combine B p idx ; a <-? lin_combine C a idx ; Ok (e, p, a))%res
      (e <-? lin_combine A' e idx ; p <-? lin_combine B' p idx ; a <-? lin_combine C' a idx ; Ok (e, p, a))%res).
  { intros A A' B B' C C' HA' HB HC.
    eapply bind_both; [apply (lin_moved n T); exact HA'|]. intros M1 M1' [Q1 _].
    eapply bind_both; [apply (lin_moved n T); exact HB|]. intros M2 M2' [Q2 _].
    eapply bind_both; [apply (lin_moved n T); exact HC|]. intros M3 M3' [Q3 _]. simpl. auto. }
  destruct (nc X =? nr e + 1)%nat.
  - unfold but_first_col, but_last_col. rewrite H2. apply G; apply col_slice_moved; auto; lia.
  - destruct (nc X =? nr e)%nat; [|reflexivity]. destruct adv as [Y|], adv' as [Y'|]; simpl in HA; try contradiction; [|reflexivity].
    apply G; auto.
Qed.

Lemma core_moved n T eig sqrt (X X' : arr F) adv adv' idx E Einv V K K' corr corr' :
  extensional eig -> moved n T X X' -> moved_opt n T adv adv' -> aeq K K' -> corr_moved corr corr' ->
  both (dmd_moved n T) (DMD_core eig sqrt X adv idx E Einv V K corr) (DMD_core eig sqrt X' adv' idx E Einv V K' corr').
Proof.
  intros Hx HX HA HK HC. unfold DMD_core. apply bind_same. intros VD.
  eapply bind_both; [apply dot_r; exact HK|]. intros KVD KVD' H1.
  eapply bind_both; [apply dot_l; exact H1|]. intros VKVD VKVD' H2.
  eapply bind_both; [apply dot_l; exact H2|]. intros M M' H3.
  assert (EQ : eig_biorthog eig M' SLeft = eig_biorthog eig M SLeft) by (unfold eig_biorthog; rewrite (Hx M M' H3); reflexivity).
  rewrite EQ. apply bind_same. intros [[w R] L]. cbn [fst snd].
  apply bind_same. intros DR. apply bind_same. intros proj. apply bind_same. intros exact.
  apply bind_same. intros DL. apply bind_same. intros adjoint. apply bind_same. intros v0. apply bind_same. intros sv0.
  apply bind_same. intros spec. apply bind_same. intros SVh. apply bind_same. intros pc.
  eapply bind_both; [apply dot_l; exact HK|]. intros VhK VhK' H4.
  eapply bind_both; [apply dot_l; exact H4|]. intros SVhK SVhK' H5.
  eapply bind_both; [apply dot_l; exact H5|]. intros apc apc' H6.
  eapply bind_both; [apply (modes_moved n T); eassumption|]. intros [[m1 m2] m3] [[m1' m2'] m3'] (Q1 & Q2 & Q3).
  simpl in *. split; auto.
Qed.

Lemma correlations_moved n n' ws ws' T (X X' : arr F) adv adv' : keeps n n' ws ws' T -> nr X' = n' ->
  (forall Y', adv' = Some Y' -> nr Y' = n') -> moved n T X X' -> moved_opt n T adv adv' ->
  both (fun CK CK' => aeq (fst CK) (fst CK') /\ aeq (snd CK) (snd CK')) (DMD_correlations ws X adv) (DMD_correlations ws' X' adv').
Proof.
  intros HK R HR HX HA. unfold DMD_correlations. destruct adv as [Y|], adv' as [Y'|]; simpl in HA; try contradiction.
  - assert (ES : same_shape2 X' Y' = same_shape2 X Y).
    { destruct HX as (A1 & A2 & _), HA as (B1 & B2 & _). unfold same_shape2.
      rewrite A1, A2, B1, B2, R, (HR Y' eq_refl), !Nat.eqb_refl. reflexivity. }
    rewrite ES. destruct (same_shape2 X Y); simpl; [|reflexivity].
    eapply bind_both; [apply (ip_moved n n' ws ws' T); eauto|]. intros C C' HC.
    eapply bind_both; [apply (ip_moved n n' ws ws' T); eauto|]. intros D D' HD. simpl. auto.
  - eapply bind_both; [apply (ip_moved n n' ws ws' T); eauto|]. intros C C' HC. simpl.
    pose proof HC as (C1 & C2 & _). unfold but_last_col, but_first_col, but_last_row.
    cbn [nc row_slice]. rewrite <- C1, <- C2. split; apply slices_aeq; auto; lia.
Qed.

Theorem C70_DMD_arrays el argsort eig sqrt dist (X X' : arr F) adv adv' idx wopt wopt' ws ws' T atol rtol mx :
  extensional el -> extensional eig -> set_weights wopt = Ok ws -> set_weights wopt' = Ok ws' ->
  keeps (nr X) (nr X') ws ws' T -> moved (nr X) T X X' -> moved_opt (nr X) T adv adv' ->
  (forall Y', adv' = Some Y' -> nr Y' = nr X') ->
  both (dmd_moved (nr X) T) (DMD_snaps el argsort eig sqrt dist X adv idx wopt atol rtol mx)
    (DMD_snaps el argsort eig sqrt dist X' adv' idx wopt' atol rtol mx).
Proof.
  intros He Hg E1 E2 HK HM HA HR. unfold DMD_snaps. destruct dist; [reflexivity|]. rewrite E1, E2. cbn [rbind].
  eapply bind_both; [apply (correlations_moved (nr X) (nr X') ws ws' T); auto|]. intros [C K] [C' K'] [HC HKK]. cbn [fst snd] in *.
  assert (EQ : eigh el argsort C' atol rtol true = eigh el argsort C atol rtol true).
  { unfold eigh. rewrite (He C C' HC). reflexivity. }
  rewrite EQ. apply bind_same. intros [E U]. cbn [fst snd]. apply core_moved; simpl; auto.
Qed.
End Move.

(** Data in two entries with the weights 4 and 1, moved into three entries without weights. *)
Definition mv_T : mat QI := NdArray.ent (of_rows 2 [[q 2; q 0]; [q 0; qi 3 0 5]; [q 0; qi 4 0 5]]).
Definition mv (X : arr QI) : arr QI := Arr 3 (nc X) (mmul 2 mv_T (NdArray.ent X)).
Lemma mv_keeps : keeps 2 3 (W1 [q 4; q 1]) WNone mv_T.
Proof. split; [reflexivity|]. split; [exact I|]. eqb_solve. Qed.
Lemma mv_moved (X : arr QI) : nr X = 2%nat -> moved 2 mv_T X (mv X).
Proof. intros H. split; [exact H|]. split; reflexivity. Qed.

Definition mv_pod (X : arr QI) (w : option (nd QI)) := POD_snaps (fun _ => Ok (ex_cw, ex_cV)) (fun _ => [0; 1]%nat) ex_sqrt false
  X None w (Some (qi 1 0 10)) None.
Example C70_POD_arrays_example : both (pod_moved 2 mv_T) (mv_pod ex_D ex_dw) (mv_pod (mv ex_D) None) /\
  match mv_pod (mv ex_D) None with Ok r => p_eigvals r = [q 4; q 1] /\ nr (p_modes r) = 3%nat | Raise _ => False end.
Proof.
  split; [|vm_compute; split; reflexivity].
  unfold mv_pod. refine (C70_POD_arrays _ _ _ _ ex_D (mv ex_D) _ ex_dw None (W1 [q 4; q 1]) WNone mv_T _ _ _ _ _ _ _);
    try reflexivity.
  - intros A A' _. reflexivity.
  - exact mv_keeps.
  - apply mv_moved. reflexivity.
Qed.
Example C70_DMD_arrays_example :
  let el := fun _ : arr QI => Ok (ex_cw, ex_cV) in let eig := fun _ : arr QI => Ok (ex_lw, ex_lL, ex_lR) in
  let run X w := DMD_snaps el (fun _ => [0; 1]%nat) eig ex_sqrt false X None None w (Some (qi 1 0 10)) None None in
  both (dmd_moved 2 mv_T) (run ex_seq ex_dw) (run (mv ex_seq) None) /\
  match run (mv ex_seq) None with Ok r => d_eigvals r = [q 1; q 2] /\ nr (d_exact r) = 3%nat | Raise _ => False end.
Proof.
  intros el eig run. split; [|vm_compute; split; reflexivity].
  refine (C70_DMD_arrays el _ eig _ _ ex_seq (mv ex_seq) None None _ ex_dw None (W1 [q 4; q 1]) WNone mv_T _ _ _ _ _ _ _ _ _ _ _);
    try reflexivity.
  - intros A A' _. reflexivity.
  - intros A A' _. reflexivity.
  - exact mv_keeps.
  - apply mv_moved. reflexivity.
  - intros Y' H. discriminate H.
Qed.

Print Assumptions C70_POD_arrays.
Print Assumptions C70_DMD_arrays.
