(** Property C70 for compute_TLSqrDMD_arrays_snaps_method:
    a change of coordinates of the data and the weights changes no eigenvalue and no
    coefficient, and the modes change with the data.
    Nothing is assumed of LAPACK but that it looks at shape and entries. *)
From stdpp Require Import gmap list.
From Coq Require Import ZArith Lia Field Ring Setoid Morphisms.
From Verif Require Import Prelude Field FieldInst Matrix NdArray DecompModel DecompProofs DecompProps
  VSArraysModel VSArraysProofs PodModel PodProofs PodProps BpodModel DmdModel DmdProofs DmdProps
  TlsModel TlsProofs TlsProps DmdExamples TlsExamples MoveProps.
Open Scope nat_scope.
Open Scope k_scope.

Section Tls.
Context {F : sfield}.

Lemma onto_aeq (Vs B B' : arr F) : aeq B B' -> both aeq (onto Vs B) (onto Vs B').
Proof. intros H. unfold onto. eapply bind_both; [apply dot_l; exact H|]. intros C C' HC. apply dot_l. exact HC. Qed.
Lemma add_aeq (A A' B B' : arr F) : aeq A A' -> aeq B B' -> both aeq (add_arr A B) (add_arr A' B').
Proof.
  intros (A1 & A2 & A3) (B1 & B2 & B3). unfold add_arr, same_shape2. rewrite <- A1, <- A2, <- B1, <- B2.
  destruct (Nat.eqb_spec (nr A) (nr B)) as [E1|]; simpl; [|reflexivity].
  destruct (Nat.eqb_spec (nc A) (nc B)) as [E2|]; simpl; [|reflexivity].
  split; [auto|]. split; [auto|]. cbn [nr nc NdArray.ent]. rewrite <- E1, <- E2 in B3. rewrite A3, B3. reflexivity.
Qed.
Lemma proj_corr_aeq (Vs C C' : arr F) : aeq C C' -> both aeq (TLS_proj_corr Vs C) (TLS_proj_corr Vs C').
Proof.
  intros H. unfold TLS_proj_corr. apply bind_same. intros P. eapply bind_both; [apply dot_r; exact H|].
  intros D D' HD. apply onto_aeq. exact HD.
Qed.
Lemma tls_core_moved n T eig sqrt (X X' : arr F) adv adv' idx Vs E V K K' :
  extensional eig -> moved n T X X' -> moved_opt n T adv adv' -> aeq K K' ->
  both (dmd_moved n T) (TLS_core eig sqrt X adv idx Vs E V K) (TLS_core eig sqrt X' adv' idx Vs E V K').
Proof.
  intros Hx HX HA HK. unfold TLS_core. apply bind_same. intros VD. apply bind_same. intros PVD.
  eapply bind_both; [apply dot_r; exact HK|]. intros a1 a1' H1.
  eapply bind_both; [apply onto_aeq; exact H1|]. intros a2 a2' H2.
  eapply bind_both; [apply dot_l; exact H2|]. intros a3 a3' H3.
  eapply bind_both; [apply dot_l; exact H3|]. intros M M' HM.
  assert (EQ : eig_biorthog eig M' SLeft = eig_biorthog eig M SLeft) by (unfold eig_biorthog; rewrite (Hx M M' HM); reflexivity).
  rewrite EQ. apply bind_same. intros [[w R] L]. cbn [fst snd].
  do 13 (apply bind_same; intros ?).
  eapply bind_both; [apply dot_r; exact HK|]. intros b1 b1' G1.
  eapply bind_both; [apply onto_aeq; exact G1|]. intros b2 b2' G2.
  eapply bind_both; [apply dot_l; exact G2|]. intros b3 b3' G3.
  eapply bind_both; [apply dot_l; exact G3|]. intros b4 b4' G4.
  eapply bind_both; [apply dot_l; exact G4|]. intros b5 b5' G5.
  eapply bind_both; [apply (modes_moved n T); eassumption|]. intros [[m1 m2] m3] [[m1' m2'] m3'] (Q1 & Q2 & Q3).
  simpl in *. split; simpl; auto.
Qed.
Lemma tls_correlations_moved n n' ws ws' T (X X' : arr F) adv adv' : keeps n n' ws ws' T -> nr X' = n' ->
  (forall Y', adv' = Some Y' -> nr Y' = n') -> moved n T X X' -> moved_opt n T adv adv' ->
  both (fun C C' => aeq (fst (fst C)) (fst (fst C')) /\ aeq (snd (fst C)) (snd (fst C')) /\ aeq (snd C) (snd C'))
    (TLS_correlations ws X adv) (TLS_correlations ws' X' adv').
Proof.
  intros HK R HR HX HA. unfold TLS_correlations. destruct adv as [Y|], adv' as [Y'|]; simpl in HA; try contradiction.
  - assert (ES : same_shape2 X' Y' = same_shape2 X Y).
    { destruct HX as (A1 & A2 & _), HA as (B1 & B2 & _). unfold same_shape2.
      rewrite A1, A2, B1, B2, R, (HR Y' eq_refl), !Nat.eqb_refl. reflexivity. }
    rewrite ES. destruct (same_shape2 X Y); simpl; [|reflexivity].
    eapply bind_both; [apply (ip_moved n n' ws ws' T); eauto|]. intros C C' HC.
    eapply bind_both; [apply (ip_moved n n' ws ws' T); eauto|]. intros D D' HD.
    eapply bind_both; [apply (ip_moved n n' ws ws' T); eauto|]. intros G G' HG. simpl. auto.
  - eapply bind_both; [apply (ip_moved n n' ws ws' T); eauto|]. intros C C' HC. simpl.
    pose proof HC as (C1 & C2 & _). unfold but_last_col, but_first_col, but_last_row, but_first_row.
    cbn [nc row_slice]. rewrite <- C1, <- C2. repeat split; try (apply slices_aeq; auto; lia).
Qed.

Record tls_moved (n : nat) (T : mat F) (r r' : tls_results F) : Prop := {
  tv_dmd : dmd_moved n T (t_dmd r) (t_dmd r');
  tv_sum_vals : t_sum_vals r' = t_sum_vals r; tv_sum_vecs : t_sum_vecs r' = t_sum_vecs r;
  tv_corr : match t_corr r, t_corr r' with
            | Some c, Some c' => aeq (fst (fst c)) (fst (fst c')) /\ aeq (snd (fst c)) (snd (fst c')) /\ aeq (snd c) (snd c')
            | _, _ => False end
}.
Theorem C70_TLS_arrays el argsort eig sqrt dist (X X' : arr F) adv adv' idx wopt wopt' ws ws' T atol rtol mx :
  extensional el -> extensional eig -> set_weights wopt = Ok ws -> set_weights wopt' = Ok ws' ->
  keeps (nr X) (nr X') ws ws' T -> moved (nr X) T X X' -> moved_opt (nr X) T adv adv' ->
  (forall Y', adv' = Some Y' -> nr Y' = nr X') ->
  both (tls_moved (nr X) T)
    (TLS_snaps el argsort eig sqrt dist X adv idx wopt atol rtol mx)
    (TLS_snaps el argsort eig sqrt dist X' adv' idx wopt' atol rtol mx).
Proof.
  intros He Hg E1 E2 HK HM HA HR. unfold TLS_snaps. destruct dist; [reflexivity|]. rewrite E1, E2. cbn [rbind].
  assert (EQ : forall C C' at' rt, aeq C C' -> eigh el argsort C' at' rt true = eigh el argsort C at' rt true).
  { intros C C' at' rt HC. unfold eigh. rewrite (He C C' HC). reflexivity. }
  eapply bind_both; [apply (tls_correlations_moved (nr X) (nr X') ws ws' T); auto|].
  intros [[C K] G] [[C' K'] G'] (HC & HKK & HG). cbn [fst snd] in *.
  eapply bind_both; [apply add_aeq; eassumption|]. intros Sm Sm' HS. rewrite (EQ _ _ _ _ HS).
  apply bind_same. intros [Es U]. cbn [fst snd].
  eapply bind_both; [apply proj_corr_aeq; eassumption|]. intros PC PC' HP. rewrite (EQ _ _ _ _ HP).
  apply bind_same. intros [E V]. cbn [fst snd].
  eapply bind_both; [apply (tls_core_moved (nr X) T); eassumption|]. intros d d' Hd. split; simpl; auto.
Qed.
End Tls.

(** Data in two entries moved into three. *)
Definition mt_T : mat QI := NdArray.ent (of_rows 2 [[qi 3 0 5; q 0]; [qi 4 0 5; q 0]; [q 0; q 1]]).
Definition mt (X : arr QI) : arr QI := Arr 3 (nc X) (mmul 2 mt_T (NdArray.ent X)).
Definition mt_run (X Y : arr QI) := TLS_snaps tt_eigh tl_sort tt_eig tl_sqrt false X (Some Y) None None (Some (qi 1 0 8)) None (Some 1%nat).
Example C70_TLS_arrays_example :
  both (tls_moved 2 mt_T)
    (mt_run tt_X tt_Y) (mt_run (mt tt_X) (mt tt_Y)) /\
  match mt_run (mt tt_X) (mt tt_Y) with
  | Ok r => d_eigvals (t_dmd r) = [q 2] /\ t_sum_vals r = [q 36] /\ nr (d_exact (t_dmd r)) = 3%nat
  | Raise _ => False end.
Proof.
  split; [|vm_compute; repeat split; reflexivity]. unfold mt_run.
  refine (C70_TLS_arrays _ _ _ _ _ tt_X (mt tt_X) (Some tt_Y) (Some (mt tt_Y)) _ None None WNone WNone mt_T _ _ _ _ _ _ _ _ _ _ _);
    try reflexivity.
  - intros A A' H. apply table_extensional. exact H.
  - intros A A' H. apply table_extensional. exact H.
  - split; [exact I|]. split; [exact I|]. eqb_solve.
  - split; [reflexivity|]. split; reflexivity.
  - split; [reflexivity|]. split; reflexivity.
  - intros Y' [= <-]. reflexivity.
Qed.

Print Assumptions C70_TLS_arrays.
