(** Instances for C27. *)
From Coq Require Import List Arith Lia Bool ZArith Field Ring Setoid Morphisms Permutation.
Import ListNotations.
From Verif Require Import Prelude Field FieldInst Matrix NdArray DecompModel DecompProofs DecompProps
  VSArraysModel VSArraysProofs VSArraysProps PodModel PodProofs PodProps BpodModel DmdModel DmdProofs DmdCore
  DmdSnaps DmdProps DmdFit DmdExamples TlsModel TlsProofs TlsProps.
Open Scope nat_scope.
Open Scope k_scope.

(** A routine given by a table of arrays and answers. *)
Definition aeqb {F : sfield} (A B : arr F) : bool :=
  (nr A =? nr B)%nat && (nc A =? nc B)%nat && meqb (nr A) (nc A) (ent A) (ent B).
Fixpoint table {F : sfield} {B} (l : list (arr F * B)) (A : arr F) : res B :=
  match l with
  | [] => Raise LinAlgError
  | (A', b) :: l => if aeqb A' A then Ok b else table l A
  end.
Lemma forallb_same {A} (f g : A -> bool) l : (forall x, In x l -> f x = g x) -> forallb f l = forallb g l.
Proof. induction l as [|x l IH]; simpl; intros H; auto. rewrite H, IH; auto. Qed.
Lemma meqb_meq {F : sfield} m n (A B B' : mat F) : meq m n B B' -> meqb m n A B = meqb m n A B'.
Proof.
  intros H. unfold meqb. apply forallb_same. intros i Hi. apply in_seq in Hi.
  apply forallb_same. intros j Hj. apply in_seq in Hj. rewrite (meq_at _ _ _ _ H i j) by lia. reflexivity.
Qed.
Lemma table_extensional {F : sfield} {B} (l : list (arr F * B)) : extensional (table l).
Proof.
  intros A A' (H1 & H2 & H3). induction l as [|[C b] l IH]; simpl; auto. rewrite IH.
  unfold aeqb. rewrite <- H1, <- H2.
  destruct (Nat.eqb_spec (nr C) (nr A)) as [E1|]; auto. destruct (Nat.eqb_spec (nc C) (nc A)) as [E2|]; auto.
  rewrite <- E1, <- E2 in H3. rewrite (meqb_meq _ _ _ _ _ H3). reflexivity.
Qed.
Lemma eigh_contract_aeq {F : sfield} (A B : arr F) w V : aeq A B -> eigh_contract A w V -> eigh_contract B w V.
Proof.
  intros (H1 & H2 & H3) [c1 c2 c3 c4 c5 c6 c7]. rewrite <- c1 in H3. rewrite H1, H2 in *.
  split; auto. rewrite <- H3. auto.
Qed.
Lemma svd_contract_aeq {F : sfield} (A B : arr F) U S Vh : aeq A B -> svd_contract A U S Vh -> svd_contract B U S Vh.
Proof.
  intros (H1 & H2 & H3) H. destruct H. rewrite H1, H2 in *. split; auto. rewrite <- H3. auto.
Qed.

Lemma table_hit {F : sfield} {B} (l : list (arr F * B)) A' b A : aeqb A' A = true -> table ((A', b) :: l) A = Ok b.
Proof. intros H. simpl. rewrite H. reflexivity. Qed.
Lemma table_skip {F : sfield} {B} (l : list (arr F * B)) A' b A : aeqb A' A = false ->
  table ((A', b) :: l) A = table l A.
Proof. intros H. simpl. rewrite H. reflexivity. Qed.
Lemma mk_aeq {F : sfield} m n (A B : arr F) : nr B = m -> nc B = n -> nr A = m -> nc A = n ->
  meq m n (ent A) (ent B) -> aeq A B /\ aeq B A.
Proof.
  intros <- <- H1 H2 H3. split; (split; [auto|]; split; [auto|]).
  - rewrite H1, H2. exact H3.
  - symmetry. exact H3.
Qed.
Lemma sqrt_ok_dec (f : QI -> QI) x : keqb (kconj QI (f x)) (f x) && negb (klt QI (f x) 0)
  && keqb (f x * f x) x = true -> sqrt_ok f x.
Proof.
  rewrite !andb_true_iff. intros [[H1 H2] H3]. apply keqb_true in H1, H3.
  split; auto. split; auto. apply not_lt; auto using real_0. destruct (klt QI (f x) 0); auto; discriminate.
Qed.
(** The values and vectors [eigh] answers with, from its routine's. *)
Definition eigh_of (argsort : list QI -> list nat) (w : list QI) (V : arr QI) atol rtol :=
  eigh (fun _ => Ok (w, V)) argsort V atol rtol true.
Lemma eigh_answer el argsort (A : arr QI) w V atol rtol vals cv n l B :
  el A = Ok (w, V) -> eigh el argsort A atol rtol true = Ok (vals, cv) ->
  rmap fst (eigh_of argsort w V atol rtol) = Ok l ->
  rmap (fun p => meqb n (length l) (ent (snd p)) B) (eigh_of argsort w V atol rtol) = Ok true ->
  vals = l /\ meq n (length l) (ent cv) B.
Proof.
  intros H H1. assert (H2 : eigh_of argsort w V atol rtol = Ok (vals, cv)).
  { rewrite <- H1. unfold eigh_of, eigh. rewrite H. reflexivity. }
  rewrite H2. unfold rmap, rbind. cbn [fst snd]. intros G1 G2. injection G1 as ->. split; auto.
  apply meqb_true. congruence.
Qed.
Ltac eqb_solve := apply meqb_true; vm_compute; reflexivity.
Ltac neq_solve := apply keqb_false; vm_compute; reflexivity.
Ltac real_solve := apply keqb_true; vm_compute; reflexivity.
Ltac le_solve := solve [left; vm_compute; reflexivity | right; real_solve].
Ltac eigh_solve := split; try reflexivity; try eqb_solve; repeat constructor; real_solve.
Ltac svd_solve := split; try reflexivity; try eqb_solve;
  [ repeat constructor; real_solve | repeat constructor; le_solve
  | intros i j Hij Hj; simpl in Hj; destruct i as [|[|i]]; destruct j as [|[|j]]; try lia; le_solve ].

(** ** X = S V^H and Y = 3/4 J X with S = diag(2, 1), V = ex_V, J a rotation by a right
    angle; no weights, nothing truncated *)
Definition tl_sqrt (x : QI) : QI :=
  if keqb x (q 4) then q 2 else if keqb x (q 1) then q 1 else if keqb x (qi 1 0 25) then qi 1 0 5 else q 0.
Definition tl_S : mat QI := mdiag (at1 [q 2; q 1]).
Definition tl_J : arr QI := of_rows 2 [[q 0; qi (-3) 0 4]; [qi 3 0 4; q 0]].
Definition tl_X : arr QI := Arr 2 2 (mmul 2 tl_S (madj (ent ex_V))).
Definition tl_Y : arr QI := Arr 2 2 (mmul 2 (ent tl_J) (ent tl_X)).
Definition tl_C : arr QI := Arr 2 2 (wip 2 mid (ent tl_X) (ent tl_X)).
Definition tl_Sm : arr QI := Arr 2 2 (madd (ent tl_C) (wip 2 mid (ent tl_Y) (ent tl_Y))).
Definition tl_V0 : arr QI := of_rows 2 [[qi 0 4 5; qi 3 0 5]; [qi 3 0 5; qi 0 4 5]].
Definition tl_cw : list QI := [q 1; q 4].
Definition tl_sw : list QI := [qi 25 0 16; qi 25 0 4].
Definition tl_eigh := table [(tl_C, (tl_cw, tl_V0)); (tl_Sm, (tl_sw, tl_V0))].
Definition tl_w : list QI := [qi 0 3 4; qi 0 (-3) 4].
Definition tl_R0 : arr QI := of_rows 2 [[q 1; q 1]; [qi 0 (-1) 1; qi 0 1 1]].
Definition tl_eig := table [(tl_J, (tl_w, tl_R0, tl_R0))].
Definition tl_sort (l : list QI) : list nat := [0; 1]%nat.
(** The stacked data and its singular value decomposition. *)
Definition tl_Z : arr QI := vcat tl_X tl_Y.
Definition tl_Uz : arr QI := vcat (Arr 2 2 (mdiag (fun _ => qi 4 0 5))) (of_rows 2 [[q 0; qi (-3) 0 5]; [qi 3 0 5; q 0]]).
Definition tl_svd := table [(tl_Z, (tl_Uz, [qi 5 0 2; qi 5 0 4], conj_T ex_V)); (tl_X, (eye 2, [q 2; q 1], conj_T ex_V))].

Lemma tl_C_contract : eigh_contract tl_C tl_cw tl_V0.
Proof. eigh_solve. Qed.
Lemma tl_Sm_contract : eigh_contract tl_Sm tl_sw tl_V0.
Proof. eigh_solve. Qed.
Lemma tl_J_contract : eig_contract tl_J tl_w tl_R0 tl_R0.
Proof.
  split; try reflexivity; try eqb_solve; intros j Hj; exists j; (split; [auto|]); simpl in Hj;
    destruct j as [|[|j]]; try lia; neq_solve.
Qed.
Lemma tl_Z_contract : svd_contract tl_Z tl_Uz [qi 5 0 2; qi 5 0 4] (conj_T ex_V).
Proof. svd_solve. Qed.
Lemma tl_X_contract : svd_contract tl_X (eye 2) [q 2; q 1] (conj_T ex_V).
Proof. svd_solve. Qed.
Lemma tl_pairing i : i < 2 -> pairing 2 tl_R0 tl_R0 i i <> 0.
Proof. intros Hi. destruct i as [|[|i]]; try lia; neq_solve. Qed.
Lemma tl_sort_ok (a b : QI) : klt QI (kabs a) (kabs b) = true ->
  argsort_contract (map kabs [a; b]) (tl_sort (map kabs [a; b])).
Proof.
  intros H. split; try reflexivity.
  - repeat constructor; simpl; lia.
  - repeat constructor; simpl; lia.
  - intros i j Hij Hj. simpl in Hj. destruct i as [|[|i]]; destruct j as [|[|j]]; try lia;
      try (right; reflexivity). left. exact H.
Qed.

(** The routines' answers for the arrays they are asked about. *)
Lemma tl_eigh_C : tl_eigh tl_C = Ok (tl_cw, tl_V0).
Proof. apply table_hit. vm_compute. reflexivity. Qed.
Lemma tl_eigh_Sm : tl_eigh tl_Sm = Ok (tl_sw, tl_V0).
Proof.
  unfold tl_eigh. rewrite table_skip by (vm_compute; reflexivity). apply table_hit. vm_compute. reflexivity.
Qed.
Lemma tl_eig_J : tl_eig tl_J = Ok (tl_w, tl_R0, tl_R0).
Proof. apply table_hit. vm_compute. reflexivity. Qed.
Lemma tl_svd_Z : tl_svd tl_Z = Ok (tl_Uz, [qi 5 0 2; qi 5 0 4], conj_T ex_V).
Proof. apply table_hit. vm_compute. reflexivity. Qed.
Lemma tl_svd_X : tl_svd tl_X = Ok (eye 2, [q 2; q 1], conj_T ex_V).
Proof.
  unfold tl_svd. rewrite table_skip by (vm_compute; reflexivity). apply table_hit. vm_compute. reflexivity.
Qed.
Lemma id_definite : definite 2 (@mid QI).
Proof. apply (definite_root 2 mid mid mid); eqb_solve. Qed.
Lemma id_nonneg : nonneg 2 (@mid QI).
Proof. apply (root_nonneg 2 mid mid). eqb_solve. Qed.
Lemma tl_low V : meq 2 2 (ent V) (ent ex_V) ->
  meq 2 2 (low_map tl_sqrt tl_X tl_Y mid [q 4; q 1] (ent V)) (ent tl_J).
Proof.
  intros HV. transitivity (low_map tl_sqrt tl_X tl_Y mid [q 4; q 1] (ent ex_V)); [|eqb_solve].
  unfold low_map. change (length [q 4; q 1]) with 2%nat. change (nc tl_X) with 2%nat. rewrite HV. reflexivity.
Qed.

Definition tl_snaps := TLS_snaps tl_eigh tl_sort tl_eig tl_sqrt false tl_X (Some tl_Y) None None (Some (qi 1 0 8)) None None.
Definition tl_DMD_snaps := DMD_snaps tl_eigh tl_sort tl_eig tl_sqrt false tl_X (Some tl_Y) None None (Some (qi 1 0 8)) None None.

Example C27_coincides_snaps_example : same_dmd tl_w tl_snaps tl_DMD_snaps.
Proof.
  destruct (C27_coincides_snaps tl_eigh tl_sort tl_eig tl_sqrt tl_X (Some tl_Y) tl_X tl_Y None None WNone)
    as (C & Sm & S1 & S2 & C1 & C2 & EC & ES & H).
  - apply table_extensional.
  - apply table_extensional.
  - repeat split; auto.
  - simpl. lia.
  - reflexivity.
  - exact I.
  - eqb_solve.
  - apply id_definite.
  - apply id_nonneg.
  - destruct (mk_aeq 2 2 C tl_C) as [AC AC']; auto.
    destruct (mk_aeq 2 2 Sm tl_Sm) as [AS AS']; auto.
    assert (LC : tl_eigh C = Ok (tl_cw, tl_V0)).
    { rewrite <- tl_eigh_C. apply table_extensional. auto. }
    assert (LS : tl_eigh Sm = Ok (tl_sw, tl_V0)).
    { rewrite <- tl_eigh_Sm. apply table_extensional. auto. }
    destruct (H tl_sw tl_V0 tl_cw tl_V0 (qi 1 0 8) None) as (Es & Vs & w1 & K1 & (vs & cs & EEs & EVs & VVs) & G).
    + exact LS.
    + apply (eigh_contract_aeq tl_Sm); auto using tl_Sm_contract.
    + apply tl_sort_ok. vm_compute. reflexivity.
    + exact LC.
    + apply (eigh_contract_aeq tl_C); auto using tl_C_contract.
    + apply tl_sort_ok. vm_compute. reflexivity.
    + intros e [<-|[<-|[]]] _; apply sqrt_ok_dec; vm_compute; reflexivity.
    + real_solve.
    + le_solve.
    + destruct (eigh_answer _ _ _ _ _ _ _ _ _ 2 [qi 25 0 4; qi 25 0 16] (ent ex_V) LS EEs) as [Ev _];
        [vm_compute; reflexivity|vm_compute; reflexivity|].
      destruct G as (E & V & w1' & K2 & (vals & cv & EE & EV & VV) & M & M1 & M2 & M3 & G).
      { intros i [Hi Hi2]. exfalso. pose proof (Permutation_length (ek_perm _ _ _ _ _ _ _ _ K1)) as L.
        rewrite L in Hi2. rewrite EVs, Ev in Hi. simpl in Hi, Hi2. lia. }
      destruct (eigh_answer _ _ _ _ _ _ _ _ _ 2 [q 4; q 1] (ent ex_V) LC EE) as [Ev' Ec'];
        [vm_compute; reflexivity|vm_compute; reflexivity|].
      assert (EE' : E = [q 4; q 1]) by (rewrite EV, Ev'; reflexivity).
      assert (VE : meq 2 2 (ent V) (ent ex_V)).
      { rewrite VV. exact Ec'. }
      rewrite EE' in *. change (length [q 4; q 1]) with 2%nat in *.
      destruct (mk_aeq 2 2 M tl_J) as [AM AM']; auto.
      { rewrite M3. apply tl_low. exact VE. }
      apply (G tl_w tl_R0 tl_R0).
      * rewrite <- tl_eig_J. apply table_extensional. auto.
      * apply (eig_contract_aeq tl_J); auto using tl_J_contract.
      * apply tl_pairing.
Qed.

(** The spectral coefficients are not the magnitudes of the first column of the
    projection coefficients: the call above, whose eigenvectors have complex entries. *)
Lemma table_all {F : sfield} {B} (P : arr F -> B -> Prop) l A b :
  (forall A A' b, aeq A A' -> P A b -> P A' b) -> Forall (fun p => P (fst p) (snd p)) l ->
  table l A = Ok b -> P A b.
Proof.
  intros HP HF. induction HF as [|[A' b'] l H0 HF IH]; simpl; [discriminate|].
  destruct (aeqb A' A) eqn:E; auto. intros H. injection H as <-. apply (HP A'); auto.
  unfold aeqb in E. rewrite !andb_true_iff in E. destruct E as [[E1 E2] E3].
  apply Nat.eqb_eq in E1, E2. apply meqb_true in E3. split; [auto|]. split; auto.
Qed.
Theorem C27_spectral_refuted : exists el argsort eig (sqrt : QI -> QI) X Y r,
  (forall A w V, el A = Ok (w, V) -> eigh_contract A w V /\
     argsort_contract (map kabs w) (argsort (map kabs w))) /\
  (forall A w L R, eig A = Ok (w, L, R) -> eig_contract A w L R) /\
  (forall x, In x [q 4; q 1; qi 1 0 25] -> sqrt_ok sqrt x) /\
  TLS_snaps el argsort eig sqrt false X (Some Y) None None (Some (qi 1 0 8)) None None = Ok r /\
  shape (d_spectral (t_dmd r)) = [2%nat] /\
  forall i, i < 2 -> nth i (flat (d_spectral (t_dmd r))) 0 <> cabs sqrt (ent (d_proj_coeffs (t_dmd r)) i O).
Proof.
  exists tl_eigh, tl_sort, tl_eig, tl_sqrt, tl_X, tl_Y. fold tl_snaps.
  set (ok := fun (r : tls_results QI) i => keqb (nth i (flat (d_spectral (t_dmd r))) (q 0))
    (cabs tl_sqrt (ent (d_proj_coeffs (t_dmd r)) i O))).
  assert (Q1 : rmap (fun r => (shape (d_spectral (t_dmd r)), ok r O, ok r 1%nat)) tl_snaps
    = Ok ([2%nat], false, false)) by (vm_compute; reflexivity).
  destruct tl_snaps as [r|]; [|discriminate]. unfold rmap, rbind in Q1. injection Q1 as Q1 Q2 Q3.
  exists r. split; [|split; [|split; [|split; [|split; auto]]]].
  - intros A w V H. split.
    + revert H. apply (table_all (fun A p => eigh_contract A (fst p) (snd p)) _ A (w, V)).
      * intros. eapply eigh_contract_aeq; eauto.
      * constructor; [apply tl_C_contract|constructor; [apply tl_Sm_contract|constructor]].
    + revert H. apply (table_all (fun A p => argsort_contract (map kabs (fst p)) (tl_sort (map kabs (fst p)))) _ A (w, V)).
      * auto.
      * constructor; [|constructor; [|constructor]]; apply tl_sort_ok; vm_compute; reflexivity.
  - intros A w L R H. revert H.
    apply (table_all (fun A p => eig_contract A (fst (fst p)) (snd (fst p)) (snd p)) _ A (w, L, R)).
    + intros. eapply eig_contract_aeq; eauto.
    + constructor; [apply tl_J_contract|constructor].
  - intros x [<-|[<-|[<-|[]]]]; apply sqrt_ok_dec; vm_compute; reflexivity.
  - reflexivity.
  - intros [|[|i]] Hi; try lia; apply keqb_false; auto.
Qed.

(** The direct method on the same data. *)
Lemma svd_answer sl (A A' U0 : arr QI) S0 Vh0 atol rtol U S V n l B :
  sl A = Ok (U0, S0, Vh0) -> svd sl A atol rtol = Ok (U, S, V) ->
  rmap (fun p => snd (fst p)) (svd (fun _ => Ok (U0, S0, Vh0)) A' atol rtol) = Ok l ->
  rmap (fun p => meqb n (length l) (ent (snd p)) B) (svd (fun _ => Ok (U0, S0, Vh0)) A' atol rtol) = Ok true ->
  S = l /\ meq n (length l) (ent V) B.
Proof.
  intros H H1. assert (H2 : svd (fun _ => Ok (U0, S0, Vh0)) A' atol rtol = Ok (U, S, V)).
  { rewrite <- H1. unfold svd. rewrite H. reflexivity. }
  rewrite H2. unfold rmap, rbind. cbn [fst snd]. intros G1 G2. injection G1 as ->. split; auto.
  apply meqb_true. congruence.
Qed.
Definition no_chol (A : arr QI) : res (arr QI) := Raise LinAlgError.

Example C27_coincides_direct_example :
  same_results tl_w
    (rmap t_dmd (TLS_direct tl_svd no_chol tl_eig tl_sqrt false tl_X (Some tl_Y) None None (Some (qi 1 0 8)) None None))
    (DMD_direct tl_svd no_chol tl_eig tl_sqrt false tl_X (Some tl_Y) None None (Some (qi 1 0 8)) None None).
Proof.
  destruct (C27_coincides_direct tl_svd no_chol tl_eig tl_sqrt tl_X (Some tl_Y) tl_X tl_Y None None mid)
    as (Z & Xw & EZ & EX & H).
  - apply table_extensional.
  - apply table_extensional.
  - repeat split; auto.
  - simpl. lia.
  - constructor.
  - apply id_definite.
  - cbn in EZ. injection EZ as <-. cbn in EX. injection EX as <-. fold tl_Z in H.
    destruct (H tl_Uz [qi 5 0 2; qi 5 0 4] (conj_T ex_V) (eye 2) [q 2; q 1] (conj_T ex_V) (Some (qi 1 0 8)) None None)
      as (S & V & P1 & P2 & (U & S' & V' & EE & ES & EV) & G).
    + apply tl_svd_Z.
    + apply tl_Z_contract.
    + apply tl_svd_X.
    + apply tl_X_contract.
    + real_solve.
    + exact I.
    + left. reflexivity.
    + left. reflexivity.
    + intros s [<-|[<-|[]]]; apply sqrt_ok_dec; vm_compute; reflexivity.
    + intros [|[|i]] Hi _; simpl in Hi; try lia; (split; [|exact I]); split; try exact I; vm_compute; reflexivity.
    + destruct (svd_answer _ _ tl_X _ _ _ _ _ _ _ _ 2 [q 2; q 1] (ent ex_V) tl_svd_X EE) as [E1 E2];
        [vm_compute; reflexivity|vm_compute; reflexivity|].
      assert (SS : S = [q 2; q 1]) by (rewrite ES, E1; reflexivity).
      assert (VV : meq 2 2 (ent V) (ent ex_V)) by (rewrite EV; exact E2).
      rewrite SS in *. change (length [q 2; q 1]) with 2%nat in *.
      destruct G as (M & M1 & M2 & M3 & G).
      { intros [|[|i]] Hi; try lia; neq_solve. }
      assert (EEE : map (fun s : QI => s * s) [q 2; q 1] = [q 4; q 1]) by (vm_compute; reflexivity).
      rewrite EEE in M3.
      destruct (mk_aeq 2 2 M tl_J) as [AM AM']; auto.
      { rewrite M3. apply tl_low. exact VV. }
      apply (G tl_w tl_R0 tl_R0).
      * rewrite <- tl_eig_J. apply table_extensional. auto.
      * apply (eig_contract_aeq tl_J); auto using tl_J_contract.
      * apply tl_pairing.
Qed.

(** ** A truncating call: X = diag(2, 1), Y = [[4, -2], [4, 2]], one mode kept *)
Definition tt_X : arr QI := of_rows 2 [[q 2; q 0]; [q 0; q 1]].
Definition tt_Y : arr QI := of_rows 2 [[q 4; qi (-2) 0 1]; [q 4; q 2]].
Definition tt_1 : arr QI := eye 1.
Definition tt_2 : arr QI := eye 2.
Definition tt_Sm : arr QI := of_rows 2 [[q 36; q 0]; [q 0; q 9]].
Definition tt_PC : arr QI := of_rows 2 [[q 4; q 0]; [q 0; q 0]].
Definition tt_V0 : arr QI := of_rows 2 [[q 0; q 1]; [q 1; q 0]].
Definition tt_e1 : arr QI := of_rows 1 [[q 1]; [q 0]].
Definition tt_eigh := table [(tt_Sm, ([q 9; q 36], tt_V0)); (tt_PC, ([q 0; q 4], tt_V0))].
Definition tt_M : arr QI := of_rows 1 [[q 2]].
Definition tt_eig := table [(tt_M, ([q 2], tt_1, tt_1))].
Lemma tt_Sm_contract : eigh_contract tt_Sm [q 9; q 36] tt_V0.
Proof. eigh_solve. Qed.
Lemma tt_PC_contract : eigh_contract tt_PC [q 0; q 4] tt_V0.
Proof. eigh_solve. Qed.
Lemma tt_M_contract : eig_contract tt_M [q 2] (tt_1) (tt_1).
Proof.
  split; try reflexivity; try eqb_solve; intros j Hj; exists j; (split; [auto|]); simpl in Hj;
    destruct j as [|j]; try lia; neq_solve.
Qed.
Lemma tt_eigh_Sm : tt_eigh tt_Sm = Ok ([q 9; q 36], tt_V0).
Proof. apply table_hit. vm_compute. reflexivity. Qed.
Lemma tt_eigh_PC : tt_eigh tt_PC = Ok ([q 0; q 4], tt_V0).
Proof.
  unfold tt_eigh. rewrite table_skip by (vm_compute; reflexivity). apply table_hit. vm_compute. reflexivity.
Qed.
Lemma tt_eig_M : tt_eig tt_M = Ok ([q 2], tt_1, tt_1).
Proof. apply table_hit. vm_compute. reflexivity. Qed.
Definition tt_snaps := TLS_snaps tt_eigh tl_sort tt_eig tl_sqrt false tt_X (Some tt_Y) None None
  (Some (qi 1 0 8)) None (Some 1%nat).

Example C27_TLSqr_snaps_example : exists Vs V M L Pe Pp Ps pc apc sp sp' corr,
  meq 2 1 (ent Vs) (ent tt_e1) /\
  tls_returns tt_snaps None Pe Pp Ps [q 2] sp pc apc (tt_1) L [q 4] V [q 36] Vs corr /\
  dmd_spec tl_sqrt (denoised tt_X Vs) (denoised tt_Y Vs) mid [q 4] V [q 2] M (tt_1) L Pe Pp Ps pc apc sp'.
Proof.
  destruct (C27_TLSqr_snaps tt_eigh tl_sort tt_eig tl_sqrt tt_X (Some tt_Y) tt_X tt_Y None None WNone)
    as (C & K & G & Sm & EC & S1 & S2 & EA & ES & H).
  - repeat split; auto.
  - simpl. lia.
  - reflexivity.
  - exact I.
  - eqb_solve.
  - change (nc tt_X) with 2%nat in *. change (nr tt_X) with 2%nat in *.
    destruct (mk_aeq 2 2 Sm tt_Sm) as [AS AS']; auto.
    { rewrite ES. eqb_solve. }
    assert (LS : tt_eigh Sm = Ok ([q 9; q 36], tt_V0)).
    { rewrite <- tt_eigh_Sm. apply table_extensional. auto. }
    destruct (H [q 9; q 36] tt_V0 (qi 1 0 8) None (Some 1%nat)) as
      (Es & Vs & w1 & K1 & (vs & cs & EEs & EVs & VVs) & _ & PC & EP & P1 & P2 & P3 & H2).
    + exact LS.
    + apply (eigh_contract_aeq tt_Sm); auto using tt_Sm_contract.
    + apply tl_sort_ok. vm_compute. reflexivity.
    + real_solve.
    + le_solve.
    + exact I.
    + destruct (eigh_answer _ _ _ _ _ _ _ _ _ 2 [q 36; q 9] (ent (tt_2)) LS EEs) as [Ev Ec];
        [vm_compute; reflexivity|vm_compute; reflexivity|].
      assert (EEs' : Es = [q 36]) by (rewrite EVs, Ev; reflexivity).
      assert (VE : meq 2 1 (ent Vs) (ent tt_e1)).
      { rewrite VVs, max_cols_ent. split. intros i j Hi Hj. rewrite (meq_at _ _ _ _ Ec i j Hi ltac:(simpl; lia)).
        destruct i as [|[|i]]; destruct j as [|j]; try lia; reflexivity. }
      assert (Vc : nc Vs = 1%nat) by (rewrite (ek_c _ _ _ _ _ _ _ _ K1), EEs'; reflexivity).
      assert (DE : forall A, nc A = 2%nat -> meq 2 2 (ent (denoised A Vs)) (ent (denoised A tt_e1))).
      { intros A HA. unfold denoised. cbn [ent]. rewrite HA, Vc. change (nc tt_e1) with 1%nat. rewrite VE. reflexivity. }
      destruct (mk_aeq 2 2 PC tt_PC) as [AP AP']; auto.
      { rewrite P3. rewrite (DE tt_X eq_refl). eqb_solve. }
      assert (LP : tt_eigh PC = Ok ([q 0; q 4], tt_V0)).
      { rewrite <- tt_eigh_PC. apply table_extensional. auto. }
      destruct (H2 [q 0; q 4] tt_V0) as (E & V & w1' & K2 & (vals & cv & EE & EV & VV) & KK & M & M1 & M2 & M3 & G2).
      * exact LP.
      * apply (eigh_contract_aeq tt_PC); auto using tt_PC_contract.
      * apply tl_sort_ok. vm_compute. reflexivity.
      * intros e [<-|[<-|[]]] _; apply sqrt_ok_dec; vm_compute; reflexivity.
      * destruct (eigh_answer _ _ _ _ _ _ _ _ _ 2 [q 4] (ent tt_e1) LP EE) as [Ev' Ec'];
          [vm_compute; reflexivity|vm_compute; reflexivity|].
        assert (EE' : E = [q 4]) by (rewrite EV, Ev'; reflexivity).
        assert (VE' : meq 2 1 (ent V) (ent tt_e1)) by (rewrite VV, max_cols_ent; exact Ec').
        rewrite EE' in *. change (length [q 4]) with 1%nat in *.
        destruct (mk_aeq 1 1 M tt_M) as [AM AM']; auto.
        { rewrite M3. transitivity (low_map tl_sqrt (denoised tt_X tt_e1) (denoised tt_Y tt_e1) mid [q 4] (ent tt_e1)); [|eqb_solve].
          unfold low_map. change (length [q 4]) with 1%nat. change (nr (denoised tt_X Vs)) with 2%nat.
          change (nc (denoised tt_X Vs)) with 2%nat. change (nr (denoised tt_X tt_e1)) with 2%nat.
          change (nc (denoised tt_X tt_e1)) with 2%nat.
          rewrite VE'. rewrite (DE tt_X eq_refl), (DE tt_Y eq_refl). reflexivity. }
        destruct (G2 [q 2] (tt_1) (tt_1)) as (L & Pe & Pp & Ps & pc & apc & sp & sp' & B & Rr & Sp & _).
        -- rewrite <- tt_eig_M. apply table_extensional. auto.
        -- apply (eig_contract_aeq tt_M); auto using tt_M_contract.
        -- intros [|i] Hi; try lia; neq_solve.
        -- exists Vs, V, M, L, Pe, Pp, Ps, pc, apc, sp, sp', (Some (C, G, K)). split; [exact VE|].
           rewrite EEs' in Rr. split; [exact Rr|exact Sp].
Qed.
(** What this call returns: the data is projected on its first vector, so the
    eigenvalue is that of e1 -> (4, 4)/2 compressed to the span of e1. *)
Example C27_TLSqr_snaps_values :
  rmap (fun r => (d_eigvals (t_dmd r), d_cvals (t_dmd r), t_sum_vals r,
    meqb 2 1 (ent (d_proj (t_dmd r))) (ent tt_e1),
    meqb 2 1 (ent (d_exact (t_dmd r))) (fun _ _ => q 1))) tt_snaps = Ok ([q 2], [q 4], [q 36], true, true).
Proof. vm_compute. reflexivity. Qed.

Example C27_distributed_example :
  TLS_snaps tl_eigh tl_sort tl_eig tl_sqrt true tl_X (Some tl_Y) None None (Some (qi 1 0 8)) None None
  = Raise RuntimeError.
Proof. apply C27_distributed. Qed.

(** The direct method on this data. *)
Definition tt_Z : arr QI := vcat tt_X tt_Y.
Definition tt_Uz : arr QI := of_rows 2 [[qi 1 0 3; q 0]; [q 0; qi 1 0 3]; [qi 2 0 3; qi (-2) 0 3]; [qi 2 0 3; qi 2 0 3]].
Definition tt_svd := table [(tt_Z, (tt_Uz, [q 6; q 3], tt_2)); 
  (denoised tt_X tt_e1, (tt_2, [q 2; q 0], tt_2))].
Lemma tt_Z_contract : svd_contract tt_Z tt_Uz [q 6; q 3] (tt_2).
Proof. svd_solve. Qed.
Lemma tt_Xp_contract : svd_contract (denoised tt_X tt_e1) (tt_2) [q 2; q 0] (tt_2).
Proof. svd_solve. Qed.
Lemma tt_svd_Z : tt_svd tt_Z = Ok (tt_Uz, [q 6; q 3], tt_2).
Proof. apply table_hit. vm_compute. reflexivity. Qed.
Lemma tt_svd_Xp : tt_svd (denoised tt_X tt_e1) = Ok (tt_2, [q 2; q 0], tt_2).
Proof.
  unfold tt_svd. rewrite table_skip by (vm_compute; reflexivity).
  apply table_hit. vm_compute. reflexivity.
Qed.
Definition tt_direct := TLS_direct tt_svd no_chol tt_eig tl_sqrt false tt_X (Some tt_Y) None None
  (Some (qi 1 0 8)) None (Some 1%nat).
Example C27_TLSqr_direct_example : exists Vs Xp Yp V,
  meq 2 1 (ent Vs) (ent tt_e1) /\ aeq Xp (denoised tt_X Vs) /\ aeq Yp (denoised tt_Y Vs) /\
  tt_direct = rmap (fun d => Tls d [q 36] Vs None)
    (DMD_direct tt_svd no_chol tt_eig tl_sqrt false Xp (Some Yp) None None (Some (qi 1 0 8)) None (Some 1%nat)) /\
  dmd_kept tl_sqrt (denoised tt_X Vs) mid [q 4] V /\
  dmd_ok tt_eig tl_sqrt (denoised tt_X Vs) (denoised tt_Y Vs) mid [q 4] V None None
    (DMD_direct tt_svd no_chol tt_eig tl_sqrt false Xp (Some Yp) None None (Some (qi 1 0 8)) None (Some 1%nat)).
Proof.
  destruct (C27_TLSqr_direct tt_svd no_chol tt_eig tl_sqrt tt_X (Some tt_Y) tt_X tt_Y None None mid)
    as (Z & EZ & Zc & _ & H).
  - repeat split; auto.
  - simpl. lia.
  - constructor.
  - cbn in EZ. injection EZ as <-. fold tt_Z in H.
    destruct (H tt_Uz [q 6; q 3] (tt_2) (Some (qi 1 0 8)) None (Some 1%nat))
      as (Ss & Vs & _ & _ & Vr & Vc & _ & _ & (U & S' & V' & EE & ES & EV) & _ & Xp & Yp & AX & AY & ET).
    + apply tt_svd_Z.
    + apply tt_Z_contract.
    + real_solve.
    + exact I.
    + left. reflexivity.
    + destruct (svd_answer _ _ tt_Z _ _ _ _ _ _ _ _ 2 [q 6; q 3] (ent (tt_2)) tt_svd_Z EE) as [E1 E2];
        [vm_compute; reflexivity|vm_compute; reflexivity|].
      assert (SS : Ss = [q 6]) by (rewrite ES, E1; reflexivity).
      assert (VE : meq 2 1 (ent Vs) (ent tt_e1)).
      { rewrite EV, max_cols_ent. split. intros i j Hi Hj. rewrite (meq_at _ _ _ _ E2 i j Hi ltac:(simpl; lia)).
        destruct i as [|[|i]]; destruct j as [|j]; try lia; reflexivity. }
      rewrite SS in Vc, ET. change (length [q 6]) with 1%nat in Vc.
      destruct (C27_direct_denoised tt_svd no_chol tt_eig tl_sqrt tt_X tt_Y Vs Xp Yp None None mid)
        as (Xw & EXw & X1 & X2 & _ & H2); auto.
      * simpl. lia.
      * constructor.
      * cbn in EXw. injection EXw as <-.
        assert (AXp : aeq (denoised tt_X tt_e1) Xp).
        { destruct AX as (a1 & a2 & a3). destruct (mk_aeq 2 2 Xp (denoised tt_X tt_e1)) as [_ AA]; auto.
          rewrite X1, X2 in a3. change (nr tt_X) with 2%nat in a3. change (nc tt_X) with 2%nat in a3.
          rewrite a3. unfold denoised. cbn [ent]. rewrite Vc. change (nc tt_e1) with 1%nat. change (nc tt_X) with 2%nat.
          rewrite VE. reflexivity. }
        assert (LX : tt_svd Xp = Ok (tt_2, [q 2; q 0], tt_2)).
        { rewrite <- tt_svd_Xp. symmetry. apply table_extensional. auto. }
        destruct (H2 (tt_2) [q 2; q 0] (tt_2) (Some (qi 1 0 8)) None (Some 1%nat))
          as (S & V & P1 & P2 & (U2 & S2 & V2 & EE2 & ES2 & EV2) & G).
        -- exact LX.
        -- apply (svd_contract_aeq (denoised tt_X tt_e1)); auto using tt_Xp_contract.
        -- real_solve.
        -- exact I.
        -- left. reflexivity.
        -- intros s [<-|[<-|[]]]; apply sqrt_ok_dec; vm_compute; reflexivity.
        -- destruct (svd_answer _ _ tt_X _ _ _ _ _ _ _ _ 2 [q 2] (ent tt_e1) LX EE2) as [E3 E4];
             [vm_compute; reflexivity|vm_compute; reflexivity|].
           assert (SS2 : S = [q 2]) by (rewrite ES2, E3; reflexivity). rewrite SS2 in G.
           destruct G as [G1 G2].
           { intros [|i] Hi; simpl in Hi; try lia; neq_solve. }
           assert (Q4 : map (fun s : QI => s * s) [q 2] = [q 4]) by (vm_compute; reflexivity).
           assert (Q36 : map (fun s : QI => s * s) [q 6] = [q 36]) by (vm_compute; reflexivity).
           rewrite Q4 in G1, G2. rewrite Q36 in ET.
           exists Vs, Xp, Yp, V. do 3 (split; [auto|]). split; [exact ET|]. split; [exact G1|exact G2].
Qed.

Print Assumptions C27_TLSqr_snaps.
Print Assumptions C27_TLSqr_snaps_example.
Print Assumptions C27_TLSqr_snaps_values.
Print Assumptions C27_TLSqr_direct.
Print Assumptions C27_TLSqr_direct_example.
Print Assumptions C27_direct_denoised.
Print Assumptions C27_coincides_snaps.
Print Assumptions C27_coincides_snaps_example.
Print Assumptions C27_coincides_direct.
Print Assumptions C27_coincides_direct_example.
Print Assumptions C27_spectral_real.
Print Assumptions C27_spectral_refuted.
Print Assumptions C27_distributed.
