(** Instances for C22, C24, C25 and C27 of the DMD handle classes, on two processes. *)
From stdpp Require Import gmap list.
From Coq Require Import ZArith Lia Field Ring Setoid Morphisms.
From Verif Require Import Prelude Field FieldInst Matrix NdArray DecompModel DecompProofs DecompProps
  VSArraysModel VSArraysProofs PodModel PodProofs PodProps BpodModel DmdModel DmdProofs DmdCore DmdSnaps DmdProps
  DmdExamples TlsModel TlsProofs TlsProps TlsExamples
  Spmd LinCombModel InnerProdProps HandlesModel HandlesProofs HandlesSpace HandlesExamples
  DmdHandlesModel DmdHandlesProofs DmdHandlesModes DmdHandlesDecomp DmdHandlesProps DmdHistory.
Open Scope nat_scope.
Open Scope k_scope.

(** ** Three vectors of dimension two: ex_seq of DmdExamples *)
Definition dh_space := wspace (F := QI) 2 ex_W1 6 3 1.
Definition dh_store : gmap loc (nat -> QI) :=
  <[1%nat := fun i => NdArray.ent ex_seq i 0%nat]> (<[2%nat := fun i => NdArray.ent ex_seq i 1%nat]>
  (<[3%nat := fun i => NdArray.ent ex_seq i 2%nat]> ∅)).
Definition dh_el := table [(ex_C, (ex_cw, ex_cV))].
Definition dh_eig := table [(ex_low, (ex_lw, ex_lL, ex_lR))].

Lemma dh_set_up : set_up (Some 1%Z) 2 10 dh_space.
Proof. split; [split; [simpl; lia|]; split; [simpl; lia|reflexivity]|simpl; lia]. Qed.
Lemma dh_holds : holds dh_store [1; 2; 3]%nat (columns ex_seq).
Proof. repeat constructor. Qed.
Lemma dh_outputs : dmd_outputs [1; 2; 3]%nat None [1; 0]%Z [10; 11]%nat [0]%Z [12]%nat [-1; -2]%Z [13; 14]%nat.
Proof.
  split; try reflexivity.
  - apply (bool_decide_unpack (NoDup [10; 11; 12; 13; 14]%nat)). reflexivity.
  - intros h Hh. apply (bool_decide_unpack (h ∉ [10; 11; 12; 13; 14]%nat)).
    destruct Hh as [Hh|Hh]; repeat (apply elem_of_cons in Hh; destruct Hh as [->|Hh]; [reflexivity|]); inversion Hh.
Qed.
Lemma wgram n W a b c (A B : arr QI) : 
  aeq (gram (wspace n W a b c) (columns A) (columns B)) (Arr (nc A) (nc B) (wip n W (NdArray.ent A) (NdArray.ent B))).
Proof.
  set (sp := wspace n W a b c).
  split; [exact (columns_length A)|]. split; [exact (columns_length B)|]. split. intros i j Hi Hj.
  change (nr (gram sp (columns A) (columns B))) with (length (columns A)) in Hi.
  change (nc (gram sp (columns A) (columns B))) with (length (columns B)) in Hj.
  rewrite (gram_ent sp _ _ (fun _ => 0)) by auto. rewrite columns_length in Hi, Hj.
  unfold sp. rewrite columns_ip by auto. reflexivity.
Qed.
Lemma aeq_tr (A B C : arr QI) : aeq A B -> aeq B C -> aeq A C.
Proof.
  intros (a1 & a2 & a3) (b1 & b2 & b3). split; [congruence|]. split; [congruence|].
  rewrite a1, a2 in *. rewrite a3, b3. reflexivity.
Qed.
Lemma aeq_sy (A B : arr QI) : aeq A B -> aeq B A.
Proof. intros (a1 & a2 & a3). split; [auto|]. split; [auto|]. rewrite <- a1, <- a2. symmetry. exact a3. Qed.

(** C22 and C24: the sequence, and the split sequence, give the same modes.  In each
    case the adjoint modes 1 and 0 are biorthonormal to the exact modes 1 and 0. *)
Example C24_handles_example eager :
  exists U L pc apc sp o1 pc' apc' sp' o1', aeq pc pc' /\ aeq apc apc' /\ sp = sp' /\
    let xv := columns (but_last_col ex_seq) in let yv := columns (but_first_col ex_seq) in
    let good o1 pc apc sp (st' : gmap loc (nat -> QI)) r := exists ems pms ams,
      holds st' [10; 11]%nat ems /\ holds st' [12]%nat pms /\ holds st' [13; 14]%nat ams /\
      dmd_modes dh_space ex_sqrt xv yv mid ex_E U ex_lw ex_lR L pc apc sp [1; 0]%nat [0]%nat [1; 0]%nat ems pms ams /\
      r = Ok (o1, sp, (pc, apc)) /\
      forall d, ip dh_space (nth 0 ams d) (nth 0 ems d) = 1 /\ ip dh_space (nth 0 ams d) (nth 1 ems d) = 0 /\
                ip dh_space (nth 1 ams d) (nth 0 ems d) = 0 /\ ip dh_space (nth 1 ams d) (nth 0 pms d) = 1 in
    runs dh_space 2 10 eager dh_store (DMD_session false dh_el (fun _ => [0; 1]%nat) dh_eig ex_sqrt DMD_new
      [1; 2; 3]%nat None (Some (qi 1 0 8)) None None [1; 0]%Z [10; 11]%nat [0]%Z [12]%nat [-1; -2]%Z [13; 14]%nat)
      (good o1 pc apc sp) /\
    runs dh_space 2 10 eager dh_store (DMD_session false dh_el (fun _ => [0; 1]%nat) dh_eig ex_sqrt DMD_new
      [1; 2]%nat (Some [2; 3]%nat) (Some (qi 1 0 8)) None None [1; 0]%Z [10; 11]%nat [0]%Z [12]%nat [-1; -2]%Z
      [13; 14]%nat) (good o1' pc' apc' sp').
Proof.
  destruct (C24_handles dh_space (wspace_ip 2 ex_W1 6 3 1 ex_hermitian) (Some 1%Z) 2 10 eager
    dh_el (fun _ => [0; 1]%nat) dh_eig ex_sqrt DMD_new DMD_new [1; 2; 3]%nat (columns ex_seq) dh_store
    (qi 1 0 8) None None None [1; 0]%Z [10; 11]%nat [0]%Z [12]%nat [-1; -2]%Z [13; 14]%nat) as (C & AC & H);
    auto using dh_set_up, dh_holds, dh_outputs; try apply table_extensional; try (simpl; lia); try real_solve;
    try le_solve.
  change (removelast (columns ex_seq)) with (columns (but_last_col ex_seq)) in *.
  change (tl (columns ex_seq)) with (columns (but_first_col ex_seq)) in *.
  assert (ECC : aeq ex_C C).
  { apply aeq_sy. eapply aeq_tr; [exact AC|]. eapply aeq_tr; [apply wgram|].
    split; [reflexivity|]. split; [reflexivity|]. apply meqb_true. vm_compute. reflexivity. }
  assert (EL : dh_el C = Ok (ex_cw, ex_cV)).
  { unfold dh_el. rewrite <- (table_extensional _ _ _ ECC). apply table_hit. vm_compute. reflexivity. }
  destruct (H ex_cw ex_cV) as (E & U & w1 & M & (vals & cvecs & EE & -> & ->) & _ & M1 & M2 & M3 & G); auto.
  { apply (eigh_contract_aeq ex_C); [exact ECC|apply ex_C_contract]. }
  { split; try reflexivity.
    - repeat constructor; simpl; set_solver.
    - repeat constructor; simpl; lia.
    - intros i j Hij Hj. simpl in Hj. destruct i as [|[|i]]; destruct j as [|[|j]]; try lia;
          try (left; vm_compute; reflexivity); right; reflexivity. }
  { intros e [<-|[<-|[]]] _; apply sq_ok_dec; vm_compute; reflexivity. }
  change (max_list None vals) with vals in *. change (max_cols None (length vals) cvecs) with cvecs in *.
  destruct (eigh_answer dh_el (fun _ => [0; 1]%nat) C ex_cw ex_cV (Some (qi 1 0 8)) None vals cvecs 2 ex_E (NdArray.ent ex_V) EL EE)
    as [-> Ec].
  { vm_compute. reflexivity. }
  { vm_compute. reflexivity. }
  change (length ex_E) with 2%nat in *.
  assert (AM : aeq ex_low M).
  { split; [auto|]. split; [auto|]. change (meq 2 2 (NdArray.ent ex_low) (NdArray.ent M)). rewrite M3.
    unfold low_order. rewrite Ec. rewrite (proj2 (proj2 (wgram 2 ex_W1 6 3 1 (but_last_col ex_seq) (but_first_col ex_seq)))).
    apply meqb_true. vm_compute. reflexivity. }
  destruct (G ex_lw ex_lL ex_lR) as (L & pc & apc & sp & o1 & pc' & apc' & sp' & o1' & BR & A1 & A2 & A3 & R1 & R2).
  { unfold dh_eig. rewrite <- (table_extensional _ _ _ AM). apply table_hit. vm_compute. reflexivity. }
  { apply (eig_contract_aeq ex_low); [exact AM|apply ex_low_contract]. }
  { apply ex_low_pairing. }
  exists cvecs, L, pc, apc, sp, o1, pc', apc', sp', o1'. do 3 (split; [auto|]). cbv zeta.
  assert (FIN : forall pc apc sp o1 h, runs dh_space 2 10 eager dh_store h
     (dmd_post dh_space ex_sqrt (columns (but_last_col ex_seq)) (columns (but_first_col ex_seq)) mid ex_E cvecs
        ex_lw ex_lR L pc apc sp [1; 0]%Z [10; 11]%nat [0]%Z [12]%nat [-1; -2]%Z [13; 14]%nat o1 dh_store) ->
     runs dh_space 2 10 eager dh_store h (fun st' r => exists ems pms ams,
      holds st' [10; 11]%nat ems /\ holds st' [12]%nat pms /\ holds st' [13; 14]%nat ams /\
      dmd_modes dh_space ex_sqrt (columns (but_last_col ex_seq)) (columns (but_first_col ex_seq)) mid ex_E cvecs
        ex_lw ex_lR L pc apc sp [1; 0]%nat [0]%nat [1; 0]%nat ems pms ams /\
      r = Ok (o1, sp, (pc, apc)) /\
      forall d, ip dh_space (nth 0 ams d) (nth 0 ems d) = 1 /\ ip dh_space (nth 0 ams d) (nth 1 ems d) = 0 /\
                ip dh_space (nth 1 ams d) (nth 0 ems d) = 0 /\ ip dh_space (nth 1 ams d) (nth 0 pms d) = 1)).
  { clear -BR M1. intros pc apc sp o1 h HR. eapply runs_mono; [exact HR|]. intros st' r (Q1 & _ & ems & pms & ams & Q2 & Q3 & Q4 & Q5).
    exists ems, pms, ams. do 3 (split; [assumption|]). split; [exact Q5|]. split; [exact Q1|].
    intros d.
    assert (N : forall a b : QI, keqb a b = false -> a <> b) by (intros; apply keqb_false; auto).
    pose proof (fun a b => C22_handles_biorthonormal dh_space ex_sqrt _ _ _ _ _ _ M _ _ _ _ _ _ _ _ _ _ _ a b d Q5 BR M1) as B.
    assert (J : Forall (fun j => (j < length ex_E)%nat) [1; 0]%nat) by (repeat constructor; simpl; lia).
    assert (J0 : Forall (fun j => (j < length ex_E)%nat) [0]%nat) by (repeat constructor; simpl; lia).
    split; [|split; [|split]].
    - destruct (B 0%nat 0%nat J) as [_ B1]; [simpl; lia|]. apply B1; auto; try (simpl; lia); apply N; vm_compute; reflexivity.
    - destruct (B 0%nat 1%nat J) as [_ B1]; [simpl; lia|]. apply B1; auto; try (simpl; lia); try right; apply N; vm_compute; reflexivity.
    - destruct (B 1%nat 0%nat J) as [_ B1]; [simpl; lia|]. apply B1; auto; try (simpl; lia); try right; apply N; vm_compute; reflexivity.
    - destruct (B 1%nat 0%nat J) as [B1 _]; [simpl; lia|]. apply B1; auto; simpl; lia. }
  split; apply FIN; assumption.
Qed.

(** ** Two vectors, with inner product 4 u0* v0 + u1* v1: x = (1, 0), y = (2i, 1) *)
Definition d1_seq : arr QI := of_rows 2 [[q 1; qi 0 2 1]; [q 0; q 1]].
Definition d1_store : gmap loc (nat -> QI) :=
  <[1%nat := fun i => NdArray.ent d1_seq i 0%nat]> (<[2%nat := fun i => NdArray.ent d1_seq i 1%nat]> ∅).
(** Routines for arrays with one entry. *)
Definition d1_el (A : arr QI) : res (list QI * arr QI) :=
  if ((nr A =? 1) && (nc A =? 1))%nat then Ok ([NdArray.ent A 0%nat 0%nat], eye 1) else Raise LinAlgError.
Definition d1_eig (A : arr QI) : res (list QI * arr QI * arr QI) :=
  if ((nr A =? 1) && (nc A =? 1))%nat then Ok ([NdArray.ent A 0%nat 0%nat], eye 1, eye 1) else Raise LinAlgError.
Definition d1_sort (l : list QI) : list nat := [0%nat].

Lemma d1_el_ext : extensional d1_el.
Proof.
  intros A A' (H1 & H2 & H3). unfold d1_el. rewrite <- H1, <- H2.
  destruct (Nat.eqb_spec (nr A) 1) as [E1|]; auto. destruct (Nat.eqb_spec (nc A) 1) as [E2|]; auto. simpl.
  rewrite (meq_at _ _ _ _ H3 0%nat 0%nat) by lia. reflexivity.
Qed.
Lemma d1_eig_ext : extensional d1_eig.
Proof.
  intros A A' (H1 & H2 & H3). unfold d1_eig. rewrite <- H1, <- H2.
  destruct (Nat.eqb_spec (nr A) 1) as [E1|]; auto. destruct (Nat.eqb_spec (nc A) 1) as [E2|]; auto. simpl.
  rewrite (meq_at _ _ _ _ H3 0%nat 0%nat) by lia. reflexivity.
Qed.
Lemma d1_one (A B : mat QI) : A 0%nat 0%nat = B 0%nat 0%nat -> meq 1 1 A B.
Proof. intros H. split. intros i j Hi Hj. destruct i; [|lia]. destruct j; [exact H|lia]. Qed.
Lemma d1_el_ok A : nr A = 1%nat -> nc A = 1%nat -> real (NdArray.ent A 0%nat 0%nat) ->
  d1_el A = Ok ([NdArray.ent A 0%nat 0%nat], eye 1) /\ eigh_contract A [NdArray.ent A 0%nat 0%nat] (eye 1).
Proof.
  intros H1 H2 H3. unfold d1_el. rewrite H1, H2. split; [reflexivity|].
  split; rewrite ?H1, ?H2; try reflexivity.
  - apply d1_one. apply keqb_true. vm_compute. reflexivity.
  - cbn [eye NdArray.ent]. rewrite mmul_id_r, mmul_id_l. apply d1_one. reflexivity.
  - constructor; auto.
Qed.
Lemma d1_eig_ok A : nr A = 1%nat -> nc A = 1%nat ->
  d1_eig A = Ok ([NdArray.ent A 0%nat 0%nat], eye 1, eye 1) /\
  eig_contract A [NdArray.ent A 0%nat 0%nat] (eye 1) (eye 1).
Proof.
  intros H1 H2. unfold d1_eig. rewrite H1, H2. split; [reflexivity|].
  assert (N : (1 : QI) <> 0) by (apply keqb_false; vm_compute; reflexivity).
  split; rewrite ?H1, ?H2; try reflexivity.
  - cbn [eye NdArray.ent]. rewrite mmul_id_r, mmul_id_l. apply d1_one. reflexivity.
  - cbn [eye NdArray.ent]. rewrite madj_mid, mmul_id_l, mmul_id_r. apply d1_one. reflexivity.
  - intros j Hj. exists 0%nat. destruct j; [|lia]. auto.
  - intros j Hj. exists 0%nat. destruct j; [|lia]. auto.
Qed.
Lemma d1_pairing i : (i < 1)%nat -> pairing 1 (eye (F := QI) 1) (eye 1) i i <> 0.
Proof. intros Hi. destruct i; [|lia]. apply keqb_false. vm_compute. reflexivity. Qed.
Lemma d1_sort_ok (a : QI) : argsort_contract (map kabs [a]) (d1_sort (map kabs [a])).
Proof.
  split; try reflexivity.
  - repeat constructor; simpl; set_solver.
  - repeat constructor; simpl; lia.
  - intros i j Hij Hj. simpl in Hj. destruct i; [|lia]. destruct j; [|lia]. right. reflexivity.
Qed.
Lemma d1_outputs : dmd_outputs [1; 2]%nat None [0]%Z [10]%nat [0]%Z [11]%nat [-1]%Z [12]%nat.
Proof.
  split; try reflexivity.
  - apply (bool_decide_unpack (NoDup [10; 11; 12]%nat)). reflexivity.
  - intros h Hh. apply (bool_decide_unpack (h ∉ [10; 11; 12]%nat)).
    destruct Hh as [Hh|Hh]; repeat (apply elem_of_cons in Hh; destruct Hh as [->|Hh]; [reflexivity|]); inversion Hh.
Qed.
Definition d1_x : arr QI := but_last_col d1_seq.
Definition d1_y : arr QI := but_first_col d1_seq.
(** What the routines answer for an array with the entry [a]. *)
Lemma d1_eigh A (a t : QI) (E : list QI) U : nr A = 1%nat -> nc A = 1%nat -> NdArray.ent A 0%nat 0%nat = a ->
  kept_by (eigh d1_el d1_sort A (Some t) None true) None E U ->
  rmap fst (TlsExamples.eigh_of d1_sort [a] (eye 1) (Some t) None) = Ok [a] ->
  rmap (fun p => meqb 1 1 (NdArray.ent (snd p)) mid) (TlsExamples.eigh_of d1_sort [a] (eye 1) (Some t) None) = Ok true ->
  E = [a] /\ meq 1 1 (NdArray.ent U) mid.
Proof.
  intros H1 H2 H3 (vals & cvecs & EE & -> & ->) G1 G2.
  assert (EL : d1_el A = Ok ([a], eye 1)) by (unfold d1_el; rewrite H1, H2, H3; reflexivity).
  exact (eigh_answer d1_el d1_sort A [a] (eye 1) (Some t) None vals cvecs 1 [a] mid EL EE G1 G2).
Qed.

(** Total-least-squares DMD: C27 and C24. The eigenvalue is 2i. *)
Example C27_handles_example eager :
  exists Vs U R L pc apc sp o1 pc' apc' sp' o1', aeq pc pc' /\ aeq apc apc' /\ sp = sp' /\
    let good pc apc sp o1 (st' : gmap loc (nat -> QI)) r := exists ems pms ams,
      holds st' [10]%nat ems /\ holds st' [11]%nat pms /\ holds st' [12]%nat ams /\
      dmd_modes dh_space ex_sqrt (columns d1_x) (columns d1_y) (projection true Vs) [q 4] U [qi 0 2 1] R L pc apc sp
        [0]%nat [0]%nat [0]%nat ems pms ams /\
      r = Ok (o1, sp, (pc, apc)) /\
      forall d, ip dh_space (nth 0 ams d) (nth 0 ems d) = 1 /\ ip dh_space (nth 0 ams d) (nth 0 pms d) = 1 in
    runs dh_space 2 10 eager d1_store (DMD_session true d1_el d1_sort d1_eig ex_sqrt DMD_new
      [1; 2]%nat None (Some (qi 1 0 8)) None None [0]%Z [10]%nat [0]%Z [11]%nat [-1]%Z [12]%nat) (good pc apc sp o1) /\
    runs dh_space 2 10 eager d1_store (DMD_session true d1_el d1_sort d1_eig ex_sqrt DMD_new
      [1]%nat (Some [2]%nat) (Some (qi 1 0 8)) None None [0]%Z [10]%nat [0]%Z [11]%nat [-1]%Z [12]%nat)
      (good pc' apc' sp' o1').
Proof.
  destruct (C24_handles_tls dh_space (wspace_ip 2 ex_W1 6 3 1 ex_hermitian) (Some 1%Z) 2 10 eager
    d1_el d1_sort d1_eig ex_sqrt DMD_new DMD_new [1; 2]%nat (columns d1_seq) d1_store
    (qi 1 0 8) None None None [0]%Z [10]%nat [0]%Z [11]%nat [-1]%Z [12]%nat) as (Sm & S1 & S2 & S3 & H);
    auto using dh_set_up, d1_outputs, d1_el_ext, d1_eig_ext; try (simpl; lia); try real_solve; try le_solve.
  { repeat constructor. }
  change (removelast (columns d1_seq)) with (columns d1_x) in *.
  change (tl (columns d1_seq)) with (columns d1_y) in *.
  change (length (columns d1_x)) with 1%nat in *.
  assert (GX : forall A B i j, (i < nc A)%nat -> (j < nc B)%nat ->
    NdArray.ent (gram dh_space (columns A) (columns B)) i j = wip 2 ex_W1 (NdArray.ent A) (NdArray.ent B) i j).
  { intros A B i j Hi Hj. apply (meq_at _ _ _ _ (proj2 (proj2 (wgram 2 ex_W1 6 3 1 A B))));
      [change (i < length (columns A))%nat|change (j < length (columns B))%nat]; rewrite columns_length; auto. }
  assert (ES : NdArray.ent Sm 0%nat 0%nat = q 21).
  { rewrite (meq_at _ _ _ _ S3 0%nat 0%nat) by lia. unfold madd. rewrite !GX by (simpl; lia).
    apply keqb_true. vm_compute. reflexivity. }
  assert (RS : real (NdArray.ent Sm 0%nat 0%nat)) by (rewrite ES; real_solve).
  destruct (d1_el_ok Sm S1 S2 RS) as [EL HC]. rewrite ES in EL, HC.
  destruct (H _ _ EL HC (d1_sort_ok _)) as (Es & Vs & w1 & PC & KB & _ & P1 & P2 & P3 & H'). clear H.
  destruct (d1_eigh Sm (q 21) (qi 1 0 8) Es Vs S1 S2 ES KB) as [-> EVs]; [vm_compute; reflexivity|vm_compute; reflexivity|].
  assert (Q1 : meq 1 1 (projection true Vs) mid).
  { destruct KB as (vals & cvecs & EE & _ & ->). unfold projection.
    assert (NC : nc (max_cols None (length vals) cvecs) = 1%nat).
    { change (nc cvecs = 1%nat). unfold eigh in EE. rewrite EL in EE.
      pose proof (f_equal (rmap (fun p => nc (snd p))) EE) as G. vm_compute in G. injection G as G. auto. }
    rewrite NC, EVs. rewrite madj_mid, mmul_id_l. reflexivity. }
  assert (EP : NdArray.ent PC 0%nat 0%nat = q 4).
  { transitivity (mmul 1 (madj mid) (mmul 1 (wip 2 ex_W1 (NdArray.ent d1_x) (NdArray.ent d1_x)) mid) 0%nat 0%nat).
    - apply (meq_at 1 1 (NdArray.ent PC)); [|lia|lia]. rewrite P3, Q1.
      assert (E0 : meq 1 1 (NdArray.ent (gram dh_space (columns d1_x) (columns d1_x)))
        (wip 2 ex_W1 (NdArray.ent d1_x) (NdArray.ent d1_x))).
      { apply d1_one. apply GX; simpl; lia. }
      rewrite E0. reflexivity.
    - apply keqb_true. vm_compute. reflexivity. }
  assert (RP : real (NdArray.ent PC 0%nat 0%nat)) by (rewrite EP; real_solve).
  destruct (d1_el_ok PC P1 P2 RP) as [EL' HC']. rewrite EP in EL', HC'.
  destruct (H' _ _ EL' HC' (d1_sort_ok _)) as (E & U & w1' & M & KB' & _ & M1 & M2 & M3 & G).
  { intros e [<-|[]] _; apply sq_ok_dec; vm_compute; reflexivity. }
  destruct (d1_eigh PC (q 4) (qi 1 0 8) E U P1 P2 EP KB') as [-> EU]; [vm_compute; reflexivity|vm_compute; reflexivity|].
  change (length [q 4]) with 1%nat in *.
  assert (EM : NdArray.ent M 0%nat 0%nat = qi 0 2 1).
  { transitivity (low_order ex_sqrt 1 mid [q 4] mid (wip 2 ex_W1 (NdArray.ent d1_x) (NdArray.ent d1_y)) 0%nat 0%nat).
    - apply (meq_at 1 1 (NdArray.ent M)); [|lia|lia]. rewrite M3. unfold low_order. change (length [q 4]) with 1%nat.
      assert (E0 : meq 1 1 (NdArray.ent (gram dh_space (columns d1_x) (columns d1_y)))
        (wip 2 ex_W1 (NdArray.ent d1_x) (NdArray.ent d1_y))).
      { apply d1_one. apply GX; simpl; lia. }
      rewrite Q1, EU, E0. reflexivity.
    - apply keqb_true. vm_compute. reflexivity. }
  destruct (d1_eig_ok M M1 M2) as [EG HG]. rewrite EM in EG, HG.
  destruct (G _ _ _ EG HG d1_pairing) as (L & pc & apc & sp & o1 & pc' & apc' & sp' & o1' & BR & A1 & A2 & A3 & R1 & R2).
  exists Vs, U, (eye 1), L, pc, apc, sp, o1, pc', apc', sp', o1'. do 3 (split; [auto|]). cbv zeta.
  assert (FIN : forall pc apc sp o1 h, runs dh_space 2 10 eager d1_store h
     (dmd_post dh_space ex_sqrt (columns d1_x) (columns d1_y) (projection true Vs) [q 4] U
        [qi 0 2 1] (eye 1) L pc apc sp [0]%Z [10]%nat [0]%Z [11]%nat [-1]%Z [12]%nat o1 d1_store) ->
     runs dh_space 2 10 eager d1_store h (fun st' r => exists ems pms ams,
      holds st' [10]%nat ems /\ holds st' [11]%nat pms /\ holds st' [12]%nat ams /\
      dmd_modes dh_space ex_sqrt (columns d1_x) (columns d1_y) (projection true Vs) [q 4] U
        [qi 0 2 1] (eye 1) L pc apc sp [0]%nat [0]%nat [0]%nat ems pms ams /\
      r = Ok (o1, sp, (pc, apc)) /\
      forall d, ip dh_space (nth 0 ams d) (nth 0 ems d) = 1 /\ ip dh_space (nth 0 ams d) (nth 0 pms d) = 1)).
  { clear -BR M1. intros pc apc sp o1 h HR. eapply runs_mono; [exact HR|].
    intros st' r (Q1 & _ & ems & pms & ams & Q2 & Q3 & Q4 & Q5).
    exists ems, pms, ams. do 3 (split; [assumption|]). split; [exact Q5|]. split; [exact Q1|].
    intros d.
    assert (N : forall a b : QI, keqb a b = false -> a <> b) by (intros; apply keqb_false; auto).
    assert (J : Forall (fun j => (j < length [q 4])%nat) [0]%nat) by (repeat constructor).
    destruct (C22_handles_biorthonormal dh_space ex_sqrt _ _ _ _ _ _ M _ _ _ _ _ _ _ _ _ _ _ 0%nat 0%nat d Q5 BR M1 J)
      as [B1 B2]; [simpl; lia|].
    split; [apply B2; auto; apply N; vm_compute; reflexivity|apply B1; auto]. }
  split; apply FIN; assumption.
Qed.

(** ** C27_handles_untruncated: dependent data, x = (3a, 4a) and y = (3b, 4b) *)
Lemma wspace_nonneg {F : sfield} n (W R : mat F) a b c : meq n n (mmul n (madj R) R) W ->
  forall v, real (ip (wspace n W a b c) v v) /\ kle 0 (ip (wspace n W a b c) v v).
Proof.
  intros HR v.
  assert (E : ip (wspace n W a b c) v v = sum n (fun i => (sum n (fun j => R i j * v j))^* * sum n (fun j => R i j * v j))).
  { assert (G : meq 1 1 (wip n W (fun i _ => v i) (fun i _ => v i))
       (mmul n (madj (mmul n R (fun i _ => v i))) (mmul n R (fun i _ => v i)))).
    { unfold wip. rewrite <- HR, madj_mmul, !mmul_assoc. reflexivity. }
    exact (meq_at _ _ _ _ G O O ltac:(lia) ltac:(lia)). }
  rewrite E. split.
  - apply sum_real. intros. apply real_norm.
  - apply sum_nonneg; intros; [apply real_norm|apply le_norm].
Qed.
Definition un_x : arr QI := of_rows 2 [[q 3; q 4]; [q 0; q 0]].
Definition un_y : arr QI := of_rows 2 [[qi 0 6 1; qi 0 8 1]; [q 3; q 4]].
Definition un_S : arr QI := of_rows 2 [[q 189; q 252]; [q 252; q 336]].
Definition un_V : arr QI := of_rows 2 [[qi 3 0 5; qi 4 0 5]; [qi 4 0 5; qi (-3) 0 5]].
Example C27_handles_untruncated_example : exists Vs, nc Vs = 1%nat /\
  forall j d, (j < 2)%nat ->
    combination dh_space (columns un_x) (fun i => projection true Vs i j) (nth j (columns un_x) d) /\
    combination dh_space (columns un_y) (fun i => projection true Vs i j) (nth j (columns un_y) d).
Proof.
  destruct (eigh_stage (fun _ => Ok ([q 525; q 0], un_V)) (fun _ => [1; 0]%nat) un_S un_V [q 525; q 0] (q 1) None None)
    as (vals & cvecs & w1 & EE & HE); try (simpl; lia); auto; try real_solve; try le_solve; try exact I.
  { eigh_solve. }
  { split; try reflexivity.
    - repeat constructor; simpl; set_solver.
    - repeat constructor; simpl; lia.
    - intros i j Hij Hj. simpl in Hj. destruct i as [|[|i]]; destruct j as [|[|j]]; try lia;
          try (left; vm_compute; reflexivity); right; reflexivity. }
  destruct (eigh_answer _ _ _ _ _ _ _ _ _ 2 [q 525] (NdArray.ent un_V) eq_refl EE) as [-> Ec];
    [vm_compute; reflexivity|vm_compute; reflexivity|].
  exists (max_cols None (length [q 525]) cvecs). split.
  { exact (ek_c _ _ _ _ _ _ _ _ HE). }
  intros j d Hj.
  apply (C27_handles_untruncated dh_space (wspace_ip 2 ex_W1 6 3 1 ex_hermitian) (columns un_x) (columns un_y)
    un_S [q 525; q 0] w1 (q 1) None None [q 525] _ (wspace_definite 2 ex_W1 6 3 1 ex_definite)); auto.
  - apply (wspace_nonneg 2 ex_W1 (mdiag (at1 [q 2; q 1]))). apply meqb_true. vm_compute. reflexivity.
  - change (meq 2 2 (NdArray.ent un_S) (madd (NdArray.ent (gram dh_space (columns un_x) (columns un_x)))
      (NdArray.ent (gram dh_space (columns un_y) (columns un_y))))).
    rewrite (proj2 (proj2 (wgram 2 ex_W1 6 3 1 un_x un_x))), (proj2 (proj2 (wgram 2 ex_W1 6 3 1 un_y un_y))).
    apply meqb_true. vm_compute. reflexivity.
  - pose proof (ek_perm _ _ _ _ _ _ _ _ HE) as PM. pose proof (ek_prefix _ _ _ _ _ _ _ _ HE) as PF.
    pose proof (Permutation_length PM) as LW. simpl in LW.
    destruct w1 as [|a [|b [|c w1]]]; try (simpl in LW; lia). simpl in PF. injection PF as <-.
    apply Permutation_cons_inv, Permutation_singleton_r in PM. injection PM as ->.
    intros i Hi. simpl in Hi. destruct i as [|[|i]]; try lia. reflexivity.
Qed.

(** ** C25: an object with vectors 5 and 6 whose advanced vectors, 1 and 2, are older *)
Definition st_obj : dmd_obj QI :=
  set_decomp (set_corr (set_handles DMD_new (Some [5; 6]%nat) (Some [1; 2]%nat)) (eye 2) (eye 2) None)
    ex_lw ex_lR ex_lL ex_E ex_V None None.
Example C25_stale_modes_example eager :
  runs dh_space 2 10 eager dh_store (DMD_exact_modes false ex_sqrt st_obj (Some (Cols [-1]%Z)) [10]%nat None)
    (fun st' r => r = Ok st_obj /\ exists m, holds st' [10]%nat [m] /\
      combination dh_space [fun i => NdArray.ent ex_seq i 0%nat; fun i => NdArray.ent ex_seq i 1%nat]
        (fun i => mode_coeffs ex_sqrt 2 mid ex_E (NdArray.ent ex_V) (NdArray.ent ex_lR) i 1%nat * (1 / q 2)) m).
Proof.
  eapply runs_mono.
  - apply (C25_stale_modes dh_space (wspace_ip 2 ex_W1 6 3 1 ex_hermitian) (Some 1%Z) 2 10 eager ex_sqrt st_obj
      [1; 2]%nat [fun i => NdArray.ent ex_seq i 0%nat; fun i => NdArray.ent ex_seq i 1%nat] 2
      ex_lw ex_lR ex_lL ex_E ex_V (eye 2) dh_store [-1]%Z [10]%nat) with (ejs := [1]%nat);
      auto using dh_set_up; try reflexivity; try (simpl; lia).
    + repeat constructor.
    + repeat constructor; set_solver.
    + intros h Hh. repeat (apply elem_of_cons in Hh; destruct Hh as [->|Hh]; [set_solver|]). inversion Hh.
  - cbv beta. intros st' r (-> & _ & ems & H1 & H2). split; [reflexivity|].
    inversion H1 as [|h m hs ems' H3 H4 E1 E2]; subst. inversion H4; subst.
    exists m. split; [exact H1|]. apply (H2 0%nat m); [simpl; lia|]. apply keqb_false. vm_compute. reflexivity.
Qed.
Example C25_count_example eager (el : arr QI -> _) :
  runs dh_space 2 10 eager dh_store (do_call true el d1_sort d1_eig ex_sqrt st_obj
    (CDecomp [1; 2; 3]%nat (Some [4]%nat) None None None)) (fun st' r => st' = dh_store /\ r = Raise ValueError).
Proof. apply (C25_count dh_space (wspace_ip 2 ex_W1 6 3 1 ex_hermitian) true (Some 1%Z)); [apply dh_set_up|discriminate]. Qed.
