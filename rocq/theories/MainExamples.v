(** C53: instances, with two and three processes. *)
From stdpp Require Import gmap list.
From Coq Require Import ZArith Lia Field Ring Setoid Morphisms.
From Verif Require Import Prelude Field FieldInst Matrix NdArray HankelModel DecompModel DecompProofs DecompProps
  VSArraysModel VSArraysProofs PodModel PodProofs PodProps BpodModel BpodProofs BpodProps DmdModel DmdProofs DmdCore DmdSnaps DmdProps
  DmdExamples TlsModel TlsProofs TlsProps TlsExamples
  Spmd SpmdFacts ReductionsModel InnerProdModel LinCombModel InnerProdProps HandlesModel HandlesProofs HandlesSeqProofs HandlesSpace HandlesExamples
  PodHandlesModel PodHandlesProps BpodHandlesModel BpodHandlesProps DmdHandlesModel DmdHandlesProofs DmdHandlesModes DmdHandlesDecomp
  DmdHandlesProps DmdHandlesExamples GalerkinModel GalerkinProps GalerkinHandlesModel GalerkinHandlesProps
  MainModel MainProofs ProgramsModel ProgramsProofs MainProps.
Open Scope nat_scope.
Open Scope k_scope.

Ltac up := split; [split; [simpl; lia|]; split; [simpl; lia|reflexivity]|simpl; lia].
Ltac dis l := let h := fresh in let Hh := fresh in intros h Hh; apply (bool_decide_unpack (h ∉ l));
  repeat (apply elem_of_cons in Hh; destruct Hh as [->|Hh]; [reflexivity|]); inversion Hh.
Ltac nodup := match goal with |- NoDup ?l => apply (bool_decide_unpack (NoDup l)); reflexivity end.

(** ** POD: the data of C19_handles_example, saved by rank zero *)
Lemma podh_W_hermitian : hermitian 2 podh_W.
Proof. apply meqb_true. vm_compute. reflexivity. Qed.
Lemma podh_gram (C : arr QI) : nr C = 2%nat -> nc C = 2%nat ->
  (forall i j d, (i < 2)%nat -> (j < 2)%nat -> NdArray.ent C i j = ip podh_space (nth i (columns ex_D) d) (nth j (columns ex_D) d)) ->
  eigh_contract C ex_cw ex_cV.
Proof.
  intros Cr Cc HC. apply (eigh_contract_aeq ex_C); [|apply ex_C_contract].
  split; [exact (eq_sym Cr)|]. split; [exact (eq_sym Cc)|]. split. intros i j Hi Hj.
  rewrite (HC i j (fun _ => 0)) by auto. unfold podh_space. rewrite columns_ip by auto.
  apply (meq_at 2 2 (NdArray.ent ex_C) (wip 2 podh_W (NdArray.ent ex_D) (NdArray.ent ex_D))); auto.
  apply meqb_true. vm_compute. reflexivity.
Qed.
Lemma podh_sort : argsort_contract (map kabs ex_cw) [0; 1]%nat.
Proof.
  split; try reflexivity.
  - repeat constructor; simpl; set_solver.
  - repeat constructor; simpl; lia.
  - intros i j Hij Hj. simpl in Hj. destruct i as [|[|i]]; destruct j as [|[|j]]; try lia;
      try (left; vm_compute; reflexivity); right; reflexivity.
Qed.
Lemma podh_roots e : In e ex_cw -> klt_p 0 e -> sqrt_ok ex_sqrt e.
Proof. intros [<-|[<-|[]]] _; apply sq_ok_dec; vm_compute; reflexivity. Qed.

Example C53_ex5_example eager :
  main_runs 2 10 eager ∅
    (tutorial_ex5 podh_space (wspace (F := QI) 2 podh_W 8 4 1) (fun _ => Ok (ex_cw, ex_cV)) (fun _ => [0; 1]%nat) ex_sqrt
       [1; 2]%nat (columns ex_D) (Some (qi 1 0 1000)) None [1; -2]%Z [10; 11]%nat)
    (fun st' r => exists G, r = Ok G /\ nr G = 2%nat /\ nc G = 2%nat /\ meq 2 2 (NdArray.ent G) mid /\
       holds st' [1; 2]%nat (columns ex_D) /\ unchanged_but ∅ st' [1; 2; 10; 11]%nat).
Proof.
  destruct (C53_ex5 podh_space (wspace_ip 2 podh_W 6 3 1 podh_W_hermitian) (Some 1%Z) 2 10 eager ltac:(up)
    (wspace (F := QI) 2 podh_W 8 4 1) (fun _ => Ok (ex_cw, ex_cV)) (fun _ => [0; 1]%nat) ex_sqrt [1; 2]%nat (columns ex_D) ∅
    (qi 1 0 1000) None [1; -2]%Z [1; 0]%nat [10; 11]%nat) as (C & (Cr & Cc & HC) & H);
    try reflexivity; try discriminate; try nodup; try exact Logic.I.
  - apply wspace_ip, podh_W_hermitian.
  - exists (Some 8%Z). up.
  - dis [10; 11]%nat.
  - apply keqb_true. vm_compute. reflexivity.
  - left. vm_compute. reflexivity.
  - destruct (H ex_cw ex_cV eq_refl (podh_gram C Cr Cc HC) podh_sort podh_roots) as (E & U & HE & G).
    assert (EE : E = [qi 4 0 1; qi 1 0 1]).
    { apply (f_equal (rmap fst)) in HE. vm_compute in HE. injection HE as HE. symmetry. exact HE. }
    apply G; [rewrite EE; reflexivity|nodup].
Qed.

(** The operator that swaps the two entries; rank a mod 2 owns mode a. *)
Definition swap2 (v : nat -> QI) : nat -> QI := fun i => v (1 - i)%nat.
Example C53_pod_galerkin_example eager inv :
  main_runs 2 10 eager ∅
    (pod_galerkin podh_space swap2 (fun a => Nat.modulo a 2) inv (fun _ => Ok (ex_cw, ex_cV)) (fun _ => [0; 1]%nat) ex_sqrt
       [1; 2]%nat (columns ex_D) (Some (qi 1 0 1000)) None [1; 0]%Z [10; 11]%nat [20; 21]%nat)
    (fun st' r => exists m0 m1 R, r = Ok R /\ holds st' [20; 21]%nat [swap2 m0; swap2 m1] /\
       NdArray.ent R 0%nat 1%nat = ip podh_space m0 (swap2 m1) /\ NdArray.ent R 1%nat 1%nat = ip podh_space m1 (swap2 m1)).
Proof.
  destruct (C53_pod_galerkin podh_space (wspace_ip 2 podh_W 6 3 1 podh_W_hermitian) (Some 1%Z) 2 10 eager ltac:(up)
    swap2 (fun a => Nat.modulo a 2) inv (fun _ => Ok (ex_cw, ex_cV)) (fun _ => [0; 1]%nat) ex_sqrt [1; 2]%nat (columns ex_D) ∅
    (qi 1 0 1000) None [1; 0]%Z [1; 0]%nat [10; 11]%nat [20; 21]%nat) as (C & (Cr & Cc & HC) & H);
    try reflexivity; try discriminate; try nodup; try exact Logic.I.
  - dis [10; 11]%nat.
  - dis [20; 21]%nat.
  - intros i _. apply Nat.mod_upper_bound. lia.
  - apply keqb_true. vm_compute. reflexivity.
  - left. vm_compute. reflexivity.
  - destruct (H ex_cw ex_cV eq_refl (podh_gram C Cr Cc HC) podh_sort podh_roots) as (E & U & pc & HE & G).
    assert (EE : E = [qi 4 0 1; qi 1 0 1]).
    { apply (f_equal (rmap fst)) in HE. vm_compute in HE. injection HE as HE. symmetry. exact HE. }
    eapply main_runs_mono; [apply G; [rewrite EE; reflexivity|nodup]|].
    intros st' r (ms & R & W3 & W4 & W5 & _ & _ & _ & W6 & _).
    inversion W4 as [|? m0 ? ms1 _ W7]; subst. inversion W7 as [|? m1 ? ms2 _ W8]; subst. inversion W8; subst.
    exists m0, m1, R. split; [auto|]. split; [exact W5|].
    split; [apply (W6 0%nat 1%nat m0)|apply (W6 1%nat 1%nat m0)]; simpl; lia.
Qed.

(** ** BPOD: the data of C21_handles_example.  The singular values are 4 and 1: one mode
    for a part of 3/4 of the sum, both for 9/10. *)
Definition ex6_program (c : QI) := tutorial_ex6 bpodh_space (fun _ => Ok (bx_U, bx_S, bx_Vh)) ex_sqrt [1; 2]%nat (columns bx_X)
  [3; 4]%nat (columns bx_Y) 1 1 (Some (qi 1 0 10)) None c (fun i => 10 + 2 * i)%nat (fun i => 11 + 2 * i)%nat.
Example C53_ex6_choice_example : num_modes (qi 3 0 4) bx_S = Ok 1%nat /\ num_modes (qi 9 0 10) bx_S = Ok 2%nat.
Proof. split; vm_compute; reflexivity. Qed.
Lemma ex6_runs (c : QI) m eager : real c -> klt_p c 1 -> num_modes c bx_S = Ok m ->
  main_runs 2 10 eager ∅ (ex6_program c)
    (fun st' r => r = Ok (bx_S, m) /\ exists dms ams,
       holds st' (map (fun i => 10 + 2 * i)%nat (seq 0 m)) dms /\ holds st' (map (fun i => 11 + 2 * i)%nat (seq 0 m)) ams /\
       forall a b d, (a < m)%nat -> (b < m)%nat -> ip bpodh_space (nth a ams d) (nth b dms d) = mid a b).
Proof.
  intros Rc Hc Em.
  assert (HW : hermitian 2 bpodh_W) by (apply meqb_true; vm_compute; reflexivity).
  assert (HB : block_Hankel 1 1 2 2 (wip 2 bpodh_W (NdArray.ent bx_Y) (NdArray.ent bx_X))).
  { intros i j i' j' a b Hi Hi' Hj Hj' Ha Hb Hs. apply keqb_true.
    destruct a; [|lia]. destruct b; [|lia].
    destruct i as [|[|]], j as [|[|]], i' as [|[|]], j' as [|[|]]; try lia; vm_compute; reflexivity. }
  destruct (C53_ex6 bpodh_space (wspace_ip 2 bpodh_W 6 3 1 HW) (Some 1%Z) 2 10 eager ltac:(up)
    (fun _ => Ok (bx_U, bx_S, bx_Vh)) ex_sqrt [1; 2]%nat (columns bx_X) [3; 4]%nat (columns bx_Y)
    1%nat 1%nat 2%nat 2%nat ∅ (Some (qi 1 0 10)) None c (fun i => 10 + 2 * i)%nat (fun i => 11 + 2 * i)%nat)
    as (H & (Hr & Hcc & HH) & G);
    [nodup|reflexivity|reflexivity|lia|lia|lia|lia|reflexivity|reflexivity| |lia|lia|lia| | |exact Logic.I|exact Rc|exact Hc|].
  - intros d i j i' j' a b Hi Hi' Hj Hj' Ha Hb Hs. unfold bpodh_space. rewrite !columns_ip by (simpl; lia).
    apply HB; auto.
  - intros h i Hh. assert (h <= 4)%nat; [|lia].
    simpl in Hh. repeat (apply elem_of_cons in Hh; destruct Hh as [->|Hh]; [lia|]). inversion Hh.
  - apply keqb_true. vm_compute. reflexivity.
  - destruct (G bx_U bx_S bx_Vh) as (E & L & R & dc & ac & n & ES & _ & Hn & Hn1 & Hn2 & K).
    + reflexivity.
    + apply bx_contract; auto. split. intros i j Hi Hj.
      rewrite (HH i j (fun _ => 0)) by auto. unfold bpodh_space. rewrite columns_ip by auto. reflexivity.
    + intros i Hi _. change (length bx_S) with 2%nat in Hi. destruct i as [|[|]]; [..|lia].
      all: split; [vm_compute; reflexivity|apply sq_ok_dec; vm_compute; reflexivity].
    + exists 0%nat. split; [simpl; lia|]. vm_compute. auto.
    + assert (EE : E = bx_S).
      { apply (f_equal (rmap (fun x => snd (fst x)))) in ES. vm_compute in ES. injection ES as ES. symmetry. exact ES. }
      subst E. assert (n = m) as ->.
      { destruct (num_modes_spec c bx_S) as (m' & Em' & Hm & Hm1 & Hm2); [discriminate| |assumption|assumption|].
        { apply Forall_forall. intros x Hx. apply elem_of_list_In in Hx. destruct Hx as [<-|[<-|[]]];
            (split; [apply keqb_true|]; vm_compute; reflexivity). }
        assert (m' = m) as -> by congruence.
        assert (Rs : forall k, (k <= 2)%nat -> real (sum k (at1 bx_S))).
        { intros k Hk. apply sum_real. intros i Hi. assert (Hi2 : (i < 2)%nat) by lia.
          destruct i as [|[|]]; [..|lia]; apply keqb_true; vm_compute; reflexivity. }
        assert (Rt : real (c * sum (length bx_S) (at1 bx_S))) by (apply real_mul; auto; apply Rs; simpl; lia).
        change (length bx_S) with 2%nat in Hn, Hm, Rt, Hn1, Hn2, Hm1, Hm2.
        destruct (Nat.lt_trichotomy n m) as [Hlt|[->|Hlt]]; [|reflexivity|]; exfalso.
        - pose proof (le_lt_trans _ _ _ (Rs n ltac:(lia)) Rt (Rs n ltac:(lia)) (Hm2 n ltac:(lia)) Hn1) as X.
          red in X. rewrite lt_irrefl in X; [discriminate|apply Rs; lia].
        - pose proof (le_lt_trans _ _ _ (Rs m ltac:(lia)) Rt (Rs m ltac:(lia)) (Hn2 m ltac:(lia)) Hm1) as X.
          red in X. rewrite lt_irrefl in X; [discriminate|apply Rs; lia]. }
      eapply main_runs_mono; [exact K|]. cbv beta. intros st' r (-> & _ & dms & ams & Q1 & Q2 & Q3).
      split; [reflexivity|]. exists dms, ams. do 2 (split; [assumption|]). intros a b d Ha Hb.
      rewrite (bm_bi _ _ _ _ _ _ _ _ _ _ _ _ _ Q3) by (rewrite seq_length; auto). rewrite !seq_nth by auto. reflexivity.
Qed.
Example C53_ex6_example eager :
  main_runs 2 10 eager ∅ (ex6_program (qi 9 0 10)) (fun st' r => r = Ok (bx_S, 2%nat) /\
    exists dms ams, holds st' [10; 12]%nat dms /\ holds st' [11; 13]%nat ams /\
      forall a b d, (a < 2)%nat -> (b < 2)%nat -> ip bpodh_space (nth a ams d) (nth b dms d) = mid a b) /\
  main_runs 2 10 eager ∅ (ex6_program (qi 3 0 4)) (fun st' r => r = Ok (bx_S, 1%nat) /\
    exists dms ams, holds st' [10]%nat dms /\ holds st' [11]%nat ams /\
      forall a b d, (a < 1)%nat -> (b < 1)%nat -> ip bpodh_space (nth a ams d) (nth b dms d) = mid a b).
Proof.
  split; (apply ex6_runs; [apply keqb_true; vm_compute; reflexivity|vm_compute; reflexivity|apply C53_ex6_choice_example]).
Qed.

(** ** Galerkin projection: the arrays of C32_handles_example, three processes *)
Example C53_rom_ex2_example eager :
  main_runs 3 20 eager ∅ (rom_ex2 (wspace (F := QI) 3 gh_W 9 3 1) g_inv [1; 2]%nat (columns g_Phi) [3; 4]%nat (columns g_Psi)
      [5; 6]%nat (columns g_X) [7]%nat [gh_col g_X 0] (D2 (eye 2)))
    (fun st' r => exists RA RB, r = Ok (RA, RB, transp (eye 2)) /\
       meq 2 2 (NdArray.ent RA) g_M /\ meq 2 1 (NdArray.ent RB) g_M).
Proof.
  assert (HS : ip_space gh_space) by (apply wspace_ip, gh_hermitian). destruct gh_inverse as (T & ET & CT).
  eapply main_runs_mono.
  - apply (C53_rom_ex2 gh_space HS (Some 1%Z) 3 20 eager gh_set_up g_inv [1; 2]%nat (columns g_Phi) [3; 4]%nat (columns g_Psi)
      [5; 6]%nat (columns g_X) [7]%nat [gh_col g_X 0] (D2 (eye 2)) T ∅ eq_refl eq_refl eq_refl eq_refl eq_refl);
      [discriminate|discriminate|discriminate|nodup|exact ET|exact CT].
  - intros st' r (RA & RB & -> & _ & _ & HA & _ & _ & HB & _). exists RA, RB. split; [reflexivity|]. split.
    + apply (C32_handles_exact gh_space (columns g_Phi) (columns g_Psi) (columns g_X)); auto using gh_coords.
    + apply (C32_handles_exact gh_space (columns g_Phi) (columns g_Psi) [gh_col g_X 0]); auto.
      intros j d Hj. destruct j; [|simpl in Hj; lia]. exact (gh_coords 0%nat d ltac:(simpl; lia)).
Qed.

(** ** DMD: the sequence of C24_handles_example, saved by rank zero *)
Example C53_ex4_example eager :
  main_runs 2 10 eager ∅ (tutorial_ex4 dh_space dh_el (fun _ => [0; 1]%nat) dh_eig ex_sqrt [1; 2; 3]%nat (columns ex_seq)
      (Some (qi 1 0 8)) None None [1; 0]%Z [10; 11]%nat [0]%Z [12]%nat [-1; -2]%Z [13; 14]%nat)
    (fun st' r => exists ems ams, holds st' [10; 11]%nat ems /\ holds st' [13; 14]%nat ams /\
       forall d, ip dh_space (nth 0 ams d) (nth 0 ems d) = 1 /\ ip dh_space (nth 0 ams d) (nth 1 ems d) = 0).
Proof.
  destruct (C53_ex4 dh_space (wspace_ip 2 ex_W1 6 3 1 ex_hermitian) (Some 1%Z) 2 10 eager dh_set_up
    dh_el (fun _ => [0; 1]%nat) dh_eig ex_sqrt [1; 2; 3]%nat (columns ex_seq) ∅
    (qi 1 0 8) None None [1; 0]%Z [10; 11]%nat [0]%Z [12]%nat [-1; -2]%Z [13; 14]%nat) as (C & AC & H);
    [nodup|reflexivity|simpl; lia|apply dh_outputs|real_solve|le_solve|].
  change (removelast (columns ex_seq)) with (columns (but_last_col ex_seq)) in *.
  change (tl (columns ex_seq)) with (columns (but_first_col ex_seq)) in *.
  assert (ECC : aeq ex_C C).
  { apply aeq_sy. eapply aeq_tr; [exact AC|]. eapply aeq_tr; [apply wgram|].
    split; [reflexivity|]. split; [reflexivity|]. apply meqb_true. vm_compute. reflexivity. }
  assert (EL : dh_el C = Ok (ex_cw, ex_cV)).
  { unfold dh_el. rewrite <- (table_extensional _ _ _ ECC). apply table_hit. vm_compute. reflexivity. }
  destruct (H ex_cw ex_cV EL) as (E & U & w1 & M & (vals & cvecs & EE & -> & ->) & _ & M1 & M2 & M3 & G).
  { apply (eigh_contract_aeq ex_C); [exact ECC|apply ex_C_contract]. }
  { apply podh_sort. }
  { apply podh_roots. }
  change (max_list None vals) with vals in *. change (max_cols None (length vals) cvecs) with cvecs in *.
  destruct (eigh_answer dh_el (fun _ => [0; 1]%nat) C ex_cw ex_cV (Some (qi 1 0 8)) None vals cvecs 2 ex_E (NdArray.ent ex_V) EL EE)
    as [-> Ec].
  { vm_compute. reflexivity. }
  { vm_compute. reflexivity. }
  change (length ex_E) with 2%nat in *.
  assert (AM : aeq ex_low M).
  { split; [auto|]. split; [auto|]. change (meq 2 2 (NdArray.ent ex_low) (NdArray.ent M)). rewrite M3.
    unfold low_order. rewrite Ec. rewrite (proj2 (proj2 (wgram 2 ex_W1 6 3 1 (but_last_col ex_seq) (but_first_col ex_seq)))).
    apply meqb_true. vm_compute. reflexivity. }
  destruct (G ex_lw ex_lL ex_lR) as (L & pc & apc & sp & o1 & BR & _ & R1).
  { unfold dh_eig. rewrite <- (table_extensional _ _ _ AM). apply table_hit. vm_compute. reflexivity. }
  { apply (eig_contract_aeq ex_low); [exact AM|apply ex_low_contract]. }
  { apply ex_low_pairing. }
  eapply main_runs_mono; [apply (R1 [1; 0]%nat [0]%nat [1; 0]%nat); reflexivity|].
  clear -BR M1. intros st' r (Q1 & _ & ems & pms & ams & Q2 & Q3 & Q4 & Q5). exists ems, ams. do 2 (split; [assumption|]). intros d.
  assert (N : forall a b : QI, keqb a b = false -> a <> b) by (intros; apply keqb_false; auto).
  pose proof (fun a b => C22_handles_biorthonormal dh_space ex_sqrt _ _ _ _ _ _ M _ _ _ _ _ _ _ _ _ _ _ a b d Q5 BR M1) as B.
  assert (J : Forall (fun j => (j < length ex_E)%nat) [1; 0]%nat) by (repeat constructor; simpl; lia).
  split.
  - destruct (B 0%nat 0%nat J) as [_ B1]; [simpl; lia|]. apply B1; auto; try (simpl; lia); apply N; vm_compute; reflexivity.
  - destruct (B 0%nat 1%nat J) as [_ B1]; [simpl; lia|]. apply B1; auto; try (simpl; lia); apply N; vm_compute; reflexivity.
Qed.

(** ** Races *)
Example C53_races_example tag_ub (eager : msg Z QI -> bool) :
  ~ always_ends tag_ub eager (launch 2 (fun r => unsynced (rank_zero [Save 5%nat 7%Z] r) 5%nat) ∅)
      (fun c => forall r, (r < 2)%nat -> procs c !! r = Some (Ret 7%Z)) /\
  ~ always_ends tag_ub eager (launch 2 (fun r => unsynced [Save 5%nat 0%Z; Save 5%nat 7%Z] 5%nat) ∅)
      (fun c => forall r, (r < 2)%nat -> procs c !! r = Some (Ret 7%Z)).
Proof. split; [apply C53_no_barrier_refuted; reflexivity|apply C53_ex3_refuted; discriminate]. Qed.
Example C53_makedirs_example :
  dir_runs ([DTest], false) ([DDone], true) /\ dir_runs ([DTest; DTest], false) ([DDone; DDone], true).
Proof.
  split.
  - eapply dir_more; [eapply dir_more; [apply dir_start|exact (dir_test [DTest] 0%nat false eq_refl)]|].
    exact (dir_make [DMake] 0%nat false eq_refl).
  - eapply dir_more; [eapply dir_more; [eapply dir_more; [apply dir_start|exact (dir_test [DTest; DTest] 0%nat false eq_refl)]|]|].
    + exact (dir_make [DMake; DTest] 0%nat false eq_refl).
    + exact (dir_test [DDone; DTest] 1%nat true eq_refl).
Qed.
