(** Instances for C28, C29, C30. *)
From Coq Require Import List Arith Lia Bool ZArith QArith Qcanon Qround Lqa Field Ring Setoid Morphisms.
Import ListNotations.
From Verif Require Import Prelude Field FieldInst Matrix NdArray DecompModel DecompProofs DecompProps VSArraysModel
  PodModel BpodModel DmdExamples TlsExamples EraModel EraProofs EraProps.
Open Scope nat_scope.
Open Scope k_scope.

(** ** Rounding of rational numbers *)
Definition q_round (x : QR) : Z := Qfloor (this x + (1 # 2))%Q.
Lemma this_Q2Qc x : (this (Q2Qc x) == x)%Q.
Proof. apply Qred_correct. Qed.
Lemma this_of_nat n : (this (of_nat (F:=QR) n) == inject_Z (Z.of_nat n))%Q.
Proof.
  induction n as [|n IH]; [reflexivity|]. cbn [of_nat]. change (kadd QR) with Qcplus.
  unfold Qcplus. rewrite this_Q2Qc, IH. rewrite Nat2Z.inj_succ. unfold Z.succ.
  rewrite inject_Z_plus. reflexivity.
Qed.
Lemma this_of_Z z : (this (of_Z (F:=QR) z) == inject_Z z)%Q.
Proof.
  destruct z as [|p|p]; [reflexivity| |]; cbn [of_Z].
  - rewrite this_of_nat, positive_nat_Z. reflexivity.
  - change (kopp QR) with Qcopp. unfold Qcopp. rewrite this_Q2Qc, this_of_nat, positive_nat_Z. reflexivity.
Qed.
Lemma q_round_ok : round_ok q_round.
Proof.
  intros x z H. unfold klt_p in H.
  assert (G : (- (1 # 2) < this x - inject_Z z /\ this x - inject_Z z < 1 # 2)%Q).
  { assert (Hh : (this (1 / (1 + 1) : QR)%K == 1 # 2)%Q) by reflexivity.
    assert (Hd : (this (x - of_Z z : QR)%K == this x - inject_Z z)%Q).
    { change (ksub QR) with Qcminus. unfold Qcminus, Qcplus, Qcopp. rewrite !this_Q2Qc, this_of_Z. reflexivity. }
    unfold kabs in H. destruct (klt QR (x - of_Z z) 0) eqn:E;
      change (klt QR) with qlt in H, E; apply qlt_spec in H; unfold Qclt in H; rewrite Hh in H.
    - apply qlt_spec in E. unfold Qclt in E. rewrite Hd in E. change (this (k0 QR)) with 0%Q in E.
      assert (Ho : (this (- (x - of_Z z) : QR)%K == - (this x - inject_Z z))%Q).
      { change (kopp QR) with Qcopp. unfold Qcopp. rewrite this_Q2Qc, Hd. reflexivity. }
      rewrite Ho in H. split; lra.
    - rewrite Hd in H. assert (E' : ~ ((x - of_Z z : QR)%K < k0 QR)%Qc) by (intros G; apply qlt_spec in G; congruence).
      unfold Qclt in E'. rewrite Hd in E'. change (this (k0 QR)) with 0%Q in E'. apply Qnot_lt_le in E'. split; lra. }
  unfold q_round. pose proof (Qfloor_le (this x + (1 # 2))) as F1. pose proof (Qlt_floor (this x + (1 # 2))) as F2.
  set (f := Qfloor (this x + (1 # 2))) in *.
  assert (L1 : (inject_Z f < inject_Z (z + 1))%Q) by (rewrite inject_Z_plus; change (inject_Z 1) with 1%Q; lra).
  assert (L2 : (inject_Z z < inject_Z (f + 1))%Q) by lra.
  rewrite <- Zlt_Qlt in L1, L2. lia.
Qed.

(** ** C28 *)
Definition r (a : Z) (d : positive) : QR := Q2Qc (a # d).
Lemma r_real l : all_real (F:=QR) l.
Proof. apply Forall_forall. intros x _. reflexivity. Qed.
(** equally_spaced, by computation. *)
Definition spacedb (times : list QR) (tol : QR) : bool :=
  forallb (fun k => negb (klt QR tol (kabs (at1 times (Datatypes.S k) - at1 times k - (at1 times 1 - at1 times 0)))))
    (seq 0 (length times - 1)).
Lemma spacedb_true times tol : spacedb times tol = true -> equally_spaced times tol.
Proof.
  intros H k Hk. unfold spacedb in H. rewrite forallb_forall in H. specialize (H k).
  rewrite in_seq in H. apply not_lt; try reflexivity. apply negb_true_iff. apply H. lia.
Qed.
Lemma spacedb_false times tol : spacedb times tol = false -> ~ equally_spaced times tol.
Proof.
  intros H G. enough (spacedb times tol = true) by congruence. apply forallb_forall. intros k Hk.
  apply in_seq in Hk. apply negb_true_iff. destruct (klt QR tol _) eqn:E; auto. exfalso.
  refine (lt_not_le _ _ _ _ E _); try reflexivity. apply G. lia.
Qed.

Definition s_times : list QR := [r 5 1; r 6 1; r 71 10; r 81 10].
Definition s_Markovs : nd QR := Nd [4; 1; 2]%nat [r 1 1; r 2 1; r 3 1; r 4 1; r 5 1; r 6 1; r 7 1; r 8 1].
Example C28_sampled_instance :
  equally_spaced s_times (r 1 5) /\
  (forall k, k < 4 -> klt_p (kabs ((at1 s_times k - at1 s_times 0) / (at1 s_times 1 - at1 s_times 0) - of_nat k)) (1 / (1 + 1))) /\
  exists M, make_sampled_format q_round s_times s_Markovs (r 1 5) = Ok ([0; 1; 1; 2; 2; 3]%Z, M) /\
    a3_t M = 6%nat /\ a3_p M = 1%nat /\ a3_m M = 2%nat /\
    map (fun k => a3 M k O 1%nat) (seq 0 6) = [r 2 1; r 4 1; r 4 1; r 6 1; r 6 1; r 8 1].
Proof.
  assert (HS : equally_spaced s_times (r 1 5)) by (apply spacedb_true; vm_compute; reflexivity).
  assert (HK : forall k, k < 4 -> klt_p (kabs ((at1 s_times k - at1 s_times 0) / (at1 s_times 1 - at1 s_times 0) - of_nat k)) (1 / (1 + 1))).
  { intros k Hk. destruct k as [|[|[|[|k]]]]; try lia; vm_compute; reflexivity. }
  split; [exact HS|]. split; [exact HK|].
  destruct (C28_sampled q_round s_times s_Markovs (r 1 5) 4 1 2 eq_refl eq_refl ltac:(lia) (r_real _) eq_refl HS)
    as (st & M & E & _ & E1 & E2 & E3 & Ent & _ & St).
  rewrite (St q_round_ok HK) in E. exists M. split; [exact E|]. do 3 (split; [auto|]).
  cbn [seq map]. rewrite !Ent by (simpl; lia).
  repeat f_equal; apply keqb_true; vm_compute; reflexivity.
Qed.
Example C28_uneven_instance :
  ~ equally_spaced s_times (r 1 100) /\ make_sampled_format q_round s_times s_Markovs (r 1 100) = Raise ValueError.
Proof.
  assert (HS : ~ equally_spaced s_times (r 1 100)) by (apply spacedb_false; vm_compute; reflexivity).
  split; [exact HS|]. apply (C28_uneven q_round s_times s_Markovs (r 1 100) 4 1 2); auto; try lia; try reflexivity. apply r_real.
Qed.

Example C28_mismatch_example : make_sampled_format q_round (firstn 3 s_times) s_Markovs (r 1 5) = Raise RuntimeError.
Proof. apply (C28_mismatch q_round (firstn 3 s_times) s_Markovs (r 1 5) 4 1 2); [reflexivity|discriminate]. Qed.
Example C28_bad_dims_example :
  make_sampled_format q_round s_times (Nd [4; 2]%nat (flat s_Markovs)) (r 1 5) = Raise ValueError.
Proof. apply C28_bad_dims. discriminate. Qed.
Example C28_short_example :
  make_sampled_format q_round [r 5 1] (Nd [1; 1; 2]%nat [r 1 1; r 2 1]) (r 1 5) = Raise IndexError.
Proof. apply (C28_short q_round _ _ (r 1 5) 1 1 2); [reflexivity|reflexivity|lia]. Qed.
(** Deviations within the tolerance add up: 0, 1, 2.1, 3.2, ..., 7.6 passes with
    tolerance 1/10, and step 7 is skipped. The claim without the half-step condition. *)
Definition drift_times : list QR := r 0 1 :: map (fun k => r (11 * Z.of_nat k - 1) 10) (seq 1 7).
Theorem C28_drift_refuted :
  ~ (forall (round : QR -> Z) times (Markovs : nd QR) tol n p m, round_ok round ->
       shape Markovs = [n; p; m] -> length times = n -> 2 <= n -> equally_spaced times tol ->
       exists M, make_sampled_format round times Markovs tol = Ok (map Z.of_nat (doubled n), M)).
Proof.
  intros H. destruct (H q_round drift_times (Nd [8; 1; 1]%nat (repeat (r 1 1) 8)) (r 1 10) 8%nat 1%nat 1%nat) as (M & E);
    try reflexivity; try lia.
  - apply q_round_ok.
  - apply spacedb_true. vm_compute. reflexivity.
  - assert (G : rmap fst (make_sampled_format q_round drift_times (Nd [8; 1; 1]%nat (repeat (r 1 1) 8)) (r 1 10)) =
      Ok [0; 1; 1; 2; 2; 3; 3; 4; 4; 5; 5; 7; 7; 8]%Z) by (vm_compute; reflexivity).
    rewrite E in G. unfold rmap, rbind in G. cbn [fst] in G. vm_compute in G. discriminate.
Qed.
(** Imaginary parts are lost. *)
Theorem C28_complex_refuted :
  ~ (forall (round : QI -> Z) times (Markovs : nd QI) tol, all_real times -> real tol -> equally_spaced times tol ->
       shape Markovs = [2; 1; 1]%nat -> length times = 2%nat ->
       exists st M, make_sampled_format round times Markovs tol = Ok (st, M) /\ a3 M O O O = at1 (flat Markovs) 0).
Proof.
  intros H. destruct (H (fun _ => 0%Z) [q 0; q 1] (Nd [2; 1; 1]%nat [qi 0 1 1; q 1]) (q 1)) as (st & M & E & G).
  - repeat constructor; real_solve.
  - real_solve.
  - intros k Hk. simpl in Hk. destruct k as [|k]; [|lia]. left. vm_compute. reflexivity.
  - reflexivity.
  - reflexivity.
  - unfold make_sampled_format in E. cbn [shape length Nat.eqb negb py_nth nth_error rbind] in E.
    assert (A : amax1 (map (fun d => kabs (d - (q 1 - q 0))) (diffs [q 0; q 1])) = Ok (q 0)) by (vm_compute; reflexivity).
    rewrite A in E. cbn [rbind] in E. assert (B : klt QI (q 1) (q 0) = false) by (vm_compute; reflexivity).
    rewrite B in E. injection E as _ E. subst M. cbn [a3] in G.
    assert (C : keqb (kre (q 0 + qi 0 1 1)) (qi 0 1 1) = false) by (vm_compute; reflexivity).
    apply keqb_false in C. apply C. transitivity (kre (qi 0 1 1)).
    + apply keqb_true. vm_compute. reflexivity.
    + exact G.
Qed.

(** ** C29, C30: the system x' = 3/4 x + u, y = x *)
Definition e_Markov : list QI := [q 1; qi 3 0 4; qi 3 0 4; qi 9 0 16; qi 9 0 16; qi 27 0 64; q 7].
Definition e_nd : nd QI := Nd [7]%nat e_Markov.
Example C29_Hankel_instance :
  exists M H H2, set_Markovs e_nd = Ok M /\ a3_t M = 6%nat /\
    assemble_Hankel M (Some 2%Z) (Some 2%Z) = Ok (H, H2) /\
    meq 2 2 (ent H) (ent (of_rows 2 [[q 1; qi 3 0 4]; [qi 3 0 4; qi 9 0 16]])) /\
    meq 2 2 (ent H2) (ent (of_rows 2 [[qi 3 0 4; qi 9 0 16]; [qi 9 0 16; qi 27 0 64]])) /\
    assemble_Hankel M (Some 3%Z) (Some 2%Z) = Raise ValueError.
Proof.
  eexists. exists (Arr 2 2 (fst (fst (let M := Arr3 6 1 1 (a3 (as_3d 7 1 1 e_Markov)) in
     match foldM (fun HH row => foldM (Hankel_step M row) (seq 0 2) HH) (seq 0 2) (mzero, mzero) with Ok h => (h, 0%nat) | _ => (mzero, mzero, 0%nat) end)))).
  eexists. split; [reflexivity|]. split; [reflexivity|]. split; [reflexivity|]. split; [eqb_solve|]. split; [eqb_solve|].
  reflexivity.
Qed.
Definition e_H : arr QI := of_rows 2 [[q 1; qi 3 0 4]; [qi 3 0 4; qi 9 0 16]].
Definition e_U : arr QI := of_rows 2 [[qi 4 0 5; qi (-3) 0 5]; [qi 3 0 5; qi 4 0 5]].
Definition e_S : list QI := [qi 25 0 16; q 0].
Definition e_svd := table [(e_H, (e_U, e_S, conj_T e_U))].
Definition e_sqrt (x : QI) : QI := if keqb x (qi 25 0 16) then qi 5 0 4 else q 0.
Definition e_eigvals (A : arr QI) : res (list QI) := Ok [ent A O O].
Definition e_A : mat QI := fun _ _ => qi 3 0 4.
Definition e_B : mat QI := fun _ _ => q 1.
(** Left inverse of the column (1, 3/4), right inverse of the row (1, 3/4). *)
Definition e_Lo : mat QI := fun _ j => if (j =? 0)%nat then q 1 else q 0.
Definition e_Rc : mat QI := fun i _ => if (i =? 0)%nat then q 1 else q 0.
Lemma e_contract : svd_contract e_H e_U e_S (conj_T e_U).
Proof. svd_solve. Qed.
Example C30_Markov_recovered_instance :
  exists self' Ar Br Cr, compute_model e_svd e_eigvals e_sqrt (ERA None None) e_nd 1 (Some 2%Z) (Some 2%Z) = Ok (self', (Ar, Br, Cr)) /\
    forall k, meq 1 1 (mmul 1 (ent Cr) (mmul 1 (mpow 1 (ent Ar) k) (ent Br))) (mmul 1 e_B (mmul 1 (mpow 1 e_A k) e_B)).
Proof.
  destruct (C30_Markov_recovered e_svd e_eigvals e_sqrt (ERA None None) e_nd
    (Arr3 6 1 1 (a3 (as_3d 7 1 1 e_Markov))) (Some 2%Z) (Some 2%Z) 2 2 1 1 1 1 e_A e_B e_B e_Lo e_Rc)
    as (H & H2 & EH & HH & Res).
  - reflexivity.
  - reflexivity.
  - reflexivity.
  - lia.
  - lia.
  - lia.
  - reflexivity.
  - simpl. lia.
  - simpl. lia.
  - intros k Hk. destruct k as [|[|[|k]]]; try lia; split; eqb_solve.
  - intros k i j Hk Hi Hj. simpl in Hk. destruct i as [|i]; [|lia]. destruct j as [|j]; [|lia].
    do 6 (destruct k as [|k]; [real_solve|]). lia.
  - eqb_solve.
  - eqb_solve.
  - assert (EH' : aeq H e_H /\ aeq e_H H).
    { destruct HH as (h1 & h2 & _ & _ & h5). cbn [a3_p a3_m] in *. apply (mk_aeq 2 2); auto; try reflexivity.
      split. intros x y Hx Hy. destruct (h5 x y O O) as [E _]; try lia.
      rewrite !Nat.mul_1_r, !Nat.add_0_r in E. rewrite E.
      destruct x as [|[|x]]; try lia; destruct y as [|[|y]]; try lia; apply keqb_true; vm_compute; reflexivity. }
    destruct EH' as [EH1 EH2].
    assert (EL : e_svd H = Ok (e_U, e_S, conj_T e_U)).
    { unfold e_svd. rewrite (table_extensional _ _ _ EH1). apply table_hit. vm_compute. reflexivity. }
    destruct (Res _ _ _ EL (svd_contract_aeq _ _ _ _ _ EH2 e_contract)) as (_ & _ & self' & Ar & Br & Cr & T & Ti & EC & P).
    + intros x Hx Nx. destruct Hx as [<-|[<-|[]]].
      * apply sqrt_ok_dec. vm_compute. reflexivity.
      * exfalso. apply Nx. apply keqb_true. vm_compute. reflexivity.
    + intros X. eexists. reflexivity.
    + exists self', Ar, Br, Cr. split; [exact EC|]. apply P.
Qed.
(** From the samples 1, 3/4, ..., at the times 0, 2, 4, ...; five samples give one block
    by default, six give two. *)
Definition e_times : list QI := map (fun k => qi (2 * Z.of_nat k) 0 1) (seq 0 6).
Definition e_samples : nd QI :=
  Nd [6; 1; 1]%nat [q 1; qi 3 0 4; qi 9 0 16; qi 27 0 64; qi 81 0 256; qi 243 0 1024].
Example C30_from_samples_instance (round : QI -> Z) :
  exists steps M, make_sampled_format round e_times e_samples (q 0) = Ok (steps, M) /\
  exists Ar Br Cr, compute_ERA_model e_svd e_eigvals e_sqrt (of_3d M) 1 = Ok (Ar, Br, Cr) /\
    forall k, meq 1 1 (mmul 1 (ent Cr) (mmul 1 (mpow 1 (ent Ar) k) (ent Br))) (mmul 1 e_B (mmul 1 (mpow 1 e_A k) e_B)).
Proof.
  destruct (C30_from_samples e_svd e_eigvals e_sqrt round e_times e_samples (q 0) 6 1 1 1 e_A e_B e_B e_Lo e_Rc)
    as (steps & M & M1 & H & H2 & EM & _ & _ & HH & Res).
  - reflexivity.
  - reflexivity.
  - lia.
  - repeat constructor; real_solve.
  - real_solve.
  - intros k Hk. simpl in Hk. right. apply keqb_true. do 5 (destruct k as [|k]; [vm_compute; reflexivity|]). lia.
  - lia.
  - lia.
  - lia.
  - intros k i j Hk Hi Hj. destruct i as [|i]; [|lia]. destruct j as [|j]; [|lia].
    do 6 (destruct k as [|k]; [real_solve|]). lia.
  - intros k i j Hk Hi Hj. destruct i as [|i]; [|lia]. destruct j as [|j]; [|lia].
    do 6 (destruct k as [|k]; [apply keqb_true; vm_compute; reflexivity|]). lia.
  - eqb_solve.
  - eqb_solve.
  - exists steps, M. split; [exact EM|].
    assert (EH' : aeq H e_H /\ aeq e_H H).
    { destruct (C28_sampled round e_times e_samples (q 0) 6 1 1) as (st' & M' & EM' & _ & t1 & t2 & t3 & Ent & _);
        try reflexivity; try lia.
      - repeat constructor; real_solve.
      - intros k Hk. simpl in Hk. right. apply keqb_true. do 5 (destruct k as [|k]; [vm_compute; reflexivity|]). lia.
      - rewrite EM in EM'. injection EM' as _ <-.
        destruct HH as (h1 & h2 & _ & _ & h5). rewrite t2, t3 in *. change ((6 - 2) / 2)%nat with 2%nat in *.
        apply (mk_aeq 2 2); auto; try reflexivity.
        split. intros x y Hx Hy. destruct (h5 x y O O) as [E _]; try lia.
        rewrite !Nat.mul_1_r, !Nat.add_0_r in E. rewrite E.
        rewrite Ent by lia.
        destruct x as [|[|x]]; try lia; destruct y as [|[|y]]; try lia; apply keqb_true; vm_compute; reflexivity. }
    destruct EH' as [EH1 EH2].
    assert (EL : e_svd H = Ok (e_U, e_S, conj_T e_U)).
    { unfold e_svd. rewrite (table_extensional _ _ _ EH1). apply table_hit. vm_compute. reflexivity. }
    destruct (Res _ _ _ EL (svd_contract_aeq _ _ _ _ _ EH2 e_contract)) as (_ & _ & Ar & Br & Cr & EC & _ & _ & _ & _ & _ & _ & P).
    + intros x Hx Nx. destruct Hx as [<-|[<-|[]]].
      * apply sqrt_ok_dec. vm_compute. reflexivity.
      * exfalso. apply Nx. apply keqb_true. vm_compute. reflexivity.
    + intros X. eexists. reflexivity.
    + exists Ar, Br, Cr. split; [exact EC|]. exact P.
Qed.
Example C29_default_instance :
  exists H H2, assemble_Hankel (Arr3 6 1 1 (a3 (as_3d 7 1 1 e_Markov))) None (Some 5%Z) = Ok (H, H2) /\
    is_Hankel (Arr3 6 1 1 (a3 (as_3d 7 1 1 e_Markov))) 1 1 H H2.
Proof. apply (proj1 (C29_default (Arr3 6 1 1 (a3 (as_3d 7 1 1 e_Markov))) None (Some 5%Z) (or_introl eq_refl))). simpl. lia. Qed.
Example C29_not_maximal_instance :
  exists H H2, assemble_Hankel (Arr3 6 1 1 (a3 (as_3d 7 1 1 e_Markov))) (Some 2%Z) (Some 2%Z) = Ok (H, H2) /\
    is_Hankel (Arr3 6 1 1 (a3 (as_3d 7 1 1 e_Markov))) 2 2 H H2.
Proof. apply (C29_not_maximal (Arr3 6 1 1 (a3 (as_3d 7 1 1 e_Markov))) 1); [simpl; lia|reflexivity|reflexivity]. Qed.

Example C29_sizes_example :
  era_sizes 6 (Some 2%Z) (Some 5%Z) = (5, 2)%Z /\ era_sizes 6 (Some 2%Z) None = (1, 1)%Z /\ era_sizes 5 None None = (0, 0)%Z.
Proof.
  set (M := Arr3 6 1 1 (a3 (as_3d 7 1 1 e_Markov))).
  split; [apply (proj1 (C29_sizes M None None))|]. split.
  - destruct (proj2 (C29_sizes M (Some 2%Z) None)) as (d & E & Ed); [right; reflexivity|simpl; lia|].
    simpl in Ed. subst d. exact E.
  - destruct (proj2 (C29_sizes (Arr3 5 1 1 (a3 M)) None None)) as (d & E & Ed); [left; reflexivity|simpl; lia|].
    simpl in Ed. subst d. exact E.
Qed.
Example C29_negative_example :
  assemble_Hankel (Arr3 6 1 1 (a3 (as_3d 7 1 1 e_Markov))) (Some 4%Z) (Some (-1)%Z) = Raise ValueError /\
  exists H H2, assemble_Hankel (Arr3 6 0 1 (a3 (as_3d 7 1 1 e_Markov))) (Some 4%Z) (Some (-1)%Z) = Ok (H, H2) /\
    nr H = 0%nat /\ nc H = 4%nat.
Proof.
  split.
  - apply (proj1 (C29_negative (Arr3 6 1 1 (a3 (as_3d 7 1 1 e_Markov))) (Some 4%Z) (Some (-1)%Z) (-1) 4 eq_refl ltac:(lia))).
    right. left. simpl. lia.
  - destruct (proj2 (C29_negative (Arr3 6 0 1 (a3 (as_3d 7 1 1 e_Markov))) (Some 4%Z) (Some (-1)%Z) (-1) 4 eq_refl ltac:(lia)))
      as (H & H2 & E & E1 & E2 & _); [simpl; lia|reflexivity|lia|].
    exists H, H2. split; [exact E|]. split; [exact E1|exact E2].
Qed.
(* the sizes given to the constructor are not the ones used: 3 block rows do not exist *)
Example C29_constructor_ignored_example :
  compute_model e_svd e_eigvals e_sqrt (ERA (Some 3%Z) (Some 3%Z)) e_nd 1 (Some 2%Z) (Some 2%Z) =
    compute_model e_svd e_eigvals e_sqrt (ERA None None) e_nd 1 (Some 2%Z) (Some 2%Z) /\
  compute_model e_svd e_eigvals e_sqrt (ERA None None) e_nd 1 (Some 3%Z) (Some 3%Z) = Raise ValueError.
Proof. split; [apply C29_constructor_ignored|reflexivity]. Qed.
Example C29_Markovs_example :
  set_Markovs (Nd [] [q 3]) = Raise ValueError /\
  set_Markovs (Nd [1; 1; 1; 1]%nat [q 3]) = Raise RuntimeError /\
  exists M, set_Markovs (Nd [3; 2]%nat [q 1; q 2; q 3; q 4; q 5; q 6]) = Ok M /\
    a3_t M = 2%nat /\ a3_p M = 2%nat /\ a3_m M = 1%nat /\ a3 M 1%nat 0%nat 0%nat = q 3 /\ a3 M 1%nat 1%nat 0%nat = q 4.
Proof.
  split; [exact (C29_Markovs (Nd [] [q 3]))|]. split; [exact (C29_Markovs (Nd [1; 1; 1; 1]%nat [q 3]))|].
  destruct (C29_Markovs (Nd [3; 2]%nat [q 1; q 2; q 3; q 4; q 5; q 6])) as (M & E & T & P & m & A).
  exists M. split; [exact E|]. split; [exact T|]. split; [exact P|]. split; [exact m|].
  rewrite !A, P, m. split; reflexivity.
Qed.

Print Assumptions C28_sampled.
Print Assumptions C28_uneven.
Print Assumptions C28_mismatch.
Print Assumptions C28_bad_dims.
Print Assumptions C28_short.
Print Assumptions C28_drift_refuted.
Print Assumptions C28_complex_refuted.
Print Assumptions C29_Hankel.
Print Assumptions C29_negative.
Print Assumptions C29_sizes.
Print Assumptions C29_default.
Print Assumptions C29_not_maximal.
Print Assumptions C29_check_refuted.
Print Assumptions C29_constructor_ignored.
Print Assumptions C29_Markovs.
Print Assumptions C30_Markov_recovered.
Print Assumptions C30_from_samples.
