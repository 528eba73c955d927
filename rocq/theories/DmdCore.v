(** What DMD computes, and the common part of the array functions. *)
From Coq Require Import List Arith Lia Bool ZArith Field Ring Setoid Morphisms.
Import ListNotations.
From Verif Require Import Prelude Field FieldInst Matrix NdArray DecompModel DecompProofs DecompProps
  VSArraysModel VSArraysProofs VSArraysProps PodModel PodProofs PodProps BpodModel DmdModel DmdProofs.
Open Scope nat_scope.
Open Scope k_scope.

(** The low-order map of data [X], [Y] (columns) for kept eigenpairs (E, V) of
    [X^H W X]: its compression S^-1 V^H (X^H W Y) V S^-1 with S^2 = E. *)
Definition low_map {F : sfield} (sqrt : F -> F) (X Y : arr F) (W : mat F) (E : list F) (V : mat F) : mat F :=
  let D := mdiag (fun i => 1 / sqrt (at1 E i)) in
  mmul (length E) D (mmul (nc X) (madj V) (mmul (nc X) (wip (nr X) W (ent X) (ent Y))
    (mmul (length E) V D))).
(** X V S^-1 and Y V S^-1: combinations of the data with the kept directions. *)
Definition reduced {F : sfield} (sqrt : F -> F) (X : arr F) (E : list F) (V : mat F) : mat F :=
  mmul (nc X) (ent X) (mmul (length E) V (mdiag (fun i => 1 / sqrt (at1 E i)))).

Record dmd_spec {F : sfield} (sqrt : F -> F) (X Y : arr F) (W : mat F) (E : list F) (V : arr F)
    (w : list F) (M R L Pe Pp Ps pc apc : arr F) (sp : nd F) : Prop := {
  ds_er : nr Pe = nr X; ds_ec : nc Pe = length E; ds_pr : nr Pp = nr X; ds_pcl : nc Pp = length E;
  ds_ar : nr Ps = nr X; ds_ac : nc Ps = length E;
  ds_cr : nr pc = length E; ds_cc : nc pc = nc X; ds_dr : nr apc = length E; ds_dc : nc apc = nc X;
  ds_wl : length w = length E;
  (* eigenvectors of the low-order map *)
  ds_Mr : nr M = length E;
  ds_M : meq (length E) (length E) (ent M) (low_map sqrt X Y W E (ent V));
  ds_pair : biorthog_result M w R L;
  (* the modes *)
  ds_proj : meq (nr X) (length E) (ent Pp) (mmul (length E) (reduced sqrt X E (ent V)) (ent R));
  ds_adj : meq (nr X) (length E) (ent Ps) (mmul (length E) (reduced sqrt X E (ent V)) (ent L));
  ds_exact : forall i j, i < nr X -> j < length E -> at1 w j <> 0 ->
    at1 w j * ent Pe i j = mmul (length E) (reduced sqrt Y E (ent V)) (ent R) i j;
  (* biorthogonality *)
  ds_bi_proj : meq (length E) (length E) (wip (nr X) W (ent Ps) (ent Pp))
    (mmul (length E) (madj (ent L)) (ent R));
  ds_bi_exact : forall i j, i < length E -> j < length E -> at1 w j <> 0 ->
    wip (nr X) W (ent Ps) (ent Pe) i j = mmul (length E) (madj (ent L)) (ent R) i j;
  (* projections onto the modes *)
  ds_coeffs : meq (length E) (nc X) (ent pc) (wip (nr X) W (ent Ps) (ent X));
  ds_adv : meq (length E) (nc X) (ent apc) (wip (nr X) W (ent Ps) (ent Y));
  (* magnitudes of the first column of projections; squeezed when there is one *)
  ds_sshape : shape sp = if (length E =? 1)%nat then [] else [length E];
  ds_slen : length (flat sp) = length E;
  ds_spec : forall i, i < length E ->
    nth i (flat sp) 0 = sqrt ((ent pc i O)^* * ent pc i O)
}.

(** What is returned, with the modes selected. *)
Definition dmd_returns {F : sfield} (r : res (dmd_results F)) (idx : option (list Z))
    (Pe Pp Ps : arr F) w sp pc apc R L E V corr : Prop :=
  r = rbind (pick_opt Pe idx) (fun e => rbind (pick_opt Pp idx) (fun p => rbind (pick_opt Ps idx) (fun a =>
        Ok (Dmd w sp e p a pc apc R L E V corr)))).

(** [X], [Y] are the snapshot and advanced snapshot arrays meant by the arguments. *)
Definition dmd_data {F : sfield} (vecs : arr F) (adv : option (arr F)) (X Y : arr F) : Prop :=
  match adv with
  | None => (0 < nc vecs)%nat /\ X = but_last_col vecs /\ Y = but_first_col vecs
  | Some a => X = vecs /\ Y = a /\ nr a = nr vecs /\ nc a = nc vecs
  end.

Lemma dmd_data_dims {F : sfield} (vecs : arr F) adv X Y : dmd_data vecs adv X Y ->
  nr Y = nr X /\ nc Y = nc X /\
  nc vecs = match adv with None => (nc X + 1)%nat | Some _ => nc X end.
Proof.
  unfold dmd_data. destruct adv as [a|].
  - intros (-> & -> & Hr & Hc). auto.
  - intros (H & -> & ->). simpl. lia.
Qed.

Lemma DMD_modes_ok {F : sfield} (vecs : arr F) adv X Y idx be bp ba :
  dmd_data vecs adv X Y -> nr be = nc X -> nr bp = nc X -> nr ba = nc X ->
  DMD_modes vecs adv idx be bp ba =
  rbind (pick_opt (Arr (nr X) (nc be) (mmul (nc X) (ent Y) (ent be))) idx) (fun e =>
  rbind (pick_opt (Arr (nr X) (nc bp) (mmul (nc X) (ent X) (ent bp))) idx) (fun p =>
  rbind (pick_opt (Arr (nr X) (nc ba) (mmul (nc X) (ent X) (ent ba))) idx) (fun a => Ok (e, p, a)))).
Proof.
  intros Hd He Hp Ha. pose proof (dmd_data_dims _ _ _ _ Hd) as (D1 & D2 & D3).
  unfold DMD_modes. rewrite He, D3. destruct adv as [a|].
  - destruct Hd as (-> & -> & Hr & Hc).
    rewrite (proj2 (Nat.eqb_neq (nc vecs) (nc vecs + 1))) by lia. rewrite Nat.eqb_refl.
    rewrite (lin_combine_pick a be), (lin_combine_pick vecs bp), (lin_combine_pick vecs ba) by congruence.
    rewrite D1, D2. reflexivity.
  - destruct Hd as (_ & EX & EY). rewrite Nat.eqb_refl, <- EX, <- EY.
    rewrite (lin_combine_pick Y be), (lin_combine_pick X bp), (lin_combine_pick X ba) by congruence.
    rewrite D1, D2. reflexivity.
Qed.

Lemma dot_eq {F : sfield} (A B : arr F) : nc A = nr B ->
  dot A B = Ok (Arr (nr A) (nc B) (mmul (nc A) (ent A) (ent B))).
Proof. intros H. unfold dot. rewrite H, Nat.eqb_refl. reflexivity. Qed.
Lemma dot1_eq {F : sfield} (A : arr F) v : nc A = length v ->
  dot1 A v = Ok (map (fun i => sum (nc A) (fun j => ent A i j * at1 v j)) (seq 0 (nr A))).
Proof. intros H. unfold dot1. rewrite H, Nat.eqb_refl. reflexivity. Qed.
Lemma nth_map_seq {A} (f : nat -> A) n i d : i < n -> nth i (map f (seq 0 n)) d = f i.
Proof.
  intros H. rewrite (nth_indep _ d (f O)) by (rewrite map_length, seq_length; auto).
  rewrite (map_nth f), seq_nth by auto. reflexivity.
Qed.

(** The algebra: arrays with these entries meet the specification. *)
Section Intro.
Context {F : sfield} (sqrt : F -> F) (X Y : arr F) (W : mat F) (E : list F) (V : arr F).
Context (w : list F) (M R L Pe Pp Ps pc apc : arr F) (sp : nd F).
Notation N := (nc X).
Notation n := (nr X).
Notation k := (length E).
Notation K := (wip n W (ent X) (ent Y)).
Notation s := (fun i => sqrt (at1 E i)).
Notation D := (mdiag (fun i => 1 / sqrt (at1 E i))).
Context (D2 : nc Y = N) (HW : hermitian n W).
Context (HV : meq k k (mmul N (madj (ent V)) (ent V)) mid).
Context (HE : meq N k (mmul N (wip n W (ent X) (ent X)) (ent V)) (mmul k (ent V) (mdiag (at1 E)))).
Context (Hs : forall i, i < k -> sqrt_ok sqrt (at1 E i) /\ at1 E i <> 0).
Context (Mr : nr M = k) (EM : meq k k (ent M) (low_map sqrt X Y W E (ent V))).
Context (BR : biorthog_result M w R L) (Lw : length w = k).
Context (Per : nr Pe = n) (Pec : nc Pe = k) (Ppr : nr Pp = n) (Ppc : nc Pp = k) (Psr : nr Ps = n) (Psc : nc Ps = k).
Context (pcr : nr pc = k) (pcc : nc pc = N) (apr : nr apc = k) (apcc : nc apc = N).
Context (EPp : meq n k (ent Pp) (mmul N (ent X) (mmul k (ent V) (mmul k D (ent R))))).
Context (EPs : meq n k (ent Ps) (mmul N (ent X) (mmul k (ent V) (mmul k D (ent L))))).
Context (EPe : meq n k (ent Pe) (mmul N (ent Y) (mmul k (mmul k (ent V) (mmul k D (ent R)))
                                                 (mdiag (fun i => 1 / at1 w i))))).
Context (Epc0 : meq k N (ent pc) (mmul k (madj (ent L)) (mmul k (mdiag s) (madj (ent V))))).
Context (Eapc0 : meq k N (ent apc) (mmul k (madj (ent L)) (mmul k D (mmul N (madj (ent V)) K)))).
Context (Ssh : shape sp = if (k =? 1)%nat then [] else [k]) (Sl : length (flat sp) = k).
Context (Ssp : forall i, i < k -> nth i (flat sp) 0 = sqrt ((ent pc i O)^* * ent pc i O)).
Add Field Introfield : (k_field F).

Lemma dmd_spec_intro : dmd_spec sqrt X Y W E V w M R L Pe Pp Ps pc apc sp.
Proof.
  assert (Ss : forall i, i < k -> s i * s i = at1 E i) by (intros i Hk; apply (Hs i Hk)).
  assert (Rs : forall i, i < k -> real (s i)) by (intros i Hk; apply (Hs i Hk)).
  assert (Ns : forall i, i < k -> s i <> 0) by (intros i Hk; apply (sqrt_ok_neq sqrt (at1 E i)); apply (Hs i Hk)).
  assert (HCh : meq N N (madj (wip n W (ent X) (ent X))) (wip n W (ent X) (ent X))).
  { apply wip_adj. auto. }
  assert (HR : meq k k (mmul k (low_map sqrt X Y W E (ent V)) (ent R)) (mmul k (ent R) (mdiag (at1 w)))).
  { rewrite <- EM. pose proof (br_R _ _ _ _ BR) as G. rewrite Mr in G. exact G. }
  assert (HL' : meq k k (mmul k (madj (ent L)) (low_map sqrt X Y W E (ent V))) (mmul k (mdiag (at1 w)) (madj (ent L)))).
  { rewrite <- EM. pose proof (br_L _ _ _ _ BR) as G. rewrite Mr in G. exact G. }
  unfold low_map in HR, HL'.
  assert (Epc : meq k N (ent pc) (wip n W (ent Ps) (ent X))).
  { rewrite Epc0, EPs, wip_mul_l. symmetry.
    apply (dmd_proj_coeffs N k _ (ent V) (ent L) (at1 E) s); auto. }
  split; try reflexivity; auto.
  - rewrite EPp. unfold reduced. rewrite !mmul_assoc. reflexivity.
  - rewrite EPs. unfold reduced. rewrite !mmul_assoc. reflexivity.
  - intros i j Hii Hj Hw. unfold reduced.
    assert (G : meq n k (mmul k (ent Pe) (mdiag (at1 w)))
       (mmul k (mmul k (mmul N (ent Y) (mmul k (ent V) D)) (ent R))
          (mdiag (fun i => 1 / at1 w i * at1 w i)))).
    { rewrite EPe, <- mmul_diag_diag, !mmul_assoc. reflexivity. }
    rewrite !mmul_diag_r in G. pose proof (meq_at _ _ _ _ G i j Hii Hj) as G'. cbv beta in G'.
    rewrite D2. transitivity (ent Pe i j * at1 w j); [ring|]. rewrite G'. field. auto.
  - rewrite EPs, EPp, wip_mul_l, <- wip_mul_r.
    apply (dmd_adj_proj N k _ (ent V) (ent L) (ent R) (at1 E) s); auto.
  - intros i j Hii Hj Hw.
    assert (G : meq k k (wip n W (ent Ps) (ent Pe))
      (mmul k (mmul k (madj (ent L)) (ent R)) (mdiag (fun i => at1 w i * (1 / at1 w i))))).
    { rewrite EPs, EPe, wip_mul_l, <- wip_mul_r.
      apply (dmd_adj_exact N k K (ent V) (ent L) (ent R) s (at1 w)); auto. }
    rewrite mmul_diag_r in G. rewrite (meq_at _ _ _ _ G i j Hii Hj). field. auto.
  - rewrite Eapc0, EPs, wip_mul_l. rewrite (dmd_adv_coeffs N k K (ent V) (ent L) s); auto. reflexivity.
Qed.
End Intro.

Section Core.
Context {F : sfield} (eig_lapack : arr F -> res (list F * arr F * arr F)) (sqrt : F -> F).
Context (vecs : arr F) (adv : option (arr F)) (idx : option (list Z)) (X Y : arr F).
Context (W : mat F) (E Einv : list F) (V cross : arr F) (corr : option (arr F * arr F)).
Notation N := (nc X).
Notation n := (nr X).
Notation k := (length E).
Context (Hd : dmd_data vecs adv X Y) (HN : (0 < N)%nat) (HW : hermitian n W).
Context (Vr : nr V = N) (Vc : nc V = k) (Li : length Einv = k) (Kr : nr cross = N) (Kc : nc cross = N).
Context (Hi : forall i, i < k -> at1 Einv i = 1 / sqrt (at1 E i)).
Context (HV : meq k k (mmul N (madj (ent V)) (ent V)) mid).
Context (HE : meq N k (mmul N (wip n W (ent X) (ent X)) (ent V)) (mmul k (ent V) (mdiag (at1 E)))).
Context (Hs : forall i, i < k -> sqrt_ok sqrt (at1 E i) /\ at1 E i <> 0).
Context (HK : meq k N (mmul N (madj (ent V)) (ent cross))
                      (mmul N (madj (ent V)) (wip n W (ent X) (ent Y)))).
Add Field Corefield : (k_field F).

Theorem DMD_core_spec : exists M, nr M = k /\ nc M = k /\
  meq k k (ent M) (low_map sqrt X Y W E (ent V)) /\
  forall w L0 R0, eig_lapack M = Ok (w, L0, R0) -> eig_contract M w L0 R0 ->
    (forall i, i < k -> pairing k L0 R0 i i <> 0) ->
    exists L Pe Pp Ps pc apc sp,
      eig_biorthog eig_lapack M SLeft = Ok (w, R0, L) /\
      dmd_returns (DMD_core eig_lapack sqrt vecs adv idx E Einv V cross corr) idx
        Pe Pp Ps w sp pc apc R0 L E V corr /\
      dmd_spec sqrt X Y W E V w M R0 L Pe Pp Ps pc apc sp.
Proof.
  set (s := fun i => sqrt (at1 E i)).
  assert (Ss : forall i, i < k -> s i * s i = at1 E i) by (intros i Hk; apply (Hs i Hk)).
  assert (Rs : forall i, i < k -> real (s i)) by (intros i Hk; apply (Hs i Hk)).
  assert (Ns : forall i, i < k -> s i <> 0) by (intros i Hk; apply (sqrt_ok_neq sqrt (at1 E i)); apply (Hs i Hk)).
  set (D := mdiag (at1 Einv)).
  assert (ED : meq k k D (mdiag (fun i => 1 / s i))).
  { apply mdiag_ext. intros i Hk. apply Hi. auto. }
  assert (ES : meq k k (mdiag (at1 (map sqrt E))) (mdiag s)).
  { apply mdiag_ext. intros i Hk. rewrite at1_map by auto. reflexivity. }
  assert (ES' : meq k k (mdiag (at1 (map (inv_sqrt sqrt) E))) (mdiag (fun i => 1 / s i))).
  { apply mdiag_ext. intros i Hk. rewrite at1_map by auto. reflexivity. }
  set (K := wip n W (ent X) (ent Y)) in *.
  set (M := Arr k k (mmul k D (mmul N (madj (ent V)) (mmul N (ent cross) (mmul k (ent V) D))))).
  assert (EM : meq k k (ent M) (low_map sqrt X Y W E (ent V))).
  { unfold M, low_map. cbn [ent]. fold K. change (fun i => 1 / sqrt (at1 E i)) with (fun i => 1 / s i).
    rewrite ED. rewrite <- (mmul_assoc k k N N (madj (ent V)) (ent cross)), HK.
    rewrite (mmul_assoc k k N N (madj (ent V)) K). reflexivity. }
  exists M. split; [reflexivity|]. split; [reflexivity|]. split; [exact EM|].
  intros w L0 R0 HL HC HP.
  destruct (C17_biorthogonal eig_lapack M L0 R0 w HL HC HP) as [(L & EB & BR) _].
  assert (Lw : length w = k) by apply (eig_len _ _ _ _ HC).
  pose proof (br_Rr _ _ _ _ BR) as R1. pose proof (br_Rc _ _ _ _ BR) as R2.
  pose proof (br_Lr _ _ _ _ BR) as L1. pose proof (br_Lc _ _ _ _ BR) as L2.
  change (nr M) with k in R1, R2, L1, L2.
  set (Dw := mdiag (at1 (map (fun x => 1 / x) w))).
  assert (EDw : meq k k Dw (mdiag (fun i => 1 / at1 w i))).
  { apply mdiag_ext. intros i Hk. rewrite at1_map by lia. reflexivity. }
  set (bp := Arr N k (mmul k (ent V) (mmul k D (ent R0)))).
  set (be := Arr N k (mmul k (ent bp) Dw)).
  set (ba := Arr N k (mmul k (ent V) (mmul k D (ent L)))).
  set (pc := Arr k N (mmul k (madj (ent L)) (mmul k (mdiag (at1 (map sqrt E))) (madj (ent V))))).
  set (apc := Arr k N (mmul k (madj (ent L)) (mmul k (mdiag (at1 (map (inv_sqrt sqrt) E)))
                        (mmul N (madj (ent V)) (ent cross))))).
  set (v0 := map (ent V O) (seq 0 k)).
  set (sv0 := map (fun i => sum k (fun j => mdiag (at1 (map sqrt E)) i j * at1 (map (kconj F) v0) j)) (seq 0 k)).
  set (spl := map (fun i => sum k (fun j => madj (ent L) i j * at1 sv0 j)) (seq 0 k)).
  set (sp := squeeze (Nd [length spl] (map (cabs sqrt) spl))).
  set (Pe := Arr n k (mmul N (ent Y) (ent be))).
  set (Pp := Arr n k (mmul N (ent X) (ent bp))).
  set (Ps := Arr n k (mmul N (ent X) (ent ba))).
  exists L, Pe, Pp, Ps, pc, apc, sp. split; [exact EB|]. split.
  { (* the code *)
    unfold dmd_returns, DMD_core.
    assert (LD : length (map sqrt E) = k) by apply map_length.
    assert (LD' : length (map (inv_sqrt sqrt) E) = k) by apply map_length.
    assert (LW : length (map (fun x => 1 / x) w) = k) by (rewrite map_length; auto).
    assert (LV0 : length (map (kconj F) v0) = k) by (unfold v0; rewrite !map_length, seq_length; auto).
    assert (LSV : length sv0 = k) by (unfold sv0; rewrite map_length, seq_length; auto).
    repeat (rewrite dot_eq; [cbn [rbind nr nc ent diag conj_T fst snd]|
      cbn [nr nc ent diag conj_T]; congruence]).
    rewrite ?Vr, ?Vc, ?Li, ?Kr, ?Kc. fold D. 
    change (Arr k k (mmul k D (mmul N (madj (ent V)) (mmul N (ent cross) (mmul k (ent V) D))))) with M.
    rewrite EB. cbn [rbind fst snd].
    repeat (rewrite dot_eq; [cbn [rbind nr nc ent diag conj_T fst snd]|
      cbn [nr nc ent diag conj_T]; congruence]).
    unfold row. rewrite Vr. rewrite (proj2 (Nat.ltb_lt 0 N)) by auto. cbn [rbind].
    rewrite Vc. fold v0.
    rewrite dot1_eq by (cbn [nc diag]; congruence). cbn [rbind nr nc ent diag conj_T]. rewrite LD. fold sv0.
    rewrite dot1_eq by (cbn [nc conj_T]; congruence). cbn [rbind nr nc ent diag conj_T]. rewrite L1, L2.
    fold spl. fold sp.
    repeat (rewrite dot_eq; [cbn [rbind nr nc ent diag conj_T fst snd]|
      cbn [nr nc ent diag conj_T]; congruence]).
    rewrite ?Vr, ?Vc, ?Li, ?Kr, ?Kc, ?L1, ?L2, ?R1, ?R2, ?LD, ?LD', ?LW. fold D. fold Dw.
    rewrite (DMD_modes_ok vecs adv X Y) by (auto; reflexivity). cbn [nr nc ent].
    fold bp. change (mmul k (mmul k (ent V) (mmul k D (ent R0))) Dw) with (ent be).
    change (mmul k (ent V) (mmul k D (ent L))) with (ent ba).
    change (mmul k (ent V) (mmul k D (ent R0))) with (ent bp).
    fold Pe Pp Ps.
    destruct (pick_opt Pe idx) as [e|]; [|reflexivity]. cbn [rbind].
    destruct (pick_opt Pp idx) as [p|]; [|reflexivity]. cbn [rbind].
    destruct (pick_opt Ps idx) as [a|]; reflexivity. }
  (* the algebra *)
  assert (Lsp : length spl = k) by (unfold spl; rewrite map_length, seq_length; auto).
  apply dmd_spec_intro; auto; try reflexivity.
  - apply (dmd_data_dims _ _ _ _ Hd).
  - unfold Pp, bp. cbn [ent]. rewrite ED. reflexivity.
  - unfold Ps, ba. cbn [ent]. rewrite ED. reflexivity.
  - unfold Pe, be, bp. cbn [ent]. rewrite ED, EDw. reflexivity.
  - unfold pc. cbn [ent]. rewrite ES. reflexivity.
  - unfold apc. cbn [ent]. rewrite ES', HK. reflexivity.
  - unfold sp. cbn [shape squeeze]. rewrite Lsp. simpl. destruct (k =? 1)%nat; reflexivity.
  - unfold sp. cbn [flat squeeze]. rewrite map_length. auto.
  - intros i Hii. unfold sp. cbn [flat squeeze].
    rewrite (nth_indep _ 0 (cabs sqrt 0)) by (rewrite map_length; lia). rewrite (map_nth (cabs sqrt)).
    unfold cabs. f_equal.
    assert (G : nth i spl 0 = ent pc i O).
    { unfold spl, pc. rewrite nth_map_seq by auto. cbn [ent]. unfold mmul at 1. apply sum_ext. intros j Hj.
      f_equal. unfold at1 at 1, sv0. rewrite nth_map_seq by auto. unfold mmul. apply sum_ext. intros l Hl.
      f_equal. rewrite at1_map by (unfold v0; rewrite map_length, seq_length; auto).
      unfold at1, v0. rewrite nth_map_seq by auto. reflexivity. }
    rewrite G. reflexivity.
Qed.
End Core.
