(** C37: balanced truncation. *)
From Coq Require Import List Arith Lia Bool ZArith Field Ring Setoid Morphisms.
Import ListNotations.
From Verif Require Import Prelude Field FieldInst Matrix NdArray DecompModel DecompProofs DecompProps VSArraysModel PodModel PodProofs
  EraModel EraProofs Lti LtiModel DmdExamples TlsExamples.
Open Scope nat_scope.
Open Scope k_scope.

Section Alg.
Context {F : sfield}.
Add Field C37_F : (k_field F).

Lemma mtr_diag m n (d : nat -> F) : meq m n (mtr (mdiag d)) (mdiag d).
Proof.
  split. intros i j _ _. unfold mtr, mdiag. rewrite Nat.eqb_sym. destruct (Nat.eqb_spec i j); subst; auto.
Qed.
(** The singular values of a non-singular array are not zero. *)
Lemma nonsingular_values n (A Ai U Vh : mat F) s : meq n n (mmul n Ai A) mid ->
  meq n n A (mmul n U (mmul n (mdiag s) Vh)) -> meq n n (mmul n (madj (madj Vh)) (madj Vh)) mid ->
  forall i, i < n -> s i <> 0.
Proof.
  intros HA HE HV i Hi E. rewrite madj_madj in HV.
  assert (H : meq n n (madj Vh) (mmul n (mmul n Ai U) (mdiag s))).
  { rewrite <- (mmul_id_l n n (madj Vh)), <- HA, HE, !mmul_assoc, HV, mmul_id_r. reflexivity. }
  pose proof (meq_at _ _ _ _ HV i i Hi Hi) as G. unfold mmul at 1 in G.
  rewrite sum_0 in G.
  - unfold mid in G. rewrite Nat.eqb_refl in G. apply (F_1_neq_0 (k_field F)). auto.
  - intros l Hl. rewrite (meq_at _ _ _ _ H l i Hl Hi).
    rewrite (meq_at _ _ _ _ (mmul_diag_r n n s (mmul n Ai U)) l i Hl Hi), E. ring.
Qed.
Section Bal.
Context (n : nat) (Lo Lc U V : mat F) (s d : nat -> F).
Context (HH : meq n n (mmul n (mtr Lo) Lc) (mmul n U (mmul n (mdiag s) (madj V)))).
Context (HU : meq n n (mmul n (mtr U) U) mid) (HV : meq n n (mmul n (madj V) V) mid).
Context (Hd : forall i, i < n -> d i * s i * d i = 1).
Definition SL := mmul n (mmul n Lo U) (mdiag d).
Definition SR := mmul n (mmul n Lc V) (mdiag d).
Lemma SL_SR : meq n n (mmul n (mtr SL) SR) mid.
Proof.
  unfold SL, SR. rewrite !mtr_mmul, mtr_diag, !mmul_assoc.
  rewrite <- (mmul_assoc n n n n (mtr Lo) Lc), HH, !mmul_assoc.
  rewrite <- (mmul_assoc n n n n (madj V) V), HV, mmul_id_l.
  rewrite <- (mmul_assoc n n n n (mtr U) U), HU, mmul_id_l, !mmul_diag_diag.
  apply mdiag_1. intros i Hi. rewrite <- (Hd i Hi). ring.
Qed.
Lemma SR_SL : meq n n (mmul n SR (mtr SL)) mid.
Proof. apply left_inverse_right. apply SL_SR. Qed.
(** The transformed products of the factors are diagonal and equal. *)
Context (RV : meq n n (mtr V) (madj V)).
Lemma SL_balanced : meq n n (mmul n (mtr SL) (mmul n (mmul n Lc (mtr Lc)) SL)) (mdiag s).
Proof.
  assert (HT : meq n n (mmul n (mtr Lc) Lo) (mmul n (mmul n V (mdiag s)) (mtr U))).
  { rewrite <- (mtr_mmul n n n (mtr Lo) Lc : meq n n (mtr (mmul n (mtr Lo) Lc)) (mmul n (mtr Lc) Lo)).
    rewrite HH, !mtr_mmul, mtr_diag, <- RV. reflexivity. }
  unfold SL. rewrite !mtr_mmul, mtr_diag, !mmul_assoc.
  rewrite <- (mmul_assoc n n n n (mtr Lc) Lo), HT, !mmul_assoc.
  rewrite <- (mmul_assoc n n n n (mtr Lo) Lc), HH, !mmul_assoc.
  rewrite <- (mmul_assoc n n n n (madj V) V), HV, mmul_id_l.
  rewrite <- (mmul_assoc n n n n (mtr U) U), HU, mmul_id_l.
  rewrite <- (mmul_assoc n n n n (mtr U) U), HU, mmul_id_l, !mmul_diag_diag.
  apply mdiag_ext. intros i Hi. transitivity ((d i * s i * d i) * s i); [ring|]. rewrite Hd by auto. ring.
Qed.
Lemma SR_balanced : meq n n (mmul n (mtr SR) (mmul n (mmul n Lo (mtr Lo)) SR)) (mdiag s).
Proof.
  assert (HT : meq n n (mmul n (mtr Lc) Lo) (mmul n (mmul n V (mdiag s)) (mtr U))).
  { rewrite <- (mtr_mmul n n n (mtr Lo) Lc : meq n n (mtr (mmul n (mtr Lo) Lc)) (mmul n (mtr Lc) Lo)).
    rewrite HH, !mtr_mmul, mtr_diag, <- RV. reflexivity. }
  unfold SR. rewrite !mtr_mmul, mtr_diag, !mmul_assoc.
  rewrite <- (mmul_assoc n n n n (mtr Lo) Lc), HH, !mmul_assoc.
  rewrite <- (mmul_assoc n n n n (mtr Lc) Lo), HT, !mmul_assoc.
  rewrite <- (mmul_assoc n n n n (madj V) V), HV, mmul_id_l.
  rewrite <- (mmul_assoc n n n n (mtr U) U), HU, mmul_id_l.
  rewrite RV. rewrite <- (mmul_assoc n n n n (madj V) V), HV, mmul_id_l, !mmul_diag_diag.
  apply mdiag_ext. intros i Hi. transitivity ((d i * s i * d i) * s i); [ring|]. rewrite Hd by auto. ring.
Qed.
End Bal.

(** What the call returns: the leading blocks of T A T^-1, T B and C T^-1, for one change
    of coordinates T whatever the order; without truncation a system with the same Markov
    parameters. When the solutions are kc L_c L_c^T and ko L_o L_o^T (definite of either
    sign), T makes both diagonal and, up to these factors, equal. Q_c and Q_o: the arrays given to solve_lyapunov;
    X_c and X_o, its answers, are non-singular; U is real, as LAPACK's is for real
    arrays. *)
Definition block_order (n : nat) (order : option nat) : nat := match order with None => n | Some k => Nat.min k n end.
Theorem C37_similar lyap svd_lapack sqrt n m p (A B C : arr F) :
  nr A = n -> nc A = n -> nr B = n -> nc B = m -> nr C = p -> nc C = n ->
  exists Qc Qo, nr Qc = n /\ nc Qc = n /\ nr Qo = n /\ nc Qo = n /\
    meq n n (ent Qc) (mmul m (ent B) (madj (ent B))) /\ meq n n (ent Qo) (mmul p (madj (ent C)) (ent C)) /\
    forall Xc Xo Xci Xoi, lyap A Qc = Ok Xc -> lyap (conj_T A) Qo = Ok Xo ->
      nr Xc = n -> nc Xc = n -> nr Xo = n -> nc Xo = n ->
      meq n n (mmul n Xci (ent Xc)) mid -> meq n n (mmul n Xoi (ent Xo)) mid ->
    forall Uc Ec Vhc Uo Eo Vho, svd_lapack Xc = Ok (Uc, Ec, Vhc) -> svd_contract Xc Uc Ec Vhc ->
      svd_lapack Xo = Ok (Uo, Eo, Vho) -> svd_contract Xo Uo Eo Vho ->
      Forall (sqrt_ok sqrt) Ec -> Forall (sqrt_ok sqrt) Eo ->
    exists H, nr H = n /\ nc H = n /\
      meq n n (ent H) (mmul n (mtr (mmul n (ent Uo) (mdiag (fun i => sqrt (at1 Eo i)))))
                         (mmul n (ent Uc) (mdiag (fun i => sqrt (at1 Ec i))))) /\
    forall U E Vh, svd_lapack H = Ok (U, E, Vh) -> svd_contract H U E Vh ->
      (forall i j, i < n -> j < n -> real (ent U i j)) -> Forall (sqrt_ok sqrt) E ->
    exists T Ti, meq n n (mmul n T Ti) mid /\ meq n n (mmul n Ti T) mid /\
      ((forall i j, i < n -> j < n -> real (ent Vh i j)) -> forall kc ko,
         meq n n (ent Xc) (mscale kc (mmul n (mmul n (ent Uc) (mdiag (at1 Ec))) (mtr (ent Uc)))) ->
         meq n n (ent Xo) (mscale ko (mmul n (mmul n (ent Uo) (mdiag (at1 Eo))) (mtr (ent Uo)))) ->
         meq n n (mmul n T (mmul n (ent Xc) (mtr T))) (mscale kc (mdiag (at1 E))) /\
         meq n n (mmul n (mtr Ti) (mmul n (ent Xo) Ti)) (mscale ko (mdiag (at1 E)))) /\
      forall order, exists Ar Br Cr,
        balanced_truncation lyap svd_lapack sqrt A B C order = Ok (Ar, Br, Cr, E) /\
        let k := block_order n order in
        nr Ar = k /\ nc Ar = k /\ nr Br = k /\ nc Br = m /\ nr Cr = p /\ nc Cr = k /\
        meq k k (ent Ar) (mmul n T (mmul n (ent A) Ti)) /\
        meq k m (ent Br) (mmul n T (ent B)) /\ meq p k (ent Cr) (mmul n (ent C) Ti) /\
        (k = n -> forall j, meq p m (mmul n (ent Cr) (mmul n (mpow n (ent Ar) j) (ent Br)))
                                    (mmul n (ent C) (mmul n (mpow n (ent A) j) (ent B)))).
Proof.
  intros A1 A2 B1 B2 C1 C2.
  exists (Arr n n (mmul m (ent B) (madj (ent B)))), (Arr n n (mmul p (madj (ent C)) (ent C))).
  do 6 (split; [reflexivity|]). intros Xc Xo Xci Xoi L1 L2 c1 c2 o1 o2 Ic Io Uc Ec Vhc Uo Eo Vho S1 K1 S2 K2 Qc Qo.
  assert (Lc : length Ec = n) by (rewrite (svd_len _ _ _ _ K1), c1, c2; lia).
  assert (Lo : length Eo = n) by (rewrite (svd_len _ _ _ _ K2), o1, o2; lia).
  set (H := Arr n n (mmul n (mtr (mmul n (ent Uo) (mdiag (at1 (map sqrt Eo))))) (mmul n (ent Uc) (mdiag (at1 (map sqrt Ec)))))).
  assert (DEo : meq n n (mdiag (at1 (map sqrt Eo))) (mdiag (fun i => sqrt (at1 Eo i)))).
  { apply mdiag_ext. intros i Hi. rewrite at1_map by lia. reflexivity. }
  assert (DEc : meq n n (mdiag (at1 (map sqrt Ec))) (mdiag (fun i => sqrt (at1 Ec i)))).
  { apply mdiag_ext. intros i Hi. rewrite at1_map by lia. reflexivity. }
  exists H. split; [reflexivity|]. split; [reflexivity|]. split; [cbn [ent H]; unfold H; cbn [ent]; rewrite DEo, DEc; reflexivity|].
  intros U E Vh S3 K3 RU QE.
  assert (LE : length E = n) by (rewrite (svd_len _ _ _ _ K3); unfold H; cbn [nr nc]; lia).
  set (Fo := mmul n (ent Uo) (mdiag (at1 (map sqrt Eo)))). set (Fc := mmul n (ent Uc) (mdiag (at1 (map sqrt Ec)))).
  pose proof (svd_U _ _ _ _ K1) as U1. rewrite c1, Lc in U1. unfold orthonormal in U1.
  pose proof (svd_U _ _ _ _ K2) as U2. rewrite o1, Lo in U2. unfold orthonormal in U2.
  pose proof (svd_V _ _ _ _ K1) as V1. rewrite c2, Lc in V1. unfold orthonormal in V1.
  pose proof (svd_V _ _ _ _ K2) as V2. rewrite o2, Lo in V2. unfold orthonormal in V2.
  pose proof (svd_eq _ _ _ _ K1) as E1. rewrite c1, c2, Lc in E1.
  pose proof (svd_eq _ _ _ _ K2) as E2. rewrite o1, o2, Lo in E2.
  pose proof (svd_U _ _ _ _ K3) as U3. change (nr H) with n in U3. rewrite LE in U3. unfold orthonormal in U3.
  pose proof (svd_V _ _ _ _ K3) as V3. change (nc H) with n in V3. rewrite LE in V3. unfold orthonormal in V3.
  pose proof (svd_eq _ _ _ _ K3) as E3. change (nr H) with n in E3. change (nc H) with n in E3. rewrite LE in E3.
  pose proof (nonsingular_values n _ _ _ _ _ Ic E1 V1) as N1.
  pose proof (nonsingular_values n _ _ _ _ _ Io E2 V2) as N2.
  assert (R1 : forall i, i < n -> sqrt_ok sqrt (at1 Ec i)) by (intros i Hi; apply Forall_at; auto; lia).
  assert (R2 : forall i, i < n -> sqrt_ok sqrt (at1 Eo i)) by (intros i Hi; apply Forall_at; auto; lia).
  assert (R3 : forall i, i < n -> sqrt_ok sqrt (at1 E i)) by (intros i Hi; apply Forall_at; auto; lia).
  (* the factors are non-singular *)
  set (Ic' := mmul n (mdiag (fun i => 1 / sqrt (at1 Ec i))) (madj (ent Uc))).
  assert (Hc : meq n n (mmul n Ic' Fc) mid).
  { unfold Ic', Fc. rewrite DEc, mmul_assoc, <- (mmul_assoc n n n n (madj (ent Uc)) (ent Uc)), U1, mmul_id_l, mmul_diag_diag.
    apply mdiag_1. intros i Hi. field. apply sqrt_ok_neq; auto. }
  set (Io' := mmul n (mconj (ent Uo)) (mdiag (fun i => 1 / sqrt (at1 Eo i)))).
  assert (U2' : meq n n (mmul n (mtr (ent Uo)) (mconj (ent Uo))) mid).
  { assert (G : meq n n (mconj (mmul n (madj (ent Uo)) (ent Uo))) (mconj mid)) by (rewrite U2; reflexivity).
    rewrite mconj_mmul in G. transitivity (mmul n (mconj (madj (ent Uo))) (mconj (ent Uo))).
    - apply mmul_proper; [|reflexivity]. split. intros i j _ _. unfold mconj, madj, mtr. rewrite conj_conj. reflexivity.
    - rewrite G. split. intros i j _ _. unfold mconj, mid. destruct (i =? j)%nat; [apply conj_1|apply conj_0]. }
  assert (Ho : meq n n (mmul n (mtr Fo) Io') mid).
  { unfold Io', Fo. rewrite mtr_mmul, DEo, mtr_diag, mmul_assoc, <- (mmul_assoc n n n n (mtr (ent Uo)) (mconj (ent Uo))), U2', mmul_id_l, mmul_diag_diag.
    apply mdiag_1. intros i Hi. field. apply sqrt_ok_neq; auto. }
  apply left_inverse_right in Ho.
  assert (HI : meq n n (mmul n (mmul n Ic' Io') (ent H)) mid).
  { unfold H. cbn [ent]. fold Fo Fc. rewrite mmul_assoc, <- (mmul_assoc n n n n Io' (mtr Fo)), Ho, mmul_id_l. exact Hc. }
  pose proof (nonsingular_values n _ _ _ _ _ HI E3 V3) as N3.
  set (V := madj (ent Vh)). set (d := fun i => 1 / sqrt (at1 E i)).
  assert (Hd : forall i, i < n -> d i * at1 E i * d i = 1).
  { intros i Hi. pose proof (sqrt_ok_neq _ _ (R3 i Hi) (N3 i Hi)) as Nz. destruct (R3 i Hi) as (_ & _ & Sq). unfold d.
    rewrite <- Sq at 2. field. exact Nz. }
  assert (HH : meq n n (mmul n (mtr Fo) Fc) (mmul n (ent U) (mmul n (mdiag (at1 E)) (madj V)))).
  { unfold V. rewrite madj_madj. exact E3. }
  assert (HU : meq n n (mmul n (mtr (ent U)) (ent U)) mid).
  { rewrite <- U3. apply mmul_proper; [|reflexivity]. split. intros i j Hi Hj. unfold mtr, madj. symmetry. apply RU; auto. }
  pose proof (SL_SR n Fo Fc (ent U) V (at1 E) d HH HU V3 Hd) as T1.
  pose proof (SR_SL n Fo Fc (ent U) V (at1 E) d HH HU V3 Hd) as T2.
  exists (mtr (SL n Fo (ent U) d)), (SR n Fc V d). split; [exact T1|]. split; [exact T2|]. split.
  - intros RVh kc ko G1 G2.
    assert (RV : meq n n (mtr V) (madj V)).
    { split. intros i j Hi Hj. unfold mtr, V, madj. rewrite conj_conj. apply RVh; auto. }
    assert (Gc : meq n n (ent Xc) (mscale kc (mmul n Fc (mtr Fc)))).
    { rewrite G1. apply mscale_proper; [reflexivity|]. unfold Fc. rewrite mtr_mmul, DEc, mtr_diag, !mmul_assoc. apply mmul_proper; [reflexivity|].
      rewrite <- mmul_assoc, mmul_diag_diag. apply mmul_proper; [|reflexivity]. apply mdiag_ext. intros i Hi.
      destruct (R1 i Hi) as (_ & _ & ->). reflexivity. }
    assert (Go : meq n n (ent Xo) (mscale ko (mmul n Fo (mtr Fo)))).
    { rewrite G2. apply mscale_proper; [reflexivity|]. unfold Fo. rewrite mtr_mmul, DEo, mtr_diag, !mmul_assoc. apply mmul_proper; [reflexivity|].
      rewrite <- mmul_assoc, mmul_diag_diag. apply mmul_proper; [|reflexivity]. apply mdiag_ext. intros i Hi.
      destruct (R2 i Hi) as (_ & _ & ->). reflexivity. }
    split.
    + rewrite Gc. rewrite mmul_scale_l, mmul_scale_r. apply mscale_proper; [reflexivity|].
      change (mtr (mtr (SL n Fo (ent U) d))) with (SL n Fo (ent U) d).
      apply (SL_balanced n Fo Fc (ent U) V (at1 E) d HH HU V3 Hd RV).
    + rewrite Go. rewrite mmul_scale_l, mmul_scale_r. apply mscale_proper; [reflexivity|].
      apply (SR_balanced n Fo Fc (ent U) V (at1 E) d HH HU V3 Hd RV).
  - intros order. set (k := block_order n order). assert (Hk : k <= n) by (unfold k, block_order; destruct order; lia).
    assert (Esvd : forall X Ux Sx Vx, svd_lapack X = Ok (Ux, Sx, Vx) -> svd svd_lapack X None None =
      Ok (first_cols (length Sx) Ux, Sx, first_cols (length Sx) (conj_T Vx))).
    { intros X Ux Sx Vx EX. unfold svd. rewrite EX. cbn [rbind fst snd num_kept]. rewrite firstn_all. reflexivity. }
    assert (Ucc : nc Uc = n) by (rewrite (svd_Uc _ _ _ _ K1); auto).
    assert (Ucr : nr Uc = n) by (rewrite (svd_Ur _ _ _ _ K1); auto).
    assert (Uoc : nc Uo = n) by (rewrite (svd_Uc _ _ _ _ K2); auto).
    assert (Uor : nr Uo = n) by (rewrite (svd_Ur _ _ _ _ K2); auto).
    assert (Ur : nr U = n) by (rewrite (svd_Ur _ _ _ _ K3); auto).
    assert (Uc' : nc U = n) by (rewrite (svd_Uc _ _ _ _ K3); auto).
    assert (Vr : nr Vh = n) by (rewrite (svd_Vr _ _ _ _ K3); auto).
    assert (Vc : nc Vh = n) by (rewrite (svd_Vc _ _ _ _ K3); auto).
    set (o := match order with None => length E | Some k => k end).
    assert (Ok1 : length (firstn o E) = k).
    { rewrite firstn_length, LE. unfold o, k, block_order. destruct order; lia. }
    assert (Ok2 : Nat.min o n = k) by (rewrite <- LE; rewrite <- firstn_length; exact Ok1).
    set (Dk := mdiag (at1 (map (inv_sqrt sqrt) (firstn o E)))).
    assert (EDk : meq k k Dk (mdiag d)).
    { unfold Dk. apply mdiag_ext. intros i Hi. rewrite at1_map by lia. rewrite at1_firstn by lia. reflexivity. }
    set (SLk := mmul k (mmul n Fo (ent U)) Dk). set (SRk := mmul k (mmul n Fc V) Dk).
    assert (EL : meq n k SLk (SL n Fo (ent U) d)).
    { unfold SLk, SL. rewrite EDk, mmul_diag_r.
      rewrite (meq_sub _ _ n k _ _ (le_n n) Hk (mmul_diag_r n n d (mmul n Fo (ent U)))). reflexivity. }
    assert (ER : meq n k SRk (SR n Fc V d)).
    { unfold SRk, SR. rewrite EDk, mmul_diag_r.
      rewrite (meq_sub _ _ n k _ _ (le_n n) Hk (mmul_diag_r n n d (mmul n Fc V))). reflexivity. }
    exists (Arr k k (mmul n (mmul n (mtr SLk) (ent A)) SRk)), (Arr k m (mmul n (mtr SLk) (ent B))), (Arr p k (mmul n (ent C) SRk)).
    split.
    { unfold balanced_truncation.
      unfold dot at 1. cbn [nc nr conj_T ent]. rewrite Nat.eqb_refl. cbn [rbind]. rewrite B1, B2.
      rewrite L1. cbn [rbind].
      unfold dot at 1. cbn [nc nr conj_T ent]. rewrite Nat.eqb_refl. cbn [rbind]. rewrite C1, C2.
      rewrite L2. cbn [rbind]. rewrite (Esvd _ _ _ _ S1), (Esvd _ _ _ _ S2). cbn [rbind fst snd].
      unfold dot at 1. cbn [nc nr first_cols diag ent]. rewrite map_length, Ucc, Ucr, Lc, Nat.min_id, Nat.eqb_refl. cbn [rbind].
      unfold dot at 1. cbn [nc nr first_cols diag ent]. rewrite map_length, Uoc, Uor, Lo, Nat.min_id, Nat.eqb_refl. cbn [rbind].
      unfold dot at 1. cbn [nc nr transp ent]. rewrite Nat.eqb_refl. cbn [rbind]. fold H. fold Fo Fc.
      rewrite (Esvd _ _ _ _ S3). cbn [rbind fst snd]. fold o.
      unfold dot at 1. cbn [nc nr first_cols diag ent conj_T]. rewrite Ur, Nat.eqb_refl. cbn [rbind].
      unfold dot at 1. cbn [nc nr first_cols diag ent conj_T]. rewrite map_length, Ok1, Uc', LE, Nat.min_id, Ok2, Nat.eqb_refl. cbn [rbind].
      unfold dot at 1. cbn [nc nr first_cols diag ent conj_T]. rewrite Vc, Nat.eqb_refl. cbn [rbind].
      unfold dot at 1. cbn [nc nr first_cols diag ent conj_T]. rewrite map_length, Vr, Nat.min_id, Ok2, Ok1, Nat.eqb_refl. cbn [rbind].
      unfold dot at 1. cbn [nc nr transp ent]. rewrite A1, Nat.eqb_refl. cbn [rbind].
      unfold dot at 1. cbn [nc nr transp ent]. rewrite A2, Nat.eqb_refl. cbn [rbind].
      unfold dot at 1. cbn [nc nr transp ent]. rewrite B1, B2, Nat.eqb_refl. cbn [rbind].
      unfold dot at 1. cbn [nc nr transp ent]. rewrite C1, C2, Nat.eqb_refl. cbn [rbind]. reflexivity. }
    cbv zeta. do 6 (split; [reflexivity|]). cbn [ent].
    assert (PA : meq k k (mmul n (mmul n (mtr SLk) (ent A)) SRk) (mmul n (mtr (SL n Fo (ent U) d)) (mmul n (ent A) (SR n Fc V d))))
      by (rewrite EL, ER, mmul_assoc; reflexivity).
    assert (PB : meq k m (mmul n (mtr SLk) (ent B)) (mmul n (mtr (SL n Fo (ent U) d)) (ent B))) by (rewrite EL; reflexivity).
    assert (PC : meq p k (mmul n (ent C) SRk) (mmul n (ent C) (SR n Fc V d))) by (rewrite ER; reflexivity).
    split; [exact PA|]. split; [exact PB|]. split; [exact PC|].
    intros Ekn j. rewrite Ekn in PA, PB, PC.
    apply (similar_Markov n p m (ent A) (ent B) (ent C) (mtr (SL n Fo (ent U) d)) (SR n Fc V d)); auto.
Qed.
End Alg.

(** The discrete-time Gramians, and what the documentation promises about the values
    returned: their squares are the eigenvalues of the product of the Gramians. *)
Definition gramians {F : sfield} (n m p : nat) (A B C Wc Wo : mat F) : Prop :=
  meq n n Wc (madd (mmul n A (mmul n Wc (madj A))) (mmul m B (madj B))) /\
  meq n n Wo (madd (mmul n (madj A) (mmul n Wo A)) (mmul p (madj C) C)).
Definition Hankel_values {F : sfield} (n : nat) (Wc Wo : mat F) (E : list F) : Prop :=
  exists P Pi, meq n n (mmul n Pi P) mid /\
    meq n n (mmul n (mmul n Wc Wo) P) (mmul n P (mdiag (fun i => at1 E i * at1 E i))).

(** ** The system x' = x / 2 + u, y = x *)
Definition g_A : arr QI := Arr 1 1 (fun _ _ => qi 1 0 2).
Definition g_1 : arr QI := Arr 1 1 (fun _ _ => q 1).
Definition g_lyap (A Q : arr QI) : res (arr QI) :=
  if aeqb g_A A && aeqb g_1 Q then Ok g_1 else Raise LinAlgError.
Definition g_svd := table [(g_1, (g_1, [q 1], g_1))].
Definition g_sqrt (x : QI) : QI := x.
Lemma aeqb_aeq {F : sfield} (A B : arr F) : aeqb A B = true -> aeq A B.
Proof.
  unfold aeqb. rewrite !andb_true_iff, !Nat.eqb_eq. intros [[H1 H2] H3]. split; [auto|]. split; [auto|].
  apply meqb_true. auto.
Qed.
Lemma g_lyap_contract A Q X : g_lyap A Q = Ok X -> lyap_contract A Q X.
Proof.
  unfold g_lyap. destruct (aeqb g_A A) eqn:EA; [|discriminate]. destruct (aeqb g_1 Q) eqn:EQ; [|discriminate].
  cbn [andb]. intros G. injection G as <-. apply aeqb_aeq in EA, EQ.
  destruct EA as (H1 & H2 & H3). destruct EQ as (G1 & G2 & G3). unfold lyap_contract. rewrite <- H1.
  split; [reflexivity|]. split; [reflexivity|]. change (nr g_A) with 1%nat in *. change (nc g_A) with 1%nat in *.
  change (nr g_1) with 1%nat in *. change (nc g_1) with 1%nat in *. rewrite <- H3, <- G3. eqb_solve.
Qed.
Lemma g_svd_contract A U S Vh : g_svd A = Ok (U, S, Vh) -> svd_contract A U S Vh.
Proof.
  unfold g_svd, table. destruct (aeqb g_1 A) eqn:EA; [|discriminate]. apply aeqb_aeq in EA.
  intros G. injection G as <- <- <-. apply (svd_contract_aeq g_1); auto.
  split; try reflexivity; try eqb_solve; [repeat constructor; real_solve|repeat constructor; le_solve|].
  intros i j Hij Hj. simpl in Hj. assert (i = O) by lia. assert (j = O) by lia. subst. le_solve.
Qed.
Lemma g_sqrt_ok : Forall (sqrt_ok g_sqrt) [q 1].
Proof. constructor; [|constructor]. split; [real_solve|]. split; [le_solve|real_solve]. Qed.
Section G.
Add Field C37_QI : (k_field QI).
(** The answer is the only one, and so are the Gramians. *)
Lemma g_lyap_unique X : lyap_contract g_A g_1 X -> ent X O O = q 1.
Proof.
  intros (_ & _ & H). apply meq_at with (i := O) (j := O) in H; try (simpl; lia).
  unfold madd, mmul, madj in H. cbn [nr g_A sum ent g_1] in H.
  transitivity (qi 1 0 2 * ent X O O + ent X O O * kconj QI (qi 1 0 2)); [|rewrite <- H; ring].
  replace (kconj QI (qi 1 0 2)) with (qi 1 0 2) by (symmetry; real_solve).
  transitivity ((qi 1 0 2 + qi 1 0 2) * ent X O O); [|ring].
  replace (qi 1 0 2 + qi 1 0 2)%K with (1 : QI) by (symmetry; real_solve). ring.
Qed.
Lemma g_gramian (W : QI) : W = (qi 1 0 2 * (W * qi 1 0 2) + q 1) -> W = qi 4 0 3.
Proof.
  intros H. assert (E : qi 3 0 4 * W = q 1).
  { transitivity (W - qi 1 0 4 * W).
    - transitivity ((q 1 - qi 1 0 4) * W); [f_equal; symmetry; real_solve|]. replace (q 1) with (1 : QI) by (symmetry; real_solve). ring.
    - rewrite H at 1. replace (qi 1 0 4) with (qi 1 0 2 * qi 1 0 2) by real_solve. ring. }
  transitivity (qi 4 0 3 * (qi 3 0 4 * W)).
  - transitivity ((qi 4 0 3 * qi 3 0 4) * W); [|ring]. replace (qi 4 0 3 * qi 3 0 4)%K with (1 : QI) by (symmetry; real_solve). ring.
  - rewrite E. real_solve.
Qed.
Theorem C37_gramian_refuted : exists lyap svd_lapack sqrt (A B C Ar Br Cr : arr QI) E,
  nr A = 1%nat /\ nc A = 1%nat /\ nr B = 1%nat /\ nc B = 1%nat /\ nr C = 1%nat /\ nc C = 1%nat /\
  (forall A Q X, lyap A Q = Ok X -> lyap_contract A Q X) /\
  (forall A U S Vh, svd_lapack A = Ok (U, S, Vh) -> svd_contract A U S Vh) /\
  Forall (sqrt_ok sqrt) E /\
  balanced_truncation lyap svd_lapack sqrt A B C None = Ok (Ar, Br, Cr, E) /\
  (exists Wc Wo, gramians 1 1 1 (ent A) (ent B) (ent C) Wc Wo) /\
  forall Wc Wo, gramians 1 1 1 (ent A) (ent B) (ent C) Wc Wo -> ~ Hankel_values 1 Wc Wo E.
Proof.
  exists g_lyap, g_svd, g_sqrt, g_A, g_1, g_1.
  assert (H : exists Ar Br Cr, balanced_truncation g_lyap g_svd g_sqrt g_A g_1 g_1 None = Ok (Ar, Br, Cr, [q 1])).
  { destruct (C37_similar g_lyap g_svd g_sqrt 1 1 1 g_A g_1 g_1) as (Qc & Qo & c1 & c2 & o1 & o2 & Hc & Ho & G); try reflexivity.
    assert (Ec : aeq Qc g_1 /\ aeq g_1 Qc).
    { apply (mk_aeq 1 1); auto; rewrite Hc; eqb_solve. }
    assert (Eo : aeq Qo g_1 /\ aeq g_1 Qo).
    { apply (mk_aeq 1 1); auto; rewrite Ho; eqb_solve. }
    assert (L : forall A Q, aeq A g_A -> aeq Q g_1 -> g_lyap A Q = Ok g_1).
    { intros A Q (h1 & h2 & h3) (k1 & k2 & k3). unfold g_lyap, aeqb. rewrite h1, h2, k1, k2. rewrite h1, h2 in h3. rewrite k1, k2 in k3.
      rewrite !Nat.eqb_refl. cbn [andb]. rewrite (meqb_meq _ _ _ _ _ h3), (meqb_meq _ _ _ _ _ k3).
      match goal with |- (if ?b then _ else _) = _ => replace b with true by (vm_compute; reflexivity) end. reflexivity. }
    destruct (G g_1 g_1 (ent g_1) (ent g_1)) with (Uc := g_1) (Ec := [q 1]) (Vhc := g_1) (Uo := g_1) (Eo := [q 1]) (Vho := g_1)
      as (H & H1 & H2 & H3 & G2).
    - apply L; [|apply Ec]. apply aeqb_aeq. vm_compute. reflexivity.
    - apply L; [|apply Eo]. apply aeqb_aeq. vm_compute. reflexivity.
    - reflexivity.
    - reflexivity.
    - reflexivity.
    - reflexivity.
    - eqb_solve.
    - eqb_solve.
    - apply table_hit. vm_compute. reflexivity.
    - apply g_svd_contract. apply table_hit. vm_compute. reflexivity.
    - apply table_hit. vm_compute. reflexivity.
    - apply g_svd_contract. apply table_hit. vm_compute. reflexivity.
    - apply g_sqrt_ok.
    - apply g_sqrt_ok.
    - assert (EH : aeq H g_1 /\ aeq g_1 H).
      { apply (mk_aeq 1 1); auto; rewrite H3; eqb_solve. }
      assert (EL : g_svd H = Ok (g_1, [q 1], g_1)).
      { unfold g_svd. rewrite (table_extensional _ _ _ (proj1 EH)). apply table_hit. vm_compute. reflexivity. }
      destruct (G2 _ _ _ EL (g_svd_contract _ _ _ _ EL)) as (T & Ti & _ & _ & _ & G3).
      + intros i j Hi Hj. real_solve.
      + apply g_sqrt_ok.
      + destruct (G3 None) as (Ar & Br & Cr & E & _). eauto. }
  destruct H as (Ar & Br & Cr & E). exists Ar, Br, Cr, [q 1]. do 6 (split; [reflexivity|]).
  split; [exact g_lyap_contract|]. split; [exact g_svd_contract|].
  split; [apply g_sqrt_ok|]. split; [exact E|].
  split.
  - exists (fun _ _ => qi 4 0 3), (fun _ _ => qi 4 0 3). split; eqb_solve.
  - intros Wc Wo [G1 G2] (P & Pi & HP & HE).
    assert (Wc0 : Wc O O = qi 4 0 3).
    { apply g_gramian. apply meq_at with (i := O) (j := O) in G1; try lia. unfold madd, mmul, madj in G1. cbn [sum ent g_A g_1] in G1.
      rewrite G1 at 1. replace (kconj QI (qi 1 0 2)) with (qi 1 0 2) by (symmetry; real_solve).
      replace (kconj QI (q 1)) with (q 1) by (symmetry; real_solve). replace (q 1 * q 1)%K with (q 1) by real_solve. ring. }
    assert (Wo0 : Wo O O = qi 4 0 3).
    { apply g_gramian. apply meq_at with (i := O) (j := O) in G2; try lia. unfold madd, mmul, madj in G2. cbn [sum ent g_A g_1] in G2.
      rewrite G2 at 1. replace (kconj QI (qi 1 0 2)) with (qi 1 0 2) by (symmetry; real_solve).
      replace (kconj QI (q 1)) with (q 1) by (symmetry; real_solve). replace (q 1 * q 1)%K with (q 1) by real_solve. ring. }
    apply meq_at with (i := O) (j := O) in HE; try lia. apply meq_at with (i := O) (j := O) in HP; try lia.
    unfold mmul, mdiag, mid in HE, HP. cbn [sum Nat.eqb at1 nth] in HE, HP. rewrite Wc0, Wo0 in HE.
    assert (Z : (qi 4 0 3 * qi 4 0 3 - q 1 * q 1) * (Pi O O * P O O) = 0).
    { transitivity (Pi O O * (0 + (0 + qi 4 0 3 * qi 4 0 3) * P O O - (0 + P O O * (q 1 * q 1)))); [ring|]. rewrite HE. ring. }
    assert (HP' : Pi O O * P O O = 1) by (rewrite <- HP; ring). rewrite HP' in Z.
    assert (Z2 : (qi 4 0 3 * qi 4 0 3 - q 1 * q 1)%K = 0) by (rewrite <- Z; ring).
    revert Z2. apply keqb_false. vm_compute. reflexivity.
Qed.
(** A delay, x' = u, y = x, is a perfectly good discrete-time system (both Gramians are
    1), but the equation solved for it has no solution. *)
Theorem C37_delay X : ~ lyap_contract (zeros 1 1 : arr QI) g_1 X.
Proof.
  intros (_ & _ & H). apply meq_at with (i := O) (j := O) in H; try (simpl; lia).
  unfold madd, mmul, madj in H. cbn [nr zeros sum ent g_1] in H. unfold mzero in H.
  assert (E : q 1 = 0).
  { rewrite <- H. rewrite conj_0. ring. }
  revert E. apply keqb_false. vm_compute. reflexivity.
Qed.
End G.

(** ** Instance: two states, with a change of their order *)
Definition b_diag (a b : QI) : arr QI := of_rows 2 [[a; q 0]; [q 0; b]].
Definition b_A := b_diag (qi 1 0 2) (q 2).
Definition b_B := b_diag (q 1) (q 2).
Definition b_C := b_diag (q 1) (q 8).
Definition b_Qc := b_diag (q 1) (q 4).
Definition b_Qo := b_diag (q 1) (q 64).
Definition b_Xc := b_diag (q 1) (q 1).
Definition b_Xo := b_diag (q 1) (q 16).
Definition b_swap : arr QI := of_rows 2 [[q 0; q 1]; [q 1; q 0]].
Definition b_H : arr QI := of_rows 2 [[q 0; q 4]; [q 1; q 0]].
Definition b_lyap (A Q : arr QI) := table [(b_Qc, b_Xc); (b_Qo, b_Xo)] Q.
Definition b_svd := table [(b_Xc, (eye 2 : arr QI, [q 1; q 1], eye 2 : arr QI)); (b_Xo, (b_swap, [q 16; q 1], b_swap));
  (b_H, (eye 2 : arr QI, [q 4; q 1], b_swap))].
Definition b_sqrt (x : QI) : QI := if keqb x (q 16) then q 4 else if keqb x (q 4) then q 2 else q 1.
Example C37_instance_solutions : lyap_contract b_A b_Qc b_Xc /\ lyap_contract (conj_T b_A) b_Qo b_Xo.
Proof. split; (split; [reflexivity|]; split; [reflexivity|]); eqb_solve. Qed.
Example C37_instance : exists Ar Br Cr, balanced_truncation b_lyap b_svd b_sqrt b_A b_B b_C None = Ok (Ar, Br, Cr, [q 4; q 1]) /\
  forall j, meq 2 2 (mmul 2 (ent Cr) (mmul 2 (mpow 2 (ent Ar) j) (ent Br))) (mmul 2 (ent b_C) (mmul 2 (mpow 2 (ent b_A) j) (ent b_B))).
Proof.
  assert (Sq : forall l : list QI, forallb (fun x => keqb (kconj QI (b_sqrt x)) (b_sqrt x) && negb (klt QI (b_sqrt x) 0)
    && keqb (b_sqrt x * b_sqrt x) x) l = true -> Forall (sqrt_ok b_sqrt) l).
  { intros l H. apply Forall_forall. intros x Hx. apply sqrt_ok_dec. rewrite forallb_forall in H. auto. }
  destruct (C37_similar b_lyap b_svd b_sqrt 2 2 2 b_A b_B b_C) as (Qc & Qo & c1 & c2 & o1 & o2 & Hc & Ho & G); try reflexivity.
  assert (Ec : aeq Qc b_Qc /\ aeq b_Qc Qc).
  { apply (mk_aeq 2 2); auto. rewrite Hc. eqb_solve. }
  assert (Eo : aeq Qo b_Qo /\ aeq b_Qo Qo).
  { apply (mk_aeq 2 2); auto. rewrite Ho. eqb_solve. }
  destruct (G b_Xc b_Xo (ent b_Xc) (ent (b_diag (q 1) (qi 1 0 16)))) with (Uc := eye 2 : arr QI) (Ec := [q 1; q 1]) (Vhc := eye 2 : arr QI)
    (Uo := b_swap) (Eo := [q 16; q 1]) (Vho := b_swap) as (H & H1 & H2 & H3 & G2).
  - unfold b_lyap. rewrite (table_extensional _ _ _ (proj1 Ec)). apply table_hit. vm_compute. reflexivity.
  - unfold b_lyap. rewrite (table_extensional _ _ _ (proj1 Eo)). rewrite table_skip by (vm_compute; reflexivity).
    apply table_hit. vm_compute. reflexivity.
  - reflexivity.
  - reflexivity.
  - reflexivity.
  - reflexivity.
  - eqb_solve.
  - eqb_solve.
  - apply table_hit. vm_compute. reflexivity.
  - svd_solve.
  - unfold b_svd. rewrite table_skip by (vm_compute; reflexivity). apply table_hit. vm_compute. reflexivity.
  - svd_solve.
  - apply Sq. vm_compute. reflexivity.
  - apply Sq. vm_compute. reflexivity.
  - assert (EH : aeq H b_H /\ aeq b_H H).
    { apply (mk_aeq 2 2); auto. rewrite H3. eqb_solve. }
    assert (EL : b_svd H = Ok (eye 2 : arr QI, [q 4; q 1], b_swap)).
    { unfold b_svd. rewrite (table_extensional _ _ _ (proj1 EH)). do 2 (rewrite table_skip by (vm_compute; reflexivity)).
      apply table_hit. vm_compute. reflexivity. }
    destruct (G2 _ _ _ EL) as (T & Ti & _ & _ & _ & G3).
    + apply (svd_contract_aeq b_H); [apply EH|]. svd_solve.
    + intros i j Hi Hj. unfold eye. cbn [ent]. unfold mid. destruct (i =? j)%nat; [apply conj_1|apply conj_0].
    + apply Sq. vm_compute. reflexivity.
    + destruct (G3 None) as (Ar & Br & Cr & E & G4). cbv zeta in G4. destruct G4 as (_ & _ & _ & _ & _ & _ & _ & _ & _ & G4).
      exists Ar, Br, Cr. split; [exact E|]. intros j. apply G4. reflexivity.
Qed.

Print Assumptions C37_similar.
Print Assumptions C37_gramian_refuted.
Print Assumptions C37_delay.
