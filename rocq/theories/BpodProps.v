(** Property C21: balanced POD of arrays. *)
From Coq Require Import List Arith Lia Bool ZArith Field Ring Setoid Morphisms.
Import ListNotations.
From Verif Require Import Prelude Field FieldInst Matrix NdArray HankelModel HankelProps DecompModel
  DecompProofs DecompProps VSArraysModel VSArraysProofs VSArraysProps PodModel PodProofs PodProps
  BpodModel BpodProofs.
Open Scope nat_scope.
Open Scope k_scope.

(** * The Hankel array *)

(** Inner products of adjoint blocks (of [q]) with direct blocks (of [p]) depend on
    the sum of the block numbers only. *)
Definition block_Hankel {F : sfield} (p q mx my : nat) (G : mat F) : Prop :=
  forall i j i' j' a b, i < my -> i' < my -> j < mx -> j' < mx -> a < q -> b < p ->
    (i + j = i' + j')%nat ->
    G (i * q + a)%nat (j * p + b)%nat = G (i' * q + a)%nat (j' * p + b)%nat.

(** Block [(i, j)] is read from the first column of chunks and then the last row. *)
Theorem C21_chunks {F : sfield} p q mx my (first last : arr F) :
  (0 < p)%nat -> (0 < q)%nat -> (0 < mx)%nat -> (0 < my)%nat ->
  (nr first / q)%nat = my -> nc first = p -> nr last = q -> (nc last / p)%nat = mx ->
  exists H, BPOD_Hankel p q first last = Ok H /\ nr H = (my * q)%nat /\ nc H = (mx * p)%nat /\
    forall i j a b, i < my -> j < mx -> a < q -> b < p ->
      ent H (i * q + a)%nat (j * p + b)%nat =
        if (i + j <? my)%nat then ent first ((i + j) * q + a)%nat b
        else ent last a ((i + j - (my - 1)) * p + b)%nat.
Proof.
  intros Hp Hq Hmx Hmy Fr Fc Lr Lc. unfold BPOD_Hankel, range_div.
  rewrite (proj2 (Nat.eqb_neq q 0)), (proj2 (Nat.eqb_neq p 0)) by lia.
  rewrite Fr, Lc. cbn [rbind].
  assert (Fr' : (my * q <= nr first)%nat).
  { rewrite <- Fr, Nat.mul_comm. apply Nat.mul_div_le. lia. }
  assert (Lc' : (mx * p <= nc last)%nat).
  { rewrite <- Lc, Nat.mul_comm. apply Nat.mul_div_le. lia. }
  set (fc := fun i => col_slice 0 p (row_slice (i * q) ((i + 1) * q) first)).
  set (fl := fun j => col_slice (j * p) ((j + 1) * p) last).
  assert (Sc : shaped q p (map fc (seq 0 my))).
  { apply Forall_forall. intros A HA. apply in_map_iff in HA. destruct HA as (i & <- & Hi).
    apply in_seq in Hi. unfold fc. simpl. rewrite Fc.
    assert (G : ((i + 1) * q <= my * q)%nat) by (apply Nat.mul_le_mono_r; lia). lia. }
  assert (Sl : shaped q p (map fl (seq 0 mx))).
  { apply Forall_forall. intros A HA. apply in_map_iff in HA. destruct HA as (j & <- & Hj).
    apply in_seq in Hj. unfold fl. simpl. rewrite Lr.
    assert (G : ((j + 1) * p <= mx * p)%nat) by (apply Nat.mul_le_mono_r; lia). lia. }
  destruct (C14_chunks q p (map fc (seq 0 my)) (map fl (seq 0 mx))) as (H & E & Hr & Hc & HE); auto.
  { destruct my; [lia|discriminate]. }
  { destruct mx; [lia|discriminate]. }
  rewrite !map_length, !seq_length in *.
  exists H. split; auto. split; auto. split; auto. intros i j a b Hi Hj Ha Hb.
  specialize (HE i j a b).
  destruct (Nat.ltb_spec (i + j) my) as [L|L].
  - rewrite (HE (fc (i + j)%nat)); auto.
    apply map_nth_error. rewrite (nth_error_nth' _ 0%nat) by (rewrite seq_length; auto).
    rewrite seq_nth by auto. reflexivity.
  - rewrite (HE (fl (i + j - (my - 1))%nat)); auto.
    apply map_nth_error. rewrite (nth_error_nth' _ 0%nat) by (rewrite seq_length; lia).
    rewrite seq_nth by lia. reflexivity.
Qed.

Lemma block_index q i m : (0 < q)%nat -> i < (m * q)%nat ->
  exists b a, i = (b * q + a)%nat /\ b < m /\ a < q.
Proof.
  intros Hq Hi. exists (i / q)%nat, (i mod q)%nat.
  rewrite (Nat.div_mod i q) at 1 by lia. split; [lia|]. split.
  - apply Nat.div_lt_upper_bound; lia.
  - apply Nat.mod_upper_bound. lia.
Qed.

(** The shortcut: when the inner products have Hankel structure, the array built
    from the two partial products is the array of all inner products. *)
Theorem C21_shortcut {F : sfield} ws (X Y : arr F) p q mx my :
  nr X = nr Y -> wfits (nr X) ws ->
  (0 < p)%nat -> (0 < q)%nat -> (0 < mx)%nat -> (0 < my)%nat ->
  nc X = (mx * p)%nat -> nc Y = (my * q)%nat ->
  block_Hankel p q mx my (wip (nr X) (wmat ws) (ent Y) (ent X)) ->
  exists first last H,
    inner_product_array ws Y (first_cols p X) = Ok first /\
    inner_product_array ws (last_cols q Y) X = Ok last /\
    BPOD_Hankel p q first last = Ok H /\ nr H = nc Y /\ nc H = nc X /\
    meq (nc Y) (nc X) (ent H) (wip (nr X) (wmat ws) (ent Y) (ent X)).
Proof.
  intros E Hw Hp Hq Hmx Hmy HX HY HB.
  assert (Gp : (p <= mx * p)%nat) by (rewrite <- (Nat.mul_1_l p) at 1; apply Nat.mul_le_mono_r; lia).
  assert (Gq : (q <= my * q)%nat) by (rewrite <- (Nat.mul_1_l q) at 1; apply Nat.mul_le_mono_r; lia).
  destruct (ip_ok ws Y (first_cols p X)) as (first & E1 & F1 & F2 & F3);
    [simpl; auto|rewrite <- E; auto|].
  destruct (ip_ok ws (last_cols q Y) X) as (last & E2 & L1 & L2 & L3);
    [simpl; auto|simpl; rewrite <- E; auto|].
  simpl in F2, F3, L1, L3. rewrite (proj2 (Nat.eqb_neq q 0)) in L1, L3 by lia.
  destruct (C21_chunks p q mx my first last) as (H & E3 & H1 & H2 & H3); auto; try lia.
  { rewrite F1, HY. apply Nat.div_mul. lia. }
  { rewrite L2, HX. apply Nat.div_mul. lia. }
  exists first, last, H. split; auto. split; auto. split; auto. split; [lia|]. split; [lia|].
  split. intros r c Hr Hc.
  destruct (block_index q r my Hq) as (i & a & -> & Hi & Ha); [lia|].
  destruct (block_index p c mx Hp) as (j & b & -> & Hj & Hb); [lia|].
  rewrite H3 by auto. destruct (Nat.ltb_spec (i + j) my) as [L|L].
  - assert (G : ((i + j) * q + a < nc Y)%nat).
    { rewrite HY. assert (((i + j + 1) * q <= my * q)%nat) by (apply Nat.mul_le_mono_r; lia). lia. }
    rewrite (meq_at _ _ _ _ F3) by lia.
    transitivity (wip (nr X) (wmat ws) (ent Y) (ent X) ((i + j) * q + a)%nat (0 * p + b)%nat).
    + rewrite <- E. reflexivity.
    + apply HB; auto; lia.
  - set (jj := (i + j - (my - 1))%nat).
    assert (G : (jj * p + b < nc X)%nat).
    { rewrite HX. assert (((jj + 1) * p <= mx * p)%nat) by (apply Nat.mul_le_mono_r; unfold jj; lia). lia. }
    rewrite (meq_at _ _ _ _ L3) by lia.
    transitivity (wip (nr X) (wmat ws) (ent Y) (ent X) ((my - 1) * q + a)%nat (jj * p + b)%nat).
    + unfold wip, mmul, madj. rewrite E. apply sum_ext. intros l _. f_equal. f_equal. f_equal.
      rewrite HY, Nat.mul_sub_distr_r. lia.
    + apply HB; auto; unfold jj; lia.
Qed.

(** Impulse responses x_j = A^j B and adjoint impulse responses y_i = (A+)^i C+ with
    A+ the adjoint of A in the weighted inner product have Hankel structure. *)
Definition impulse_blocks {F : sfield} (n p : nat) (A B X : mat F) (m : nat) : Prop :=
  forall j l b, j < m -> l < n -> b < p -> X l (j * p + b)%nat = mmul n (mpow n A j) B l b.

Theorem C21_impulse_Hankel {F : sfield} n p q mx my (A B Ap Cp W X Y : mat F) :
  meq n n (mmul n (madj Ap) W) (mmul n W A) ->
  impulse_blocks n p A B X mx -> impulse_blocks n q Ap Cp Y my ->
  block_Hankel p q mx my (wip n W Y X) /\
  forall i j a b, i < my -> j < mx -> a < q -> b < p ->
    wip n W Y X (i * q + a)%nat (j * p + b)%nat
    = mmul n (madj Cp) (mmul n W (mmul n (mpow n A (i + j)) B)) a b.
Proof.
  intros HA HX HY.
  assert (G : forall i j a b, i < my -> j < mx -> a < q -> b < p ->
    wip n W Y X (i * q + a)%nat (j * p + b)%nat
    = mmul n (madj Cp) (mmul n W (mmul n (mpow n A (i + j)) B)) a b).
  { intros i j a b Hi Hj Ha Hb.
    transitivity (wip n W (mmul n (mpow n Ap i) Cp) (mmul n (mpow n A j) B) a b).
    - unfold wip. unfold mmul at 1 3. apply sum_ext. intros l Hl. unfold madj. rewrite HY by auto.
      f_equal. unfold mmul at 1 2. apply sum_ext. intros l' Hl'. rewrite HX by auto. reflexivity.
    - assert (E : meq q p (wip n W (mmul n (mpow n Ap i) Cp) (mmul n (mpow n A j) B))
        (mmul n (madj Cp) (mmul n W (mmul n (mpow n A (i + j)) B)))).
      { unfold wip. rewrite madj_mmul, mmul_assoc.
        rewrite <- (mmul_assoc n p n n (madj (mpow n Ap i)) W).
        rewrite (adjoint_powers n A Ap W HA i), mpow_add, !mmul_assoc. reflexivity. }
      apply (meq_at _ _ _ _ E); auto. }
  split; auto. intros i j i' j' a b Hi Hi' Hj Hj' Ha Hb Es. rewrite !G, Es by auto. reflexivity.
Qed.

(** * The modes *)

Record bpod_spec {F : sfield} (sqrt : F -> F) (X Y : arr F) (W : mat F) (E : list F)
    (Phi Psi dc ac L R : arr F) : Prop := {
  bs_Pr : nr Phi = nr X; bs_Pc : nc Phi = length E; bs_Qr : nr Psi = nr X; bs_Qc : nc Psi = length E;
  bs_dr : nr dc = length E; bs_dc : nc dc = nc X; bs_ar : nr ac = length E; bs_ac : nc ac = nc Y;
  (* adjoint and direct modes are biorthonormal *)
  bs_bi : meq (length E) (length E) (wip (nr X) W (ent Psi) (ent Phi)) mid;
  (* coefficients: adjoint modes against direct data, direct modes against adjoint data *)
  bs_direct : meq (length E) (nc X) (ent dc) (wip (nr X) W (ent Psi) (ent X));
  bs_adjoint : hermitian (nr X) W ->
    meq (length E) (nc Y) (ent ac) (wip (nr X) W (ent Phi) (ent Y));
  (* modes are combinations of the data *)
  bs_dspan : meq (nr X) (length E)
    (mmul (length E) (ent Phi) (mdiag (fun i => sqrt (at1 E i)))) (mmul (nc X) (ent X) (ent R));
  bs_aspan : meq (nr X) (length E)
    (mmul (length E) (ent Psi) (mdiag (fun i => sqrt (at1 E i)))) (mmul (nc Y) (ent Y) (ent L))
}.

(** What is returned, with the modes selected. *)
Definition bpod_returns {F : sfield} (r : res (bpod_results F)) (di ai : option (list Z))
    (Phi Psi : arr F) E dc ac L R H : Prop :=
  r = rbind (pick_opt Phi di) (fun d => rbind (pick_opt Psi ai) (fun a =>
        Ok (Bpod E d a dc ac L R H))).

Section BPOD.
Context {F : sfield} (lapack : arr F -> res (arr F * list F * arr F)) (sqrt : F -> F).
Context (X Y : arr F) (p q mx my : nat) (di ai : option (list Z)) (wopt : option (nd F)) (ws : weights F).
Context (atol rtol : option F).
Context (E : nr X = nr Y) (Ew : set_weights wopt = Ok ws) (Hw : wfits (nr X) ws).
Context (Hp : (0 < p)%nat) (Hq : (0 < q)%nat) (Hmx : (0 < mx)%nat) (Hmy : (0 < my)%nat)
  (HX : nc X = (mx * p)%nat) (HY : nc Y = (my * q)%nat).

Theorem C21_BPOD (first last H U0 Vh0 : arr F) (S0 : list F) :
  block_Hankel p q mx my (wip (nr X) (wmat ws) (ent Y) (ent X)) ->
  inner_product_array ws Y (first_cols p X) = Ok first ->
  inner_product_array ws (last_cols q Y) X = Ok last ->
  BPOD_Hankel p q first last = Ok H ->
  lapack H = Ok (U0, S0, Vh0) -> svd_contract H U0 S0 Vh0 ->
  tol_real atol -> tol_real rtol ->
  (* the kept singular values are not zero; true of any with atol >= 0 *)
  (forall i, i < length S0 -> above atol rtol S0 i -> at1 S0 i <> 0) ->
  (forall i, i < length S0 -> above atol rtol S0 i -> sqrt_ok sqrt (at1 S0 i)) ->
  exists Phi Psi S dc ac L R,
    bpod_returns (BPOD_arrays lapack sqrt false X Y p q di ai wopt atol rtol) di ai Phi Psi S dc ac L R H /\
    svd_result H S0 atol rtol L S R /\
    bpod_spec sqrt X Y (wmat ws) S Phi Psi dc ac L R /\
    meq (nc Y) (nc X) (ent H) (wip (nr X) (wmat ws) (ent Y) (ent X)).
Proof.
  intros HB E1 E2 E3 HL HC Ha Hr Hnz Hsq.
  destruct (C21_shortcut ws X Y p q mx my) as (first' & last' & H' & E1' & E2' & E3' & Hr' & Hc' & HH); auto.
  rewrite E1 in E1'. injection E1' as <-. rewrite E2 in E2'. injection E2' as <-.
  rewrite E3 in E3'. injection E3' as <-.
  assert (LS : length S0 = Nat.min (nr H) (nc H)) by apply (svd_len _ _ _ _ HC).
  destruct (C15_truncated_svd lapack H U0 Vh0 S0 atol rtol HL HC Ha Hr) as (L & S & R & ES & HS).
  { right. intros ->. simpl in LS.
    assert ((0 < mx * p)%nat /\ (0 < my * q)%nat) by (split; apply Nat.mul_pos_pos; auto). lia. }
  set (k := length S) in *. set (s := fun i => sqrt (at1 S i)).
  assert (Lk : k <= length S0).
  { unfold k. rewrite (sr_prefix _ _ _ _ _ _ _ HS), firstn_length. lia. }
  assert (Ei : forall i, i < k -> at1 S i = at1 S0 i).
  { intros i Hi. rewrite (sr_prefix _ _ _ _ _ _ _ HS). apply at1_firstn. auto. }
  assert (Sq : forall i, i < k -> sqrt_ok sqrt (at1 S i)).
  { intros i Hi. rewrite Ei by auto. apply Hsq; [lia|]. apply (sr_kept _ _ _ _ _ _ _ HS); [lia|auto]. }
  assert (Ns : forall i, i < k -> s i <> 0).
  { intros i Hi. apply (sqrt_ok_neq sqrt (at1 S i)); auto. rewrite Ei by auto. apply Hnz; [lia|].
    apply (sr_kept _ _ _ _ _ _ _ HS); [lia|auto]. }
  assert (Hs : forall i, i < k -> s i * s i = at1 S i) by (intros i Hi; apply (Sq i Hi)).
  assert (Rs : forall i, i < k -> real (s i)) by (intros i Hi; apply (Sq i Hi)).
  set (D := mdiag (at1 (map (inv_sqrt sqrt) S))).
  assert (ED : meq k k D (mdiag (fun i => 1 / s i))).
  { apply mdiag_ext. intros i Hi. rewrite at1_map by auto. reflexivity. }
  assert (ED' : meq k k (mdiag (at1 (map sqrt S))) (mdiag s)).
  { apply mdiag_ext. intros i Hi. rewrite at1_map by auto. reflexivity. }
  pose proof (sr_Ur _ _ _ _ _ _ _ HS) as Lr. pose proof (sr_Uc _ _ _ _ _ _ _ HS) as Lc.
  pose proof (sr_Vr _ _ _ _ _ _ _ HS) as Rr. pose proof (sr_Vc _ _ _ _ _ _ _ HS) as Rc.
  rewrite Hr' in Lr. rewrite Hc' in Rr. fold k in Lc, Rc.
  set (Phi := Arr (nr X) k (mmul (nc X) (ent X) (mmul k (ent R) D))).
  set (Psi := Arr (nr Y) k (mmul (nc Y) (ent Y) (mmul k (ent L) D))).
  set (dc := Arr k (nc X) (mmul k (mdiag (at1 (map sqrt S))) (madj (ent R)))).
  set (ac := Arr k (nc Y) (mmul k (mdiag (at1 (map sqrt S))) (madj (ent L)))).
  exists Phi, Psi, S, dc, ac, L, R. split; [|split; [auto|split; [|auto]]].
  { unfold bpod_returns, BPOD_arrays. rewrite Ew. cbn [rbind]. rewrite E1. cbn [rbind]. rewrite E2.
    cbn [rbind]. rewrite E3. cbn [rbind]. rewrite ES. cbn [rbind fst snd].
    assert (G1 : dot R (diag (map (inv_sqrt sqrt) S)) = Ok (Arr (nc X) k (mmul k (ent R) D))).
    { unfold dot, diag. cbn [nr nc ent]. rewrite map_length. fold k. rewrite Rc, Nat.eqb_refl, Rr. reflexivity. }
    assert (G2 : dot L (diag (map (inv_sqrt sqrt) S)) = Ok (Arr (nc Y) k (mmul k (ent L) D))).
    { unfold dot, diag. cbn [nr nc ent]. rewrite map_length. fold k. rewrite Lc, Nat.eqb_refl, Lr. reflexivity. }
    assert (G3 : dot (diag (map sqrt S)) (conj_T R) = Ok dc).
    { unfold dot, diag, conj_T. cbn [nr nc ent]. rewrite map_length. fold k. rewrite Rc, Nat.eqb_refl, Rr. reflexivity. }
    assert (G4 : dot (diag (map sqrt S)) (conj_T L) = Ok ac).
    { unfold dot, diag, conj_T. cbn [nr nc ent]. rewrite map_length. fold k. rewrite Lc, Nat.eqb_refl, Lr. reflexivity. }
    rewrite G1. cbn [rbind]. rewrite lin_combine_pick by reflexivity. cbn [nr nc ent].
    destruct (pick_opt _ di) as [d|e1]; [|reflexivity]. cbn [rbind].
    rewrite G2. cbn [rbind]. rewrite lin_combine_pick by reflexivity. cbn [nr nc ent].
    destruct (pick_opt _ ai) as [a|e2]; [|reflexivity]. cbn [rbind].
    rewrite G3, G4. reflexivity. }
  pose proof (sr_U _ _ _ _ _ _ _ HS) as OU. pose proof (sr_V _ _ _ _ _ _ _ HS) as OV.
  pose proof (sr_AV _ _ _ _ _ _ _ HS) as AV. pose proof (sr_AU _ _ _ _ _ _ _ HS) as AU.
  fold k in OU, OV, AV, AU. rewrite Hr', Hc' in *. rewrite HH in AV, AU.
  split; try reflexivity; auto; fold k; cbn [ent nr nc].
  - unfold Psi, Phi. cbn [ent]. rewrite ED.
    apply (bpod_biorthogonal (nr X) (nc Y) (nc X) k (ent X) (ent Y) (wmat ws) (ent L) (ent R) (at1 S) s); auto.
  - unfold Psi, dc. cbn [ent]. rewrite ED, ED'. symmetry.
    apply (bpod_direct_coeffs (nr X) (nc Y) (nc X) k (ent X) (ent Y) (wmat ws) (ent L) (ent R) (at1 S) s); auto.
  - intros HW. unfold Phi, ac. cbn [ent]. rewrite ED, ED'. symmetry.
    apply (bpod_adjoint_coeffs (nr X) (nc Y) (nc X) k (ent X) (ent Y) (wmat ws) (ent L) (ent R) (at1 S) s); auto.
  - unfold Phi. cbn [ent]. rewrite ED. change (fun i => sqrt (at1 S i)) with s.
    apply (bpod_direct_span (nr X) (nc X) k (ent X) (ent R) s); auto.
  - unfold Psi. cbn [ent]. rewrite ED. change (fun i => sqrt (at1 S i)) with s.
    apply (bpod_adjoint_span (nr X) (nc Y) k (ent Y) (ent L) s); auto.
Qed.
End BPOD.

(** A non-negative absolute tolerance keeps non-zero singular values only. *)
Lemma kept_nonzero {F : sfield} (t : F) rtol S0 i :
  real t -> kle 0 t -> above (Some t) rtol S0 i -> at1 S0 i <> 0.
Proof.
  intros Rt Ht [H _] E. simpl in H. rewrite E in H.
  assert (Z : kabs (0 : F) = 0) by (apply kabs_pos; [apply real_0|right; reflexivity]).
  rewrite Z in H. apply (lt_not_le t 0); auto using real_0.
Qed.

(** Impulse response data: all of the above without assuming the structure. *)
Theorem C21_impulse {F : sfield} lapack sqrt (X Y : arr F) p q mx my di ai wopt ws (t : F) rtol
    (A B Ap Cp : mat F) :
  nr X = nr Y -> set_weights wopt = Ok ws -> wfits (nr X) ws ->
  (0 < p)%nat -> (0 < q)%nat -> (0 < mx)%nat -> (0 < my)%nat ->
  nc X = (mx * p)%nat -> nc Y = (my * q)%nat ->
  meq (nr X) (nr X) (mmul (nr X) (madj Ap) (wmat ws)) (mmul (nr X) (wmat ws) A) ->
  impulse_blocks (nr X) p A B (ent X) mx -> impulse_blocks (nr X) q Ap Cp (ent Y) my ->
  real t -> kle 0 t -> tol_real rtol ->
  exists H, nr H = nc Y /\ nc H = nc X /\
    meq (nc Y) (nc X) (ent H) (wip (nr X) (wmat ws) (ent Y) (ent X)) /\
    forall U0 S0 Vh0, lapack H = Ok (U0, S0, Vh0) -> svd_contract H U0 S0 Vh0 ->
    (forall i, i < length S0 -> above (Some t) rtol S0 i -> sqrt_ok sqrt (at1 S0 i)) ->
    exists Phi Psi S dc ac L R,
    bpod_returns (BPOD_arrays lapack sqrt false X Y p q di ai wopt (Some t) rtol) di ai Phi Psi S dc ac L R H /\
    svd_result H S0 (Some t) rtol L S R /\
    bpod_spec sqrt X Y (wmat ws) S Phi Psi dc ac L R.
Proof.
  intros E Ew Hw Hp Hq Hmx Hmy HX HY HA IX IY Rt Ht Hr.
  destruct (C21_impulse_Hankel (nr X) p q mx my A B Ap Cp (wmat ws) (ent X) (ent Y) HA IX IY) as [HB _].
  destruct (C21_shortcut ws X Y p q mx my) as (first & last & H & E1 & E2 & E3 & H1 & H2 & H3); auto.
  exists H. split; auto. split; auto. split; auto. intros U0 S0 Vh0 HL HC Hsq.
  destruct (C21_BPOD lapack sqrt X Y p q mx my di ai wopt ws (Some t) rtol E Ew Hw Hp Hq Hmx Hmy HX HY
    first last H U0 Vh0 S0 HB E1 E2 E3 HL HC Rt Hr)
    as (Phi & Psi & S & dc & ac & L & R & G1 & G2 & G3 & _); auto.
  { intros i Hi Hab. apply (kept_nonzero t rtol); auto. }
  exists Phi, Psi, S, dc, ac, L, R. auto.
Qed.

Theorem C21_distributed {F : sfield} lapack (sqrt : F -> F) X Y p q di ai wopt atol rtol :
  BPOD_arrays lapack sqrt true X Y p q di ai wopt atol rtol = Raise RuntimeError.
Proof. reflexivity. Qed.

(** Direct data that is not a whole number of blocks of [p] vectors raises, after
    all the inner products and the decomposition. *)
Theorem C21_leftover {F : sfield} lapack sqrt (X Y : arr F) p q ai wopt ws atol rtol :
  nr X = nr Y -> set_weights wopt = Ok ws -> wfits (nr X) ws ->
  (0 < p)%nat -> (0 < q)%nat -> (p <= nc X)%nat -> (q <= nc Y)%nat -> (nc X mod p)%nat <> 0%nat ->
  (forall first last H, inner_product_array ws Y (first_cols p X) = Ok first ->
     inner_product_array ws (last_cols q Y) X = Ok last -> BPOD_Hankel p q first last = Ok H ->
     exists U S V, lapack H = Ok (U, S, V) /\ svd_contract H U S V) ->
  tol_real atol -> tol_real rtol ->
  BPOD_arrays lapack sqrt false X Y p q None ai wopt atol rtol = Raise ValueError.
Proof.
  intros E Ew Hw Hp Hq Hpx Hqy Hmod HL Ha Hr.
  destruct (ip_ok ws Y (first_cols p X)) as (first & E1 & F1 & F2 & _);
    [simpl; auto|rewrite <- E; auto|].
  destruct (ip_ok ws (last_cols q Y) X) as (last & E2 & L1 & L2 & _);
    [simpl; auto|simpl; rewrite <- E; auto|].
  simpl in F2, L1. rewrite (proj2 (Nat.eqb_neq q 0)) in L1 by lia.
  assert (Px : (0 < nc X / p)%nat) by (apply Nat.div_str_pos; lia).
  assert (Py : (0 < nc Y / q)%nat) by (apply Nat.div_str_pos; lia).
  destruct (C21_chunks p q (nc X / p) (nc Y / q) first last) as (H & E3 & H1 & H2 & _);
    try rewrite F1; try rewrite L2; auto; try lia.
  destruct (HL first last H E1 E2 E3) as (U0 & S0 & V0 & EL & HC).
  destruct (C15_truncated_svd lapack H U0 V0 S0 atol rtol EL HC Ha Hr) as (L & S & R & ES & HS).
  { right. intros ->. pose proof (svd_len _ _ _ _ HC) as LS. simpl in LS. rewrite H1, H2 in LS.
    assert ((0 < nc X / p * p)%nat /\ (0 < nc Y / q * q)%nat) by (split; apply Nat.mul_pos_pos; auto). lia. }
  unfold BPOD_arrays. rewrite Ew. cbn [rbind]. rewrite E1. cbn [rbind]. rewrite E2.
  cbn [rbind]. rewrite E3. cbn [rbind]. rewrite ES. cbn [rbind fst snd].
  unfold dot at 1, diag. cbn [nr nc ent]. rewrite map_length, (sr_Vc _ _ _ _ _ _ _ HS), Nat.eqb_refl.
  cbn [rbind]. unfold lin_combine. cbn [pick_opt rbind].
  unfold dot at 1. cbn [nr nc]. rewrite (sr_Vr _ _ _ _ _ _ _ HS), H2.
  rewrite (proj2 (Nat.eqb_neq _ _)); [reflexivity|].
  pose proof (Nat.div_mod (nc X) p ltac:(lia)). lia.
Qed.

Theorem C21_no_blocks {F : sfield} lapack sqrt (X Y : arr F) p q di ai wopt ws atol rtol :
  nr X = nr Y -> set_weights wopt = Ok ws -> wfits (nr X) ws -> p = 0%nat \/ q = 0%nat ->
  BPOD_arrays lapack sqrt false X Y p q di ai wopt atol rtol = Raise ZeroDivisionError.
Proof.
  intros E Ew Hw H0.
  destruct (ip_ok ws Y (first_cols p X)) as (first & E1 & F1 & F2 & _);
    [simpl; auto|rewrite <- E; auto|].
  destruct (ip_ok ws (last_cols q Y) X) as (last & E2 & L1 & L2 & _);
    [simpl; auto|simpl; rewrite <- E; auto|].
  unfold BPOD_arrays. rewrite Ew. cbn [rbind]. rewrite E1. cbn [rbind]. rewrite E2. cbn [rbind].
  unfold BPOD_Hankel, range_div. destruct (Nat.eqb_spec q 0); [reflexivity|]. cbn [rbind].
  destruct H0 as [-> | ->]; [reflexivity|congruence].
Qed.

(** * Instances *)

(** Impulse response of a two-dimensional system with weights diag(1, 4). *)
Definition bx_A : arr QI := of_rows 2 [[qi 0 0 1; qi 1 0 1]; [qi 0 0 1; qi 73 0 36]].
Definition bx_B : arr QI := of_rows 1 [[qi 0 52 25]; [qi 0 36 25]].
Definition bx_Ap : arr QI := of_rows 2 [[qi 0 0 1; qi 0 0 1]; [qi 1 0 4; qi 73 0 36]].
Definition bx_Cp : arr QI := of_rows 1 [[qi 1 0 1]; [qi 0 0 1]].
Definition bx_X : arr QI := of_rows 2 [[qi 0 52 25; qi 0 36 25]; [qi 0 36 25; qi 0 73 25]].
Definition bx_Y : arr QI := of_rows 2 [[qi 1 0 1; qi 0 0 1]; [qi 0 0 1; qi 1 0 4]].
Definition bx_w : list QI := [qi 1 0 1; qi 4 0 1].
Definition bx_U : arr QI := of_rows 2 [[qi 0 3 5; qi 0 (-4) 5]; [qi 0 4 5; qi 0 3 5]].
Definition bx_S : list QI := [qi 4 0 1; qi 1 0 1].
Definition bx_Vh : arr QI := of_rows 2 [[qi 3 0 5; qi 4 0 5]; [qi (-4) 0 5; qi 3 0 5]].

Lemma bx_contract H : nr H = 2%nat -> nc H = 2%nat ->
  meq 2 2 (ent H) (wip 2 (mdiag (at1 bx_w)) (ent bx_Y) (ent bx_X)) -> svd_contract H bx_U bx_S bx_Vh.
Proof.
  intros Hr Hc HH. split; rewrite ?Hr, ?Hc; try reflexivity; try (apply meqb_true; vm_compute; reflexivity).
  - rewrite HH. apply meqb_true. vm_compute. reflexivity.
  - repeat constructor; apply keqb_true; vm_compute; reflexivity.
  - repeat constructor; vm_compute; reflexivity.
  - intros i j Hij Hj. simpl in Hj.
    destruct i as [|[|i]]; destruct j as [|[|j]]; try lia;
      try (left; vm_compute; reflexivity); right; reflexivity.
Qed.

Example C21_example_blocks :
  impulse_blocks 2 1 (ent bx_A) (ent bx_B) (ent bx_X) 2 /\
  impulse_blocks 2 1 (ent bx_Ap) (ent bx_Cp) (ent bx_Y) 2 /\
  meq 2 2 (mmul 2 (madj (ent bx_Ap)) (mdiag (at1 bx_w))) (mmul 2 (mdiag (at1 bx_w)) (ent bx_A)).
Proof.
  split; [|split].
  - intros j l b Hj Hl Hb. destruct j as [|[|j]]; [..|lia]; destruct l as [|[|l]]; try lia;
      destruct b; try lia; apply keqb_true; vm_compute; reflexivity.
  - intros j l b Hj Hl Hb. destruct j as [|[|j]]; [..|lia]; destruct l as [|[|l]]; try lia;
      destruct b; try lia; apply keqb_true; vm_compute; reflexivity.
  - apply meqb_true. vm_compute. reflexivity.
Qed.

Example C21_example : exists Phi Psi S dc ac L R H,
  bpod_returns (BPOD_arrays (fun _ => Ok (bx_U, bx_S, bx_Vh)) ex_sqrt false bx_X bx_Y 1 1 None (Some [1; -2]%Z)
     (Some (Nd [2%nat] bx_w)) (Some (qi 1 0 10)) None) None (Some [1; -2]%Z) Phi Psi S dc ac L R H /\
  svd_result H bx_S (Some (qi 1 0 10)) None L S R /\
  bpod_spec ex_sqrt bx_X bx_Y (mdiag (at1 bx_w)) S Phi Psi dc ac L R.
Proof.
  destruct C21_example_blocks as (G1 & G2 & G3).
  destruct (C21_impulse (fun _ => Ok (bx_U, bx_S, bx_Vh)) ex_sqrt bx_X bx_Y 1 1 2 2 None (Some [1; -2]%Z)
    (Some (Nd [2%nat] bx_w)) (W1 bx_w) (qi 1 0 10) None (ent bx_A) (ent bx_B) (ent bx_Ap) (ent bx_Cp))
    as (H & H1 & H2 & H3 & G); auto.
  - reflexivity.
  - apply keqb_true. vm_compute. reflexivity.
  - left. vm_compute. reflexivity.
  - exact I.
  - destruct (G bx_U bx_S bx_Vh) as (Phi & Psi & S & dc & ac & L & R & K1 & K2 & K3); auto.
    + apply bx_contract; auto.
    + intros i Hi _. destruct i as [|[|i]]; [apply sq_ok_dec|apply sq_ok_dec|simpl in Hi; lia];
        vm_compute; reflexivity.
    + exists Phi, Psi, S, dc, ac, L, R, H. auto.
Qed.

(** The inner products of the blocks are those of the whole Hankel array. *)
Lemma bx_Hankel : block_Hankel 1 1 2 2 (wip 2 (mdiag (at1 bx_w)) (ent bx_Y) (ent bx_X)).
Proof.
  destruct C21_example_blocks as (G1 & G2 & G3).
  apply (C21_impulse_Hankel 2 1 1 2 2 (ent bx_A) (ent bx_B) (ent bx_Ap) (ent bx_Cp)); auto.
Qed.

(** Blocks of two rows and one column. *)
Example C21_chunks_example :
  let first := of_rows 1 [[qi 1 0 1]; [qi 0 2 1]; [qi 3 0 1]; [qi 0 4 1]] : arr QI in
  let last := of_rows 3 [[qi 3 0 1; qi 5 0 1; qi 6 0 1]; [qi 0 4 1; qi 7 0 1; qi 0 8 1]] : arr QI in
  exists H, BPOD_Hankel 1 2 first last = Ok H /\ nr H = 4%nat /\ nc H = 3%nat /\
    ent H 1%nat 1%nat = qi 0 4 1 /\ ent H 1%nat 2%nat = qi 7 0 1 /\ ent H 3%nat 2%nat = qi 0 8 1.
Proof.
  intros first last.
  destruct (C21_chunks 1 2 3 2 first last) as (H & E & R & C & G); try reflexivity; try lia.
  exists H. split; [exact E|]. split; [exact R|]. split; [exact C|].
  split; [apply (G 0 1 1 0)%nat; lia|].
  split; [apply (G 0 2 1 0)%nat; lia|]. apply (G 1 2 1 0)%nat; lia.
Qed.

Example C21_shortcut_example : exists first last H,
  inner_product_array (W1 bx_w) bx_Y (first_cols 1 bx_X) = Ok first /\
  inner_product_array (W1 bx_w) (last_cols 1 bx_Y) bx_X = Ok last /\
  BPOD_Hankel 1 1 first last = Ok H /\ nr H = 2%nat /\ nc H = 2%nat /\
  meq 2 2 (ent H) (wip 2 (mdiag (at1 bx_w)) (ent bx_Y) (ent bx_X)).
Proof.
  apply (C21_shortcut (W1 bx_w) bx_X bx_Y 1 1 2 2); try reflexivity; try lia. apply bx_Hankel.
Qed.

Example C21_impulse_Hankel_example : forall i j, i < 2 -> j < 2 ->
  wip 2 (mdiag (at1 bx_w)) (ent bx_Y) (ent bx_X) (i * 1 + 0)%nat (j * 1 + 0)%nat
  = mmul 2 (madj (ent bx_Cp)) (mmul 2 (mdiag (at1 bx_w)) (mmul 2 (mpow 2 (ent bx_A) (i + j)) (ent bx_B)))
      0%nat 0%nat.
Proof.
  destruct C21_example_blocks as (G1 & G2 & G3). intros i j Hi Hj.
  apply (C21_impulse_Hankel 2 1 1 2 2 (ent bx_A) (ent bx_B) (ent bx_Ap) (ent bx_Cp)); auto.
Qed.

(** A tolerance of 2 between the singular values 4 and 1. *)
Example C21_BPOD_example : exists Phi Psi S dc ac L R H,
  bpod_returns (BPOD_arrays (fun _ => Ok (bx_U, bx_S, bx_Vh)) ex_sqrt false bx_X bx_Y 1 1 (Some [0; 0]%Z) None
     (Some (Nd [2%nat] bx_w)) (Some (qi 2 0 1)) None) (Some [0; 0]%Z) None Phi Psi S dc ac L R H /\
  svd_result H bx_S (Some (qi 2 0 1)) None L S R /\
  bpod_spec ex_sqrt bx_X bx_Y (mdiag (at1 bx_w)) S Phi Psi dc ac L R.
Proof.
  destruct C21_shortcut_example as (first & last & H & E1 & E2 & E3 & R & C & HH).
  destruct (C21_BPOD (fun _ => Ok (bx_U, bx_S, bx_Vh)) ex_sqrt bx_X bx_Y 1 1 2 2 (Some [0; 0]%Z) None
    (Some (Nd [2%nat] bx_w)) (W1 bx_w) (Some (qi 2 0 1)) None eq_refl eq_refl eq_refl
    ltac:(lia) ltac:(lia) ltac:(lia) ltac:(lia) eq_refl eq_refl first last H bx_U bx_Vh bx_S)
    as (Phi & Psi & S & dc & ac & L & Rr & K1 & K2 & K3 & _); auto.
  - apply bx_Hankel.
  - apply bx_contract; auto.
  - apply keqb_true. vm_compute. reflexivity.
  - exact I.
  - intros i Hi _. destruct i as [|[|i]]; [| |simpl in Hi; lia];
      apply keqb_false; vm_compute; reflexivity.
  - intros i Hi _. destruct i as [|[|i]]; [apply sq_ok_dec|apply sq_ok_dec|simpl in Hi; lia];
      vm_compute; reflexivity.
  - exists Phi, Psi, S, dc, ac, L, Rr, H. auto.
Qed.

Example C21_distributed_example :
  BPOD_arrays (fun _ => Ok (bx_U, bx_S, bx_Vh)) ex_sqrt true bx_X bx_Y 1 1 None None
    (Some (Nd [2%nat] bx_w)) (Some (qi 1 0 10)) None = Raise RuntimeError.
Proof. apply C21_distributed. Qed.

(** Three direct vectors in blocks of two: the third belongs to no block. *)
Definition lx_X : arr QI :=
  of_rows 3 [[qi 0 52 25; qi 0 36 25; qi 7 0 1]; [qi 0 36 25; qi 0 73 25; qi 0 1 1]].
Example C21_leftover_example :
  BPOD_arrays (fun _ => Ok (bx_U, bx_S, bx_Vh)) ex_sqrt false lx_X bx_Y 2 1 None (Some [1; 0]%Z)
    (Some (Nd [2%nat] bx_w)) (Some (qi 1 0 10)) None = Raise ValueError.
Proof.
  apply (C21_leftover (fun _ => Ok (bx_U, bx_S, bx_Vh)) ex_sqrt lx_X bx_Y 2 1 (Some [1; 0]%Z)
    (Some (Nd [2%nat] bx_w)) (W1 bx_w)); try reflexivity; try (simpl; lia); try discriminate.
  - intros first last H E1 E2 E3. exists bx_U, bx_S, bx_Vh. split; [reflexivity|].
    injection E1 as <-. injection E2 as <-. injection E3 as <-.
    apply bx_contract; try reflexivity. apply meqb_true. vm_compute. reflexivity.
  - apply keqb_true. vm_compute. reflexivity.
Qed.

Example C21_no_blocks_example :
  BPOD_arrays (fun _ => Ok (bx_U, bx_S, bx_Vh)) ex_sqrt false bx_X bx_Y 1 0 None None
    (Some (Nd [2%nat] bx_w)) (Some (qi 1 0 10)) None = Raise ZeroDivisionError.
Proof.
  apply (C21_no_blocks _ ex_sqrt bx_X bx_Y 1 0 None None (Some (Nd [2%nat] bx_w)) (W1 bx_w));
    try reflexivity. right. reflexivity.
Qed.

(** Without Hankel structure in the data the modes need not be biorthogonal: here
    the vectors e1, e1 + e2 against e1, e2. *)
Definition nx_X : arr QI := of_rows 2 [[qi 1 0 1; qi 1 0 1]; [qi 0 0 1; qi 1 0 1]].
Theorem C21_not_Hankel_refuted :
  let r := BPOD_arrays (fun H => Ok (eye 2, [qi 1 0 1; qi 1 0 1], eye 2)) (fun x => x) false
     nx_X (eye 2) 1 1 None None None (Some (qi 0 0 1)) None in
  exists v, r = Ok v /\ svd_contract (b_Hankel v) (eye 2) [qi 1 0 1; qi 1 0 1] (eye 2) /\
    wip 2 mid (ent (b_adjoint v)) (ent (b_direct v)) 0%nat 1%nat = (1 : QI).
Proof.
  eexists. split; [reflexivity|]. split.
  - split; try reflexivity; try (apply meqb_true; vm_compute; reflexivity).
    + repeat constructor; apply keqb_true; vm_compute; reflexivity.
    + repeat constructor; vm_compute; reflexivity.
    + intros i j Hij Hj. simpl in Hj.
      destruct i as [|[|i]]; destruct j as [|[|j]]; try lia; right; reflexivity.
  - apply keqb_true. vm_compute. reflexivity.
Qed.

Print Assumptions C21_chunks.
Print Assumptions C21_shortcut.
Print Assumptions C21_impulse_Hankel.
Print Assumptions C21_BPOD.
Print Assumptions C21_impulse.
Print Assumptions C21_distributed.
Print Assumptions C21_leftover.
Print Assumptions C21_no_blocks.
Print Assumptions C21_not_Hankel_refuted.
