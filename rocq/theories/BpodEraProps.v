(** Property C48: Galerkin projection on the BPOD modes of impulse responses gives the
    ERA model of the Markov parameters. *)
From Coq Require Import List Arith Lia Bool ZArith Field Ring Setoid Morphisms.
Import ListNotations.
From Verif Require Import Prelude Field FieldInst Matrix NdArray HankelModel DecompModel
  DecompProofs DecompProps VSArraysModel VSArraysProofs VSArraysProps PodModel PodProofs PodProps BpodModel BpodProofs
  BpodProps GalerkinModel GalerkinProps EraModel EraProofs EraProps BpodEraProofs.
Open Scope nat_scope.
Open Scope k_scope.

(** The same shape and entries. *)
Definition same {F : sfield} (A B : arr F) : Prop :=
  nr A = nr B /\ nc A = nc B /\ meq (nr B) (nc B) (ent A) (ent B).

Theorem C48_BPOD_Galerkin_is_ERA {F : sfield} lapack eigvals (sqrt : F -> F) inv self
    (X Y : arr F) p m o c P wopt ws (t : F) rtol (A B C Ap Cp : mat F) Markovs M mc mo :
  let n := nr X in
  nr Y = n -> set_weights wopt = Ok ws -> wfits n ws -> real t -> kle 0 t -> tol_real rtol ->
  (0 < m)%nat -> (0 < p)%nat -> (0 < c)%nat -> (0 < o)%nat ->
  (* direct impulse responses, of the system with m inputs, every P steps; adjoint ones *)
  nc X = (c * m)%nat -> nc Y = (o * p)%nat ->
  meq n n (mmul n (madj Ap) (wmat ws)) (mmul n (wmat ws) A) ->
  meq p n (mmul n (madj Cp) (wmat ws)) C ->
  impulse_blocks n m (mpow n A P) B (ent X) c -> impulse_blocks n p (mpow n Ap P) Cp (ent Y) o ->
  (* Markov parameters at the times 0, 1, P, P + 1, 2 P, ..., real *)
  set_Markovs Markovs = Ok M -> a3_p M = p -> a3_m M = m ->
  era_sizes (a3_t M) mc mo = (Z.of_nat o, Z.of_nat c) ->
  (o + c + 2 <= a3_t M)%nat -> (2 * (o + c) <= a3_t M + 2)%nat ->
  (forall k, (k < o + c - 1)%nat ->
    meq p m (a3 M (2 * k)%nat) (mmul n C (mmul n (mpow n A (P * k)) B)) /\
    meq p m (a3 M (2 * k + 1)%nat) (mmul n C (mmul n (mpow n A (P * k + 1)) B))) ->
  (forall k i j, (k < 2 * (o + c - 1))%nat -> i < p -> j < m -> real (a3 M k i j)) ->
  exists H H2, assemble_Hankel M mc mo = Ok (H, H2) /\
    forall U0 S0 Vh0, (forall H', same H' H -> lapack H' = Ok (U0, S0, Vh0)) -> svd_contract H U0 S0 Vh0 ->
      (forall x, In x S0 -> x <> 0 -> sqrt_ok sqrt x) -> (forall X, exists l, eigvals X = Ok l) ->
      exists r, BPOD_arrays lapack sqrt false X Y m p None None wopt (Some t) rtol = Ok r /\
        same (b_Hankel r) H /\
        (forall i, i < length S0 -> (i < length (b_sing_vals r) <-> above (Some t) rtol S0 i)) /\
        let k := length (b_sing_vals r) in
        exists self' Ae Be Ce,
          (* ERA with as many states as BPOD keeps modes *)
          EraModel.compute_model lapack eigvals sqrt self Markovs k mc mo = Ok (self', (Ae, Be, Ce)) /\
          nr Ae = k /\ nc Ae = k /\ nr Be = k /\ nc Be = m /\ nr Ce = p /\ nc Ce = k /\
          forall orth AX BI CX,
            (* A on the direct modes, B on the standard basis, C on the direct modes *)
            nr AX = n -> nc AX = k -> meq n k (ent AX) (mmul n A (ent (b_direct r))) ->
            nr BI = n -> nc BI = m -> meq n m (ent BI) B ->
            nr (ndmin2 CX) = p -> nc (ndmin2 CX) = k -> meq p k (ent (ndmin2 CX)) (mmul n C (ent (b_direct r))) ->
            (orth = true \/ forall G, nr G = nc G -> exists T, inv G = Ok T /\ inv_contract G T) ->
            exists g Ar Br Cr, ga_new false (b_direct r) (Some (b_adjoint r)) orth wopt = Ok g /\
              snd (do_gcall inv g (CallModel AX BI CX)) = Ok [Ar; Br; Cr] /\
              same Ar Ae /\ same Br Be /\ same Cr Ce.
Proof.
  intros n HYr Ew Hw Rt Ht Hrt Pm Pp Pc Po HX HY HA HC0 IX IY EM Hp Hm Hsz Hs1 Hs2 HM HR.
  set (W := wmat ws) in *.
  pose proof (C29_Hankel M mc mo o c Hsz) as G.
  destruct (assemble_Hankel M mc mo) as [[H H2]|e] eqn:EH.
  2: { exfalso. destruct G as [(_ & G)|(_ & _ & _ & _ & G)]; lia. }
  destruct G as (_ & _ & HH). exists H, H2. split; [auto|].
  intros U0 S0 Vh0 HL HC Hsq Heig.
  pose proof HH as (H1r & H1c & H2r & H2c & _). rewrite Hp, Hm in *.
  pose proof (Hankel_factor n p m P o c A B C M H H2 Hp Hm Pp Pm HH HM HR) as F1.
  pose proof (Hankel2_factor n p m P o c A B C M H H2 Hp Hm Pp Pm HH HM HR) as F2.
  set (O := observability n p P A C) in *. set (K := controllability n m P A B) in *.
  assert (EX : meq n (m * c) (ent X) K).
  { split. intros l y Hl Hy. destruct (split_index p m M Hp Hm Pp Pm y m c Pm Hy) as (Y1 & Y2 & Y3).
    unfold K, controllability. rewrite Y3 at 1. rewrite IX by auto.
    assert (G : meq n m (mmul n (mpow n (mpow n A P) (y / m)) B) (mmul n (mpow n A (P * (y / m))) B))
      by (rewrite mpow_mul; reflexivity).
    apply (meq_at _ _ _ _ G); auto. }
  assert (EY : meq (p * o) n (mmul n (madj (ent Y)) W) O).
  { split. intros x l Hx Hl. destruct (split_index p m M Hp Hm Pp Pm x p o Pp Hx) as (Y1 & Y2 & Y3).
    transitivity (mmul n (madj (mmul n (mpow n (mpow n Ap P) (x / p)) Cp)) W (x mod p) l).
    { unfold mmul at 1 2. apply sum_ext. intros l' Hl'. f_equal. unfold madj at 1. rewrite Y3 at 1. rewrite IY by auto. reflexivity. }
    assert (G : meq p n (mmul n (madj (mmul n (mpow n (mpow n Ap P) (x / p)) Cp)) W)
      (mmul n C (mpow n A (P * (x / p))))).
    { rewrite mpow_mul, madj_mmul, mmul_assoc, (adjoint_powers n A Ap W HA), <- mmul_assoc, HC0. reflexivity. }
    unfold O, observability. apply (meq_at _ _ _ _ G); auto. }
  assert (HA' : meq n n (mmul n (madj (mpow n Ap P)) W) (mmul n W (mpow n A P))) by (apply adjoint_powers; auto).
  destruct (C21_impulse lapack sqrt X Y m p c o None None wopt ws t rtol (mpow n A P) B (mpow n Ap P) Cp)
    as (H' & Hr' & Hc' & HH' & Res); auto.
  fold n W in HH'.
  assert (SH : same H' H).
  { split; [rewrite Hr', H1r, HY; lia|]. split; [rewrite Hc', H1c, HX; lia|]. rewrite H1r, H1c, F1, <- EX, <- EY.
    rewrite mmul_assoc. replace (p * o)%nat with (nc Y) by lia. replace (m * c)%nat with (nc X) by lia. exact HH'. }
  assert (HC' : svd_contract H' U0 S0 Vh0).
  { destruct SH as (e1 & e2 & e3). destruct HC. split; rewrite ?e1, ?e2; auto. rewrite e3. auto. }
  assert (Sq : forall i, i < length S0 -> above (Some t) rtol S0 i -> sqrt_ok sqrt (at1 S0 i)).
  { intros i Hi Hab. apply Hsq; [apply nth_In; auto|]. apply (kept_nonzero t rtol); auto. }
  destruct (Res U0 S0 Vh0 (HL H' SH) HC' Sq) as (Phi & Psi & S & dc & ac & L & V & Ret & SR & BS).
  unfold bpod_returns in Ret. cbn [pick_opt rbind] in Ret. eexists. split; [exact Ret|].
  cbn [b_Hankel b_sing_vals b_direct b_adjoint]. split; [auto|]. split; [apply (sr_kept _ _ _ _ _ _ _ SR)|].
  cbv zeta. set (k := length S) in *.
  pose proof (bpod_svd lapack sqrt _ _ _ _ _ _ _ _ _ _ Ret) as ES. cbn [b_Hankel b_L b_sing_vals b_R] in ES.
  destruct (svd_cols lapack H' U0 S0 Vh0 _ _ _ _ _ (HL H' SH) ES) as (k' & EL & EV & _).
  assert (Lk : (k <= length S0)%nat).
  { unfold k. rewrite (sr_prefix _ _ _ _ _ _ _ SR), firstn_length. lia. }
  assert (mQ : (m <= m * c)%nat) by nia. assert (pR : (p <= p * o)%nat) by nia.
  assert (SE : same H H) by (split; [auto|split; [auto|reflexivity]]).
  destruct (era_call lapack eigvals sqrt self Markovs M mc mo o c H H2 U0 S0 Vh0 k EM EH HH) as (self' & EC); auto; try lia.
  rewrite Hp, Hm, H1r, H1c in EC.
  do 4 eexists. split; [exact EC|]. do 6 (split; [reflexivity|]).
  intros orth AX BI CX X1 X2 X3 B1 B2 B3 C1 C2 C3 Ho.
  assert (Hg : exists g, ga_new false Phi (Some Psi) orth wopt = Ok g).
  { unfold ga_new. rewrite (bs_Pr _ _ _ _ _ _ _ _ _ _ _ BS), (bs_Pc _ _ _ _ _ _ _ _ _ _ _ BS),
      (bs_Qr _ _ _ _ _ _ _ _ _ _ _ BS), (bs_Qc _ _ _ _ _ _ _ _ _ _ _ BS), !Nat.eqb_refl, Ew. cbn [andb rbind]. eexists. reflexivity. }
  destruct Hg as (g & Eg). exists g.
  pose proof (bs_Pr _ _ _ _ _ _ _ _ _ _ _ BS) as Pr. pose proof (bs_Pc _ _ _ _ _ _ _ _ _ _ _ BS) as Pcc.
  pose proof (bs_bi _ _ _ _ _ _ _ _ _ _ _ BS) as Bi. fold k n W in Pr, Pcc, Bi.
  assert (V1 : forall Z, nr Z = n -> exists Rz, snd (reduce_A inv g Z) = Ok Rz /\ snd (reduce_B inv g Z) = Ok Rz /\
    nr Rz = k /\ nc Rz = nc Z /\ meq k (nc Z) (ent Rz) (wip n W (ent Psi) (ent Z))).
  { intros Z HZ. destruct orth.
    - destruct (C32_orthonormal inv Phi (Some Psi) wopt ws g Z Eg Ew) as (Rz & z1 & z2 & z3 & z4 & z5 & _);
        [rewrite Pr; auto|congruence|]. rewrite Pr, Pcc in *. exists Rz. do 4 (split; [auto|]). exact z5.
    - destruct Ho as [|Ho]; [discriminate|].
      destruct (C32_arrays inv Phi (Some Psi) wopt ws g Z Eg Ew) as (Gm & g1 & g2 & g3 & g4 & _);
        [rewrite Pr; auto|congruence|]. destruct (Ho Gm ltac:(congruence)) as (T & T1 & T2).
      destruct (g4 T T1 T2) as (Rz & z1 & z2 & z3 & z4 & z5). rewrite Pr, Pcc in *. exists Rz. do 4 (split; [auto|]).
      symmetry. apply (gk_unique _ _ _ _ _ _ _ _ z5). apply (gk_orth _ _ _ _ _ _ _ _ (C32_biorthonormal n k (nc Z) W (ent Phi) (ent Psi) (ent Z) Bi)). }
  destruct (V1 AX X1) as (Ar & a1 & _ & a2 & a3 & a4). destruct (V1 BI B1) as (Br & _ & b1 & b2 & b3 & b4).
  exists Ar, Br, (ndmin2 CX). split; [exact Eg|]. split.
  { rewrite (C32_model inv _ _ _ _ _ _ _ _ Eg). cbn [do_gcall]. unfold one. cbn [snd]. rewrite a1, b1. reflexivity. }
  (* the matrices *)
  set (s := fun i => sqrt (at1 S i)).
  assert (Ei : forall i, i < k -> at1 S i = at1 S0 i).
  { intros i Hi. rewrite (sr_prefix _ _ _ _ _ _ _ SR). apply at1_firstn. auto. }
  assert (Ab : forall i, i < k -> above (Some t) rtol S0 i).
  { intros i Hi. apply (sr_kept _ _ _ _ _ _ _ SR); [lia|auto]. }
  assert (Sq' : forall i, i < k -> sqrt_ok sqrt (at1 S i)).
  { intros i Hi. rewrite Ei by auto. apply Sq; [lia|]. apply Ab; auto. }
  assert (Ns : forall i, i < k -> s i <> 0).
  { intros i Hi. apply (sqrt_ok_neq sqrt (at1 S i)); auto. rewrite Ei by auto. apply (kept_nonzero t rtol); auto. }
  assert (Hs : forall i, i < k -> s i * s i = at1 S i) by (intros i Hi; apply (Sq' i Hi)).
  assert (Rs : forall i, i < k -> real (s i)) by (intros i Hi; apply (Sq' i Hi)).
  assert (LE : length (firstn k S0) = k) by (rewrite firstn_length; lia).
  assert (D1 : meq k k (mdiag (at1 (map (inv_sqrt sqrt) (firstn k S0)))) (mdiag (fun i => 1 / s i))).
  { apply mdiag_ext. intros i Hi. rewrite at1_map by lia. rewrite at1_firstn by auto. unfold s. rewrite Ei by auto. reflexivity. }
  assert (D2 : meq k k (mdiag (at1 (map sqrt (firstn k S0)))) (mdiag s)).
  { apply mdiag_ext. intros i Hi. rewrite at1_map by lia. rewrite at1_firstn by auto. unfold s. rewrite Ei by auto. reflexivity. }
  assert (eL : ent L = ent U0) by (rewrite EL; reflexivity).
  assert (eV : ent V = madj (ent Vh0)) by (rewrite EV; reflexivity).
  destruct SH as (_ & _ & SH). rewrite H1r, H1c in SH.
  pose proof (sr_AV _ _ _ _ _ _ _ SR) as AV. pose proof (sr_AU _ _ _ _ _ _ _ SR) as AU.
  pose proof (bs_dspan _ _ _ _ _ _ _ _ _ _ _ BS) as DS. pose proof (bs_aspan _ _ _ _ _ _ _ _ _ _ _ BS) as AS.
  fold k n in AV, AU, DS, AS. fold s in DS, AS.
  replace (nr H') with (p * o)%nat in * by lia. replace (nc H') with (m * c)%nat in * by lia.
  replace (nc X) with (m * c)%nat in * by lia. replace (nc Y) with (p * o)%nat in * by lia.
  rewrite eL in AV, AU, AS. rewrite eV in AV, AU, DS.
  assert (FH : meq (p * o) (m * c) (ent H') (mmul n O (ent X))) by (rewrite SH, EX; exact F1).
  assert (FH2 : meq (p * o) (m * c) (ent H2) (mmul n O (mmul n A (ent X)))) by (rewrite EX; exact F2).
  assert (XB : meq n m (ent X) B).
  { transitivity K; [apply (meq_sub n (m * c)); auto|]. apply (K_first n m P c A B Pc). }
  pose proof (O_first n p P o A C Po) as OC. fold O in OC.
  split; [|split].
  - split; [exact a2|]. split; [cbn [nc]; congruence|]. cbn [nr nc ent]. rewrite D1. rewrite X2 in a4. rewrite a4, X3.
    exact (reduced_A n (p * o) (m * c) k A (ent X) (ent Y) W O (ent H2) (ent U0) (madj (ent Vh0)) (ent Phi) (ent Psi) s EY FH2 DS AS Ns Rs).
  - split; [exact b2|]. split; [cbn [nc]; congruence|]. cbn [nr nc ent]. rewrite D2. rewrite B2 in b4. rewrite b4, B3.
    exact (reduced_B n (p * o) (m * c) k m B (ent X) (ent Y) W O (ent H') (ent U0) (madj (ent Vh0)) (ent Psi) (at1 S) s
      EY FH AU AS Hs Ns Rs XB mQ).
  - split; [exact C1|]. split; [exact C2|]. cbn [nr nc ent]. rewrite D2, C3.
    exact (reduced_C n (p * o) (m * c) k p C (ent X) O (ent H') (ent U0) (madj (ent Vh0)) (ent Phi) (at1 S) s
      FH AV DS Hs Ns OC pR).
Qed.

(** * Instance *)

(** A system with two states in the inner product with weights 1, 4; two impulse
    response snapshots each; one of the singular values 4, 1 kept. *)
Definition be_A : arr QI := bx_A.
Definition be_B : arr QI := of_rows 1 [[qi 52 0 25]; [qi 36 0 25]].
Definition be_C : arr QI := of_rows 2 [[qi 1 0 1; qi 0 0 1]].
Definition be_X : arr QI := of_rows 2 [[qi 52 0 25; qi 36 0 25]; [qi 36 0 25; qi 73 0 25]].
Definition be_U : arr QI := of_rows 2 [[qi 3 0 5; qi (-4) 0 5]; [qi 4 0 5; qi 3 0 5]].
Definition be_Markov : list QI := [qi 52 0 25; qi 36 0 25; qi 36 0 25; qi 73 0 25; qi 73 0 25; qi 5329 0 900].
Definition be_nd : nd QI := Nd [6; 1; 1]%nat be_Markov.
Definition be_w : option (nd QI) := Some (Nd [2%nat] bx_w).
Definition be_svd (_ : arr QI) : res (arr QI * list QI * arr QI) := Ok (be_U, bx_S, bx_Vh).
Definition be_eigvals (A : arr QI) : res (list QI) := Ok [ent A O O].
Definition be_inv (G : arr QI) : res (arr QI) := Raise LinAlgError.

Lemma be_contract H : nr H = 2%nat -> nc H = 2%nat ->
  meq 2 2 (ent H) (ent be_X) -> svd_contract H be_U bx_S bx_Vh.
Proof.
  intros Hr Hc HH. split; rewrite ?Hr, ?Hc.
  1-5: reflexivity.
  1-2: apply meqb_true; vm_compute; reflexivity.
  - rewrite HH. apply meqb_true. vm_compute. reflexivity.
  - repeat constructor; apply keqb_true; vm_compute; reflexivity.
  - repeat constructor; vm_compute; reflexivity.
  - intros i j Hij Hj. simpl in Hj.
    destruct i as [|[|i]]; destruct j as [|[|j]]; try lia;
      try (left; vm_compute; reflexivity); right; reflexivity.
Qed.

Example C48_example :
  exists r, BPOD_arrays be_svd ex_sqrt false be_X bx_Y 1 1 None None be_w (Some (qi 2 0 1)) None = Ok r /\
    length (b_sing_vals r) = 1%nat /\
    exists g Ar Br Cr self' Ae Be Ce,
      ga_new false (b_direct r) (Some (b_adjoint r)) true be_w = Ok g /\
      snd (do_gcall be_inv g (CallModel (Arr 2 1 (mmul 2 (ent be_A) (ent (b_direct r)))) be_B
        (D2 (Arr 1 1 (mmul 2 (ent be_C) (ent (b_direct r))))))) = Ok [Ar; Br; Cr] /\
      EraModel.compute_model be_svd be_eigvals ex_sqrt (ERA None None) be_nd 1 (Some 2%Z) (Some 2%Z) = Ok (self', (Ae, Be, Ce)) /\
      same Ar Ae /\ same Br Be /\ same Cr Ce /\
      (* the value of the reduced A *)
      ent Ae O O = ent Ar O O /\ ent Be O O = qi 6 0 5.
Proof.
  destruct (C48_BPOD_Galerkin_is_ERA be_svd be_eigvals ex_sqrt be_inv (ERA None None) be_X bx_Y 1 1 2 2 1 be_w (W1 bx_w)
    (qi 2 0 1) None (ent be_A) (ent be_B) (ent be_C) (ent bx_Ap) (ent bx_Cp) be_nd
    (Arr3 6 1 1 (a3 (as_3d 6 1 1 be_Markov))) (Some 2%Z) (Some 2%Z)) as (H & H2 & EH & Res).
  - reflexivity.
  - reflexivity.
  - reflexivity.
  - apply keqb_true. vm_compute. reflexivity.
  - left. vm_compute. reflexivity.
  - exact I.
  - lia.
  - lia.
  - lia.
  - lia.
  - reflexivity.
  - reflexivity.
  - apply meqb_true. vm_compute. reflexivity.
  - apply meqb_true. vm_compute. reflexivity.
  - intros j l b Hj Hl Hb. destruct j as [|[|j]]; [..|lia]; destruct l as [|[|l]]; try (simpl in Hl; lia);
      destruct b; try lia; apply keqb_true; vm_compute; reflexivity.
  - intros j l b Hj Hl Hb. destruct j as [|[|j]]; [..|lia]; destruct l as [|[|l]]; try (simpl in Hl; lia);
      destruct b; try lia; apply keqb_true; vm_compute; reflexivity.
  - reflexivity.
  - reflexivity.
  - reflexivity.
  - reflexivity.
  - simpl. lia.
  - simpl. lia.
  - intros k Hk. destruct k as [|[|[|k]]]; try lia; split; apply meqb_true; vm_compute; reflexivity.
  - intros k i j Hk Hi Hj. simpl in Hk. destruct i as [|i]; [|lia]. destruct j as [|j]; [|lia].
    do 6 (destruct k as [|k]; [apply keqb_true; vm_compute; reflexivity|]). lia.
  - pose proof (C29_Hankel (Arr3 6 1 1 (a3 (as_3d 6 1 1 be_Markov))) (Some 2%Z) (Some 2%Z) 2 2 eq_refl) as G.
    rewrite EH in G. destruct G as (_ & _ & HH0). pose proof HH0 as (h1 & h2 & _ & _ & h5). cbn [a3_p a3_m] in h1, h2, h5.
    assert (HH : meq 2 2 (ent H) (ent be_X)).
    { split. intros x y Hx Hy. destruct (h5 x y O O) as [E _]; try lia.
      rewrite !Nat.mul_1_r, !Nat.add_0_r in E. rewrite E.
      destruct x as [|[|x]]; try lia; destruct y as [|[|y]]; try lia; apply keqb_true; vm_compute; reflexivity. }
    destruct (Res be_U bx_S bx_Vh) as (r & Er & _ & Kept & self' & Ae & Be & Ce & EC & a1 & a2 & b1 & b2 & c1 & c2 & Gal).
    + reflexivity.
    + apply be_contract; auto.
    + intros x Hx _. destruct Hx as [<-|[<-|[]]]; apply sq_ok_dec; vm_compute; reflexivity.
    + intros X. eexists. reflexivity.
    + assert (L : length (b_sing_vals r) = 1%nat).
      { assert (K0 : 0 < length (b_sing_vals r)) by (apply Kept; [simpl; lia|]; split; [vm_compute; reflexivity|exact I]).
        assert (K1 : ~ 1 < length (b_sing_vals r)).
        { intros K. apply Kept in K; [|simpl; lia]. destruct K as [K _]. vm_compute in K. discriminate. }
        lia. }
      rewrite L in *.
      destruct (Gal true (Arr 2 1 (mmul 2 (ent be_A) (ent (b_direct r)))) be_B
        (D2 (Arr 1 1 (mmul 2 (ent be_C) (ent (b_direct r)))))) as (g & Ar & Br & Cr & Eg & Em & SA & SB & SC);
        try reflexivity; [left; reflexivity|].
      exists r. split; [exact Er|]. split; [exact L|]. exists g, Ar, Br, Cr, self', Ae, Be, Ce.
      do 6 (split; [assumption|]). destruct SA as (_ & _ & SA). split.
      * symmetry. apply (meq_at _ _ _ _ SA); lia.
      * destruct (era_call be_svd be_eigvals ex_sqrt (ERA None None) be_nd (Arr3 6 1 1 (a3 (as_3d 6 1 1 be_Markov)))
          (Some 2%Z) (Some 2%Z) 2 2 H H2 be_U bx_S bx_Vh 1) as (self'' & EC').
        -- reflexivity.
        -- exact EH.
        -- exact HH0.
        -- rewrite h2. simpl. lia.
        -- rewrite h1. simpl. lia.
        -- reflexivity.
        -- apply be_contract; auto.
        -- simpl. lia.
        -- intros X. eexists. reflexivity.
        -- rewrite EC in EC'. injection EC' as _ _ E _. rewrite E. apply keqb_true. vm_compute. reflexivity.
Qed.

Print Assumptions C48_BPOD_Galerkin_is_ERA.
