(** Property C69: BPOD modes balance the empirical Gramians, and an ERA model is balanced
    over the time covered by the Hankel array. *)
From Coq Require Import List Arith Lia Bool ZArith Field Ring Setoid Morphisms.
Import ListNotations.
From Verif Require Import Prelude Field FieldInst Matrix NdArray HankelModel DecompModel
  DecompProofs DecompProps VSArraysModel VSArraysProofs VSArraysProps PodModel PodProofs PodProps BpodModel BpodProofs
  BpodProps TlsExamples DmdExamples EraModel EraProofs EraProps EraExamples.
Open Scope nat_scope.
Open Scope k_scope.

Section Bal.
Context {F : sfield}.
Add Field C69_F : (k_field F).

(** Gramians of the data: X X^H W, controllability, and Y Y^H W, observability, applied to [Z]
    with the inner product of [W]. *)
Definition gramian (n N : nat) (X W Z : mat F) : mat F := mmul N X (wip n W X Z).

(** BPOD: the controllability Gramian takes the adjoint modes to the direct ones times the
    singular values, the observability Gramian the direct to the adjoint ones. So in the
    coordinates of the modes both are the diagonal array of the singular values, and the
    direct modes are eigenvectors of their product. Where nothing but zeros is dropped,
    the modes with their coefficients have the same inner products with the adjoint data
    as the direct data. *)
Record balanced (X Y : arr F) (W : mat F) (E : list F) (Phi Psi dc ac : arr F) : Prop := {
  ba_c : meq (nr X) (length E) (gramian (nr X) (nc X) (ent X) W (ent Psi)) (mmul (length E) (ent Phi) (mdiag (at1 E)));
  ba_o : meq (nr X) (length E) (gramian (nr X) (nc Y) (ent Y) W (ent Phi)) (mmul (length E) (ent Psi) (mdiag (at1 E)));
  ba_c_diag : meq (length E) (length E) (wip (nr X) W (ent Psi) (gramian (nr X) (nc X) (ent X) W (ent Psi))) (mdiag (at1 E));
  ba_o_diag : meq (length E) (length E) (wip (nr X) W (ent Phi) (gramian (nr X) (nc Y) (ent Y) W (ent Phi))) (mdiag (at1 E));
  ba_dc : meq (length E) (length E) (mmul (nc X) (ent dc) (madj (ent dc))) (mdiag (at1 E));
  ba_ac : meq (length E) (length E) (mmul (nc Y) (ent ac) (madj (ent ac))) (mdiag (at1 E));
  ba_product : meq (nr X) (length E)
    (gramian (nr X) (nc X) (ent X) W (gramian (nr X) (nc Y) (ent Y) W (ent Phi)))
    (mmul (length E) (ent Phi) (mdiag (fun i => at1 E i * at1 E i)))
}.
Theorem C69_balanced sqrt (X Y H : arr F) (W : mat F) S0 atol rtol E Phi Psi dc ac L R :
  bpod_spec sqrt X Y W E Phi Psi dc ac L R -> svd_result H S0 atol rtol L E R ->
  nr H = nc Y -> nc H = nc X -> meq (nc Y) (nc X) (ent H) (wip (nr X) W (ent Y) (ent X)) -> hermitian (nr X) W ->
  (forall i, i < length E -> sqrt_ok sqrt (at1 E i) /\ at1 E i <> 0) ->
  balanced X Y W E Phi Psi dc ac /\
  ((forall i, length E <= i < length S0 -> at1 S0 i = 0) ->
   meq (nc Y) (nc X) (wip (nr X) W (ent Y) (mmul (length E) (ent Phi) (ent dc))) (wip (nr X) W (ent Y) (ent X))).
Proof.
  intros SP SR Hr Hc HH HW Hsq.
  set (n := nr X) in *. set (N := nc X) in *. set (M := nc Y) in *. set (k := length E) in *.
  set (s := fun i => sqrt (at1 E i)). set (D := mdiag (fun i => 1 / s i)).
  assert (Hs : forall i, i < k -> s i * s i = at1 E i) by (intros i Hi; apply (Hsq i Hi)).
  assert (Rs : forall i, i < k -> real (s i)) by (intros i Hi; apply (Hsq i Hi)).
  assert (Ns : forall i, i < k -> s i <> 0).
  { intros i Hi. apply (sqrt_ok_neq sqrt (at1 E i)); apply (Hsq i Hi). }
  pose proof (sr_U _ _ _ _ _ _ _ SR) as OU. pose proof (sr_V _ _ _ _ _ _ _ SR) as OV.
  pose proof (sr_AV _ _ _ _ _ _ _ SR) as AV. pose proof (sr_AU _ _ _ _ _ _ _ SR) as AU.
  fold k in OU, OV, AV, AU. rewrite Hr, Hc in *. rewrite HH in AV, AU.
  assert (sD : meq k k (mmul k (mdiag s) D) mid).
  { unfold D. rewrite mmul_diag_diag. apply mdiag_1. intros i Hi. field. auto. }
  assert (ss : meq k k (mmul k (mdiag s) (mdiag s)) (mdiag (at1 E))).
  { rewrite mmul_diag_diag. apply mdiag_ext. auto. }
  assert (sr : meq k k (madj (mdiag s)) (mdiag s)) by (apply madj_diag_real; intros i Hi; apply Rs; auto).
  pose proof (bs_dspan _ _ _ _ _ _ _ _ _ _ _ SP) as DS. pose proof (bs_aspan _ _ _ _ _ _ _ _ _ _ _ SP) as AS.
  fold n N M k in DS, AS. change (fun i => sqrt (at1 E i)) with s in DS, AS.
  assert (EPhi : meq n k (ent Phi) (mmul N (ent X) (mmul k (ent R) D))).
  { rewrite <- mmul_assoc, <- DS, mmul_assoc, sD, mmul_id_r. reflexivity. }
  assert (EPsi : meq n k (ent Psi) (mmul M (ent Y) (mmul k (ent L) D))).
  { rewrite <- mmul_assoc, <- AS, mmul_assoc, sD, mmul_id_r. reflexivity. }
  assert (CD : meq k N (wip n W (ent Psi) (ent X)) (mmul k (mdiag s) (madj (ent R)))).
  { rewrite EPsi. apply (bpod_direct_coeffs n M N k (ent X) (ent Y) W (ent L) (ent R) (at1 E) s); auto. }
  assert (CA : meq k M (wip n W (ent Phi) (ent Y)) (mmul k (mdiag s) (madj (ent L)))).
  { rewrite EPhi. apply (bpod_adjoint_coeffs n M N k (ent X) (ent Y) W (ent L) (ent R) (at1 E) s); auto. }
  assert (CD' : meq N k (wip n W (ent X) (ent Psi)) (mmul k (ent R) (mdiag s))).
  { rewrite <- (wip_adj N k n W (ent Psi) (ent X) HW), CD, madj_mmul, madj_madj, sr. reflexivity. }
  assert (CA' : meq M k (wip n W (ent Y) (ent Phi)) (mmul k (ent L) (mdiag s))).
  { rewrite <- (wip_adj M k n W (ent Phi) (ent Y) HW), CA, madj_mmul, madj_madj, sr. reflexivity. }
  assert (GC : meq n k (gramian n N (ent X) W (ent Psi)) (mmul k (ent Phi) (mdiag (at1 E)))).
  { unfold gramian. rewrite CD', <- mmul_assoc, <- DS, mmul_assoc, ss. reflexivity. }
  assert (GO : meq n k (gramian n M (ent Y) W (ent Phi)) (mmul k (ent Psi) (mdiag (at1 E)))).
  { unfold gramian. rewrite CA', <- mmul_assoc, <- AS, mmul_assoc, ss. reflexivity. }
  pose proof (bs_bi _ _ _ _ _ _ _ _ _ _ _ SP) as BI. fold n k in BI.
  assert (BI' : meq k k (wip n W (ent Phi) (ent Psi)) mid).
  { rewrite <- (wip_adj k k n W (ent Psi) (ent Phi) HW), BI. apply madj_mid. }
  pose proof (bs_direct _ _ _ _ _ _ _ _ _ _ _ SP) as BD. pose proof (bs_adjoint _ _ _ _ _ _ _ _ _ _ _ SP HW) as BA.
  fold n N M k in BD, BA.
  split; [split; fold n N M k|].
  - exact GC.
  - exact GO.
  - rewrite GC, <- wip_mul_r, BI. apply mmul_id_l.
  - rewrite GO, <- wip_mul_r, BI'. apply mmul_id_l.
  - rewrite BD, CD, madj_mmul, madj_madj, sr, mmul_assoc, <- (mmul_assoc k k N k (madj (ent R))), OV, mmul_id_l. exact ss.
  - rewrite BA, CA, madj_mmul, madj_madj, sr, mmul_assoc, <- (mmul_assoc k k M k (madj (ent L))), OU, mmul_id_l. exact ss.
  - unfold gramian at 1. rewrite GO, <- wip_mul_r, <- mmul_assoc.
    change (mmul N (ent X) (wip n W (ent X) (ent Psi))) with (gramian n N (ent X) W (ent Psi)).
    rewrite GC, mmul_assoc, mmul_diag_diag. reflexivity.
  - intros Hz. pose proof (sr_exact _ _ _ _ _ _ _ SR Hz) as EX. fold k in EX. rewrite Hr, Hc in EX.
    rewrite <- wip_mul_r, CA', BD, CD, <- HH, EX, mmul_assoc, <- (mmul_assoc k N k k (mdiag s)), ss. reflexivity.
Qed.
(** compute_BPOD_arrays on impulse responses. *)
Theorem C69_BPOD lapack sqrt (X Y : arr F) p q mx my di ai wopt ws (t : F) rtol (A B Ap Cp : mat F) :
  nr X = nr Y -> set_weights wopt = Ok ws -> wfits (nr X) ws -> hermitian (nr X) (wmat ws) ->
  (0 < p)%nat -> (0 < q)%nat -> (0 < mx)%nat -> (0 < my)%nat ->
  nc X = (mx * p)%nat -> nc Y = (my * q)%nat ->
  meq (nr X) (nr X) (mmul (nr X) (madj Ap) (wmat ws)) (mmul (nr X) (wmat ws) A) ->
  impulse_blocks (nr X) p A B (ent X) mx -> impulse_blocks (nr X) q Ap Cp (ent Y) my ->
  real t -> kle 0 t -> tol_real rtol ->
  exists H, meq (nc Y) (nc X) (ent H) (wip (nr X) (wmat ws) (ent Y) (ent X)) /\ nr H = nc Y /\ nc H = nc X /\
    forall U0 S0 Vh0, lapack H = Ok (U0, S0, Vh0) -> svd_contract H U0 S0 Vh0 ->
    (forall i, i < length S0 -> above (Some t) rtol S0 i -> sqrt_ok sqrt (at1 S0 i)) ->
    exists Phi Psi S dc ac L R,
    bpod_returns (BPOD_arrays lapack sqrt false X Y p q di ai wopt (Some t) rtol) di ai Phi Psi S dc ac L R H /\
    S = firstn (length S) S0 /\ (forall i, i < length S0 -> (i < length S <-> above (Some t) rtol S0 i)) /\
    balanced X Y (wmat ws) S Phi Psi dc ac /\
    ((forall i, length S <= i < length S0 -> at1 S0 i = 0) ->
     meq (nc Y) (nc X) (wip (nr X) (wmat ws) (ent Y) (mmul (length S) (ent Phi) (ent dc))) (wip (nr X) (wmat ws) (ent Y) (ent X))).
Proof.
  intros E Ew Hw HW Hp Hq Hmx Hmy HX HY HA IX IY Rt Ht Hr.
  destruct (C21_impulse lapack sqrt X Y p q mx my di ai wopt ws t rtol A B Ap Cp E Ew Hw Hp Hq Hmx Hmy HX HY HA IX IY Rt Ht Hr)
    as (H & Hr' & Hc & HH & G).
  exists H. do 3 (split; [auto|]). intros U0 S0 Vh0 HL HC Hsq.
  destruct (G U0 S0 Vh0 HL HC Hsq) as (Phi & Psi & S & dc & ac & L & R & G1 & G2 & G3).
  exists Phi, Psi, S, dc, ac, L, R. split; [exact G1|].
  split; [apply (sr_prefix _ _ _ _ _ _ _ G2)|]. split; [apply (sr_kept _ _ _ _ _ _ _ G2)|].
  apply (C69_balanced sqrt X Y H (wmat ws) S0 (Some t) rtol S Phi Psi dc ac L R); auto.
  intros i Hi. pose proof (sr_prefix _ _ _ _ _ _ _ G2) as Pr.
  assert (Ll : (length S <= length S0)%nat) by (rewrite Pr, firstn_length; lia).
  assert (Ei : at1 S i = at1 S0 i) by (rewrite Pr; apply at1_firstn; auto).
  assert (Ab : above (Some t) rtol S0 i) by (apply (sr_kept _ _ _ _ _ _ _ G2); [lia|auto]).
  rewrite Ei. split; [apply Hsq; [lia|auto]|]. apply (kept_nonzero t rtol); auto.
Qed.

(** ERA: the model of the right order, under the hypotheses of C30, is balanced: its
    Gramians over the times of the Hankel array, the sums of A^{Pk} B B^H A^{Pk H} over
    k < c and of A^{Pk H} C^H C A^{Pk} over k < o, are the diagonal array of the
    singular values. *)
Theorem C69_ERA sl eigvals (sqrt : F -> F) self Markovs M mc mo o c n p m P (A B C Lo Rc : mat F) :
  set_Markovs Markovs = Ok M -> a3_p M = p -> a3_m M = m -> 0 < p -> 0 < m -> 0 < n ->
  era_sizes (a3_t M) mc mo = (Z.of_nat o, Z.of_nat c) ->
  (o + c + 2 <= a3_t M)%nat -> (2 * (o + c) <= a3_t M + 2)%nat ->
  (forall k, (k < o + c - 1)%nat ->
    meq p m (a3 M (2 * k)%nat) (mmul n C (mmul n (mpow n A (P * k)) B)) /\
    meq p m (a3 M (2 * k + 1)%nat) (mmul n C (mmul n (mpow n A (P * k + 1)) B))) ->
  (forall k i j, (k < 2 * (o + c - 1))%nat -> i < p -> j < m -> real (a3 M k i j)) ->
  meq n n (mmul (p * o) Lo (observability n p P A C)) mid ->
  meq n n (mmul (m * c) (controllability n m P A B) Rc) mid ->
  exists H H2, assemble_Hankel M mc mo = Ok (H, H2) /\ is_Hankel M o c H H2 /\
    forall U0 S0 Vh0, sl H = Ok (U0, S0, Vh0) -> svd_contract H U0 S0 Vh0 ->
      (forall x, In x S0 -> x <> 0 -> sqrt_ok sqrt x) -> (forall X, exists l, eigvals X = Ok l) ->
      exists self' Ar Br Cr,
        compute_model sl eigvals sqrt self Markovs n mc mo = Ok (self', (Ar, Br, Cr)) /\
        (forall i, i < n -> at1 S0 i <> 0) /\
        meq n n (mmul (m * c) (controllability n m P (ent Ar) (ent Br)) (madj (controllability n m P (ent Ar) (ent Br))))
          (mdiag (at1 S0)) /\
        meq n n (mmul (p * o) (madj (observability n p P (ent Ar) (ent Cr))) (observability n p P (ent Ar) (ent Cr)))
          (mdiag (at1 S0)).
Proof.
  intros EM Hp Hm Pp Pm Pn Hsz Hs1 Hs2 HM HR HLo HRc.
  destruct (C30_realized sl eigvals sqrt self Markovs M mc mo o c n p m P A B C Lo Rc EM Hp Hm Pp Pm Pn Hsz Hs1 Hs2 HM HR HLo HRc)
    as (H & H2 & EH & HH & G).
  exists H, H2. do 2 (split; [auto|]). intros U0 S0 Vh0 G1 G2 G3 G4.
  destruct (G U0 S0 Vh0 G1 G2 G3 G4) as (Ln & Nz & self' & Ar & Br & Cr & T & Ti & EC & _ & _ & _ & _ & _ & _ & T1 & T2 & EA & EB & ECr & EO & EK & _).
  exists self', Ar, Br, Cr. split; [exact EC|].
  assert (Nz' : forall i, i < n -> at1 S0 i <> 0) by (intros i Hi; apply Nz; [lia|auto]).
  split; [exact Nz'|].
  assert (Sq : forall i, i < n -> sqrt_ok sqrt (at1 S0 i)) by (intros i Hi; apply G3; [apply nth_In; lia|auto]).
  set (s := fun i => sqrt (at1 S0 i)) in *.
  assert (ss : meq n n (mmul n (mdiag s) (mdiag s)) (mdiag (at1 S0))).
  { rewrite mmul_diag_diag. apply mdiag_ext. intros i Hi. apply (Sq i Hi). }
  assert (sr : meq n n (madj (mdiag s)) (mdiag s)) by (apply madj_diag_real; intros i Hi; apply (Sq i Hi)).
  pose proof HH as (H1r & H1c & _). rewrite Hp, Hm in *.
  assert (Po : meq (p * o) n (observability n p P (ent Ar) (ent Cr)) (mmul n (observability n p P A C) Ti)).
  { split. intros x l Hx Hl. pose proof (Nat.mod_upper_bound x p ltac:(lia)) as X2. unfold observability.
    assert (E1 : meq p n (mmul n (ent Cr) (mpow n (ent Ar) (P * (x / p)))) (mmul n (mmul n C (mpow n A (P * (x / p)))) Ti)).
    { rewrite ECr, EA, (similar_pow n A T Ti _ T1 T2), mmul_assoc, <- (mmul_assoc n n n n Ti T), T2, mmul_id_l, !mmul_assoc. reflexivity. }
    exact (meq_at _ _ _ _ E1 _ _ X2 Hl). }
  assert (Pc : meq n (m * c) (controllability n m P (ent Ar) (ent Br)) (mmul n T (controllability n m P A B))).
  { split. intros l y Hl Hy. pose proof (Nat.mod_upper_bound y m ltac:(lia)) as Y2. unfold controllability.
    assert (E1 : meq n m (mmul n (mpow n (ent Ar) (P * (y / m))) (ent Br)) (mmul n T (mmul n (mpow n A (P * (y / m))) B))).
    { rewrite EB, EA, (similar_pow n A T Ti _ T1 T2), !mmul_assoc, <- (mmul_assoc n m n n Ti T), T2, mmul_id_l. reflexivity. }
    exact (meq_at _ _ _ _ E1 _ _ Hl Y2). }
  pose proof (svd_U _ _ _ _ G2) as OU. pose proof (svd_V _ _ _ _ G2) as OV. rewrite H1r in OU. rewrite H1c in OV.
  assert (OU' : meq n n (mmul (p * o) (madj (ent U0)) (ent U0)) mid).
  { split. intros i j Hi Hj. apply (meq_at _ _ _ _ OU); lia. }
  assert (OV' : meq n n (mmul (m * c) (ent Vh0) (madj (ent Vh0))) mid).
  { unfold orthonormal in OV. rewrite madj_madj in OV. split. intros i j Hi Hj. apply (meq_at _ _ _ _ OV); lia. }
  split.
  - rewrite Pc, EK, madj_mmul, sr, mmul_assoc, <- (mmul_assoc n n (m * c) n (ent Vh0)), OV', mmul_id_l. exact ss.
  - rewrite Po, EO, madj_mmul, sr, mmul_assoc, <- (mmul_assoc n n (p * o) n (madj (ent U0))), OU', mmul_id_l. exact ss.
Qed.
End Bal.

(** ** Examples *)
Example C69_balanced_example : exists Phi Psi dc ac S (H : arr QI),
  balanced bx_X bx_Y (mdiag (at1 bx_w)) S Phi Psi dc ac /\ S = firstn (length S) bx_S /\ nr H = 2%nat.
Proof.
  destruct C21_shortcut_example as (first & last & H & E1 & E2 & E3 & R & C & HH).
  destruct (C21_BPOD (fun _ => Ok (bx_U, bx_S, bx_Vh)) ex_sqrt bx_X bx_Y 1 1 2 2 (Some [0; 0]%Z) None
    (Some (Nd [2%nat] bx_w)) (W1 bx_w) (Some (qi 2 0 1)) None eq_refl eq_refl eq_refl
    ltac:(lia) ltac:(lia) ltac:(lia) ltac:(lia) eq_refl eq_refl first last H bx_U bx_Vh bx_S)
    as (Phi & Psi & S & dc & ac & L & Rr & K1 & K2 & K3 & K4); auto.
  - apply bx_Hankel.
  - apply bx_contract; auto.
  - apply keqb_true. vm_compute. reflexivity.
  - exact I.
  - intros i Hi _. destruct i as [|[|i]]; [| |simpl in Hi; lia];
      apply keqb_false; vm_compute; reflexivity.
  - intros i Hi _. destruct i as [|[|i]]; [apply sq_ok_dec|apply sq_ok_dec|simpl in Hi; lia];
      vm_compute; reflexivity.
  - exists Phi, Psi, dc, ac, S, H. pose proof (sr_prefix _ _ _ _ _ _ _ K2) as Pr. split; [|auto].
    destruct (C69_balanced ex_sqrt bx_X bx_Y H (mdiag (at1 bx_w)) bx_S (Some (qi 2 0 1)) None S Phi Psi dc ac L Rr K3 K2 R C K4) as [G _].
    + apply meqb_true. vm_compute. reflexivity.
    + intros i Hi. assert (Ll : (length S <= 2)%nat) by (rewrite Pr, firstn_length; simpl; lia).
      rewrite Pr, at1_firstn by auto. assert (Hi2 : (i < 2)%nat) by lia. clear - Hi2.
      destruct i as [|[|]]; [..|lia]; (split; [apply sq_ok_dec; vm_compute; reflexivity|apply keqb_false; vm_compute; reflexivity]).
    + exact G.
Qed.
(** Impulse responses of [bx_A] and its adjoint; the first of two modes is kept. *)
Example C69_BPOD_example : exists Phi Psi S dc ac L R H,
  bpod_returns (BPOD_arrays (fun _ => Ok (bx_U, bx_S, bx_Vh)) ex_sqrt false bx_X bx_Y 1 1 None None
     (Some (Nd [2%nat] bx_w)) (Some (qi 2 0 1)) None) None None Phi Psi S dc ac L R H /\
  balanced bx_X bx_Y (mdiag (at1 bx_w)) S Phi Psi dc ac.
Proof.
  destruct C21_example_blocks as (G1 & G2 & G3).
  destruct (C69_BPOD (fun _ => Ok (bx_U, bx_S, bx_Vh)) ex_sqrt bx_X bx_Y 1 1 2 2 None None (Some (Nd [2%nat] bx_w)) (W1 bx_w)
    (qi 2 0 1) None (ent bx_A) (ent bx_B) (ent bx_Ap) (ent bx_Cp)) as (H & HH & Hr & Hc & K); auto.
  - reflexivity.
  - apply meqb_true. vm_compute. reflexivity.
  - le_solve.
  - exact I.
  - destruct (K bx_U bx_S bx_Vh eq_refl) as (Phi & Psi & S & dc & ac & L & R & K1 & _ & _ & K2 & _).
    + apply bx_contract; auto.
    + intros i Hi _. destruct i as [|[|i]]; [apply sq_ok_dec|apply sq_ok_dec|simpl in Hi; lia];
        vm_compute; reflexivity.
    + exists Phi, Psi, S, dc, ac, L, R, H. auto.
Qed.
Example C69_ERA_example :
  exists self' Ar Br Cr, compute_model e_svd e_eigvals e_sqrt (ERA None None) e_nd 1 (Some 2%Z) (Some 2%Z) = Ok (self', (Ar, Br, Cr)) /\
    meq 1 1 (mmul (1 * 2) (controllability 1 1 1 (ent Ar) (ent Br)) (madj (controllability 1 1 1 (ent Ar) (ent Br)))) (mdiag (at1 e_S)).
Proof.
  destruct (C69_ERA e_svd e_eigvals e_sqrt (ERA None None) e_nd
    (Arr3 6 1 1 (a3 (as_3d 7 1 1 e_Markov))) (Some 2%Z) (Some 2%Z) 2 2 1 1 1 1 e_A e_B e_B e_Lo e_Rc)
    as (H & H2 & EH & HH & Res).
  - reflexivity.
  - reflexivity.
  - reflexivity.
  - lia.
  - lia.
  - lia.
  - reflexivity.
  - simpl. lia.
  - simpl. lia.
  - intros k Hk. destruct k as [|[|[|k]]]; try lia; split; eqb_solve.
  - intros k i j Hk Hi Hj. simpl in Hk. destruct i as [|i]; [|lia]. destruct j as [|j]; [|lia].
    do 6 (destruct k as [|k]; [real_solve|]). lia.
  - eqb_solve.
  - eqb_solve.
  - assert (EH' : aeq H e_H /\ aeq e_H H).
    { destruct HH as (h1 & h2 & _ & _ & h5). cbn [a3_p a3_m] in *. apply (mk_aeq 2 2); auto; try reflexivity.
      split. intros x y Hx Hy. destruct (h5 x y O O) as [E _]; try lia.
      rewrite !Nat.mul_1_r, !Nat.add_0_r in E. rewrite E.
      destruct x as [|[|x]]; try lia; destruct y as [|[|y]]; try lia; apply keqb_true; vm_compute; reflexivity. }
    destruct EH' as [EH1 EH2].
    assert (EL : e_svd H = Ok (e_U, e_S, conj_T e_U)).
    { unfold e_svd. rewrite (table_extensional _ _ _ EH1). apply table_hit. vm_compute. reflexivity. }
    destruct (Res _ _ _ EL (svd_contract_aeq _ _ _ _ _ EH2 e_contract)) as (self' & Ar & Br & Cr & EC & _ & P & _).
    + intros x Hx Nx. destruct Hx as [<-|[<-|[]]].
      * apply sqrt_ok_dec. vm_compute. reflexivity.
      * exfalso. apply Nx. apply keqb_true. vm_compute. reflexivity.
    + intros X. eexists. reflexivity.
    + exists self', Ar, Br, Cr. split; [exact EC|exact P].
Qed.

Print Assumptions C69_balanced.
Print Assumptions C69_BPOD.
Print Assumptions C69_ERA.
