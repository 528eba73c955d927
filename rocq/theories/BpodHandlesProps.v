(** Property C21 for the class BPODHandles, on any number of processes. *)
From stdpp Require Import gmap list.
From Coq Require Import ZArith Lia Field Ring Setoid Morphisms.
From Verif Require Import Prelude Field FieldInst Matrix NdArray HankelModel DecompModel DecompProofs DecompProps
  VSArraysModel VSArraysProofs PodModel PodProofs PodProps BpodModel BpodProofs BpodProps DmdModel DmdCore
  Spmd LinCombModel InnerProdProps HandlesModel HandlesProofs HandlesSpace HandlesExamples BpodHandlesModel.
Open Scope nat_scope.
Open Scope k_scope.

(** Decompose, build both kinds of modes and of coefficients. *)
Definition BPOD_session {F : sfield} lapack sqrt (o : bpod_obj F) direct adjoint p q atol rtol
    di dmodes ai amodes : hprog F (bpod_obj F * arr F * arr F) :=
  (o <== BPOD_decomp lapack o direct adjoint p q atol rtol ;
   o <== BPOD_direct_modes sqrt o (Some (Cols di)) dmodes None ;
   o <== BPOD_adjoint_modes sqrt o (Some (Cols ai)) amodes None ;
   r <== BPOD_direct_coeffs sqrt o ;
   r' <== BPOD_adjoint_coeffs sqrt (fst r) ;
   HRet (fst r', snd r, snd r'))%h.

(** After the decomposition. *)
Definition BPOD_results_of {F : sfield} sqrt (o : bpod_obj F) (di : list Z) dmodes (ai : list Z) amodes
    : hprog F (bpod_obj F * arr F * arr F) :=
  (o <== BPOD_direct_modes sqrt o (Some (Cols di)) dmodes None ;
   o <== BPOD_adjoint_modes sqrt o (Some (Cols ai)) amodes None ;
   r <== BPOD_direct_coeffs sqrt o ;
   r' <== BPOD_adjoint_coeffs sqrt (fst r) ;
   HRet (fst r', snd r, snd r'))%h.

Lemma last_handles_incl k l (h : loc) : h ∈ last_handles k l -> h ∈ l.
Proof.
  unfold last_handles. destruct (k =? 0)%nat; auto. intros H. rewrite <- (take_drop (length l - k) l).
  apply elem_of_app. right. exact H.
Qed.
Lemma firstn_incl k l (h : loc) : h ∈ firstn k l -> h ∈ l.
Proof. intros H. rewrite <- (take_drop k l). apply elem_of_app. left. exact H. Qed.

Section Bpod.
Context {F : sfield} {V : Type} (S : space F V) (HS : ip_space S).
Add Field Ff_bpodh : (k_field F).

Lemma holds_firstn st k (hs : list loc) (vs : list V) : holds st hs vs -> holds st (firstn k hs) (firstn k vs).
Proof. intros H. unfold holds in *. revert k. induction H; intros [|k]; simpl; constructor; auto. Qed.
Lemma holds_skipn st k (hs : list loc) (vs : list V) : holds st hs vs -> holds st (skipn k hs) (skipn k vs).
Proof. intros H. unfold holds in *. revert k. induction H; intros [|k]; simpl; auto. Qed.

Lemma nth_firstn_lt {B} k (l : list B) i d : (i < k)%nat -> nth i (firstn k l) d = nth i l d.
Proof. revert l i. induction k; intros [|x l] [|i] Hi; simpl; auto; try lia. apply IHk. lia. Qed.
Lemma nth_skipn_add {B} k (l : list B) i d : nth i (skipn k l) d = nth (k + i) l d.
Proof. revert l. induction k; intros [|x l]; simpl; auto. destruct i; auto. Qed.

(** The Hankel array assembled from the two strips of inner products. *)
Lemma handles_Hankel dv av p q mx my d :
  (0 < p)%nat -> (0 < q)%nat -> (0 < mx)%nat -> (0 < my)%nat ->
  length dv = (mx * p)%nat -> length av = (my * q)%nat ->
  block_Hankel p q mx my (fun i j => ip S (nth i av d) (nth j dv d)) ->
  exists H, BPOD_Hankel p q (gram S av (firstn p dv)) (gram S (skipn (length av - q) av) dv) = Ok H /\
    nr H = length av /\ nc H = length dv /\
    meq (length av) (length dv) (NdArray.ent H) (NdArray.ent (gram S av dv)).
Proof.
  intros Hp Hq Hmx Hmy HX HY HB.
  assert (Gp : (p <= mx * p)%nat) by (rewrite <- (Nat.mul_1_l p) at 1; apply Nat.mul_le_mono_r; lia).
  assert (Gq : (q <= my * q)%nat) by (rewrite <- (Nat.mul_1_l q) at 1; apply Nat.mul_le_mono_r; lia).
  set (first := gram S av (firstn p dv)). set (last := gram S (skipn (length av - q) av) dv).
  assert (Lf : length (firstn p dv) = p) by (rewrite firstn_length; lia).
  assert (Ll : length (skipn (length av - q) av) = q) by (rewrite skipn_length; lia).
  destruct (C21_chunks p q mx my first last) as (H & E3 & H1 & H2 & H3); auto.
  { unfold first, gram. cbn [of_lists nr]. rewrite HY. apply Nat.div_mul. lia. }
  { unfold last, gram. cbn [of_lists nc]. rewrite HX. apply Nat.div_mul. lia. }
  exists H. split; auto. split; [lia|]. split; [lia|]. split. intros r c Hr Hc.
  rewrite (gram_ent S av dv d) by auto.
  destruct (BpodProps.block_index q r my Hq) as (i & a & -> & Hi & Ha); [lia|].
  destruct (BpodProps.block_index p c mx Hp) as (j & b & -> & Hj & Hb); [lia|].
  rewrite H3 by auto. destruct (Nat.ltb_spec (i + j) my) as [L|L].
  - assert (G : ((i + j) * q + a < length av)%nat).
    { rewrite HY. assert (((i + j + 1) * q <= my * q)%nat) by (apply Nat.mul_le_mono_r; lia). lia. }
    unfold first. rewrite (gram_ent S av (firstn p dv) d) by lia. rewrite nth_firstn_lt by auto.
    exact (HB (i + j)%nat O i j a b ltac:(lia) ltac:(lia) ltac:(lia) ltac:(lia) Ha Hb ltac:(lia)).
  - set (jj := (i + j - (my - 1))%nat).
    assert (G : (jj * p + b < length dv)%nat).
    { rewrite HX. assert (((jj + 1) * p <= mx * p)%nat) by (apply Nat.mul_le_mono_r; unfold jj; lia). lia. }
    unfold last. rewrite (gram_ent S _ dv d) by lia. rewrite nth_skipn_add.
    replace (length av - q + a)%nat with ((my - 1) * q + a)%nat by (rewrite HY, Nat.mul_sub_distr_r; lia).
    apply (HB (my - 1)%nat jj i j a b); unfold jj; auto; lia.
Qed.

(** Impulse responses: direct vectors are A^j b, adjoint vectors (A+)^i c, with A+ the
    adjoint of A. *)
Definition impulse_vectors (p m : nat) (A : V -> V) (b : nat -> V) (vs : list V) : Prop :=
  forall j i d, (j < m)%nat -> (i < p)%nat -> nth (j * p + i) vs d = Nat.iter j A (b i).
Theorem C21_handles_impulse (A Ap : V -> V) b c p q mx my dv av d :
  (forall u v, ip S (Ap u) v = ip S u (A v)) ->
  impulse_vectors p mx A b dv -> impulse_vectors q my Ap c av ->
  block_Hankel p q mx my (fun i j => ip S (nth i av d) (nth j dv d)).
Proof.
  intros HA Hd Ha.
  assert (G : forall i j a e, ip S (Nat.iter i Ap (c a)) (Nat.iter j A (b e)) = ip S (c a) (Nat.iter (i + j) A (b e))).
  { induction i as [|i IH]; intros j a e; [reflexivity|]. simpl Nat.iter at 1. rewrite HA.
    change (A (Nat.iter j A (b e))) with (Nat.iter (Datatypes.S j) A (b e)). rewrite (IH (Datatypes.S j) a e). replace (i + Datatypes.S j)%nat with (Datatypes.S i + j)%nat by lia. reflexivity. }
  intros i j i' j' a e Hi Hi' Hj Hj' Ha' He Hsum.
  rewrite !Ha, !Hd by auto. rewrite !G, Hsum. reflexivity.
Qed.

(** What the modes of [dv] and [av] are; [djs], [ajs] number the modes asked for. *)
Record bpod_modes (sqrt : F -> F) (dv av : list V) (E : list F) (L R dc ac : arr F)
    (djs ajs : list nat) (dms ams : list V) : Prop := {
  bm_dlen : length dms = length djs; bm_alen : length ams = length ajs;
  (* combinations of the data *)
  bm_direct : forall a d, a < length djs ->
    combination S dv (fun i => NdArray.ent R i (nth a djs O) * (1 / sqrt (at1 E (nth a djs O)))) (nth a dms d);
  bm_adjoint : forall a d, a < length ajs ->
    combination S av (fun i => NdArray.ent L i (nth a ajs O) * (1 / sqrt (at1 E (nth a ajs O)))) (nth a ams d);
  (* biorthonormal *)
  bm_bi : forall a b d, a < length ajs -> b < length djs ->
    ip S (nth a ams d) (nth b dms d) = if (nth a ajs O =? nth b djs O)%nat then 1 else 0;
  (* coefficients: adjoint modes against direct data, direct modes against adjoint data *)
  bm_dcoeffs : forall a j d, a < length ajs -> j < length dv ->
    NdArray.ent dc (nth a ajs O) j = ip S (nth a ams d) (nth j dv d);
  bm_acoeffs : forall a j d, a < length djs -> j < length av ->
    NdArray.ent ac (nth a djs O) j = ip S (nth a dms d) (nth j av d)
}.

(** On one process. *)
Lemma BPOD_parts_ok lapack sqrt o direct adjoint dv av p q mx my st atol rtol :
  holds st direct dv -> holds st adjoint av ->
  (0 < p)%nat -> (0 < q)%nat -> (0 < mx)%nat -> (0 < my)%nat ->
  length dv = (mx * p)%nat -> length av = (my * q)%nat ->
  (forall d, block_Hankel p q mx my (fun i j => ip S (nth i av d) (nth j dv d))) ->
  tol_real atol -> tol_real rtol ->
  exists H : arr F,
    (nr H = length av /\ nc H = length dv /\
     forall i j d, i < length av -> j < length dv -> NdArray.ent H i j = ip S (nth i av d) (nth j dv d)) /\
    forall U0 S0 Vh0, lapack H = Ok (U0, S0, Vh0) -> svd_contract H U0 S0 Vh0 ->
    (forall i, i < length S0 -> above atol rtol S0 i -> at1 S0 i <> 0 /\ sqrt_ok sqrt (at1 S0 i)) ->
    exists E L R dc ac,
      svd lapack H atol rtol = Ok (L, E, R) /\ svd_result H S0 atol rtol L E R /\
      nr dc = length E /\ nc dc = length dv /\ nr ac = length E /\ nc ac = length av /\
      let o' := BpodObj (Some L) (Some R) (Some E) (Some H) (Some direct) (Some adjoint) in
      let o1 := o' (bh_direct_coeffs o) (bh_adjoint_coeffs o) in
      ok S st (BPOD_decomp lapack o direct adjoint p q atol rtol) (fun st' r => st' = st /\ r = Ok o1) /\
      forall di dmodes ai amodes, length dmodes = length di -> length amodes = length ai -> NoDup (dmodes ++ amodes) ->
      (forall h, h ∈ direct \/ h ∈ adjoint -> h ∉ dmodes ++ amodes) ->
      ok S st (BPOD_results_of sqrt o1 di dmodes ai amodes)
        (fun st' r => match wrap_all (length E) di, wrap_all (length E) ai with
         | Raise e, _ => r = Raise e /\ st' = st
         | Ok _, Raise e => r = Raise e /\ unchanged_but st st' dmodes
         | Ok djs, Ok ajs =>
             r = Ok (o' (Some dc) (Some ac), dc, ac) /\ unchanged_but st st' (dmodes ++ amodes) /\
             exists dms ams, holds st' dmodes dms /\ holds st' amodes ams /\
               bpod_modes sqrt dv av E L R dc ac djs ajs dms ams
         end).
Proof.
  intros Hd Ha Hp Hq Hmx Hmy LD LA HB Rat Rrt.
  assert (exists v0 : V, True) as [v0 _].
  { destruct dv as [|v0 dv']; [simpl in LD; symmetry in LD; apply Nat.mul_eq_0 in LD; lia|eauto]. }
  destruct (handles_Hankel dv av p q mx my v0) as (H & EH & Hr & Hc & HH); auto.
  exists H. split.
  { do 2 (split; [auto|]). intros i j d Hi Hj. rewrite (meq_at _ _ _ _ HH i j Hi Hj). apply gram_ent; auto. }
  intros U0 S0 Vh0 HL HC Hsq.
  assert (LS : length S0 = Nat.min (nr H) (nc H)) by apply (svd_len _ _ _ _ HC).
  assert (PX : (0 < mx * p)%nat /\ (0 < my * q)%nat) by (split; apply Nat.mul_pos_pos; auto).
  destruct (C15_truncated_svd lapack H U0 Vh0 S0 atol rtol HL HC Rat Rrt) as (L & E & R & ES & HG).
  { right. intros ->. simpl in LS. lia. }
  set (k := length E) in *. set (s := fun i => sqrt (at1 E i)).
  assert (Lk : k <= length S0).
  { unfold k. rewrite (sr_prefix _ _ _ _ _ _ _ HG), firstn_length. lia. }
  assert (Ei : forall i, i < k -> at1 E i = at1 S0 i).
  { intros i Hi. rewrite (sr_prefix _ _ _ _ _ _ _ HG). apply at1_firstn. auto. }
  assert (Sq : forall i, i < k -> at1 E i <> 0 /\ sqrt_ok sqrt (at1 E i)).
  { intros i Hi. rewrite Ei by auto. apply Hsq; [lia|]. apply (sr_kept _ _ _ _ _ _ _ HG); [lia|auto]. }
  assert (Ns : forall i, i < k -> s i <> 0).
  { intros i Hi. apply (sqrt_ok_neq sqrt (at1 E i)); apply Sq; auto. }
  assert (Hs : forall i, i < k -> s i * s i = at1 E i) by (intros i Hi; apply (Sq i Hi)).
  assert (Rs : forall i, i < k -> real (s i)) by (intros i Hi; apply (Sq i Hi)).
  set (D := mdiag (at1 (map (inv_sqrt sqrt) E))).
  assert (ED : meq k k D (mdiag (fun i => 1 / s i))).
  { apply mdiag_ext. intros i Hi. rewrite at1_map by auto. reflexivity. }
  assert (ED' : meq k k (mdiag (at1 (map sqrt E))) (mdiag s)).
  { apply mdiag_ext. intros i Hi. rewrite at1_map by auto. reflexivity. }
  pose proof (sr_Ur _ _ _ _ _ _ _ HG) as Lr. pose proof (sr_Uc _ _ _ _ _ _ _ HG) as Lc.
  pose proof (sr_Vr _ _ _ _ _ _ _ HG) as Rr. pose proof (sr_Vc _ _ _ _ _ _ _ HG) as Rc.
  rewrite Hr in Lr. rewrite Hc in Rr. fold k in Lc, Rc.
  set (N := length dv) in *. set (M := length av) in *.
  set (BR := Arr N k (mmul k (NdArray.ent R) D)). set (BL := Arr M k (mmul k (NdArray.ent L) D)).
  set (dc := Arr k N (mmul k (mdiag (at1 (map sqrt E))) (madj (NdArray.ent R)))).
  set (ac := Arr k M (mmul k (mdiag (at1 (map sqrt E))) (madj (NdArray.ent L)))).
  exists E, L, R, dc, ac. do 6 (split; [auto|]). fold k.
  assert (G1 : dot R (diag (map (inv_sqrt sqrt) E)) = Ok BR).
  { unfold dot, diag. cbn [nr nc NdArray.ent]. rewrite map_length. fold k. rewrite Rc, Nat.eqb_refl, Rr. reflexivity. }
  assert (G2 : dot L (diag (map (inv_sqrt sqrt) E)) = Ok BL).
  { unfold dot, diag. cbn [nr nc NdArray.ent]. rewrite map_length. fold k. rewrite Lc, Nat.eqb_refl, Lr. reflexivity. }
  assert (G3 : dot (diag (map sqrt E)) (conj_T R) = Ok dc).
  { unfold dot, diag, conj_T. cbn [nr nc NdArray.ent]. rewrite map_length. fold k. rewrite Rc, Nat.eqb_refl, Rr. reflexivity. }
  assert (G4 : dot (diag (map sqrt E)) (conj_T L) = Ok ac).
  { unfold dot, diag, conj_T. cbn [nr nc NdArray.ent]. rewrite map_length. fold k. rewrite Lc, Nat.eqb_refl, Lr. reflexivity. }
  (* coordinates *)
  set (all := dv ++ av). set (T := length all). set (W := gmat S all).
  set (X := sel 0 : mat F). set (Y := sel N : mat F).
  assert (CX : coords S all X dv) by apply coords_app_l.
  assert (CY : coords S all Y av) by apply coords_app_r.
  assert (HW : hermitian T W) by (apply gmat_hermitian; auto).
  assert (EW : meq M N (NdArray.ent H) (wip T W Y X)).
  { rewrite HH. apply coords_gram; auto. }
  pose proof (sr_U _ _ _ _ _ _ _ HG) as OU. pose proof (sr_V _ _ _ _ _ _ _ HG) as OV.
  pose proof (sr_AV _ _ _ _ _ _ _ HG) as AV. pose proof (sr_AU _ _ _ _ _ _ _ HG) as AU.
  fold k in OU, OV, AV, AU. rewrite Hr, Hc in *. rewrite EW in AV, AU.
  set (Phi := mmul N X (mmul k (NdArray.ent R) D)). set (Psi := mmul M Y (mmul k (NdArray.ent L) D)).
  assert (B1 : meq k k (wip T W Psi Phi) mid).
  { unfold Psi, Phi. rewrite ED.
    apply (bpod_biorthogonal T M N k X Y W (NdArray.ent L) (NdArray.ent R) (at1 E) s); auto. }
  assert (B2 : meq k N (NdArray.ent dc) (wip T W Psi X)).
  { unfold Psi, dc. cbn [NdArray.ent]. rewrite ED, ED'. symmetry.
    apply (bpod_direct_coeffs T M N k X Y W (NdArray.ent L) (NdArray.ent R) (at1 E) s); auto. }
  assert (B3 : meq k M (NdArray.ent ac) (wip T W Phi Y)).
  { unfold Phi, ac. cbn [NdArray.ent]. rewrite ED, ED'. symmetry.
    apply (bpod_adjoint_coeffs T M N k X Y W (NdArray.ent L) (NdArray.ent R) (at1 E) s); auto. }
  pose proof (Forall2_length _ _ _ Hd) as Ld. pose proof (Forall2_length _ _ _ Ha) as La.
  assert (Nd : direct <> []) by (intros ->; simpl in Ld; unfold N in *; lia).
  assert (Na : adjoint <> []) by (intros ->; simpl in La; unfold M in *; lia).
  intros o' o1. split.
  { unfold BPOD_decomp.
  assert (Gp : (p <= mx * p)%nat) by (rewrite <- (Nat.mul_1_l p) at 1; apply Nat.mul_le_mono_r; lia).
  assert (Gq : (q <= my * q)%nat) by (rewrite <- (Nat.mul_1_l q) at 1; apply Nat.mul_le_mono_r; lia).
  apply (ok_ip S adjoint (firstn p direct) av (firstn p dv)); auto.
  { apply holds_firstn; auto. }
  { intros E0. apply (f_equal length) in E0. rewrite firstn_length in E0. simpl in E0. lia. }
  unfold last_handles. rewrite (proj2 (Nat.eqb_neq q 0)) by lia.
  apply (ok_ip S (skipn (length adjoint - q) adjoint) direct (skipn (M - q) av) dv); auto.
  { rewrite La. apply holds_skipn. auto. }
  { intros E0. apply (f_equal length) in E0. rewrite skipn_length in E0. simpl in E0. lia. }
  unfold BPOD_Hankel in EH.
  destruct (range_div (nr (gram S av (firstn p dv))) q) as [ri|] eqn:E1; [|simpl in EH; discriminate EH].
  cbn [rbind] in EH.
  destruct (range_div (nc (gram S (skipn (M - q) av) dv)) p) as [rj|] eqn:E2; [|simpl in EH; discriminate EH].
  cbn [rbind] in EH.
  apply (ok_lift S _ ri); [first [exact E1|reflexivity]|]. apply (ok_lift S _ rj); [first [exact E2|reflexivity]|].
  apply (ok_arr S _ H); [exact EH|].
  unfold BPOD_SVD. cbn [bh_Hankel].
  apply (ok_svd S _ L E R); [exact ES|]. cbn [fst snd ok]. auto. }
  intros di dmodes ai amodes Ldm Lam Hnd Hdis.
  pose proof Hnd as Hnd'. apply NoDup_app in Hnd'. destruct Hnd' as (Nd1 & Nd2 & Nd3).
  unfold BPOD_results_of. apply ok_bind. unfold BPOD_direct_modes.
  apply (ok_need S _ _ direct); [reflexivity|]. apply (ok_need S _ _ R); [reflexivity|].
  apply (ok_need S _ _ E); [reflexivity|]. apply (ok_lift S _ BR); [exact G1|].
  apply (ok_combine S dmodes direct BR di dv); auto.
  { intros h Hh Hin. apply (Hdis h); auto. apply elem_of_app. auto. }
  change (nc BR) with k. destruct (wrap_all k di) as [djs|e]; [|auto].
  intros st1 dms Ldj Hdj Hdms Ldms Hdco Hun1. cbn [ok].
  apply ok_bind. unfold BPOD_adjoint_modes.
  apply (ok_need S _ _ adjoint); [reflexivity|]. apply (ok_need S _ _ L); [reflexivity|].
  apply (ok_need S _ _ E); [reflexivity|]. apply (ok_lift S _ BL); [exact G2|].
  apply (ok_combine S amodes adjoint BL ai av); auto.
  { apply (unchanged_holds st st1 dmodes); auto. intros h Hh Hin. apply (Hdis h); auto. apply elem_of_app. auto. }
  { intros h Hh Hin. apply (Hdis h); auto. apply elem_of_app. auto. }
  change (nc BL) with k. destruct (wrap_all k ai) as [ajs|e].
  2: { split; [reflexivity|]. intros h Hh. auto. }
  intros st2 ams Laj Haj Hams Lams Haco Hun2. cbn [ok].
  apply ok_bind. unfold BPOD_direct_coeffs.
  apply (ok_need S _ _ E); [reflexivity|]. apply (ok_need S _ _ R); [reflexivity|].
  apply (ok_lift S _ dc); [exact G3|]. cbn [ok fst snd].
  apply ok_bind. unfold BPOD_adjoint_coeffs.
  apply (ok_need S _ _ E); [reflexivity|]. apply (ok_need S _ _ L); [reflexivity|].
  apply (ok_lift S _ ac); [exact G4|].
  cbn [ok fst snd bh_L bh_R bh_sing_vals bh_Hankel bh_direct bh_adjoint bh_direct_coeffs bh_adjoint_coeffs].
  split; [reflexivity|]. split.
  { intros h Hh. rewrite Hun2, Hun1; auto; intros Hin; apply Hh, elem_of_app; auto. }
  exists dms, ams. split.
  { apply (unchanged_holds st1 st2 amodes); auto. }
  split; [auto|].
  assert (Hj : forall a, a < length djs -> nth a djs O < k) by (intros a Hlt; apply nth_js; auto).
  assert (Hj' : forall a, a < length ajs -> nth a ajs O < k) by (intros a Hlt; apply nth_js; auto).
  pose proof (coords_trans S all X _ dv dms CX Hdco) as CD.
  pose proof (coords_trans S all Y _ av ams CY Haco) as CA.
  split.
  - lia.
  - lia.
  - intros a d Hlt. eapply combination_ext; [|apply (Hdco a d); lia].
    intros i Hi. unfold mcols, BR, D. cbn [NdArray.ent].
    rewrite (meq_at _ _ _ _ (mmul_diag_r N k (at1 (map (inv_sqrt sqrt) E)) (NdArray.ent R)) i _ Hi (Hj a Hlt)).
    rewrite at1_map by auto. reflexivity.
  - intros a d Hlt. eapply combination_ext; [|apply (Haco a d); lia].
    intros i Hi. unfold mcols, BL, D. cbn [NdArray.ent].
    rewrite (meq_at _ _ _ _ (mmul_diag_r M k (at1 (map (inv_sqrt sqrt) E)) (NdArray.ent L)) i _ Hi (Hj' a Hlt)).
    rewrite at1_map by auto. reflexivity.
  - intros a b d Hla Hlb. rewrite (coords_ip S HS all _ _ ams dms a b d CA CD) by lia.
    exact (meq_at _ _ _ _ B1 _ _ (Hj' a Hla) (Hj b Hlb)).
  - intros a j d Hla Hlb. rewrite (coords_ip S HS all _ _ ams dv a j d CA CX) by lia.
    exact (meq_at _ _ _ _ B2 _ _ (Hj' a Hla) Hlb).
  - intros a j d Hla Hlb. rewrite (coords_ip S HS all _ _ dms av a j d CD CY) by lia.
    exact (meq_at _ _ _ _ B3 _ _ (Hj a Hla) Hlb).
Qed.

Lemma BPOD_ok lapack sqrt o direct adjoint dv av p q mx my st atol rtol
    di dmodes ai amodes :
  holds st direct dv -> holds st adjoint av ->
  (0 < p)%nat -> (0 < q)%nat -> (0 < mx)%nat -> (0 < my)%nat ->
  length dv = (mx * p)%nat -> length av = (my * q)%nat ->
  (forall d, block_Hankel p q mx my (fun i j => ip S (nth i av d) (nth j dv d))) ->
  length dmodes = length di -> length amodes = length ai -> NoDup (dmodes ++ amodes) ->
  (forall h, h ∈ direct \/ h ∈ adjoint -> h ∉ dmodes ++ amodes) ->
  tol_real atol -> tol_real rtol ->
  exists H : arr F,
    (nr H = length av /\ nc H = length dv /\
     forall i j d, i < length av -> j < length dv -> NdArray.ent H i j = ip S (nth i av d) (nth j dv d)) /\
    forall U0 S0 Vh0, lapack H = Ok (U0, S0, Vh0) -> svd_contract H U0 S0 Vh0 ->
    (forall i, i < length S0 -> above atol rtol S0 i -> at1 S0 i <> 0 /\ sqrt_ok sqrt (at1 S0 i)) ->
    exists E L R dc ac,
      svd lapack H atol rtol = Ok (L, E, R) /\ svd_result H S0 atol rtol L E R /\
      nr dc = length E /\ nc dc = length dv /\ nr ac = length E /\ nc ac = length av /\
      ok S st
        (BPOD_session lapack sqrt o direct adjoint p q atol rtol di dmodes ai amodes)
        (fun st' r => match wrap_all (length E) di, wrap_all (length E) ai with
         | Raise e, _ => r = Raise e /\ st' = st
         | Ok _, Raise e => r = Raise e /\ unchanged_but st st' dmodes
         | Ok djs, Ok ajs =>
             r = Ok (BpodObj (Some L) (Some R) (Some E) (Some H) (Some direct) (Some adjoint)
                       (Some dc) (Some ac), dc, ac) /\
             unchanged_but st st' (dmodes ++ amodes) /\
             exists dms ams, holds st' dmodes dms /\ holds st' amodes ams /\
               bpod_modes sqrt dv av E L R dc ac djs ajs dms ams
         end).
Proof.
  intros Hd Ha Hp Hq Hmx Hmy LD LA HB Ldm Lam Hnd Hdis Rat Rrt.
  destruct (BPOD_parts_ok lapack sqrt o direct adjoint dv av p q mx my st atol rtol
    Hd Ha Hp Hq Hmx Hmy LD LA HB Rat Rrt) as (H & HH & G).
  exists H. split; [exact HH|]. intros U0 S0 Vh0 H1 H2 H3.
  destruct (G U0 S0 Vh0 H1 H2 H3) as (E & L & R & dc & ac & G1 & G2 & G3 & G4 & G5 & G6 & K1 & K2).
  exists E, L, R, dc, ac. do 6 (split; [auto|]).
  unfold BPOD_session. apply ok_bind. eapply ok_mono; [exact K1|]. intros st' r [-> ->].
  exact (K2 di dmodes ai amodes Ldm Lam Hnd Hdis).
Qed.

Theorem C21_handles limit P tag_ub eager lapack sqrt o direct adjoint dv av p q mx my st atol rtol
    di dmodes ai amodes :
  set_up limit P tag_ub S -> holds st direct dv -> holds st adjoint av ->
  (0 < p)%nat -> (0 < q)%nat -> (0 < mx)%nat -> (0 < my)%nat ->
  length dv = (mx * p)%nat -> length av = (my * q)%nat ->
  (forall d, block_Hankel p q mx my (fun i j => ip S (nth i av d) (nth j dv d))) ->
  length dmodes = length di -> length amodes = length ai -> NoDup (dmodes ++ amodes) ->
  (forall h, h ∈ direct \/ h ∈ adjoint -> h ∉ dmodes ++ amodes) ->
  tol_real atol -> tol_real rtol ->
  exists H : arr F,
    (nr H = length av /\ nc H = length dv /\
     forall i j d, i < length av -> j < length dv -> NdArray.ent H i j = ip S (nth i av d) (nth j dv d)) /\
    forall U0 S0 Vh0, lapack H = Ok (U0, S0, Vh0) -> svd_contract H U0 S0 Vh0 ->
    (forall i, i < length S0 -> above atol rtol S0 i -> at1 S0 i <> 0 /\ sqrt_ok sqrt (at1 S0 i)) ->
    exists E L R dc ac,
      svd lapack H atol rtol = Ok (L, E, R) /\ svd_result H S0 atol rtol L E R /\
      nr dc = length E /\ nc dc = length dv /\ nr ac = length E /\ nc ac = length av /\
      runs S P tag_ub eager st
        (BPOD_session lapack sqrt o direct adjoint p q atol rtol di dmodes ai amodes)
        (fun st' r => match wrap_all (length E) di, wrap_all (length E) ai with
         | Raise e, _ => r = Raise e /\ st' = st
         | Ok _, Raise e => r = Raise e /\ unchanged_but st st' dmodes
         | Ok djs, Ok ajs =>
             r = Ok (BpodObj (Some L) (Some R) (Some E) (Some H) (Some direct) (Some adjoint)
                       (Some dc) (Some ac), dc, ac) /\
             unchanged_but st st' (dmodes ++ amodes) /\
             exists dms ams, holds st' dmodes dms /\ holds st' amodes ams /\
               bpod_modes sqrt dv av E L R dc ac djs ajs dms ams
         end).
Proof.
  intros Hup Hd Ha Hp Hq Hmx Hmy LD LA HB Ldm Lam Hnd Hdis Rat Rrt.
  destruct (BPOD_ok lapack sqrt o direct adjoint dv av p q mx my st atol rtol di dmodes ai amodes
    Hd Ha Hp Hq Hmx Hmy LD LA HB Ldm Lam Hnd Hdis Rat Rrt) as (H & HH & G).
  exists H. split; [exact HH|]. intros U0 S0 Vh0 H1 H2 H3.
  destruct (G U0 S0 Vh0 H1 H2 H3) as (E & L & R & dc & ac & G1 & G2 & G3 & G4 & G5 & G6 & K).
  exists E, L, R, dc, ac. do 6 (split; [auto|]). exact (ok_runs S limit P tag_ub eager _ st _ HS Hup K).
Qed.
End Bpod.

(** On two processes, with [bx_X] and [bx_Y] of BpodProps as direct and adjoint impulse
    responses; the modes are asked for in reverse order and with a negative index. *)
Definition bpodh_W : mat QI := mdiag (at1 bx_w).
Definition bpodh_space := wspace (F := QI) 2 bpodh_W 6 3 1.
Definition bpodh_store : gmap loc (nat -> QI) :=
  <[1%nat := fun i => NdArray.ent bx_X i 0%nat]> (<[2%nat := fun i => NdArray.ent bx_X i 1%nat]>
  (<[3%nat := fun i => NdArray.ent bx_Y i 0%nat]> (<[4%nat := fun i => NdArray.ent bx_Y i 1%nat]> ∅))).
Definition bx_apply (A : arr QI) (v : nat -> QI) : nat -> QI := fun i => sum 2 (fun j => NdArray.ent A i j * v j).
Example C21_handles_example eager :
  runs bpodh_space 2 10 eager bpodh_store
    (BPOD_session (fun _ => Ok (bx_U, bx_S, bx_Vh)) ex_sqrt BPOD_new [1; 2]%nat [3; 4]%nat 1 1
       (Some (qi 1 0 10)) None [1; 0]%Z [10; 11]%nat [-2]%Z [12]%nat)
    (fun st' r => exists dms ams, holds st' [10; 11]%nat dms /\ holds st' [12]%nat ams /\
       forall d, ip bpodh_space (nth 0 ams d) (nth 0 dms d) = 0 /\ ip bpodh_space (nth 0 ams d) (nth 1 dms d) = 1).
Proof.
  assert (HW : hermitian 2 bpodh_W) by (apply meqb_true; vm_compute; reflexivity).
  assert (HB : block_Hankel 1 1 2 2 (wip 2 bpodh_W (NdArray.ent bx_Y) (NdArray.ent bx_X))).
  { intros i j i' j' a b Hi Hi' Hj Hj' Ha Hb Hs. apply keqb_true.
    destruct a; [|lia]. destruct b; [|lia].
    destruct i as [|[|]], j as [|[|]], i' as [|[|]], j' as [|[|]]; try lia; vm_compute; reflexivity. }
  destruct (C21_handles bpodh_space (wspace_ip 2 bpodh_W 6 3 1 HW) (Some 1%Z) 2 10 eager
    (fun _ => Ok (bx_U, bx_S, bx_Vh)) ex_sqrt BPOD_new [1; 2]%nat [3; 4]%nat (columns bx_X) (columns bx_Y)
    1%nat 1%nat 2%nat 2%nat bpodh_store (Some (qi 1 0 10)) None [1; 0]%Z [10; 11]%nat [-2]%Z [12]%nat) as (H & (Hr & Hc & HH) & G);
    try lia; try reflexivity.
  - split; [split; [simpl; lia|]; split; [simpl; lia|reflexivity]|simpl; lia].
  - repeat constructor.
  - repeat constructor.
  - intros d i j i' j' a b Hi Hi' Hj Hj' Ha Hb Hs. unfold bpodh_space. rewrite !columns_ip by (simpl; lia).
    apply HB; auto.
  - apply (bool_decide_unpack (NoDup [10; 11; 12]%nat)). reflexivity.
  - intros h Hh. apply (bool_decide_unpack (h ∉ [10; 11; 12]%nat)).
    destruct Hh as [Hh|Hh]; repeat (apply elem_of_cons in Hh; destruct Hh as [->|Hh]; [reflexivity|]); inversion Hh.
  - apply keqb_true. vm_compute. reflexivity.
  - destruct (G bx_U bx_S bx_Vh) as (E & L & R & dc & ac & ES & _ & _ & _ & _ & _ & K).
    + reflexivity.
    + apply bx_contract; auto. split. intros i j Hi Hj.
      rewrite (HH i j (fun _ => 0)) by auto. unfold bpodh_space. rewrite columns_ip by auto. reflexivity.
    + intros i Hi _. change (length bx_S) with 2%nat in Hi. destruct i as [|[|]]; [..|lia].
      all: split; [intros E0; apply (f_equal (fun x => keqb x 0)) in E0; vm_compute in E0; discriminate|].
      all: apply sq_ok_dec; vm_compute; reflexivity.
    + assert (EE : E = bx_S).
      { apply (f_equal (rmap (fun x => snd (fst x)))) in ES. vm_compute in ES. injection ES as ES. symmetry. exact ES. }
      eapply runs_mono; [exact K|]. cbv beta. intros st' r Q. rewrite EE in Q.
      change (wrap_all (length bx_S) [1; 0]%Z) with (Ok [1; 0]%nat) in Q.
      change (wrap_all (length bx_S) [-2]%Z) with (Ok [0]%nat) in Q. cbv iota in Q.
      destruct Q as (_ & _ & dms & ams & Q1 & Q2 & Q3). exists dms, ams. do 2 (split; [assumption|]).
      intros d. split.
      * exact (bm_bi _ _ _ _ _ _ _ _ _ _ _ _ _ Q3 0 0 d ltac:(simpl; lia) ltac:(simpl; lia)).
      * exact (bm_bi _ _ _ _ _ _ _ _ _ _ _ _ _ Q3 0 1 d ltac:(simpl; lia) ltac:(simpl; lia)).
Qed.

(** The impulse-response hypothesis, met by the same data. *)
Example C21_handles_impulse_example d :
  block_Hankel 1 1 2 2 (fun i j => ip bpodh_space (nth i [fun i => NdArray.ent bx_Cp i 0%nat;
     bx_apply bx_Ap (fun i => NdArray.ent bx_Cp i 0%nat)] d) (nth j [fun i => NdArray.ent bx_B i 0%nat;
     bx_apply bx_A (fun i => NdArray.ent bx_B i 0%nat)] d)).
Proof.
  apply (C21_handles_impulse bpodh_space (bx_apply bx_A) (bx_apply bx_Ap)
    (fun _ i => NdArray.ent bx_B i 0%nat) (fun _ i => NdArray.ent bx_Cp i 0%nat)).
  - intros u v. 
    assert (HA : meq 2 2 (mmul 2 (madj (NdArray.ent bx_Ap)) bpodh_W) (mmul 2 bpodh_W (NdArray.ent bx_A)))
      by (apply meqb_true; vm_compute; reflexivity).
    exact (wspace_adjoint 2 bpodh_W 6 3 1 (NdArray.ent bx_A) (NdArray.ent bx_Ap) u v HA).
  - intros j i d' Hj Hi. destruct i; [|lia]. destruct j as [|[|]]; [..|lia]; reflexivity.
  - intros j i d' Hj Hi. destruct i; [|lia]. destruct j as [|[|]]; [..|lia]; reflexivity.
Qed.

Print Assumptions C21_handles.
Print Assumptions C21_handles_impulse.
