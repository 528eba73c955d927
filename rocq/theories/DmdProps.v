(** C22, C23, C24 (arrays), C26 (arrays): dynamic mode decomposition of arrays. *)
From Coq Require Import List Arith Lia Bool ZArith Field Ring Setoid Morphisms Permutation.
Import ListNotations.
From Verif Require Import Prelude Field FieldInst Matrix NdArray DecompModel DecompProofs DecompProps
  VSArraysModel VSArraysProofs VSArraysProps PodModel PodProofs PodProps BpodModel DmdModel DmdProofs DmdCore DmdSnaps.
Open Scope nat_scope.
Open Scope k_scope.

(** ** The conclusion: what a call returns, for the kept eigenpairs (E, V) and every
    answer of the eigenvalue routine for the low-order map that meets its contract
    with non-zero scale factors. *)
Definition dmd_ok {F : sfield} (eig_lapack : arr F -> res (list F * arr F * arr F)) (sqrt : F -> F)
    (X Y : arr F) (W : mat F) (E : list F) (V : arr F) idx corr (r : res (dmd_results F)) : Prop :=
  exists M, nr M = length E /\ nc M = length E /\
    meq (length E) (length E) (ent M) (low_map sqrt X Y W E (ent V)) /\
    forall w L0 R0, eig_lapack M = Ok (w, L0, R0) -> eig_contract M w L0 R0 ->
      (forall i, i < length E -> pairing (length E) L0 R0 i i <> 0) ->
      exists L Pe Pp Ps pc apc sp,
        eig_biorthog eig_lapack M SLeft = Ok (w, R0, L) /\
        dmd_returns r idx Pe Pp Ps w sp pc apc R0 L E V corr /\
        dmd_spec sqrt X Y W E V w M R0 L Pe Pp Ps pc apc sp.

(** ** C22: the snapshot method *)

Theorem C22_DMD_snaps {F : sfield} eigh_lapack argsort eig_lapack (sqrt : F -> F) vecs adv X Y idx wopt ws :
  dmd_data vecs adv X Y -> (0 < nc X)%nat ->
  set_weights wopt = Ok ws -> wfits (nr X) ws -> hermitian (nr X) (wmat ws) ->
  exists C K, DMD_correlations ws vecs adv = Ok (C, K) /\ nr C = nc X /\ nc C = nc X /\
    meq (nc X) (nc X) (ent C) (wip (nr X) (wmat ws) (ent X) (ent X)) /\
    meq (nc X) (nc X) (ent K) (wip (nr X) (wmat ws) (ent X) (ent Y)) /\
    forall w0 V0 (t : F) rtol max_num,
      eigh_lapack C = Ok (w0, V0) -> eigh_contract C w0 V0 ->
      argsort_contract (map kabs w0) (argsort (map kabs w0)) ->
      real t -> kle 0 t -> tol_real rtol ->
      (forall e, In e w0 -> klt_p 0 e -> sqrt_ok sqrt e) ->
      exists atol' w1 E V, raised true (Some t) w0 atol' /\
        (exists vals cvecs, eigh eigh_lapack argsort C (Some t) rtol true = Ok (vals, cvecs) /\
           E = max_list max_num vals /\ V = max_cols max_num (length vals) cvecs) /\
        Permutation w1 w0 /\ abs_decreasing w1 /\ E = firstn (length E) w1 /\
        (forall i, i < length w1 -> (i < length E <-> above atol' rtol w1 i /\ under max_num i)) /\
        dmd_kept sqrt X (wmat ws) E V /\
        dmd_ok eig_lapack sqrt X Y (wmat ws) E V idx (Some (C, K))
          (DMD_snaps eigh_lapack argsort eig_lapack sqrt false vecs adv idx wopt (Some t) rtol max_num).
Proof.
  intros Hd HN Ew Hf HH.
  destruct (correlations_ok ws vecs adv X Y Hd Hf) as (C & K & EC & Cr & Cc & Kr & Kc & HCC & HKK).
  exists C, K. do 5 (split; [auto|]).
  intros w0 V0 t rtol m HL HC HS Rt Ht Hr Hsq.
  destruct (C16_truncated_eigh eigh_lapack argsort C V0 w0 (Some t) rtol true HL HC HS)
    as (atol' & w1 & vals & cvecs & EE & HR & HE); auto.
  { rewrite Cr. auto. }
  { discriminate. }
  destruct (snaps_kept sqrt X (wmat ws) C w0 w1 t atol' rtol vals cvecs V0) as [Pos HK]; auto.
  apply (kept_sub sqrt X (wmat ws) vals cvecs m) in HK.
  set (E := max_list m vals) in *. set (V := max_cols m (length vals) cvecs) in *.
  assert (PE : vals = firstn (length vals) w1) by apply (er_prefix _ _ _ _ _ _ _ HE).
  exists atol', w1, E, V. split; [auto|]. split; [exists vals, cvecs; auto|]. split; [apply (er_perm _ _ _ _ _ _ _ HE)|].
  split; [apply (er_sorted _ _ _ _ _ _ _ HE)|]. split.
  { unfold E. rewrite max_list_firstn at 1. rewrite PE at 2. rewrite firstn_firstn.
    rewrite Nat.min_l by apply max_list_le. reflexivity. }
  split.
  { intros i Hi. unfold E. rewrite max_list_len. rewrite (er_kept _ _ _ _ _ _ _ HE i Hi). tauto. }
  split; [exact HK|]. unfold dmd_ok, DMD_snaps. rewrite Ew. cbn [rbind]. rewrite EC. cbn [rbind fst snd].
  rewrite EE. cbn [rbind fst snd]. fold E V.
  apply DMD_core_spec; auto; try apply HK.
  - apply map_length.
  - intros i Hi. rewrite at1_map by auto. reflexivity.
  - rewrite HKK. reflexivity.
Qed.

(** The adjoint modes are biorthogonal to the projected modes and to the exact modes
    (of non-zero eigenvalue): ones on the diagonal, zeros for distinct eigenvalues. *)
Theorem C22_biorthogonal {F : sfield} (sqrt : F -> F) X Y W E V w M R L Pe Pp Ps pc apc sp i j :
  dmd_spec sqrt X Y W E V w M R L Pe Pp Ps pc apc sp -> i < length E -> j < length E ->
  i = j \/ at1 w i <> at1 w j ->
  wip (nr X) W (ent Ps) (ent Pp) i j = mid i j /\
  (at1 w j <> 0 -> wip (nr X) W (ent Ps) (ent Pe) i j = mid i j).
Proof.
  intros H Hi Hj Hw.
  assert (G : mmul (length E) (madj (ent L)) (ent R) i j = mid i j).
  { pose proof (ds_pair _ _ _ _ _ _ _ _ _ _ _ _ _ _ _ _ H) as B.
    pose proof (ds_Mr _ _ _ _ _ _ _ _ _ _ _ _ _ _ _ _ H) as Mr.
    unfold mid. destruct (Nat.eqb_spec i j) as [<-|N].
    - pose proof (br_diag _ _ _ _ B i) as Q. unfold pairing in Q. rewrite Mr in Q. auto.
    - destruct Hw as [|Hw]; [contradiction|].
      pose proof (br_off _ _ _ _ B i j) as Q. unfold pairing in Q. rewrite Mr in Q. auto. }
  split.
  - rewrite (meq_at _ _ _ _ (ds_bi_proj _ _ _ _ _ _ _ _ _ _ _ _ _ _ _ _ H) i j Hi Hj). auto.
  - intros Hz. rewrite (ds_bi_exact _ _ _ _ _ _ _ _ _ _ _ _ _ _ _ _ H i j Hi Hj Hz). auto.
Qed.

(** With pairwise distinct eigenvalues: identity arrays; all eigenvalues non-zero. *)
Theorem C22_identity {F : sfield} (sqrt : F -> F) X Y W E V w M R L Pe Pp Ps pc apc sp :
  dmd_spec sqrt X Y W E V w M R L Pe Pp Ps pc apc sp -> NoDup w ->
  meq (length E) (length E) (wip (nr X) W (ent Ps) (ent Pp)) mid /\
  (~ In 0 w -> meq (length E) (length E) (wip (nr X) W (ent Ps) (ent Pe)) mid).
Proof.
  intros H ND. pose proof (ds_wl _ _ _ _ _ _ _ _ _ _ _ _ _ _ _ _ H) as Lw.
  assert (D : forall i j, i < length E -> j < length E -> i = j \/ at1 w i <> at1 w j).
  { intros i j Hi Hj. destruct (Nat.eq_dec i j) as [|N]; auto. right. intros E'. apply N.
    apply (proj1 (NoDup_nth w 0) ND); auto; lia. }
  split.
  - split. intros i j Hi Hj. destruct (C22_biorthogonal _ _ _ _ _ _ _ _ _ _ _ _ _ _ _ _ i j H Hi Hj (D i j Hi Hj)). auto.
  - intros Hz. split. intros i j Hi Hj.
    destruct (C22_biorthogonal _ _ _ _ _ _ _ _ _ _ _ _ _ _ _ _ i j H Hi Hj (D i j Hi Hj)) as [_ G].
    apply G. intros E'. apply Hz. rewrite <- E'. apply nth_In. lia.
Qed.

Theorem C22_distributed {F : sfield} el argsort eig (sqrt : F -> F) vecs adv idx wopt atol rtol m :
  DMD_snaps el argsort eig sqrt true vecs adv idx wopt atol rtol m = Raise RuntimeError.
Proof. reflexivity. Qed.
(** Arrays of different shapes. *)
Theorem C22_shapes {F : sfield} el argsort eig (sqrt : F -> F) vecs adv idx wopt ws atol rtol m :
  set_weights wopt = Ok ws -> nr adv <> nr vecs \/ nc adv <> nc vecs ->
  DMD_snaps el argsort eig sqrt false vecs (Some adv) idx wopt atol rtol m = Raise ValueError.
Proof.
  intros Ew H. unfold DMD_snaps. rewrite Ew. cbn [rbind]. unfold DMD_correlations, same_shape2.
  destruct (Nat.eqb_spec (nr vecs) (nr adv)); destruct (Nat.eqb_spec (nc vecs) (nc adv));
    simpl; auto. destruct H; congruence.
Qed.

(** ** C26: the direct method *)

(** The array whose singular values are computed. *)
Definition weighted_data {F : sfield} chol (sqrt : F -> F) wopt (vecs : arr F) (adv : option (arr F)) : res (arr F) :=
  rbind (sqrt_weights chol sqrt wopt) (fun weigh => rbind (weigh vecs) (fun Vw =>
    Ok match adv with None => but_last_col Vw | Some _ => Vw end)).

Theorem C26_DMD_direct {F : sfield} svd_lapack chol eig_lapack (sqrt : F -> F) vecs adv X Y idx wopt W :
  dmd_data vecs adv X Y -> (0 < nc X)%nat -> root_ok chol sqrt (nr X) wopt W ->
  exists Xw R, weighted_data chol sqrt wopt vecs adv = Ok Xw /\ nr Xw = nr X /\ nc Xw = nc X /\ meq (nr X) (nc X) (ent Xw) (mmul (nr X) R (ent X)) /\
    meq (nr X) (nr X) (mmul (nr X) (madj R) R) W /\
    forall U0 S0 Vh0 atol rtol max_num,
      svd_lapack Xw = Ok (U0, S0, Vh0) -> svd_contract Xw U0 S0 Vh0 ->
      tol_real atol -> tol_real rtol -> rtol = None \/ S0 <> [] ->
      (forall s, In s S0 -> sqrt_ok sqrt (s * s)) ->
      exists S V,
        (exists U S' V', svd svd_lapack Xw atol rtol = Ok (U, S', V') /\
           S = max_list max_num S' /\ V = max_cols max_num (length S') V') /\
        S = firstn (length S) S0 /\
        (forall i, i < length S0 -> (i < length S <-> above atol rtol S0 i /\ under max_num i)) /\
        ((forall i, i < length S -> at1 S i <> 0) ->
         dmd_kept sqrt X W (map (fun s => s * s) S) V /\
         dmd_ok eig_lapack sqrt X Y W (map (fun s => s * s) S) V idx None
          (DMD_direct svd_lapack chol eig_lapack sqrt false vecs adv idx wopt atol rtol max_num)).
Proof.
  intros Hd HN HW. set (n := nr X) in *. set (N := nc X) in *.
  pose proof (dmd_data_dims _ _ _ _ Hd) as (D1 & D2 & D3). fold n in D1. fold N in D2, D3.
  destruct (root_ok_weigh _ _ _ _ _ HW) as ((ws & Ews) & HH & weigh & Rm & Ewe & ER & Hwe).
  assert (Vn : nr vecs = n).
  { destruct adv as [a|]; [destruct Hd as (<- & _)|destruct Hd as (_ & E & _)]; auto.
    unfold n. rewrite E. reflexivity. }
  destruct (Hwe vecs Vn) as (Vw & EVw & Vw1 & Vw2 & Vw3).
  set (Xw := match adv with None => but_last_col Vw | Some _ => Vw end).
  assert (X1 : nr Xw = n) by (unfold Xw; destruct adv; simpl; auto).
  assert (X2 : nc Xw = N).
  { unfold Xw. destruct adv as [a|]; simpl; rewrite ?Vw2; [rewrite D3; auto|]. rewrite D3. lia. }
  assert (X3 : meq n N (ent Xw) (mmul n Rm (ent X))).
  { unfold Xw. destruct adv as [a|].
    - destruct Hd as (EX & _). rewrite <- EX in Vw3. exact Vw3.
    - destruct Hd as (_ & EX & _). split. intros i j Hi Hj.
      rewrite EX. cbn. rewrite (meq_at _ _ _ _ Vw3 i j Hi) by lia. reflexivity. }
  exists Xw, Rm. split.
  { unfold weighted_data. rewrite Ewe. cbn [rbind]. rewrite EVw. reflexivity. }
  do 4 (split; [auto|]).
  intros U0 S0 Vh0 atol rtol m HL HC Ha Hr Hne Hsq.
  destruct (C15_truncated_svd svd_lapack Xw U0 Vh0 S0 atol rtol HL HC Ha Hr Hne)
    as (U & S' & V' & EE & G).
  set (S := max_list m S'). set (V := max_cols m (length S') V').
  exists S, V. split; [exists U, S', V'; auto|]. split.
  { unfold S. rewrite max_list_firstn at 1. rewrite (sr_prefix _ _ _ _ _ _ _ G) at 2. rewrite firstn_firstn.
    rewrite Nat.min_l by apply max_list_le. reflexivity. }
  split.
  { intros i Hi. unfold S. rewrite max_list_len. rewrite (sr_kept _ _ _ _ _ _ _ G i Hi). tauto. }
  intros Hnz. set (k := length S) in *.
  assert (Hk : k <= length S') by apply max_list_le.
  assert (InS : forall i, i < k -> In (at1 S i) S0).
  { intros i Hi. unfold S. rewrite max_list_at by auto. apply prefix_in; [|lia]. apply (sr_prefix _ _ _ _ _ _ _ G). }
  assert (Rs : forall i, i < k -> real (at1 S i)).
  { intros i Hi. apply (proj1 (Forall_forall _ _) (svd_real _ _ _ _ HC)). auto. }
  assert (Es : forall i, i < k -> sqrt (at1 S i * at1 S i) = at1 S i).
  { intros i Hi. apply sqrt_square; auto.
    apply (proj1 (Forall_forall _ _) (svd_nonneg _ _ _ _ HC)). auto. }
  set (E := map (fun s => s * s) S).
  assert (LE : length E = k) by (unfold E; rewrite map_length; auto).
  assert (AE : forall i, i < k -> at1 E i = at1 S i * at1 S i) by (intros i Hi; unfold E; rewrite at1_map; auto).
  assert (Vr : nr V = N). { unfold V. rewrite max_cols_nr, (sr_Vr _ _ _ _ _ _ _ G). auto. }
  assert (Vc : nc V = k). { unfold V. rewrite (max_cols_nc m S'); auto. apply (sr_Vc _ _ _ _ _ _ _ G). }
  assert (Ve : ent V = ent V') by apply max_cols_ent.
  assert (OV : meq k k (mmul N (madj (ent V)) (ent V)) mid).
  { rewrite Ve. pose proof (sr_V _ _ _ _ _ _ _ G) as Q. rewrite X2 in Q. apply (orthonormal_sub _ _ _ _ Hk Q). }
  assert (GE : meq N k (mmul N (wip n W (ent X) (ent X)) (ent V)) (mmul k (ent V) (mdiag (at1 E)))).
  { pose proof (sr_AV _ _ _ _ _ _ _ G) as Q1. pose proof (sr_AU _ _ _ _ _ _ _ G) as Q2.
    rewrite X1, X2 in Q1, Q2. rewrite X3 in Q1, Q2.
    pose proof (direct_eig n N (length S') (ent X) W Rm (ent U) (ent V') (at1 S') ER Q1 Q2) as Q.
    rewrite mmul_diag_r in Q |- *. split. intros i j Hi Hj. rewrite Ve.
    rewrite (meq_at _ _ _ _ Q i j Hi ltac:(lia)), AE by auto. unfold S.
    rewrite max_list_at by auto. reflexivity. }
  assert (KP : dmd_kept sqrt X W E V).
  { split; rewrite ?LE; auto. intros i Hi. rewrite AE by auto. split.
    - apply Hsq. auto.
    - intros E0. apply (Hnz i Hi). destruct (mul_eq_0 _ _ E0); auto. }
  split; [exact KP|]. unfold dmd_ok.
  assert (Wip : forall a b (A B : mat F), meq a b (mmul n (madj (mmul n Rm A)) (mmul n Rm B)) (wip n W A B)).
  { intros a b A B. unfold wip. rewrite <- ER, madj_mmul, !mmul_assoc. reflexivity. }
  unfold DMD_direct. rewrite Ews. cbn [rbind]. rewrite Ewe. cbn [rbind]. rewrite EVw. cbn [rbind].
  assert (Li : length (map (fun s => 1 / s) S) = length E) by (rewrite map_length, LE; auto).
  assert (Hi : forall i, i < length E -> at1 (map (fun s => 1 / s) S) i = 1 / sqrt (at1 E i)).
  { intros i Hi. rewrite LE in Hi. rewrite at1_map by auto. rewrite AE, Es by auto. reflexivity. }
  destruct adv as [a|].
  - pose proof Hd as (EX & EY & Hr' & Hc').
    assert (D1' : nr a = n) by (rewrite <- EY; auto).
    destruct (Hwe a D1') as (Aw & EAw & Aw1 & Aw2 & Aw3).
    rewrite EAw. cbn [rbind].
    unfold same_shape2. rewrite Hr', Hc', !Nat.eqb_refl. cbn [negb andb].
    change Vw with Xw. rewrite EE. cbn [rbind fst snd]. fold S V E.
    rewrite dot_eq by (cbn [nc conj_T]; rewrite X1; auto). cbn [rbind nr nc ent conj_T].
    apply DMD_core_spec; auto; rewrite ?LE; auto; try apply KP.
    + cbn [nc]. rewrite Aw2, <- EY. auto.
    + rewrite <- LE. apply (kp_pos _ _ _ _ _ KP).
    + cbn [ent]. rewrite X1. fold n N. apply mmul_proper; [reflexivity|].
      rewrite <- EY in Aw3. rewrite D2 in Aw3. rewrite X3, Aw3, Wip. reflexivity.
  - change (but_last_col Vw) with Xw. rewrite EE. cbn [rbind fst snd]. fold S V E.
    rewrite dot_eq by (cbn [nr nc diag conj_T]; rewrite LE; auto). cbn [rbind nr nc ent diag conj_T].
    rewrite dot_eq by (cbn [nr nc]; rewrite LE; auto). cbn [rbind nr nc ent].
    unfold col. rewrite (proj2 (Nat.ltb_lt (nc Vw - 1) (nc Vw))) by lia. cbn [rbind].
    rewrite dot1_eq by (cbn [nc conj_T]; rewrite X1, map_length, seq_length; auto).
    cbn [rbind nr nc ent conj_T].
    cbn [hstack]. cbn [nr but_first_col col_slice as_col]. rewrite map_length, seq_length.
    rewrite Vr, X2, Nat.eqb_refl. cbn [rbind].
    destruct Hd as (H0 & EX & EY).
    apply DMD_core_spec; auto; rewrite ?LE; auto; try apply KP.
    + split; auto.
    + cbn [nc hcat but_first_col col_slice as_col]. fold N. lia.
    + rewrite <- LE. apply (kp_pos _ _ _ _ _ KP).
    + fold n N. assert (HCh : meq N N (madj (wip n W (ent X) (ent X))) (wip n W (ent X) (ent X))).
      { apply wip_adj. auto. }
      assert (Hse : forall i, i < k -> at1 S i * at1 S i = at1 E i) by (intros; rewrite AE; auto).
      assert (VC := dmd_VC N k _ (ent V) (at1 E) (at1 S) HCh GE Hse Rs).
      assert (VV : meq k N (mmul N (madj (ent V)) (mmul k (ent V) (mmul k (mdiag (at1 E)) (madj (ent V)))))
        (mmul N (madj (ent V)) (wip n W (ent X) (ent X)))).
      { rewrite VC, <- (mmul_assoc k N N k (madj (ent V)) (ent V)), OV, mmul_id_l. reflexivity. }
      split. intros i j Hii Hj. cbn [ent hcat but_first_col col_slice nc as_col nr].
      rewrite Vc, Nat.min_id.
      assert (KY : forall a c, a < N -> c < N -> wip n W (ent X) (ent Y) a c =
        mmul n (madj (mmul n Rm (ent X))) (mmul n Rm (ent vecs)) a (1 + c)%nat).
      { intros a c Ha' Hc'. rewrite <- (meq_at _ _ _ _ (Wip N N (ent X) (ent Y)) a c Ha' Hc').
        rewrite EY. reflexivity. }
      destruct (Nat.ltb_spec j (N - 1)) as [Hl|Hl].
      * unfold mmul at 1. cbn [nc].
        transitivity (mmul N (madj (ent V)) (wip n W (ent X) (ent X)) i (1 + j)%nat).
        -- rewrite <- (meq_at _ _ _ _ VV i (1 + j)%nat Hii ltac:(lia)). unfold mmul at 4. apply sum_ext.
           intros l Hl'. cbn [nc]. rewrite (proj2 (Nat.ltb_lt j (N - 1))) by auto. reflexivity.
        -- unfold mmul. apply sum_ext. intros l Hl'. f_equal.
           rewrite KY by auto. rewrite <- (meq_at _ _ _ _ (Wip N N (ent X) (ent X)) l (1 + j)%nat) by lia.
           rewrite EX at 2. reflexivity.
      * transitivity (sum N (fun l => madj (ent V) i l * wip n W (ent X) (ent Y) l j)); [|reflexivity].
        unfold mmul at 1. apply sum_ext. intros l Hl'. f_equal. cbn [nc].
        rewrite (proj2 (Nat.ltb_ge j (N - 1))) by auto.
        unfold at1 at 1. rewrite nth_map_seq by auto. rewrite KY by auto. rewrite X1.
        replace (1 + j)%nat with (nc Vw - 1)%nat by lia.
        unfold mmul at 1. apply sum_ext. intros q Hq. unfold at1. rewrite nth_map_seq by lia.
        unfold madj. rewrite (meq_at _ _ _ _ X3 q l Hq Hl'), (meq_at _ _ _ _ Vw3 q (nc Vw - 1)%nat Hq) by lia.
        reflexivity.
Qed.

(** With an absolute tolerance, kept singular values are not zero. *)
Theorem C26_nonzero {F : sfield} (S S0 : list F) (t : F) rtol :
  all_real S0 -> real t -> kle 0 t -> S = firstn (length S) S0 ->
  (forall i, i < length S -> above (Some t) rtol S0 i) -> forall i, i < length S -> at1 S i <> 0.
Proof.
  intros RS Rt Ht P A i Hi E. destruct (A i Hi) as [G _]. simpl in G.
  rewrite P in E. rewrite at1_firstn in E by auto. rewrite E in G.
  assert (K0 : kabs (0 : F) = 0) by (apply kabs_pos; [apply real_0|right; auto]).
  rewrite K0 in G. apply (lt_not_le t 0); auto using real_0.
Qed.

Theorem C26_distributed {F : sfield} sl chol eig (sqrt : F -> F) vecs adv idx wopt atol rtol m :
  DMD_direct sl chol eig sqrt true vecs adv idx wopt atol rtol m = Raise RuntimeError.
Proof. reflexivity. Qed.

(** ** The two methods agree, and so do sequential and split data *)

(** An array routine looks at shape and entries only. *)
Definition extensional {F : sfield} {B} (f : arr F -> B) : Prop := forall A A', aeq A A' -> f A = f A'.

Definition same_results {F : sfield} (w : list F) (r r' : res (dmd_results F)) : Prop :=
  match r, r' with
  | Ok a, Ok b => d_eigvals a = d_eigvals b /\ d_spectral a = d_spectral b /\
      aeq (d_proj a) (d_proj b) /\ aeq (d_adjoint a) (d_adjoint b) /\
      aeq (d_proj_coeffs a) (d_proj_coeffs b) /\ aeq (d_adv_proj_coeffs a) (d_adv_proj_coeffs b) /\
      d_R a = d_R b /\ d_L a = d_L b /\ d_cvals a = d_cvals b /\ aeq (d_cvecs a) (d_cvecs b) /\
      (~ In 0 w -> aeq (d_exact a) (d_exact b))
  | Raise e, Raise e' => e = e'
  | _, _ => False
  end.

Lemma pick_aeq {F : sfield} (A B : arr F) idx : nr A = nr B -> nc A = nc B ->
  match pick_opt A idx, pick_opt B idx with
  | Ok P, Ok Q => aeq A B -> aeq P Q
  | Raise e, Raise e' => e = IndexError /\ e' = IndexError
  | _, _ => False
  end.
Proof.
  intros Hr Hc. destruct idx as [l|]; simpl; auto. unfold pick_cols. rewrite <- Hc.
  destruct (wrap_all (nc A) l) as [is|e] eqn:E.
  - intros (_ & _ & H). split; auto. split; auto. cbn [nr nc ent]. split. intros i j Hi Hj.
    unfold mcols. apply (meq_at _ _ _ _ H); auto.
    revert is E Hj. clear. intros is E. revert is E j. induction l as [|z l IH]; simpl; intros is E j Hj.
    + injection E as <-. simpl in Hj. lia.
    + destruct (wrap_index (nc A) z) as [i|] eqn:Ei; [|discriminate].
      destruct (wrap_all (nc A) l) as [is'|] eqn:El; [|discriminate]. injection E as <-.
      destruct j as [|j]; simpl.
      * unfold wrap_index in Ei.
        destruct (Z.leb_spec 0 z); destruct (Z.ltb_spec z (Z.of_nat (nc A)));
          destruct (Z.leb_spec (- Z.of_nat (nc A)) z); destruct (Z.ltb_spec z 0);
          simpl in Ei; try discriminate; try injection Ei as <-; lia.
      * apply (IH is'); auto. simpl in Hj. lia.
  - assert (G : forall l e, wrap_all (nc A) l = Raise e -> e = IndexError).
    { clear. induction l as [|z l IH]; simpl; intros e H; [discriminate|].
      destruct (wrap_index (nc A) z); [|congruence].
      destruct (wrap_all (nc A) l) eqn:E; [discriminate|]. injection H as <-. eauto. }
    rewrite (G l e); auto.
Qed.

(** The results are determined by the kept eigenpairs and the eigenvectors of the
    low-order map. *)
Theorem C26_determined {F : sfield} (sqrt : F -> F) X Y W E V V' w M M' R L
    Pe Pp Ps pc apc sp Pe' Pp' Ps' pc' apc' sp' :
  (0 < nc X)%nat -> nr Y = nr X -> nc Y = nc X ->
  meq (nc X) (length E) (ent V) (ent V') ->
  dmd_spec sqrt X Y W E V w M R L Pe Pp Ps pc apc sp ->
  dmd_spec sqrt X Y W E V' w M' R L Pe' Pp' Ps' pc' apc' sp' ->
  sp = sp' /\ aeq Pp Pp' /\ aeq Ps Ps' /\ aeq pc pc' /\ aeq apc apc' /\
  nr Pe = nr Pe' /\ nc Pe = nc Pe' /\
  (forall i j, i < nr X -> j < length E -> at1 w j <> 0 -> ent Pe i j = ent Pe' i j).
Proof.
  intros HN Yr Yc HV' A B.
  pose proof (ds_er _ _ _ _ _ _ _ _ _ _ _ _ _ _ _ _ A) as a1. pose proof (ds_er _ _ _ _ _ _ _ _ _ _ _ _ _ _ _ _ B) as b1.
  pose proof (ds_ec _ _ _ _ _ _ _ _ _ _ _ _ _ _ _ _ A) as a2. pose proof (ds_ec _ _ _ _ _ _ _ _ _ _ _ _ _ _ _ _ B) as b2.
  pose proof (ds_pr _ _ _ _ _ _ _ _ _ _ _ _ _ _ _ _ A) as a3. pose proof (ds_pr _ _ _ _ _ _ _ _ _ _ _ _ _ _ _ _ B) as b3.
  pose proof (ds_pcl _ _ _ _ _ _ _ _ _ _ _ _ _ _ _ _ A) as a4. pose proof (ds_pcl _ _ _ _ _ _ _ _ _ _ _ _ _ _ _ _ B) as b4.
  pose proof (ds_ar _ _ _ _ _ _ _ _ _ _ _ _ _ _ _ _ A) as a5. pose proof (ds_ar _ _ _ _ _ _ _ _ _ _ _ _ _ _ _ _ B) as b5.
  pose proof (ds_ac _ _ _ _ _ _ _ _ _ _ _ _ _ _ _ _ A) as a6. pose proof (ds_ac _ _ _ _ _ _ _ _ _ _ _ _ _ _ _ _ B) as b6.
  pose proof (ds_cr _ _ _ _ _ _ _ _ _ _ _ _ _ _ _ _ A) as a7. pose proof (ds_cr _ _ _ _ _ _ _ _ _ _ _ _ _ _ _ _ B) as b7.
  pose proof (ds_cc _ _ _ _ _ _ _ _ _ _ _ _ _ _ _ _ A) as a8. pose proof (ds_cc _ _ _ _ _ _ _ _ _ _ _ _ _ _ _ _ B) as b8.
  pose proof (ds_dr _ _ _ _ _ _ _ _ _ _ _ _ _ _ _ _ A) as a9. pose proof (ds_dr _ _ _ _ _ _ _ _ _ _ _ _ _ _ _ _ B) as b9.
  pose proof (ds_dc _ _ _ _ _ _ _ _ _ _ _ _ _ _ _ _ A) as a10. pose proof (ds_dc _ _ _ _ _ _ _ _ _ _ _ _ _ _ _ _ B) as b10.
  assert (ERX : meq (nr X) (length E) (reduced sqrt X E (ent V)) (reduced sqrt X E (ent V'))).
  { unfold reduced. rewrite HV'. reflexivity. }
  assert (Ep : aeq Pp Pp').
  { split; [congruence|]. split; [congruence|]. rewrite a3, a4.
    rewrite (ds_proj _ _ _ _ _ _ _ _ _ _ _ _ _ _ _ _ A), (ds_proj _ _ _ _ _ _ _ _ _ _ _ _ _ _ _ _ B), ERX. reflexivity. }
  assert (Es' : meq (nr X) (length E) (ent Ps) (ent Ps')).
  { rewrite (ds_adj _ _ _ _ _ _ _ _ _ _ _ _ _ _ _ _ A), (ds_adj _ _ _ _ _ _ _ _ _ _ _ _ _ _ _ _ B), ERX. reflexivity. }
  assert (Ec : meq (length E) (nc X) (ent pc) (ent pc')).
  { rewrite (ds_coeffs _ _ _ _ _ _ _ _ _ _ _ _ _ _ _ _ A), (ds_coeffs _ _ _ _ _ _ _ _ _ _ _ _ _ _ _ _ B), Es'. reflexivity. }
  split.
  { pose proof (ds_sshape _ _ _ _ _ _ _ _ _ _ _ _ _ _ _ _ A) as s1. pose proof (ds_sshape _ _ _ _ _ _ _ _ _ _ _ _ _ _ _ _ B) as s1'.
    pose proof (ds_slen _ _ _ _ _ _ _ _ _ _ _ _ _ _ _ _ A) as s2. pose proof (ds_slen _ _ _ _ _ _ _ _ _ _ _ _ _ _ _ _ B) as s2'.
    pose proof (ds_spec _ _ _ _ _ _ _ _ _ _ _ _ _ _ _ _ A) as s3. pose proof (ds_spec _ _ _ _ _ _ _ _ _ _ _ _ _ _ _ _ B) as s3'.
    clear - s1 s1' s2 s2' s3 s3' Ec HN.
    destruct sp as [sh fl], sp' as [sh' fl']. cbn [shape flat] in *.
    assert (E1 : sh = sh') by (rewrite s1, s1'; reflexivity). assert (E2 : fl = fl').
    { apply (nth_ext _ _ 0 0); [rewrite s2, s2'; reflexivity|]. intros i Hi. rewrite s2 in Hi.
      rewrite s3, s3' by auto. rewrite (meq_at _ _ _ _ Ec i O Hi HN). reflexivity. }
    rewrite E1, E2. reflexivity. }
  split; [exact Ep|]. split. { split; [congruence|]. split; [congruence|]. rewrite a5, a6. exact Es'. }
  split. { split; [congruence|]. split; [congruence|]. rewrite a7, a8. exact Ec. }
  split.
  { split; [congruence|]. split; [congruence|]. rewrite a9, a10.
    rewrite (ds_adv _ _ _ _ _ _ _ _ _ _ _ _ _ _ _ _ A), (ds_adv _ _ _ _ _ _ _ _ _ _ _ _ _ _ _ _ B), Es'. reflexivity. }
  split; [congruence|]. split; [congruence|].
  intros i j Hi Hj Wj. apply (mul_cancel _ _ _ Wj).
  rewrite (ds_exact _ _ _ _ _ _ _ _ _ _ _ _ _ _ _ _ A i j Hi Hj Wj), (ds_exact _ _ _ _ _ _ _ _ _ _ _ _ _ _ _ _ B i j Hi Hj Wj).
  assert (ERY : meq (nr X) (length E) (mmul (length E) (reduced sqrt Y E (ent V)) (ent R))
                  (mmul (length E) (reduced sqrt Y E (ent V')) (ent R))).
  { unfold reduced. rewrite Yc, HV'. reflexivity. }
  apply (meq_at _ _ _ _ ERY i j Hi Hj).
Qed.
Theorem C26_agree {F : sfield} eig_lapack (sqrt : F -> F) X Y W E V V' idx corr corr' r r' :
  extensional eig_lapack -> (0 < nc X)%nat -> nr Y = nr X -> nc Y = nc X -> nr V = nc X -> nc V = length E -> aeq V V' ->
  dmd_ok eig_lapack sqrt X Y W E V idx corr r -> dmd_ok eig_lapack sqrt X Y W E V' idx corr' r' ->
  exists M, nr M = length E /\ nc M = length E /\
    meq (length E) (length E) (ent M) (low_map sqrt X Y W E (ent V)) /\
    forall w L0 R0, eig_lapack M = Ok (w, L0, R0) -> eig_contract M w L0 R0 ->
      (forall i, i < length E -> pairing (length E) L0 R0 i i <> 0) -> same_results w r r'.
Proof.
  intros Hex HN Yr Yc Vr Vc HV (M & M1 & M2 & M3 & H) (M' & M1' & M2' & M3' & H').
  assert (HV' : meq (nc X) (length E) (ent V) (ent V')).
  { destruct HV as (_ & _ & G). rewrite Vr, Vc in G. exact G. }
  assert (EL : meq (length E) (length E) (low_map sqrt X Y W E (ent V)) (low_map sqrt X Y W E (ent V'))).
  { unfold low_map. rewrite HV'. reflexivity. }
  assert (EM : aeq M M').
  { split; [congruence|]. split; [congruence|]. rewrite M1, M2, M3, M3', EL. reflexivity. }
  exists M. do 3 (split; [auto|]). intros w L0 R0 HL HC HP.
  assert (HL' : eig_lapack M' = Ok (w, L0, R0)) by (rewrite <- HL; symmetry; auto).
  assert (HC' : eig_contract M' w L0 R0).
  { destruct HC as [c1 c2 c3 c4 c5 c6 c7 c8 c9 c10]. rewrite M1 in *.
    split; rewrite ?M1', ?M2'; auto.
    - rewrite M3', <- EL, <- M3. auto.
    - rewrite M3', <- EL, <- M3. auto. }
  destruct (H w L0 R0 HL HC HP) as (L & Pe & Pp & Ps & pc & apc & sp & B & Rr & Sp).
  destruct (H' w L0 R0 HL' HC' HP) as (L' & Pe' & Pp' & Ps' & pc' & apc' & sp' & B' & Rr' & Sp').
  assert (ELL : L' = L).
  { unfold eig_biorthog in B, B'. rewrite HL in B. rewrite HL' in B'. rewrite B in B'. congruence. }
  subst L'. unfold dmd_returns in Rr, Rr'. rewrite Rr, Rr'. clear Rr Rr'.
  assert (a1 := ds_er _ _ _ _ _ _ _ _ _ _ _ _ _ _ _ _ Sp). assert (a2 := ds_ec _ _ _ _ _ _ _ _ _ _ _ _ _ _ _ _ Sp).
  assert (Lw := ds_wl _ _ _ _ _ _ _ _ _ _ _ _ _ _ _ _ Sp).
  destruct (C26_determined sqrt X Y W E V V' w M M' R0 L _ _ _ _ _ _ _ _ _ _ _ _ HN Yr Yc HV' Sp Sp')
    as (Q1 & Q2 & Q3 & Q4 & Q5 & Q6 & Q7 & Q8). clear Sp Sp'.
  pose proof (pick_aeq Pe Pe' idx Q6 Q7) as Qe.
  pose proof (pick_aeq Pp Pp' idx (proj1 Q2) (proj1 (proj2 Q2))) as Qp.
  pose proof (pick_aeq Ps Ps' idx (proj1 Q3) (proj1 (proj2 Q3))) as Qs.
  assert (Ee : ~ In 0 w -> aeq Pe Pe').
  { intros Hz. split; [auto|]. split; [auto|]. rewrite a1, a2. split. intros i j Hi Hj.
    apply Q8; auto. intros E0. apply Hz. rewrite <- E0. apply nth_In. rewrite Lw. auto. }
  clear Q8 HL HL' HC HC' HP H H' M3 M3' EL EM B B'.
  destruct (pick_opt Pe idx) as [e|], (pick_opt Pe' idx) as [e'|]; try contradiction; cbn [rbind];
    [|destruct Qe as [-> ->]; reflexivity].
  destruct (pick_opt Pp idx) as [p|], (pick_opt Pp' idx) as [p'|]; try contradiction; cbn [rbind];
    [|destruct Qp as [-> ->]; reflexivity].
  destruct (pick_opt Ps idx) as [s|], (pick_opt Ps' idx) as [s'|]; try contradiction; cbn [rbind];
    [|destruct Qs as [-> ->]; reflexivity].
  unfold same_results. cbn [d_eigvals d_spectral d_proj d_adjoint d_proj_coeffs d_adv_proj_coeffs d_R d_L
    d_cvals d_cvecs d_exact].
  repeat (split; [solve [auto]|]). auto.
Qed.

(** ** C24: sequential data *)

Lemma rbind_ext {A B} (r : res A) (f g : A -> res B) :
  (forall a, r = Ok a -> f a = g a) -> rbind r f = rbind r g.
Proof. intros H. destruct r; simpl; auto. Qed.
Lemma dot_inv {F : sfield} (A B C : arr F) : dot A B = Ok C -> nc A = nr B /\ nr C = nr A /\ nc C = nc B.
Proof.
  unfold dot. destruct (Nat.eqb_spec (nc A) (nr B)); [|discriminate]. intros H. injection H as <-. auto.
Qed.
Lemma ip_slices {F : sfield} ws (vecs C : arr F) :
  symm_inner_product_array ws vecs = Ok C ->
  symm_inner_product_array ws (but_last_col vecs) = Ok (but_last_col (but_last_row C)) /\
  inner_product_array ws (but_last_col vecs) (but_first_col vecs) = Ok (but_first_col (but_last_row C)).
Proof.
  unfold symm_inner_product_array, inner_product_array. destruct ws as [|w|W].
  - unfold dot. cbn [nr nc conj_T but_last_col but_first_col col_slice].
    rewrite Nat.eqb_refl. intros H. injection H as <-. split; reflexivity.
  - unfold mul_row. cbn [nr nc conj_T but_last_col but_first_col col_slice].
    destruct (nr vecs =? length w)%nat eqn:E1; [|destruct (nr vecs =? 1)%nat eqn:E2; [|destruct (length w =? 1)%nat eqn:E3]];
      cbn [rbind]; unfold dot; cbn [nr nc ent conj_T but_last_col but_first_col col_slice]; try discriminate.
    + rewrite Nat.eqb_refl. intros H. injection H as <-. split; reflexivity.
    + destruct (length w =? nr vecs)%nat; [|discriminate]. intros H. injection H as <-. split; reflexivity.
    + rewrite Nat.eqb_refl. intros H. injection H as <-. split; reflexivity.
  - unfold dot at 1 3 5. cbn [nr nc ent conj_T but_last_col but_first_col col_slice].
    destruct (nc W =? nr vecs)%nat; cbn [rbind]; [|discriminate].
    unfold dot. cbn [nr nc ent conj_T but_last_col but_first_col col_slice].
    destruct (nr vecs =? nr W)%nat; [|discriminate]. intros H. injection H as <-. split; reflexivity.
Qed.
Lemma ip_slices_raise {F : sfield} ws (vecs : arr F) e :
  symm_inner_product_array ws vecs = Raise e ->
  symm_inner_product_array ws (but_last_col vecs) = Raise e.
Proof.
  unfold symm_inner_product_array, inner_product_array. destruct ws as [|w|W].
  - unfold dot. cbn [nr nc conj_T but_last_col col_slice]. rewrite Nat.eqb_refl. discriminate.
  - unfold mul_row. cbn [nr nc conj_T but_last_col col_slice].
    destruct (nr vecs =? length w)%nat eqn:E1; [|destruct (nr vecs =? 1)%nat eqn:E2; [|destruct (length w =? 1)%nat eqn:E3]];
      cbn [rbind]; unfold dot; cbn [nr nc ent conj_T but_last_col col_slice]; auto.
    + rewrite Nat.eqb_refl. discriminate.
    + destruct (length w =? nr vecs)%nat; [discriminate|auto].
    + rewrite Nat.eqb_refl. discriminate.
  - unfold dot at 1 3. cbn [nr nc ent conj_T but_last_col col_slice].
    destruct (nc W =? nr vecs)%nat; cbn [rbind]; auto.
    unfold dot. cbn [nr nc ent conj_T but_last_col col_slice].
    destruct (nr vecs =? nr W)%nat; [discriminate|auto].
Qed.

(** The snapshot method: the same result, whatever the routines return and whether or
    not the call succeeds. *)
Theorem C24_snaps {F : sfield} el argsort eig (sqrt : F -> F) d vecs idx wopt atol rtol m :
  DMD_snaps el argsort eig sqrt d vecs None idx wopt atol rtol m =
  DMD_snaps el argsort eig sqrt d (but_last_col vecs) (Some (but_first_col vecs)) idx wopt atol rtol m.
Proof.
  unfold DMD_snaps. destruct d; [reflexivity|]. apply rbind_ext. intros ws _.
  unfold DMD_correlations.
  assert (SS : same_shape2 (but_last_col vecs) (but_first_col vecs) = true).
  { unfold same_shape2. simpl. rewrite Nat.eqb_refl. apply Nat.eqb_eq. lia. }
  rewrite SS. cbn [negb].
  destruct (symm_inner_product_array ws vecs) as [C|e] eqn:EC.
  2: { rewrite (ip_slices_raise _ _ _ EC). cbn [rbind]. reflexivity. }
  destruct (ip_slices _ _ _ EC) as [-> ->]. cbn [rbind fst snd].
  assert (Kc : nc (but_first_col (but_last_row C)) = (nc vecs - 1)%nat).
  { assert (nc C = nc vecs); [|simpl; lia].
    revert EC. unfold symm_inner_product_array, inner_product_array.
    destruct ws as [|w|W]; [|unfold mul_row|].
    - intros H. apply dot_inv in H. apply H.
    - destruct (_ =? _)%nat; [|destruct (_ =? _)%nat; [|destruct (_ =? _)%nat]]; cbn [rbind]; try discriminate;
        intros H; apply dot_inv in H; apply H.
    - destruct (dot W vecs) as [B|] eqn:EB; cbn [rbind]; [|discriminate].
      intros H. apply dot_inv in H. apply dot_inv in EB. destruct H as (_ & _ & ->). apply EB. }
  apply rbind_ext. intros ev _. unfold DMD_core.
  set (V := max_cols m (length (fst ev)) (snd ev)) in *.
  apply rbind_ext; intros VD EVD. apply rbind_ext; intros KVD EKVD. apply rbind_ext; intros a3 H3.
  apply rbind_ext; intros a4 H4. apply rbind_ext; intros a5 H5. apply rbind_ext; intros a6 H6.
  apply rbind_ext; intros proj Hproj. apply rbind_ext; intros exact Hexact. apply rbind_ext; intros a9 H9.
  apply rbind_ext; intros adjoint Hadj. apply rbind_ext; intros v0 Hv0. apply rbind_ext; intros a12 H12.
  apply rbind_ext; intros a13 H13. apply rbind_ext; intros a14 H14. apply rbind_ext; intros a15 H15.
  apply rbind_ext; intros a16 H16. apply rbind_ext; intros a17 H17. apply rbind_ext; intros a18 H18.
  assert (NV : nr V = (nc vecs - 1)%nat).
  { apply dot_inv in EVD. apply dot_inv in EKVD. destruct EVD as (_ & E & _), EKVD as (E' & _). congruence. }
  assert (NP : (0 < nr V)%nat).
  { unfold row in Hv0. destruct (Nat.ltb_spec 0 (nr V)); [auto|discriminate]. }
  assert (NE : nr exact = (nc vecs - 1)%nat).
  { apply dot_inv in Hproj. apply dot_inv in Hexact. destruct Hproj as (_ & E & _), Hexact as (_ & E' & _).
    congruence. }
  assert (EM : DMD_modes vecs None idx exact proj adjoint =
    DMD_modes (but_last_col vecs) (Some (but_first_col vecs)) idx exact proj adjoint); [|rewrite EM; reflexivity].
  unfold DMD_modes. rewrite NE. cbn [nc but_last_col col_slice].
  rewrite (proj2 (Nat.eqb_eq (nc vecs) (nc vecs - 1 + 1))) by lia.
  rewrite (proj2 (Nat.eqb_neq (Nat.min (nc vecs - 1) (nc vecs) - 0) (nc vecs - 1 + 1))) by lia.
  rewrite (proj2 (Nat.eqb_eq (Nat.min (nc vecs - 1) (nc vecs) - 0) (nc vecs - 1))) by lia. reflexivity.
Qed.

Lemma weighted_slices {F : sfield} chol (sqrt : F -> F) wopt vecs adv Xw :
  weighted_data chol sqrt wopt vecs None = Ok Xw ->
  weighted_data chol sqrt wopt (but_last_col vecs) (Some adv) = Ok Xw.
Proof.
  unfold weighted_data, sqrt_weights.
  destruct wopt as [[[|a [|b [|c s]]] w]|]; simpl; auto.
  - unfold dot. cbn [nr nc diag but_last_col col_slice].
    destruct (_ =? _)%nat; cbn [rbind]; [|discriminate]. auto.
  - destruct (chol (as_2d a b w)) as [L|]; cbn [rbind]; [|discriminate].
    unfold dot. cbn [nr nc conj_T but_last_col col_slice].
    destruct (_ =? _)%nat; cbn [rbind]; [|discriminate]. auto.
Qed.

(** The direct method: the cross-correlation array is built differently (from the
    truncated factors), the results are the same. *)
Theorem C24_direct {F : sfield} svd_lapack chol eig_lapack (sqrt : F -> F) vecs idx wopt W :
  extensional eig_lapack -> (1 < nc vecs)%nat -> root_ok chol sqrt (nr vecs) wopt W ->
  exists Xw, weighted_data chol sqrt wopt vecs None = Ok Xw /\
    forall U0 S0 Vh0 atol rtol m,
      svd_lapack Xw = Ok (U0, S0, Vh0) -> svd_contract Xw U0 S0 Vh0 ->
      tol_real atol -> tol_real rtol -> rtol = None \/ S0 <> [] ->
      (forall s, In s S0 -> sqrt_ok sqrt (s * s)) ->
      exists S V,
        (exists U S' V', svd svd_lapack Xw atol rtol = Ok (U, S', V') /\
           S = max_list m S' /\ V = max_cols m (length S') V') /\
        S = firstn (length S) S0 /\
        (forall i, i < length S0 -> (i < length S <-> above atol rtol S0 i /\ under m i)) /\
        ((forall i, i < length S -> at1 S i <> 0) ->
         exists M, nr M = length S /\ nc M = length S /\
           meq (length S) (length S) (ent M)
             (low_map sqrt (but_last_col vecs) (but_first_col vecs) W (map (fun s => s * s) S) (ent V)) /\
           forall w L0 R0, eig_lapack M = Ok (w, L0, R0) -> eig_contract M w L0 R0 ->
             (forall i, i < length S -> pairing (length S) L0 R0 i i <> 0) ->
             same_results w
               (DMD_direct svd_lapack chol eig_lapack sqrt false vecs None idx wopt atol rtol m)
               (DMD_direct svd_lapack chol eig_lapack sqrt false (but_last_col vecs)
                  (Some (but_first_col vecs)) idx wopt atol rtol m)).
Proof.
  intros Hex HN HW. set (X := but_last_col vecs). set (Y := but_first_col vecs).
  assert (D1 : dmd_data vecs None X Y) by (split; [lia|auto]).
  assert (D2 : dmd_data X (Some Y) X Y) by (split; [auto|split; [auto|split; simpl; lia]]).
  assert (NX : (0 < nc X)%nat) by (simpl; lia).
  destruct (C26_DMD_direct svd_lapack chol eig_lapack sqrt vecs None X Y idx wopt W D1 NX HW)
    as (Xw & R1 & E1 & _ & _ & _ & _ & H1).
  destruct (C26_DMD_direct svd_lapack chol eig_lapack sqrt X (Some Y) X Y idx wopt W D2 NX HW)
    as (Xw2 & R2 & E2 & _ & _ & _ & _ & H2).
  pose proof (weighted_slices _ _ _ _ Y _ E1) as E2'. fold X in E2'.
  assert (EX : Xw2 = Xw) by congruence. subst Xw2. clear E2 E2'.
  exists Xw. split; auto. intros U0 S0 Vh0 atol rtol m HL HC Ha Hr Hne Hsq.
  destruct (H1 U0 S0 Vh0 atol rtol m HL HC Ha Hr Hne Hsq) as (S & V & (U & S' & V' & EE & ES & EV) & P1 & P2 & P3).
  destruct (H2 U0 S0 Vh0 atol rtol m HL HC Ha Hr Hne Hsq) as (S2 & V2 & (U' & S'' & V'' & EE' & ES' & EV') & _ & _ & P3').
  rewrite EE in EE'. injection EE' as <- <- <-. rewrite <- ES in ES'. subst S2. rewrite <- EV in EV'. subst V2.
  exists S, V. split; [exists U, S', V'; auto|]. split; auto. split; auto. intros Hz. destruct (P3 Hz) as [KP O1]. destruct (P3' Hz) as [_ O2].
  assert (Yr : nr Y = nr X) by reflexivity. assert (Yc : nc Y = nc X) by (simpl; lia).
  destruct (C26_agree eig_lapack sqrt X Y W (map (fun s => s * s) S) V V idx None None _ _ Hex NX Yr Yc
    (kp_r _ _ _ _ _ KP) (kp_c _ _ _ _ _ KP) (aeq_refl V) O1 O2) as (M & G1 & G2 & G3 & G4).
  rewrite map_length in G1, G2, G3, G4. exists M. auto.
Qed.
