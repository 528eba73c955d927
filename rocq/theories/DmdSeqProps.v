(** Property C68: the modes, eigenvalues and coefficients that DMD returns reproduce the data
    and, for data from a linear map, predict what comes after. *)
From Coq Require Import List Arith Lia Bool ZArith Field Ring Setoid Morphisms Permutation.
Import ListNotations.
From Verif Require Import Prelude Field FieldInst Matrix NdArray DecompModel DecompProofs DecompProps
  VSArraysModel VSArraysProofs VSArraysProps PodModel PodProofs PodProps BpodModel DmdModel DmdProofs DmdCore DmdSnaps DmdProps
  DmdFit DmdExamples.
Open Scope nat_scope.
Open Scope k_scope.

(** x multiplied by itself j times. *)
Fixpoint kpow {F : sfield} (x : F) (j : nat) : F := match j with O => 1 | S j => x * kpow x j end.
(** The value at step [j] of the expansion in modes [P] with eigenvalues [w] and first
    coefficients [c]. *)
Definition expansion {F : sfield} (k : nat) (P : mat F) (w : list F) (c : nat -> F) (j i : nat) : F :=
  sum k (fun l => P i l * (kpow (at1 w l) j * c l)).

Section Seq.
Context {F : sfield} (sqrt : F -> F) (X Y : arr F) (W : mat F) (E : list F) (V : arr F)
  (w : list F) (M R L Pe Pp Ps pc apc : arr F) (sp : nd F).
Context (HW : hermitian (nr X) W) (HK : dmd_kept sqrt X W E V).
Context (HS : dmd_spec sqrt X Y W E V w M R L Pe Pp Ps pc apc sp).
Context (Yr : nr Y = nr X) (Yc : nc Y = nc X).
Notation n := (nr X).
Notation N := (nc X).
Notation k := (length E).
Notation s := (fun i => sqrt (at1 E i)).
Notation D := (mdiag (fun i => 1 / sqrt (at1 E i))).
Notation K := (wip n W (ent X) (ent Y)).
Add Field Seqfield : (k_field F).

Lemma seq_pair : NoDup w -> meq k k (mmul k (ent R) (madj (ent L))) mid.
Proof.
  intros ND. apply left_inverse_right.
  pose proof (C22_identity _ _ _ _ _ _ _ _ _ _ _ _ _ _ _ _ HS ND) as [H _].
  rewrite <- (ds_bi_proj _ _ _ _ _ _ _ _ _ _ _ _ _ _ _ _ HS). exact H.
Qed.
Lemma seq_pc : meq k N (ent pc) (mmul k (madj (ent L)) (mmul k (mdiag s) (madj (ent V)))).
Proof.
  destruct (fit_s sqrt X W E V HK) as (S1 & S2 & S3). pose proof (fit_D sqrt X W E V HK) as ED.
  rewrite (ds_coeffs _ _ _ _ _ _ _ _ _ _ _ _ _ _ _ _ HS).
  rewrite (ds_adj _ _ _ _ _ _ _ _ _ _ _ _ _ _ _ _ HS).
  assert (EC : meq k N (mmul N (madj (ent V)) (wip n W (ent X) (ent X))) (mmul k (mdiag (at1 E)) (madj (ent V)))).
  { apply (dmd_VC N k _ (ent V) (at1 E) s); auto; [apply wip_adj; auto|apply HK]. }
  unfold reduced.
  transitivity (mmul k (madj (ent L)) (mmul k (madj D) (mmul N (madj (ent V)) (wip n W (ent X) (ent X))))).
  { unfold wip. rewrite !madj_mmul, !mmul_assoc. reflexivity. }
  rewrite ED, EC, <- (mmul_assoc k N k k D (mdiag (at1 E))), mmul_diag_diag.
  apply mmul_proper; [reflexivity|]. apply mmul_proper; [|reflexivity]. apply mdiag_ext. intros i Hi.
  pose proof (S1 i Hi) as Q. pose proof (S3 i Hi) as Z. cbv beta in Q, Z |- *.
  set (x := sqrt (at1 E i)) in *. rewrite <- Q. field. auto.
Qed.

(** The projected modes with proj_coeffs give the data back, restricted to the directions kept. *)
Theorem C68_reconstruct : NoDup w -> meq n N (mmul k (ent Pp) (ent pc)) (kept_data X k (ent V)).
Proof.
  intros ND. destruct (fit_s sqrt X W E V HK) as (S1 & S2 & S3).
  rewrite (ds_proj _ _ _ _ _ _ _ _ _ _ _ _ _ _ _ _ HS), seq_pc. unfold reduced, kept_data.
  rewrite !mmul_assoc, <- (mmul_assoc k N k k (ent R) (madj (ent L))), (seq_pair ND), mmul_id_l.
  rewrite <- (mmul_assoc k N k k D (mdiag s)), mmul_diag_diag.
  rewrite (mdiag_1 k); [|intros; field; auto]. rewrite mmul_id_l. reflexivity.
Qed.

(** adv_proj_coeffs are proj_coeffs times the eigenvalues, if the advanced data have no part
    outside the directions kept (for one, if as many directions as vectors are kept). *)
Theorem C68_advance : meq n N (kept_data Y k (ent V)) (ent Y) ->
  meq k N (ent apc) (mmul k (mdiag (at1 w)) (ent pc)).
Proof.
  intros HY. destruct (fit_s sqrt X W E V HK) as (S1 & S2 & S3). pose proof (fit_D sqrt X W E V HK) as ED.
  unfold kept_data in HY. rewrite Yc in HY.
  rewrite (ds_adv _ _ _ _ _ _ _ _ _ _ _ _ _ _ _ _ HS), seq_pc.
  rewrite (ds_adj _ _ _ _ _ _ _ _ _ _ _ _ _ _ _ _ HS). unfold reduced.
  rewrite <- HY at 1.
  transitivity (mmul k (mmul k (madj (ent L)) (low_map sqrt X Y W E (ent V))) (mmul k (mdiag s) (madj (ent V)))).
  - unfold wip, low_map. rewrite !madj_mmul, ED. unfold wip. rewrite !mmul_assoc.
    assert (DS : meq k k (mmul k D (mdiag s)) mid).
    { rewrite mmul_diag_diag. apply mdiag_1. intros; field; auto. }
    rewrite <- (mmul_assoc k N k k D (mdiag s)), DS, mmul_id_l. reflexivity.
  - rewrite (fit_L sqrt X Y W E V w M R L Pe Pp Ps pc apc sp HS), !mmul_assoc. reflexivity.
Qed.
Lemma full_kept (Z : arr F) : nc Z = N -> k = N -> meq (nr Z) N (kept_data Z k (ent V)) (ent Z).
Proof.
  intros HZ Hk. unfold kept_data. rewrite HZ.
  pose proof (kp_orth _ _ _ _ _ HK) as HV. rewrite Hk in *.
  rewrite (left_inverse_right N (ent V) (madj (ent V)) HV), mmul_id_r. reflexivity.
Qed.

(** One sequence: [x 0], ..., [x N], the data being all but the last and all but the first. *)
Context (x : nat -> nat -> F) (* step, component *).
Context (Xx : forall i j, i < n -> j < N -> ent X i j = x j i) (Yx : forall i j, i < n -> j < N -> ent Y i j = x (S j) i).

Lemma seq_shift : meq n N (kept_data Y k (ent V)) (ent Y) ->
  forall l j, l < k -> j < N -> ent pc l j = kpow (at1 w l) j * ent pc l O.
Proof.
  intros HY l j Hl. induction j as [|j IH]; intros Hj; cbn [kpow]; [ring|].
  assert (A : ent apc l j = at1 w l * ent pc l j).
  { rewrite (meq_at _ _ _ _ (C68_advance HY) l j Hl) by lia.
    pose proof (mmul_diag_l k N (at1 w) (ent pc)) as G. rewrite (meq_at _ _ _ _ G l j Hl) by lia. reflexivity. }
  assert (B : ent apc l j = ent pc l (S j)).
  { rewrite (meq_at _ _ _ _ (ds_adv _ _ _ _ _ _ _ _ _ _ _ _ _ _ _ _ HS) l j Hl) by lia.
    rewrite (meq_at _ _ _ _ (ds_coeffs _ _ _ _ _ _ _ _ _ _ _ _ _ _ _ _ HS) l (S j) Hl Hj).
    unfold wip, mmul. apply sum_ext. intros i Hi. f_equal. apply sum_ext. intros i' Hi'. f_equal.
    rewrite Yx, Xx by (auto; lia). reflexivity. }
  rewrite <- B, A, IH by lia. ring.
Qed.
(** Linearly independent vectors (or no part of the advanced vectors outside the directions
    kept, and nothing truncated), distinct eigenvalues: every vector but the last is the
    expansion in the projected modes, whose first coefficients have the magnitudes
    spectral_coeffs. *)
Theorem C68_sequence : NoDup w ->
  k = N \/ meq n N (kept_data X k (ent V)) (ent X) /\ meq n N (kept_data Y k (ent V)) (ent Y) ->
  forall j i, j < N -> i < n -> x j i = expansion k (ent Pp) w (fun l => ent pc l O) j i.
Proof.
  intros ND HH j i Hj Hi.
  assert (HX : meq n N (kept_data X k (ent V)) (ent X)) by (destruct HH as [E1|[H _]]; auto; apply full_kept; auto).
  assert (HY : meq n N (kept_data Y k (ent V)) (ent Y)).
  { destruct HH as [E1|[_ H]]; auto. rewrite <- Yr at 1. apply full_kept; auto. }
  rewrite <- Xx by auto. rewrite <- (meq_at _ _ _ _ HX i j Hi Hj), <- (meq_at _ _ _ _ (C68_reconstruct ND) i j Hi Hj).
  unfold expansion, mmul. apply sum_ext. intros l Hl. f_equal. apply (seq_shift HY l j Hl Hj).
Qed.

(** The last vector: the expansion at step N is its orthogonal projection, the difference is
    orthogonal to the adjoint modes and to all vectors but the last. *)
Lemma seq_last : NoDup w -> k = N -> 0 < N -> forall l, l < k ->
  wip n W (ent Ps) (fun i _ => x N i - expansion k (ent Pp) w (fun l => ent pc l O) N i) l O = 0.
Proof.
  intros ND Hk HN l Hl.
  assert (HY : meq n N (kept_data Y k (ent V)) (ent Y)) by (rewrite <- Yr at 1; apply full_kept; auto).
  assert (A : ent apc l (N - 1)%nat = kpow (at1 w l) N * ent pc l O).
  { pose proof (mmul_diag_l k N (at1 w) (ent pc)) as G.
    rewrite (meq_at _ _ _ _ (C68_advance HY) l (N - 1)%nat Hl), (meq_at _ _ _ _ G l (N - 1)%nat Hl) by lia.
    rewrite (seq_shift HY l (N - 1)%nat Hl) by lia. replace N with (S (N - 1)) at 2 by lia. cbn [kpow]. ring. }
  assert (B : ent apc l (N - 1)%nat = wip n W (ent Ps) (fun i _ => x N i) l O).
  { rewrite (meq_at _ _ _ _ (ds_adv _ _ _ _ _ _ _ _ _ _ _ _ _ _ _ _ HS) l (N - 1)%nat Hl) by lia.
    unfold wip, mmul. apply sum_ext. intros i Hi. f_equal. apply sum_ext. intros i' Hi'. f_equal.
    rewrite Yx by (auto; lia). replace (S (N - 1)) with N by lia. reflexivity. }
  assert (C : wip n W (ent Ps) (fun i _ => expansion k (ent Pp) w (fun l => ent pc l O) N i) l O = kpow (at1 w l) N * ent pc l O).
  { set (c := fun l (_ : nat) => kpow (at1 w l) N * ent pc l O).
    change (fun i (_ : nat) => expansion k (ent Pp) w (fun l => ent pc l O) N i) with (mmul k (ent Pp) c).
    pose proof (C22_identity _ _ _ _ _ _ _ _ _ _ _ _ _ _ _ _ HS ND) as [H _].
    assert (G : meq k 1 (wip n W (ent Ps) (mmul k (ent Pp) c)) c).
    { rewrite <- wip_mul_r, H, mmul_id_l. reflexivity. }
    rewrite (meq_at _ _ _ _ G l O Hl) by lia. reflexivity. }
  transitivity (wip n W (ent Ps) (fun i _ => x N i) l O -
    wip n W (ent Ps) (fun i _ => expansion k (ent Pp) w (fun l => ent pc l O) N i) l O).
  - unfold wip, mmul. rewrite <- sum_sub. apply sum_ext. intros i Hi.
    transitivity (madj (ent Ps) l i * (sum n (fun l => W i l * x N l) -
      sum n (fun l => W i l * expansion k (ent Pp) w (fun l => ent pc l O) N l))); [|ring].
    f_equal. rewrite <- sum_sub. apply sum_ext. intros i' Hi'. ring.
  - rewrite <- B, A, C. ring.
Qed.
Theorem C68_last : NoDup w -> k = N -> 0 < N ->
  let rest := fun i (_ : nat) => x N i - expansion k (ent Pp) w (fun l => ent pc l O) N i in
  (forall l, l < k -> wip n W (ent Ps) rest l O = 0) /\ (forall j, j < N -> wip n W (ent X) rest j O = 0).
Proof.
  intros ND Hk HN rest. pose proof (seq_last ND Hk HN) as H. fold rest in H. split; [exact H|].
  destruct (fit_s sqrt X W E V HK) as (S1 & S2 & S3).
  set (T := mmul k (madj (ent R)) (mmul k (mdiag s) (madj (ent V)))).
  assert (EX : meq n N (ent X) (mmul k (ent Ps) T)).
  { rewrite (ds_adj _ _ _ _ _ _ _ _ _ _ _ _ _ _ _ _ HS). unfold T, reduced.
    assert (LR : meq k k (mmul k (ent L) (madj (ent R))) mid).
    { transitivity (madj (mmul k (ent R) (madj (ent L)))).
      - rewrite madj_mmul, madj_madj. reflexivity.
      - rewrite (seq_pair ND), madj_mid. reflexivity. }
    rewrite !mmul_assoc, <- (mmul_assoc k N k k (ent L) (madj (ent R))), LR, mmul_id_l.
    rewrite <- (mmul_assoc k N k k (mdiag _) (mdiag s)), mmul_diag_diag.
    rewrite (mdiag_1 k); [|intros; field; auto]. rewrite mmul_id_l.
    symmetry. apply (full_kept X); auto. }
  intros j Hj.
  assert (G : meq N 1 (wip n W (ent X) rest) (mmul k (madj T) (wip n W (ent Ps) rest))).
  { rewrite EX at 1. apply wip_mul_l. }
  rewrite (meq_at _ _ _ _ G j O Hj) by lia. unfold mmul at 1. apply sum_0. intros l Hl. rewrite H by auto. ring.
Qed.

(** Data from a linear map with invariant span, nothing truncated: the expansion gives every
    later step too. *)
Theorem C68_predict (A0 B : mat F) : NoDup w ->
  meq n N (ent Y) (mmul n A0 (ent X)) -> meq n N (mmul n A0 (ent X)) (mmul N (ent X) B) ->
  meq n N (kept_data X k (ent V)) (ent X) -> 0 < N ->
  (forall j i, i < n -> x (S j) i = sum n (fun i' => A0 i i' * x j i')) ->
  forall j i, i < n -> x j i = expansion k (ent Pp) w (fun l => ent pc l O) j i.
Proof.
  intros ND HY HB HX HN Hx.
  pose proof (C23_invariant sqrt X Y W E V w M R L Pe Pp Ps pc apc sp HW HK HS Yc A0 B HY HB HX) as [G _].
  induction j as [|j IH]; intros i Hi.
  - rewrite <- Xx by auto. rewrite <- (meq_at _ _ _ _ HX i O Hi HN), <- (meq_at _ _ _ _ (C68_reconstruct ND) i O Hi HN).
    unfold expansion, mmul. apply sum_ext. intros l Hl. cbn [kpow]. ring.
  - rewrite Hx by auto.
    transitivity (sum n (fun i' => A0 i i' * expansion k (ent Pp) w (fun l => ent pc l O) j i')).
    { apply sum_ext. intros i' Hi'. rewrite IH by auto. reflexivity. }
    unfold expansion.
    transitivity (sum n (fun i' => sum k (fun l => A0 i i' * ent Pp i' l * (kpow (at1 w l) j * ent pc l O)))).
    { apply sum_ext. intros i' Hi'. rewrite <- sum_mul_l. apply sum_ext. intros l Hl. ring. }
    rewrite sum_swap. apply sum_ext. intros l Hl. rewrite sum_mul_r.
    change (sum n (fun i' => A0 i i' * ent Pp i' l)) with (mmul n A0 (ent Pp) i l).
    rewrite mmul_diag_r in G. rewrite (meq_at _ _ _ _ G i l Hi Hl). cbn [kpow]. ring.
Qed.
End Seq.

(** ** The functions *)

(** What the functions for arrays return for a sequence of vectors, the columns of [vecs]. *)
Definition reproduces {F : sfield} (sqrt : F -> F) (vecs : arr F) (w : list F) (d : dmd_results F) : Prop :=
  d_eigvals d = w /\
  (forall j i, j < nc vecs - 1 -> i < nr vecs ->
     ent vecs i j = expansion (length w) (ent (d_proj d)) w (fun l => ent (d_proj_coeffs d) l O) j i) /\
  (forall l, l < length w -> nth l (flat (d_spectral d)) 0 =
     sqrt ((ent (d_proj_coeffs d) l O)^* * ent (d_proj_coeffs d) l O)).
Lemma C68_returned {F : sfield} eig_lapack (sqrt : F -> F) (vecs : arr F) W E V corr r :
  hermitian (nr vecs) W -> dmd_kept sqrt (but_last_col vecs) W E V -> length E = (nc vecs - 1)%nat -> 2 <= nc vecs ->
  dmd_ok eig_lapack sqrt (but_last_col vecs) (but_first_col vecs) W E V None corr r ->
  exists M, nr M = length E /\ nc M = length E /\
    meq (length E) (length E) (ent M) (low_map sqrt (but_last_col vecs) (but_first_col vecs) W E (ent V)) /\
    forall w L0 R0, eig_lapack M = Ok (w, L0, R0) -> eig_contract M w L0 R0 ->
      (forall i, i < length E -> pairing (length E) L0 R0 i i <> 0) -> NoDup w ->
      exists d, r = Ok d /\ reproduces sqrt vecs w d.
Proof.
  intros HW HK HE H2 (M & M1 & M2 & M3 & HM). exists M. do 3 (split; [auto|]).
  intros w L0 R0 He Hc Hp ND. destruct (HM w L0 R0 He Hc Hp) as (L & Pe & Pp & Ps & pc & apc & sp & _ & G1 & G2).
  unfold dmd_returns in G1. cbn [pick_opt rbind] in G1. eexists. split; [exact G1|].
  assert (NX : nc (but_last_col vecs) = (nc vecs - 1)%nat) by (unfold but_last_col, col_slice; cbn [nc]; lia).
  assert (NY : nc (but_first_col vecs) = (nc vecs - 1)%nat) by (unfold but_first_col, col_slice; cbn [nc]; lia).
  pose proof (ds_wl _ _ _ _ _ _ _ _ _ _ _ _ _ _ _ _ G2) as Lw.
  split; [reflexivity|]. cbn [d_proj d_proj_coeffs d_spectral]. rewrite Lw. split.
  - rewrite <- NX. apply (C68_sequence sqrt (but_last_col vecs) (but_first_col vecs) W E V w M R0 L Pe Pp Ps pc apc sp HW HK G2
      eq_refl ltac:(congruence) (fun j i => ent vecs i j)); auto. left. congruence.
  - apply G2.
Qed.

(** compute_DMD_arrays_snaps_method. *)
Theorem C68_snaps {F : sfield} eigh_lapack argsort eig_lapack (sqrt : F -> F) (vecs : arr F) wopt ws :
  2 <= nc vecs -> set_weights wopt = Ok ws -> wfits (nr vecs) ws -> hermitian (nr vecs) (wmat ws) ->
  exists C K, DMD_correlations ws vecs None = Ok (C, K) /\ nr C = (nc vecs - 1)%nat /\ nc C = (nc vecs - 1)%nat /\
    meq (nc vecs - 1) (nc vecs - 1) (ent C) (wip (nr vecs) (wmat ws) (ent vecs) (ent vecs)) /\
    forall w0 V0 (t : F) rtol vals cvecs,
      eigh_lapack C = Ok (w0, V0) -> eigh_contract C w0 V0 ->
      argsort_contract (map kabs w0) (argsort (map kabs w0)) ->
      real t -> kle 0 t -> tol_real rtol -> (forall e, In e w0 -> klt_p 0 e -> sqrt_ok sqrt e) ->
      eigh eigh_lapack argsort C (Some t) rtol true = Ok (vals, cvecs) ->
      (* no eigenvalue is dropped *)
      length vals = (nc vecs - 1)%nat ->
      exists M, nr M = length vals /\ nc M = length vals /\ meq (length vals) (length vals) (ent M)
          (low_map sqrt (but_last_col vecs) (but_first_col vecs) (wmat ws) vals (ent cvecs)) /\
        forall w L0 R0, eig_lapack M = Ok (w, L0, R0) -> eig_contract M w L0 R0 ->
          (forall i, i < length vals -> pairing (length vals) L0 R0 i i <> 0) -> NoDup w ->
          exists d, DMD_snaps eigh_lapack argsort eig_lapack sqrt false vecs None None wopt (Some t) rtol None = Ok d /\
            reproduces sqrt vecs w d.
Proof.
  intros H2 Hw Hf HH.
  assert (NX : nc (but_last_col vecs) = (nc vecs - 1)%nat) by (unfold but_last_col, col_slice; cbn [nc]; lia).
  destruct (C22_DMD_snaps eigh_lapack argsort eig_lapack sqrt vecs None (but_last_col vecs) (but_first_col vecs) None wopt ws)
    as (C & K & EC & Cr & Cc & HC & _ & H); auto.
  { split; [lia|auto]. }
  { lia. }
  exists C, K. split; [exact EC|]. do 2 (split; [congruence|]). split; [rewrite <- NX; exact HC|].
  intros w0 V0 t rtol vals cvecs He Hc Ha Ht Ht0 Hr Hs Ev Lv.
  destruct (H w0 V0 t rtol None He Hc Ha Ht Ht0 Hr Hs) as (atol' & w1 & E & V & _ & (vals' & cvecs' & Ev' & -> & ->) & _ & _ & _ & _ & HK & HO).
  rewrite Ev in Ev'. injection Ev' as <- <-. cbn [max_list max_cols] in HK, HO.
  destruct (C68_returned eig_lapack sqrt vecs (wmat ws) vals cvecs (Some (C, K)) _ HH HK Lv H2 HO) as (M & M1 & M2 & M3 & HM).
  exists M. auto.
Qed.

(** compute_DMD_arrays_direct_method. *)
Theorem C68_direct {F : sfield} svd_lapack chol eig_lapack (sqrt : F -> F) (vecs : arr F) wopt W :
  2 <= nc vecs -> hermitian (nr vecs) W -> root_ok chol sqrt (nr vecs) wopt W ->
  exists Xw, weighted_data chol sqrt wopt vecs None = Ok Xw /\ nr Xw = nr vecs /\ nc Xw = (nc vecs - 1)%nat /\
    forall U0 S0 Vh0 atol rtol U S V,
      svd_lapack Xw = Ok (U0, S0, Vh0) -> svd_contract Xw U0 S0 Vh0 ->
      tol_real atol -> tol_real rtol -> rtol = None \/ S0 <> [] ->
      (forall s, In s S0 -> sqrt_ok sqrt (s * s)) ->
      svd svd_lapack Xw atol rtol = Ok (U, S, V) ->
      (* no singular value is dropped, none is zero *)
      length S = (nc vecs - 1)%nat -> (forall i, i < length S -> at1 S i <> 0) ->
      exists M, nr M = length S /\ nc M = length S /\ meq (length S) (length S) (ent M)
          (low_map sqrt (but_last_col vecs) (but_first_col vecs) W (map (fun s => s * s) S) (ent V)) /\
        forall w L0 R0, eig_lapack M = Ok (w, L0, R0) -> eig_contract M w L0 R0 ->
          (forall i, i < length S -> pairing (length S) L0 R0 i i <> 0) -> NoDup w ->
          exists d, DMD_direct svd_lapack chol eig_lapack sqrt false vecs None None wopt atol rtol None = Ok d /\
            reproduces sqrt vecs w d.
Proof.
  intros H2 HH Hr.
  assert (NX : nc (but_last_col vecs) = (nc vecs - 1)%nat) by (unfold but_last_col, col_slice; cbn [nc]; lia).
  destruct (C26_DMD_direct svd_lapack chol eig_lapack sqrt vecs None (but_last_col vecs) (but_first_col vecs) None wopt W)
    as (Xw & Rt & EX & X1 & X2 & _ & _ & H); auto.
  { split; [lia|auto]. }
  { lia. }
  exists Xw. split; [exact EX|]. split; [exact X1|]. split; [congruence|].
  intros U0 S0 Vh0 atol rtol U S V He Hc Ha Hrt Hn Hs Ev Lv Hz.
  destruct (H U0 S0 Vh0 atol rtol None He Hc Ha Hrt Hn Hs) as (S1 & V1 & (U' & S' & V' & Ev' & -> & ->) & _ & _ & HO).
  rewrite Ev in Ev'. injection Ev' as <- <- <-. cbn [max_list max_cols] in HO.
  destruct (HO Hz) as [HK HO'].
  destruct (C68_returned eig_lapack sqrt vecs W (map (fun s => s * s) S) V None _ HH HK
    (eq_trans (map_length _ S) Lv) H2 HO') as (M & M1 & M2 & M3 & HM).
  rewrite map_length in *. exists M. auto.
Qed.

(** ** Instances: the sequence [ex_seq] of three vectors and the map [ex_A0] *)
Lemma ex_lw_nodup : NoDup ex_lw.
Proof.
  repeat constructor; simpl; intros H; [|exact H].
  assert (N : forall a b : QI, keqb a b = false -> a <> b) by (intros; apply keqb_false; auto).
  destruct H as [H|[]]; revert H; apply N; vm_compute; reflexivity.
Qed.
Lemma ex_kept_full (V Z : arr QI) : nc Z = 2%nat -> dmd_kept ex_sqrt (but_last_col ex_seq) ex_W1 ex_E V ->
  meq (nr Z) 2 (kept_data Z 2 (ent V)) (ent Z).
Proof. intros HZ HK. apply (full_kept ex_sqrt (but_last_col ex_seq) ex_W1 ex_E V HK Z); auto. Qed.
(** The vectors that the map gives from the first one. *)
Fixpoint ex_x (j i : nat) : QI :=
  match j with O => ent ex_seq i O | S j => sum 2 (fun i' => ex_A0 i i' * ex_x j i') end.
Lemma ex_x_seq i j : i < 2 -> j < 3 -> ent ex_seq i j = ex_x j i.
Proof.
  intros Hi Hj. apply keqb_true. destruct i as [|[|i]]; [| |lia]; destruct j as [|[|[|j]]]; try lia;
    vm_compute; reflexivity.
Qed.

Example C68_reconstruct_example : exists V corr Pe Pp Ps pc apc sp L,
  dmd_returns ex_snaps None Pe Pp Ps ex_lw sp pc apc ex_lR L ex_E V corr /\
  meq 2 2 (mmul 2 (ent Pp) (ent pc)) (kept_data (but_last_col ex_seq) 2 (ent V)) /\
  meq 2 2 (ent apc) (mmul 2 (mdiag (at1 ex_lw)) (ent pc)).
Proof.
  destruct ex_snaps_ok as (V & corr & V1 & V2 & V3 & HK & HO).
  destruct (ex_run V corr _ V3 HO) as (M & L & Pe & Pp & Ps & pc & apc & sp & G1 & G2).
  exists V, corr, Pe, Pp, Ps, pc, apc, sp, L. split; [exact G1|]. split.
  - exact (C68_reconstruct ex_sqrt (but_last_col ex_seq) (but_first_col ex_seq) ex_W1 ex_E V ex_lw M ex_lR L Pe Pp Ps
      pc apc sp ex_hermitian HK G2 ex_lw_nodup).
  - apply (C68_advance ex_sqrt (but_last_col ex_seq) (but_first_col ex_seq) ex_W1 ex_E V ex_lw M ex_lR L Pe Pp Ps
      pc apc sp ex_hermitian HK G2 eq_refl).
    exact (ex_kept_full V (but_first_col ex_seq) eq_refl HK).
Qed.
Example C68_sequence_example : exists V corr Pe Pp Ps pc apc sp L,
  dmd_returns ex_snaps None Pe Pp Ps ex_lw sp pc apc ex_lR L ex_E V corr /\
  ent ex_seq 1%nat 1%nat = expansion 2 (ent Pp) ex_lw (fun l => ent pc l O) 1 1 /\
  (forall l, l < 2 -> wip 2 ex_W1 (ent Ps)
     (fun i _ => ent ex_seq i 2%nat - expansion 2 (ent Pp) ex_lw (fun l => ent pc l O) 2 i) l O = 0) /\
  (* step 5, beyond the data *)
  ex_x 5 0 = expansion 2 (ent Pp) ex_lw (fun l => ent pc l O) 5 0.
Proof.
  destruct ex_snaps_ok as (V & corr & V1 & V2 & V3 & HK & HO).
  destruct (ex_run V corr _ V3 HO) as (M & L & Pe & Pp & Ps & pc & apc & sp & G1 & G2).
  exists V, corr, Pe, Pp, Ps, pc, apc, sp, L. split; [exact G1|]. split; [|split].
  - apply (C68_sequence ex_sqrt (but_last_col ex_seq) (but_first_col ex_seq) ex_W1 ex_E V ex_lw M ex_lR L Pe Pp Ps
      pc apc sp ex_hermitian HK G2 eq_refl eq_refl (fun j i => ent ex_seq i j)); auto using ex_lw_nodup;
      try (cbn; lia).
  - destruct (C68_last ex_sqrt (but_last_col ex_seq) (but_first_col ex_seq) ex_W1 ex_E V ex_lw M ex_lR L Pe Pp Ps
      pc apc sp ex_hermitian HK G2 eq_refl eq_refl (fun j i => ent ex_seq i j)) as [H _]; auto using ex_lw_nodup;
      try (cbn; lia).
  - apply (C68_predict ex_sqrt (but_last_col ex_seq) (but_first_col ex_seq) ex_W1 ex_E V ex_lw M ex_lR L Pe Pp Ps
      pc apc sp ex_hermitian HK G2 eq_refl ex_x) with (A0 := ex_A0) (B := ent ex_cmp).
    + intros i j Hi Hj. change (j < 2) in Hj. apply (ex_x_seq i j); auto.
    + apply ex_lw_nodup.
    + apply meqb_true. vm_compute. reflexivity.
    + apply meqb_true. vm_compute. reflexivity.
    + exact (ex_kept_full V (but_last_col ex_seq) eq_refl HK).
    + cbn. lia.
    + intros j i Hi. reflexivity.
    + cbn. lia.
Qed.
Example C68_snaps_example : exists d, ex_snaps = Ok d /\ reproduces ex_sqrt ex_seq ex_lw d.
Proof.
  destruct (C68_snaps (fun _ => Ok (ex_cw, ex_cV)) (fun _ => [0; 1]%nat) (fun _ => Ok (ex_lw, ex_lL, ex_lR))
    ex_sqrt ex_seq ex_dw (W1 [q 4; q 1])) as (C & K & EC & Cr & Cc & HC & H).
  - simpl. lia.
  - reflexivity.
  - reflexivity.
  - exact ex_hermitian.
  - assert (ECC : aeq ex_C C).
    { split; [rewrite Cr; reflexivity|]. split; [rewrite Cc; reflexivity|].
      change (meq 2 2 (ent ex_C) (ent C)). change (nc ex_seq - 1)%nat with 2%nat in HC. rewrite HC.
      apply meqb_true. vm_compute. reflexivity. }
    destruct (eigh (fun _ => Ok (ex_cw, ex_cV)) (fun _ => [0; 1]%nat) C (Some (qi 1 0 8)) None true)
      as [[vals cv]|] eqn:EE.
    2: exfalso; pose proof (f_equal (rmap fst) EE) as G; vm_compute in G; discriminate G.
    assert (Ev : vals = ex_E).
    { pose proof (f_equal (rmap fst) EE) as G. cbn [rmap fst] in G.
      assert (G' : rmap fst (eigh (fun _ => Ok (ex_cw, ex_cV)) (fun _ => [0; 1]%nat) C (Some (qi 1 0 8)) None true)
                   = Ok ex_E) by (vm_compute; reflexivity).
      rewrite G' in G. injection G as G. auto. }
    assert (Ec : meq 2 2 (ent cv) (ent ex_V)).
    { pose proof (f_equal (rmap (fun p => meqb 2 2 (ent (snd p)) (ent ex_V))) EE) as G. cbn [rmap snd] in G.
      assert (G' : rmap (fun p => meqb 2 2 (ent (snd p)) (ent ex_V))
        (eigh (fun _ => Ok (ex_cw, ex_cV)) (fun _ => [0; 1]%nat) C (Some (qi 1 0 8)) None true)
                   = Ok true) by (vm_compute; reflexivity).
      rewrite G' in G. injection G as G. apply meqb_true. auto. }
    subst vals.
    destruct (H ex_cw ex_cV (qi 1 0 8) None ex_E cv) as (M & M1 & M2 & HM & R).
    + reflexivity.
    + destruct ex_C_contract as [c1 c2 c3 c4 c5 c6 c7]. destruct ECC as (e1 & e2 & e3).
      change (nr ex_C) with 2%nat in *. change (nc ex_C) with 2%nat in *.
      split; rewrite <- ?e1, <- ?e2; auto. rewrite <- e3. auto.
    + split; try reflexivity.
      * repeat constructor; simpl; lia.
      * repeat constructor; simpl; lia.
      * intros i j Hij Hj. simpl in Hj. destruct i as [|[|i]]; destruct j as [|[|j]]; try lia;
          try (left; vm_compute; reflexivity); right; reflexivity.
    + apply keqb_true. vm_compute. reflexivity.
    + left. vm_compute. reflexivity.
    + exact I.
    + intros e [<-|[<-|[]]] _; apply sq_ok_dec; vm_compute; reflexivity.
    + exact EE.
    + reflexivity.
    + apply (R ex_lw ex_lL ex_lR); auto using ex_lw_nodup.
      2: apply ex_low_pairing.
      apply (eig_contract_aeq ex_low); [|apply ex_low_contract]. split; [auto|]. split; [auto|].
      change (meq 2 2 (ent ex_low) (ent M)). change (length ex_E) with 2%nat in HM.
      rewrite HM. symmetry. exact (ex_low_eq cv Ec).
Qed.
Example C68_direct_example : exists d, ex_direct = Ok d /\ reproduces ex_sqrt ex_seq ex_lw d.
Proof.
  destruct (C68_direct (fun _ => Ok (eye 2, [q 2; q 1], ex_D)) (fun _ => Raise ValueError)
    (fun _ => Ok (ex_lw, ex_lL, ex_lR)) ex_sqrt ex_seq ex_dw ex_W1) as (Xw & EXw & X1 & X2 & H).
  - simpl. lia.
  - exact ex_hermitian.
  - apply RO_1; auto. intros x [<-|[<-|[]]]; apply sq_ok_dec; vm_compute; reflexivity.
  - assert (EX : meq 2 2 (ent Xw) (ent ex_Xw)).
    { pose proof (f_equal (rmap (fun a => meqb 2 2 (ent a) (ent ex_Xw))) EXw) as G. cbn [rmap] in G.
      assert (G' : rmap (fun a => meqb 2 2 (ent a) (ent ex_Xw))
        (weighted_data (fun _ => Raise ValueError) ex_sqrt ex_dw ex_seq None) = Ok true) by (vm_compute; reflexivity).
      rewrite G' in G. injection G as G. apply meqb_true. auto. }
    destruct (svd (fun _ => Ok (eye 2, [q 2; q 1], ex_D)) Xw (Some (qi 1 0 8)) None) as [[[U S'] V']|] eqn:EE.
    2: exfalso; pose proof (f_equal (rmap (fun p => snd (fst p))) EE) as G; vm_compute in G; discriminate G.
    assert (Ev : S' = [q 2; q 1]).
    { pose proof (f_equal (rmap (fun p => snd (fst p))) EE) as G. cbn [rmap fst snd] in G.
      assert (G' : rmap (fun p => snd (fst p)) (svd (fun _ => Ok (eye 2, [q 2; q 1], ex_D)) Xw (Some (qi 1 0 8)) None)
                   = Ok [q 2; q 1]) by (vm_compute; reflexivity).
      rewrite G' in G. injection G as G. auto. }
    assert (Ec : meq 2 2 (ent V') (ent ex_V)).
    { pose proof (f_equal (rmap (fun p => meqb 2 2 (ent (snd p)) (ent ex_V))) EE) as G. cbn [rmap snd] in G.
      assert (G' : rmap (fun p => meqb 2 2 (ent (snd p)) (ent ex_V))
        (svd (fun _ => Ok (eye 2, [q 2; q 1], ex_D)) Xw (Some (qi 1 0 8)) None) = Ok true) by (vm_compute; reflexivity).
      rewrite G' in G. injection G as G. apply meqb_true. auto. }
    subst S'.
    destruct (H (eye 2) [q 2; q 1] ex_D (Some (qi 1 0 8)) None U [q 2; q 1] V') as (M & M1 & M2 & HM & R); auto.
    + destruct ex_Xw_contract as [c1 c2 c3 c4 c5 c6 c7 c8 c9 c10 c11].
      change (nr ex_Xw) with 2%nat in *. change (nc ex_Xw) with 2%nat in *. change (nc ex_seq - 1)%nat with 2%nat in X2.
      split; rewrite ?X1, ?X2; auto. change (meq 2 2 (ent Xw) (mmul 2 (ent (eye 2)) (mmul 2 (mdiag (at1 [q 2; q 1])) (ent ex_D)))).
      rewrite EX. auto.
    + apply keqb_true. vm_compute. reflexivity.
    + exact I.
    + intros s [<-|[<-|[]]]; apply sq_ok_dec; vm_compute; reflexivity.
    + intros [|[|i]] Hi; simpl in Hi; try lia; apply keqb_false; vm_compute; reflexivity.
    + assert (EEE : map (fun s : QI => s * s) [q 2; q 1] = ex_E) by (vm_compute; reflexivity).
      rewrite EEE in HM. apply (R ex_lw ex_lL ex_lR); auto using ex_lw_nodup.
      2: apply ex_low_pairing.
      apply (eig_contract_aeq ex_low); [|apply ex_low_contract]. split; [auto|]. split; [auto|].
      change (meq 2 2 (ent ex_low) (ent M)). change (length [q 2; q 1]) with 2%nat in HM.
      rewrite HM. symmetry. exact (ex_low_eq V' Ec).
Qed.

Print Assumptions C68_reconstruct.
Print Assumptions C68_advance.
Print Assumptions C68_sequence.
Print Assumptions C68_last.
Print Assumptions C68_predict.
Print Assumptions C68_snaps.
Print Assumptions C68_direct.
