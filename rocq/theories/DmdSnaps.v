(** The two DMD array functions compute what [dmd_spec] says: lemmas. *)
From Coq Require Import List Arith Lia Bool ZArith Field Ring Setoid Morphisms Permutation.
Import ListNotations.
From Verif Require Import Prelude Field FieldInst Matrix NdArray DecompModel DecompProofs DecompProps
  VSArraysModel VSArraysProofs VSArraysProps PodModel PodProofs PodProps BpodModel DmdModel DmdProofs DmdCore.
Open Scope nat_scope.
Open Scope k_scope.

(** [E], [V]: orthonormal eigenvectors of X^H W X for non-zero eigenvalues with
    square roots. *)
Record dmd_kept {F : sfield} (sqrt : F -> F) (X : arr F) (W : mat F) (E : list F) (V : arr F) : Prop := {
  kp_r : nr V = nc X; kp_c : nc V = length E;
  kp_orth : meq (length E) (length E) (mmul (nc X) (madj (ent V)) (ent V)) mid;
  kp_eig : meq (nc X) (length E) (mmul (nc X) (wip (nr X) W (ent X) (ent X)) (ent V))
             (mmul (length E) (ent V) (mdiag (at1 E)));
  kp_pos : forall i, i < length E -> sqrt_ok sqrt (at1 E i) /\ at1 E i <> 0
}.

(** The first [max_num] of those above the tolerances. *)
Definition under (m : option nat) (i : nat) : Prop :=
  match m with Some m => i < m | None => True end.

Section Max.
Context {F : sfield}.
Add Field Maxfield : (k_field F).
Lemma mul_cancel (c x y : F) : c <> 0 -> c * x = c * y -> x = y.
Proof. intros Hc H. transitivity (1 / c * (c * x)); [field; auto|]. rewrite H. field. auto. Qed.
Lemma max_list_firstn {A} m (l : list A) : max_list m l = firstn (length (max_list m l)) l.
Proof.
  destruct m as [m|]; simpl; [|rewrite firstn_all; auto].
  destruct (Nat.ltb_spec m (length l)); [|rewrite firstn_all; auto].
  rewrite firstn_length, Nat.min_l by lia. reflexivity.
Qed.
Lemma max_list_len {A} m (l : list A) i : i < length (max_list m l) <-> i < length l /\ under m i.
Proof.
  destruct m as [m|]; simpl; [|tauto].
  destruct (Nat.ltb_spec m (length l)); rewrite ?firstn_length; lia.
Qed.
Lemma max_list_le {A} m (l : list A) : length (max_list m l) <= length l.
Proof. rewrite (max_list_firstn m l), firstn_length. lia. Qed.
Lemma max_list_at m (l : list F) i : i < length (max_list m l) -> at1 (max_list m l) i = at1 l i.
Proof. intros H. rewrite (max_list_firstn m l). apply at1_firstn. auto. Qed.
Lemma max_cols_ent m k (A : arr F) : ent (max_cols m k A) = ent A.
Proof. destruct m as [m|]; simpl; auto. destruct (m <? k)%nat; auto. Qed.
Lemma max_cols_nr m k (A : arr F) : nr (max_cols m k A) = nr A.
Proof. destruct m as [m|]; simpl; auto. destruct (m <? k)%nat; auto. Qed.
Lemma max_cols_nc {B} m (l : list B) (A : arr F) : nc A = length l ->
  nc (max_cols m (length l) A) = length (max_list m l).
Proof.
  intros H. destruct m as [m|]; simpl; auto. destruct (Nat.ltb_spec m (length l)); auto.
  simpl. rewrite firstn_length, H. auto.
Qed.
Lemma max_list_map {A B} (f : A -> B) m l : max_list m (map f l) = map f (max_list m l).
Proof.
  destruct m as [m|]; simpl; auto. rewrite map_length. destruct (m <? length l)%nat; auto.
  apply firstn_map.
Qed.

(** Truncation keeps eigenvectors eigenvectors. *)
Lemma kept_sub sqrt (X : arr F) W E V m :
  dmd_kept sqrt X W E V -> dmd_kept sqrt X W (max_list m E) (max_cols m (length E) V).
Proof.
  intros H. set (k := length (max_list m E)).
  assert (Hk : (k <= length E)%nat) by apply max_list_le.
  split; fold k.
  - rewrite max_cols_nr. apply H.
  - apply max_cols_nc. apply H.
  - rewrite max_cols_ent. apply (orthonormal_sub _ _ _ _ Hk). apply (kp_orth _ _ _ _ _ H).
  - rewrite max_cols_ent, mmul_diag_r. split. intros i j Hi Hj.
    pose proof (kp_eig _ _ _ _ _ H) as G. rewrite mmul_diag_r in G.
    rewrite (meq_at _ _ _ _ G i j Hi ltac:(lia)). rewrite max_list_at by auto. reflexivity.
  - intros i Hi. rewrite max_list_at by auto. apply (kp_pos _ _ _ _ _ H). lia.
Qed.
End Max.

Lemma correlations_ok {F : sfield} ws (vecs : arr F) adv X Y :
  dmd_data vecs adv X Y -> wfits (nr X) ws ->
  exists C K, DMD_correlations ws vecs adv = Ok (C, K) /\
    nr C = nc X /\ nc C = nc X /\ nr K = nc X /\ nc K = nc X /\
    meq (nc X) (nc X) (ent C) (wip (nr X) (wmat ws) (ent X) (ent X)) /\
    meq (nc X) (nc X) (ent K) (wip (nr X) (wmat ws) (ent X) (ent Y)).
Proof.
  intros Hd Hf. pose proof (dmd_data_dims _ _ _ _ Hd) as (D1 & D2 & D3).
  unfold DMD_correlations. destruct adv as [a|].
  - destruct Hd as (-> & -> & Hr & Hc). unfold same_shape2. rewrite Hr, Hc, !Nat.eqb_refl. cbn [negb andb].
    destruct (ip_ok ws vecs vecs eq_refl Hf) as (C & EC & Cr & Cc & CE).
    destruct (ip_ok ws vecs a (eq_sym Hr) Hf) as (K & EK & Kr & Kc & KE).
    unfold symm_inner_product_array. rewrite EC. cbn [rbind]. rewrite EK. cbn [rbind].
    exists C, K. rewrite Hc in *. repeat (split; auto).
  - destruct Hd as (H0 & -> & ->).
    destruct (ip_ok ws vecs vecs eq_refl Hf) as (C & EC & Cr & Cc & CE).
    unfold symm_inner_product_array. rewrite EC. cbn [rbind].
    do 2 eexists. split; [reflexivity|]. cbn [nr nc ent but_last_col but_first_col but_last_row row_slice col_slice].
    rewrite Cr, Cc. repeat (split; [lia|]). split.
    + split. intros i j Hi Hj. cbn. apply (meq_at _ _ _ _ CE); lia.
    + split. intros i j Hi Hj. cbn. apply (meq_at _ _ _ _ CE); lia.
Qed.

(** The vectors kept by the eigendecomposition of the correlation array. *)
Lemma snaps_kept {F : sfield} sqrt (X : arr F) W C w0 w (t : F) atol' rtol vals cvecs V0 :
  nr C = nc X -> meq (nc X) (nc X) (ent C) (wip (nr X) W (ent X) (ent X)) ->
  eigh_contract C w0 V0 -> raised true (Some t) w0 atol' ->
  eigh_result C w0 w atol' rtol vals cvecs -> real t -> kle 0 t ->
  (forall e, In e w0 -> klt_p 0 e -> sqrt_ok sqrt e) ->
  Forall (klt_p 0) vals /\ dmd_kept sqrt X W vals cvecs.
Proof.
  intros Cr Ee HC HR HE Rt Ht Hsq.
  assert (Pos : Forall (klt_p 0) vals).
  { eapply C16_positive; eauto. apply (eigh_real _ _ _ HC). }
  assert (Inw : forall i, i < length vals -> In (at1 vals i) w0).
  { intros i Hi. rewrite <- (er_perm _ _ _ _ _ _ _ HE).
    apply prefix_in; auto. apply (er_prefix _ _ _ _ _ _ _ HE). }
  split; auto. split.
  - rewrite (er_r _ _ _ _ _ _ _ HE). auto.
  - apply (er_c _ _ _ _ _ _ _ HE).
  - pose proof (er_orth _ _ _ _ _ _ _ HE) as G. rewrite Cr in G. exact G.
  - rewrite <- Ee. pose proof (er_eig _ _ _ _ _ _ _ HE) as G. rewrite Cr in G. exact G.
  - intros i Hi. pose proof (Forall_at _ _ i Pos Hi) as G. split.
    + apply Hsq; auto.
    + intros E0. rewrite E0 in G. red in G. rewrite (lt_irrefl F 0 real_0) in G. discriminate.
Qed.

(** The square root of the weights in the direct method. *)
Inductive root_ok {F : sfield} (chol : arr F -> res (arr F)) (sqrt : F -> F) (n : nat)
    : option (nd F) -> mat F -> Prop :=
| RO_none : root_ok chol sqrt n None mid
| RO_1 w : length w = n -> n <> 1%nat -> (forall x, In x w -> sqrt_ok sqrt x) ->
    root_ok chol sqrt n (Some (Nd [n] w)) (mdiag (at1 w))
| RO_2 w L : n <> 1%nat -> chol (as_2d n n w) = Ok L -> cholesky_contract (as_2d n n w) L ->
    root_ok chol sqrt n (Some (Nd [n; n] w)) (ent (as_2d n n w)).

Lemma root_ok_weigh {F : sfield} chol (sqrt : F -> F) n wopt W : root_ok chol sqrt n wopt W ->
  (exists ws, set_weights wopt = Ok ws) /\ hermitian n W /\
  exists weigh R, sqrt_weights chol sqrt wopt = Ok weigh /\ meq n n (mmul n (madj R) R) W /\
    forall A, nr A = n -> exists Aw, weigh A = Ok Aw /\ nr Aw = n /\ nc Aw = nc A /\
      meq n (nc A) (ent Aw) (mmul n R (ent A)).
Proof.
  intros H. destruct H as [|w Lw N1 Hw|w L N1 EL HL].
  - split; [eexists; reflexivity|]. split; [apply madj_mid|].
    exists (fun A => Ok A), mid. split; [reflexivity|]. split; [rewrite madj_mid, mmul_id_l; reflexivity|].
    intros A HA. exists A. do 3 (split; [auto|]). rewrite mmul_id_l. reflexivity.
  - split.
    { unfold set_weights. simpl. rewrite (proj2 (Nat.eqb_neq n 1) N1). simpl. eauto. }
    assert (RW : forall i, i < n -> real (at1 w i)).
    { intros i Hi. assert (I : In (at1 w i) w) by (apply nth_In; lia).
      destruct (Hw _ I) as (R1 & _ & E). rewrite <- E. apply real_mul; auto. }
    split. { red. apply madj_diag_real. auto. }
    exists (fun A => dot (diag (map sqrt w)) A), (mdiag (at1 (map sqrt w))). split; [reflexivity|]. split.
    + rewrite madj_diag_real.
      * rewrite mmul_diag_diag. apply mdiag_ext. intros i Hi. rewrite at1_map by lia.
        apply Hw. apply nth_In. lia.
      * intros i Hi. rewrite at1_map by lia. apply Hw. apply nth_In. lia.
    + intros A HA. unfold dot. cbn [nr nc ent diag]. rewrite map_length, Lw, HA, Nat.eqb_refl.
      eexists. split; [reflexivity|]. do 2 (split; [auto|]). cbn [ent]. reflexivity.
  - split.
    { unfold set_weights. simpl. rewrite (proj2 (Nat.eqb_neq n 1) N1). simpl. eauto. }
    destruct HL as (Lr & Lc & _ & EW). cbn [nr as_2d] in EW, Lr, Lc.
    split. { red. rewrite <- EW, madj_mmul, madj_madj. reflexivity. }
    exists (fun A => dot (conj_T L) A), (madj (ent L)). split.
    { unfold sqrt_weights. rewrite EL. reflexivity. }
    split. { rewrite madj_madj. exact EW. }
    intros A HA. unfold dot. cbn [nr nc ent conj_T]. rewrite Lr, Lc, HA, Nat.eqb_refl.
    eexists. split; [reflexivity|]. do 2 (split; [auto|]). cbn [ent]. reflexivity.
Qed.
