(** Lemmas about the model of ERA. *)
From Coq Require Import List Arith Lia Bool ZArith Field Ring Setoid Morphisms.
Import ListNotations.
From Verif Require Import Prelude Field Matrix NdArray DecompModel DecompProofs VSArraysModel PodModel BpodModel EraModel.
Open Scope nat_scope.
Open Scope k_scope.

(** ** Loops *)
Lemma foldM_seq {S} (f : S -> nat -> res S) (P : nat -> S -> Prop) n : forall a s, P a s ->
  (forall k s, a <= k < a + n -> P k s -> exists s', f s k = Ok s' /\ P (k + 1)%nat s') ->
  exists s', foldM f (seq a n) s = Ok s' /\ P (a + n)%nat s'.
Proof.
  induction n as [|n IH]; intros a s H0 H; simpl.
  - exists s. rewrite Nat.add_0_r. auto.
  - destruct (H a s) as (s1 & E1 & P1); [lia|auto|]. rewrite E1. cbn [rbind].
    destruct (IH (Datatypes.S a) s1) as (s2 & E2 & P2).
    + replace (Datatypes.S a) with (a + 1)%nat by lia. auto.
    + intros k s' Hk. apply H. lia.
    + exists s2. split; auto. replace (a + Datatypes.S n)%nat with (Datatypes.S a + n)%nat by lia. auto.
Qed.
Lemma foldM_fails {S A} (f : S -> A -> res S) e (l : list A) : forall s,
  (forall s a, In a l -> (exists s', f s a = Ok s') \/ f s a = Raise e) ->
  (exists a, In a l /\ forall s, f s a = Raise e) -> foldM f l s = Raise e.
Proof.
  induction l as [|a l IH]; intros s H (b & Hb & Eb); [destruct Hb|]. simpl.
  destruct (H s a (or_introl eq_refl)) as [(s' & E)|E]; rewrite E; cbn [rbind]; auto.
  destruct Hb as [->|Hb]; [congruence|]. apply IH; eauto. intros. apply H. right. auto.
Qed.
Lemma foldM_ok_or {S A} (f : S -> A -> res S) e (l : list A) : forall s,
  (forall s a, In a l -> (exists s', f s a = Ok s') \/ f s a = Raise e) ->
  (exists s', foldM f l s = Ok s') \/ foldM f l s = Raise e.
Proof.
  induction l as [|a l IH]; intros s H; simpl; eauto.
  destruct (H s a (or_introl eq_refl)) as [(s' & E)|E]; rewrite E; cbn [rbind]; auto.
  apply IH. intros. apply H. right. auto.
Qed.

Section Proofs.
Context {F : sfield}.
Add Field Era_F : (k_field F).

Lemma two_neq_0 : (1 + 1 : F) <> 0.
Proof.
  intros H. pose proof (lt_0_1 (F:=F)) as L. pose proof (lt_add F 0 1 1 real_0 real_1 real_1 L) as L2.
  pose proof (lt_trans F 0 1 (1 + 1)) as T. replace (0 + 1) with (1 : F) in L2 by ring.
  rewrite H in L2, T. red in L. pose proof (lt_trans F 0 1 0 real_0 real_1 real_0 L L2) as X.
  rewrite (lt_irrefl F 0 real_0) in X. discriminate.
Qed.
Lemma kre_real (x : F) : real x -> kre x = x.
Proof. intros H. unfold kre. rewrite H. field. apply two_neq_0. Qed.
Lemma real_kre (x : F) : real (kre x).
Proof.
  unfold kre. rewrite conj_div by apply two_neq_0. rewrite !conj_add, conj_conj, conj_1. f_equal. ring.
Qed.

(** ** The block Hankel arrays *)
Definition blocks (M : arr3 F) (o c row col : nat) (HH : mat F * mat F) : Prop :=
  forall r' c' i j, i < a3_p M -> j < a3_m M -> c' < c -> r' < row \/ r' = row /\ c' < col ->
    fst HH (r' * a3_p M + i)%nat (c' * a3_m M + j)%nat = kre (a3 M (2 * (r' + c'))%nat i j) /\
    snd HH (r' * a3_p M + i)%nat (c' * a3_m M + j)%nat = kre (a3 M (2 * (r' + c') + 1)%nat i j).

Lemma block_index p r r' i : i < p -> r * p <= r' * p + i -> r' * p + i < r * p + p -> r' = r.
Proof. intros. nia. Qed.
Lemma set_block_in r0 p c0 m (B H : mat F) i j : i < p -> j < m ->
  set_block r0 p c0 m B H (r0 + i)%nat (c0 + j)%nat = kre (B i j).
Proof.
  intros Hi Hj. unfold set_block.
  rewrite (proj2 (Nat.leb_le r0 (r0 + i))) by lia. rewrite (proj2 (Nat.ltb_lt (r0 + i) (r0 + p))) by lia.
  rewrite (proj2 (Nat.leb_le c0 (c0 + j))) by lia. rewrite (proj2 (Nat.ltb_lt (c0 + j) (c0 + m))) by lia.
  cbn [andb]. f_equal. f_equal; lia.
Qed.
Lemma set_block_out r p c m (B H : mat F) r' c' i j : i < p -> j < m -> r' <> r \/ c' <> c ->
  set_block (r * p) p (c * m) m B H (r' * p + i)%nat (c' * m + j)%nat = H (r' * p + i)%nat (c' * m + j)%nat.
Proof.
  intros Hi Hj N. unfold set_block.
  destruct ((r * p <=? r' * p + i) && (r' * p + i <? r * p + p) && (c * m <=? c' * m + j) && (c' * m + j <? c * m + m))%nat eqn:E; auto.
  rewrite !andb_true_iff in E. destruct E as [[[E1 E2] E3] E4].
  apply Nat.leb_le in E1, E3. apply Nat.ltb_lt in E2, E4. exfalso.
  pose proof (block_index p r r' i Hi E1 E2). pose proof (block_index m c c' j Hj E3 E4). tauto.
Qed.

Lemma index3_ok (M : arr3 F) k : k < a3_t M -> index3 M k = Ok (a3 M k).
Proof. intros H. unfold index3. rewrite (proj2 (Nat.ltb_lt _ _) H). reflexivity. Qed.
Lemma index3_bad (M : arr3 F) k : a3_t M <= k -> index3 M k = Raise IndexError.
Proof. intros H. unfold index3. rewrite (proj2 (Nat.ltb_ge _ _) H). reflexivity. Qed.

Lemma loop_ok (M : arr3 F) o c : (0 < o -> 0 < c -> 2 * (o + c) <= a3_t M + 2)%nat ->
  exists HH, foldM (fun HH row => foldM (Hankel_step M row) (seq 0 c) HH) (seq 0 o) (mzero, mzero) = Ok HH /\
    blocks M o c o 0 HH.
Proof.
  intros Hb.
  destruct (foldM_seq (fun HH row => foldM (Hankel_step M row) (seq 0 c) HH)
    (fun row HH => blocks M o c row 0 HH) o O (mzero, mzero)) as (HH & E & P).
  - intros r' c' i j _ _ _ [H|[_ H]]; lia.
  - intros r HH Hr P.
    destruct (foldM_seq (Hankel_step M r) (fun col HH => blocks M o c r col HH) c O HH P) as (HH' & E' & P').
    + intros cc HH1 Hc P1. unfold Hankel_step. rewrite !index3_ok by lia. cbn [rbind].
      eexists. split; [reflexivity|]. intros r' c' i j Hi Hj Hcc Hor. cbn [fst snd].
      destruct (Nat.eq_dec r' r) as [->|Nr].
      * destruct (Nat.eq_dec c' cc) as [->|Nc].
        -- rewrite !set_block_in by auto. auto.
        -- rewrite !set_block_out by auto. apply P1; auto. lia.
      * rewrite !set_block_out by auto. apply P1; auto. lia.
    + exists HH'. split; auto. intros r' c' i j Hi Hj Hcc Hor. apply P'; auto. lia.
  - exists HH. split; auto.
Qed.
Lemma step_or (M : arr3 F) r HH cc : (exists HH', Hankel_step M r HH cc = Ok HH') \/ Hankel_step M r HH cc = Raise IndexError.
Proof.
  unfold Hankel_step, index3.
  destruct (2 * (r + cc) <? a3_t M)%nat; cbn [rbind]; auto.
  destruct (2 * (r + cc) + 1 <? a3_t M)%nat; cbn [rbind]; eauto.
Qed.
Lemma loop_bad (M : arr3 F) o c : (0 < o -> 0 < c -> a3_t M + 2 < 2 * (o + c) ->
  foldM (fun HH row => foldM (Hankel_step M row) (seq 0 c) HH) (seq 0 o) (mzero, mzero) = Raise IndexError)%nat.
Proof.
  intros Ho Hc Hb. apply foldM_fails.
  - intros s a _. apply foldM_ok_or. intros. apply step_or.
  - exists (o - 1)%nat. split; [apply in_seq; lia|]. intros s. apply foldM_fails.
    + intros. apply step_or.
    + exists (c - 1)%nat. split; [apply in_seq; lia|]. intros s'. unfold Hankel_step.
      destruct (index3 M (2 * (o - 1 + (c - 1)))) as [|e] eqn:E1; cbn [rbind].
      * rewrite index3_bad by lia. reflexivity.
      * unfold index3 in E1. destruct (_ <? _)%nat; congruence.
Qed.

(** ** Ranks *)
Lemma no_wide m n (A B : mat F) : n < m -> ~ meq m m (mmul n A B) mid.
Proof.
  intros Hn H.
  set (A' := fun i l => if (l <? n)%nat then A i l else (0 : F)).
  set (B' := fun l j => if (l <? n)%nat then B l j else (0 : F)).
  assert (H' : meq m m (mmul m A' B') mid).
  { rewrite <- H. split. intros i j Hi Hj. unfold mmul. rewrite (sum_pad n m).
    - apply sum_ext. intros l Hl. unfold A', B'. rewrite (proj2 (Nat.ltb_lt l n) Hl). reflexivity.
    - lia.
    - intros l Hl. unfold A'. rewrite (proj2 (Nat.ltb_ge l n)) by lia. apply mul_0_l. }
  apply left_inverse_right in H'. pose proof (meq_at _ _ _ _ H' n n Hn Hn) as E.
  unfold mmul in E. rewrite sum_0 in E.
  - unfold mid in E. rewrite Nat.eqb_refl in E. apply (one_neq_zero (F:=F)). auto.
  - intros l Hl. unfold B'. rewrite Nat.ltb_irrefl. apply mul_0_l.
Qed.

(** A singular value decomposition of an array of rank n: exactly the first n singular
    values are not zero. *)
Section Rank.
Variables (R Q n k : nat) (H O K Lo Rc U V : mat F) (s : nat -> F).
Hypothesis (HOK : meq R Q H (mmul n O K)).
Hypothesis (HLo : meq n n (mmul R Lo O) mid).
Hypothesis (HRc : meq n n (mmul Q K Rc) mid).
Hypothesis (HU : meq k k (mmul R (madj U) U) mid).
Hypothesis (HV : meq k k (mmul Q (madj V) V) mid).
Hypothesis (HS : meq R Q H (mmul k U (mmul k (mdiag s) (madj V)))).
Hypothesis (Hreal : forall i, i < k -> real (s i)).
Hypothesis (Hnn : forall i, i < k -> kle 0 (s i)).
Hypothesis (Hdec : forall i j, i <= j -> j < k -> kle (s j) (s i)).

Lemma rank_factor : meq n n (mmul k (mmul R Lo U) (mmul k (mdiag s) (mmul Q (madj V) Rc))) mid.
Proof.
  rewrite <- (mmul_assoc k n k Q (mdiag s) (madj V) Rc).
  rewrite <- (mmul_assoc n n k Q (mmul R Lo U)).
  rewrite (mmul_assoc n Q R k Lo U), <- HS, HOK.
  rewrite <- (mmul_assoc n Q R n Lo O K), HLo, mmul_id_l, HRc. reflexivity.
Qed.
Lemma rank_len : n <= k.
Proof.
  destruct (Nat.le_gt_cases n k) as [|L]; auto. exfalso. eapply no_wide; [exact L|]. apply rank_factor.
Qed.
Lemma zero_after i j : i <= j -> j < k -> s i = 0 -> s j = 0.
Proof.
  intros Hij Hj E. apply le_antisym; auto using real_0.
  - rewrite <- E. auto.
Qed.
Lemma rank_nonzero i : i < n -> s i <> 0.
Proof.
  intros Hi E. pose proof rank_len as L. eapply no_wide; [exact Hi|]. rewrite <- rank_factor.
  split. intros a b Ha Hb. unfold mmul at 1 3. symmetry. apply sum_pad; [lia|].
  intros l Hl. rewrite (meq_at _ _ _ _ (mmul_diag_l k n s _) l b) by lia.
  rewrite (zero_after i l) by (auto; lia). rewrite mul_0_l. apply mul_0_r.
Qed.
Lemma svd_core : meq k k (mmul R (madj U) (mmul Q H V)) (mdiag s).
Proof.
  rewrite HS. rewrite !mmul_assoc, HV. rewrite mmul_id_r. rewrite <- mmul_assoc, HU, mmul_id_l. reflexivity.
Qed.
Lemma rank_zero i : n <= i -> i < k -> s i = 0.
Proof.
  intros Hi Hk. destruct (k_dec F (s i) 0) as [|N]; auto. exfalso.
  assert (Nz : forall l, l <= i -> s l <> 0).
  { intros l Hl E. apply N. apply (zero_after l i); auto. }
  apply (no_wide (S i) n (mmul R (madj U) O) (mmul Q K (mmul k V (mdiag (fun l => 1 / s l))))); [lia|].
  transitivity (mmul k (mdiag s) (mdiag (fun l => 1 / s l))).
  - assert (G : meq k k (mmul n (mmul R (madj U) O) (mmul Q K (mmul k V (mdiag (fun l => 1 / s l)))))
      (mmul k (mdiag s) (mdiag (fun l => 1 / s l)))).
    { rewrite <- svd_core, HOK, !mmul_assoc. reflexivity. }
    apply (meq_sub k k); auto.
  - split. intros a b Ha Hb. rewrite (meq_at _ _ _ _ (mmul_diag_diag k s (fun l => 1 / s l)) a b) by lia.
    unfold mdiag, mid. destruct (a =? b); auto. field. apply Nz. lia.
Qed.

(** The realization: with T = E^-1/2 U^H O and Ti = K V E^-1/2. *)
Variable (sq : F -> F).
Hypothesis (Hsq : forall i, i < n -> sqrt_ok sq (s i)).
Variables (A H2 : mat F).
Hypothesis (HOAK : meq R Q H2 (mmul n O (mmul n A K))).
Let ei : mat F := mdiag (fun i => 1 / sq (s i)).
Let T := mmul n ei (mmul R (madj U) O).
Let Ti := mmul Q K (mmul n V ei).

Lemma sq_neq i : i < n -> sq (s i) <> 0.
Proof.
  intros Hi E. apply (rank_nonzero i Hi). destruct (Hsq i Hi) as (_ & _ & G). rewrite <- G, E. ring.
Qed.
Lemma rank_cut : meq R Q H (mmul n U (mmul n (mdiag s) (madj V))).
Proof.
  rewrite HS. split. intros i j Hi Hj. unfold mmul at 1 3. pose proof rank_len.
  rewrite (sum_pad n k); auto.
  - apply sum_ext. intros l Hl. f_equal.
    rewrite (meq_at _ _ _ _ (mmul_diag_l k Q s _) l j) by lia.
    rewrite (meq_at _ _ _ _ (mmul_diag_l n Q s _) l j) by lia. reflexivity.
  - intros l Hl. rewrite (meq_at _ _ _ _ (mmul_diag_l k Q s _) l j) by lia.
    rewrite rank_zero by lia. rewrite mul_0_l. apply mul_0_r.
Qed.
Lemma HUn : meq n n (mmul R (madj U) U) mid.
Proof. pose proof rank_len. apply (meq_sub k k); auto. Qed.
Lemma HVn : meq n n (mmul Q (madj V) V) mid.
Proof. pose proof rank_len. apply (meq_sub k k); auto. Qed.
Lemma UHH : meq n Q (mmul R (madj U) H) (mmul n (mdiag s) (madj V)).
Proof. rewrite rank_cut, <- mmul_assoc, HUn, mmul_id_l. reflexivity. Qed.
Lemma HVV : meq R n (mmul Q H V) (mmul n U (mdiag s)).
Proof. rewrite rank_cut, !mmul_assoc, HVn, mmul_id_r. reflexivity. Qed.
Lemma TTi : meq n n (mmul n T Ti) mid.
Proof.
  unfold T, Ti. rewrite !mmul_assoc. rewrite <- (mmul_assoc R n n Q O K), <- HOK.
  rewrite <- (mmul_assoc n n R Q (madj U) H), UHH, mmul_assoc.
  rewrite <- (mmul_assoc n n Q n (madj V) V), HVn, mmul_id_l.
  unfold ei. rewrite !mmul_diag_diag. apply mdiag_1. intros i Hi.
  destruct (Hsq i Hi) as (_ & _ & G). rewrite <- G at 2. field. apply sq_neq. auto.
Qed.
Lemma TiT : meq n n (mmul n Ti T) mid.
Proof. apply left_inverse_right. apply TTi. Qed.
Lemma real_A : meq n n (mmul n ei (mmul R (madj U) (mmul Q H2 (mmul n V ei)))) (mmul n T (mmul n A Ti)).
Proof. rewrite HOAK. unfold T, Ti. rewrite !mmul_assoc. reflexivity. Qed.
(** B: the first columns of E^1/2 V^H; C: the first rows of U E^1/2. *)
Lemma real_B q : q <= Q -> meq n q (mmul n (mdiag (fun i => sq (s i))) (madj V)) (mmul n T K).
Proof.
  intros Hq. apply (meq_sub n Q); auto. unfold T. rewrite !mmul_assoc, <- HOK, UHH.
  unfold ei. rewrite <- (mmul_assoc n Q n n), mmul_diag_diag.
  rewrite (mdiag_ext n (fun i => 1 / sq (s i) * s i) (fun i => sq (s i))); [reflexivity|].
  intros i Hi. destruct (Hsq i Hi) as (_ & _ & G). rewrite <- G at 2. field. apply sq_neq. auto.
Qed.
Lemma real_C p : p <= R -> meq p n (mmul n U (mdiag (fun i => sq (s i)))) (mmul n O Ti).
Proof.
  intros Hp. apply (meq_sub R n); auto. unfold Ti. rewrite <- (mmul_assoc R n n Q O K), <- HOK.
  rewrite <- (mmul_assoc R n Q n H V), HVV, !mmul_assoc.
  unfold ei. rewrite mmul_diag_diag.
  rewrite (mdiag_ext n (fun i => s i * (1 / sq (s i))) (fun i => sq (s i))); [reflexivity|].
  intros i Hi. destruct (Hsq i Hi) as (_ & _ & G). rewrite <- G at 1. field. apply sq_neq. auto.
Qed.
End Rank.

(** Similar systems have the same Markov parameters. *)
Lemma similar_pow n (A T Ti : mat F) k : meq n n (mmul n T Ti) mid -> meq n n (mmul n Ti T) mid ->
  meq n n (mpow n (mmul n T (mmul n A Ti)) k) (mmul n T (mmul n (mpow n A k) Ti)).
Proof.
  intros H1 H2.
  assert (G : meq n n (mmul n (mpow n (mmul n T (mmul n A Ti)) k) T) (mmul n T (mpow n A k))).
  { symmetry. symmetry. apply (mpow_intertwine n n (mmul n T (mmul n A Ti)) A T).
    rewrite !mmul_assoc, H2, mmul_id_r. reflexivity. }
  rewrite <- (mmul_assoc n n n n T (mpow n A k) Ti), <- G, mmul_assoc, H1, mmul_id_r. reflexivity.
Qed.
Lemma similar_Markov n p m (A B C T Ti Ar Br Cr : mat F) k :
  meq n n (mmul n T Ti) mid -> meq n n (mmul n Ti T) mid ->
  meq n n Ar (mmul n T (mmul n A Ti)) -> meq n m Br (mmul n T B) -> meq p n Cr (mmul n C Ti) ->
  meq p m (mmul n Cr (mmul n (mpow n Ar k) Br)) (mmul n C (mmul n (mpow n A k) B)).
Proof.
  intros H1 H2 HA HB HC. rewrite HA, HB, HC, similar_pow by auto. rewrite !mmul_assoc.
  rewrite <- (mmul_assoc n m n n Ti T B), H2, mmul_id_l.
  rewrite <- (mmul_assoc n m n n Ti T), H2, mmul_id_l. reflexivity.
Qed.

End Proofs.
