(** The example programs: what they save, and the number of modes. *)
From stdpp Require Import gmap list.
From Coq Require Import ZArith Lia Field Ring.
From Verif Require Import Prelude Field Matrix NdArray DecompModel Spmd InnerProdProps HandlesModel HandlesProofs HandlesSpace
  MainModel MainProofs ProgramsModel.
Open Scope nat_scope.

Section Acts.
Context {V : Type}.
Implicit Types (st : gmap loc V).

Lemma puts_run hs (vs : list V) : forall st, NoDup hs -> length hs = length vs ->
  exists st', run_acts (puts hs vs) st = Some st' /\ holds st' hs vs /\ unchanged_but st st' hs.
Proof.
  revert vs. induction hs as [|h hs IH]; intros [|v vs] st Hnd L; try discriminate.
  - exists st. repeat split. constructor.
  - apply NoDup_cons in Hnd. destruct Hnd as [Hn Hnd]. injection L as L.
    destruct (IH vs (<[h:=v]> st) Hnd L) as (st' & H1 & H2 & H3). exists st'. split; [exact H1|]. split.
    + constructor; auto. rewrite H3 by auto. apply lookup_insert.
    + intros h' Hh'. rewrite H3 by set_solver. apply lookup_insert_ne. set_solver.
Qed.

Lemma holds_app st hs hs' (vs vs' : list V) : length hs = length vs ->
  holds st (hs ++ hs') (vs ++ vs') <-> holds st hs vs /\ holds st hs' vs'.
Proof.
  intros L. split.
  - intros H. apply Forall2_app_inv in H; auto.
  - intros [H1 H2]. apply Forall2_app; auto.
Qed.
Lemma holds_nth st hs (vs : list V) : holds st hs vs <->
  length hs = length vs /\ forall i d, i < length hs -> st !! nth i hs 0 = Some (nth i vs d).
Proof.
  split.
  - intros H. split; [apply (Forall2_length _ _ _ H)|]. intros i d Hi.
    induction H as [|h v hs vs Hh H IH] in i, Hi |- *; simpl in *; [lia|]. destruct i; auto. apply IH. lia.
  - revert vs. induction hs as [|h hs IH]; intros [|v vs] [L H]; try discriminate; constructor.
    + apply (H 0 v). simpl. lia.
    + apply IH. injection L as L. split; auto. intros i d Hi. apply (H (S i) d). simpl. lia.
Qed.
Lemma nth_inj (l : list loc) i j : NoDup l -> i < length l -> j < length l -> nth i l 0 = nth j l 0 -> i = j.
Proof. intros H. apply NoDup_ListNoDup in H. intros. eapply NoDup_nth; eauto. Qed.

(** Applying an operator to vectors, the work divided among the ranks. *)
Section Apply.
Context (A : V -> V) (src dst : list loc) (m : nat -> V) (owner : nat -> nat).
Hypothesis L : length dst = length src.
Hypothesis Hnd : NoDup dst.
Hypothesis Hdis : forall h, h ∈ src -> h ∉ dst.
Notation n := (length src).
Notation s i := (nth i src 0).
Notation d i := (nth i dst 0).
Definition has st : Prop := forall i, i < n -> st !! s i = Some (m i).

Lemma src_not_dst i j : i < n -> j < n -> s i <> d j.
Proof.
  intros Hi Hj E. apply (Hdis (s i)); [apply elem_of_list_In, nth_In; auto|].
  rewrite E. apply elem_of_list_In, nth_In. lia.
Qed.
Lemma applies_list is : forall st, (forall i, i ∈ is -> i < n) -> has st ->
  exists st', run_acts (zip_with (Apply A) (map (fun i => s i) is) (map (fun i => d i) is)) st = Some st' /\ has st' /\
    (forall i, i ∈ is -> st' !! d i = Some (A (m i))) /\
    forall h, (forall i, i ∈ is -> h <> d i) -> st' !! h = st !! h.
Proof.
  induction is as [|i is IH]; intros st Hi Hs; simpl.
  - exists st. repeat split; auto. set_solver.
  - assert (Hin : i < n) by (apply Hi; left). rewrite (Hs i Hin). simpl.
    destruct (IH (<[d i:=A (m i)]> st)) as (st' & H1 & H2 & H3 & H4).
    { intros j Hj. apply Hi. right. auto. }
    { intros j Hj. rewrite lookup_insert_ne; auto. intros E. apply (src_not_dst j i); auto. }
    exists st'. split; [exact H1|]. split; [exact H2|]. split.
    + intros j Hj. apply elem_of_cons in Hj. destruct (decide (j ∈ is)) as [Hin'|Hn]; [auto|].
      destruct Hj as [->|Hj]; [|contradiction]. rewrite H4; [apply lookup_insert|].
      intros j Hj E. apply Hn. assert (i = j) as ->; auto. apply (nth_inj dst); auto; rewrite L; auto. apply Hi. right. auto.
    + intros h Hh. rewrite H4; [apply lookup_insert_ne|]; intros; [intros E; apply (Hh i); [left|auto]|].
      apply Hh. right. auto.
Qed.
Lemma applies_ranks P : forall r st, has st ->
  exists st', run_ranks P r (applies A owner src dst) st = Some st' /\ has st' /\
    (forall i, i < n -> r <= owner i -> owner i < r + P -> st' !! d i = Some (A (m i))) /\
    forall h, (forall i, i < n -> r <= owner i -> owner i < r + P -> h <> d i) -> st' !! h = st !! h.
Proof.
  induction P as [|P IH]; intros r st Hs; simpl.
  - exists st. repeat split; auto. intros; lia.
  - destruct (applies_list (filter (fun i => owner i = r) (seq 0 n)) st) as (st1 & H1 & H2 & H3 & H4); auto.
    { intros i Hi. apply elem_of_list_filter in Hi. destruct Hi as [_ Hi]. apply elem_of_seq in Hi. lia. }
    change (run_acts (applies A owner src dst r) st = Some st1) in H1. rewrite H1. simpl.
    destruct (IH (S r) st1 H2) as (st2 & K1 & K2 & K3 & K4). exists st2. split; [exact K1|]. split; [exact K2|].
    assert (Hf : forall i, i < n -> owner i = r -> i ∈ filter (fun i => owner i = r) (seq 0 n)).
    { intros i Hi Ho. apply elem_of_list_filter. split; auto. apply elem_of_seq. lia. }
    split.
    + intros i Hi Hr Hlt. destruct (decide (owner i = r)) as [Ho|Ho]; [|apply K3; lia].
      rewrite K4; [apply H3; auto|]. intros j Hj Hj1 Hj2 E.
      assert (i = j) as ->; [|lia]. apply (nth_inj dst); auto; lia.
    + intros h Hh. rewrite K4, H4; auto.
      * intros i Hi. apply elem_of_list_filter in Hi. destruct Hi as [Ho Hi]. apply elem_of_seq in Hi. apply Hh; lia.
      * intros i Hi Hi1 Hi2. apply Hh; lia.
Qed.
Lemma applies_no_conflict P : no_conflict P (applies A owner src dst).
Proof.
  assert (G : forall r a, a ∈ applies A owner src dst r -> exists i, i < n /\ owner i = r /\ a = Apply A (s i) (d i)).
  { intros r a Ha. unfold applies in Ha.
    assert (E : forall is, zip_with (Apply A) (map (fun i => s i) is) (map (fun i => d i) is) = map (fun i => Apply A (s i) (d i)) is).
    { intros is. induction is; simpl; congruence. }
    rewrite E in Ha. apply elem_of_list_fmap in Ha. destruct Ha as (i & -> & Hi). apply elem_of_list_filter in Hi.
    destruct Hi as [Ho Hi]. apply elem_of_seq in Hi. exists i. repeat split; auto. lia. }
  intros r r' a b h _ _ Hne Ha Hb Hw. destruct (G _ _ Ha) as (i & Hi & Ho & ->). destruct (G _ _ Hb) as (j & Hj & Ho' & ->).
  simpl in *. subst h. split; intros E.
  - apply Hne. rewrite <- Ho, <- Ho'. f_equal. apply (nth_inj dst); auto; lia.
  - symmetry in E. apply (src_not_dst j i); auto.
Qed.
End Apply.

Lemma applies_run (A : V -> V) owner src dst P ms st : holds st src ms -> length dst = length src -> NoDup dst ->
  (forall h, h ∈ src -> h ∉ dst) -> (forall i, i < length src -> owner i < P) ->
  exists st', run_ranks P 0 (applies A owner src dst) st = Some st' /\ holds st' src ms /\ holds st' dst (map A ms) /\
    unchanged_but st st' dst.
Proof.
  intros H L Hnd Hdis Ho. destruct src as [|h0 src].
  { destruct dst; [|discriminate]. inversion H; subst. exists st. split; [|repeat split; constructor].
    assert (G : forall n r, run_ranks n r (applies A owner [] []) st = Some st) by (induction n; intros r; simpl; auto).
    apply G. }
  destruct ms as [|m0 ms]; [inversion H|]. set (src' := h0 :: src) in *. set (ms' := m0 :: ms) in *.
  pose proof (proj1 (holds_nth st src' ms') H) as [Lm Hn].
  destruct (applies_ranks A src' dst (fun i => nth i ms' m0) owner L Hnd Hdis P 0 st) as (st' & H1 & H2 & H3 & H4).
  { intros i Hi. apply Hn. auto. }
  exists st'. split; [exact H1|]. split.
  { apply holds_nth. split; auto. intros i d Hi. rewrite (nth_indep ms' d m0) by lia. apply H2. auto. }
  split.
  - apply holds_nth. split; [rewrite map_length; lia|]. intros i d Hi.
    rewrite (nth_indep (map A ms') d (A m0)) by (rewrite map_length; lia). rewrite map_nth. apply H3; [lia|lia|].
    apply Ho. lia.
  - intros h Hh. apply H4. intros i Hi _ _ E. apply Hh. rewrite E. apply elem_of_list_In, nth_In. lia.
Qed.
End Acts.

(** ** The number of modes *)
Section Count.
Context {F : sfield}.
Open Scope k_scope.
Add Field Ff_count : (k_field F).

Lemma cumsum_length (l : list F) : forall acc, length (cumsum acc l) = length l.
Proof. induction l; intros; simpl; auto. Qed.
Lemma cumsum_nth (l : list F) : forall acc i, (i < length l)%nat -> at1 (cumsum acc l) i = acc + sum (S i) (at1 l).
Proof.
  induction l as [|x l IH]; intros acc i Hi; simpl in Hi; [lia|]. destruct i as [|i].
  - simpl. unfold at1. simpl. ring.
  - change (at1 (cumsum acc (x :: l)) (S i)) with (at1 (cumsum (acc + x) l) i). rewrite IH by lia.
    rewrite (sum_S_l (S i)). change (at1 (x :: l) O) with x.
    rewrite (sum_ext (S i) (fun j => at1 (x :: l) (S j)) (at1 l)) by reflexivity. ring.
Qed.
Lemma foldl_sum (l : list F) : forall acc, foldl (kadd F) acc l = acc + sum (length l) (at1 l).
Proof.
  induction l as [|x l IH]; intros acc; [simpl; ring|]. change (foldl (kadd F) acc (x :: l)) with (foldl (kadd F) (acc + x) l).
  rewrite IH. change (length (x :: l)) with (S (length l)). rewrite sum_S_l.
  change (at1 (x :: l) O) with x. rewrite (sum_ext (length l) (fun j => at1 (x :: l) (S j)) (at1 l)) by reflexivity. ring.
Qed.
Lemma nonzero_spec (l : list bool) : forall k,
  match nonzero k l with
  | [] => forall i, (i < length l)%nat -> nth i l false = false
  | i :: _ => (k <= i < k + length l)%nat /\ nth (i - k) l false = true /\
      forall j, (j < i - k)%nat -> nth j l false = false
  end.
Proof.
  induction l as [|b l IH]; intros k; simpl.
  - intros i Hi. lia.
  - destruct b.
    + split; [lia|]. rewrite Nat.sub_diag. split; auto. intros; lia.
    + specialize (IH (S k)). destruct (nonzero (S k) l) as [|i r].
      * intros [|i] Hi; auto. apply IH. lia.
      * destruct IH as (H1 & H2 & H3). split; [lia|].
        replace (i - k)%nat with (S (i - S k)) by lia. split; auto.
        intros [|j] Hj; auto. apply H3. lia.
Qed.

Lemma num_modes_spec (c : F) (s : list F) : s <> [] -> Forall (fun x => real x /\ klt_p 0 x) s ->
  real c -> klt_p c 1 ->
  exists n, num_modes c s = Ok n /\ (1 <= n <= length s)%nat /\
    klt_p (c * sum (length s) (at1 s)) (sum n (at1 s)) /\
    forall m, (1 <= m < n)%nat -> kle (sum m (at1 s)) (c * sum (length s) (at1 s)).
Proof.
  intros Ns Hs Rc Hc. set (t := sum (length s) (at1 s)).
  assert (Ha : forall i, (i < length s)%nat -> real (at1 s i) /\ klt_p 0 (at1 s i)).
  { intros i Hi. unfold at1. rewrite Forall_forall in Hs. apply Hs, elem_of_list_In, nth_In. auto. }
  assert (Rs : forall m, (m <= length s)%nat -> real (sum m (at1 s))).
  { intros m Hm. apply sum_real. intros i Hi. apply Ha. lia. }
  assert (Rt : real t) by (apply Rs; lia).
  assert (Ht : klt_p 0 t).
  { unfold t. destruct s as [|x s']; [contradiction|]. change (length (x :: s')) with (S (length s')) in *. rewrite sum_S_l.
    assert (Rt2 : real (sum (length s') (fun i => at1 (x :: s') (S i)))) by (apply sum_real; intros i Hi; apply Ha; lia).
    apply (lt_le_trans 0 (at1 (x :: s') O)); auto using real_0.
    - apply Ha. lia.
    - apply real_add; auto. apply Ha. lia.
    - apply Ha. lia.
    - destruct (sum_nonneg (length s') (fun i => at1 (x :: s') (S i))) as [G|G].
      + intros i Hi. apply Ha. lia.
      + intros i Hi. left. apply Ha. lia.
      + left. apply (proj2 (lt_sub _ _ (proj1 (Ha O ltac:(lia))) (real_add _ _ (proj1 (Ha O ltac:(lia))) Rt2))).
        replace (at1 (x :: s') O + sum (length s') (fun i => at1 (x :: s') (S i)) - at1 (x :: s') O)
          with (sum (length s') (fun i => at1 (x :: s') (S i))) by ring. exact G.
      + right. rewrite <- G. ring. }
  assert (Nt : t <> 0) by (intros E; rewrite E in Ht; red in Ht; rewrite (lt_irrefl F 0 real_0) in Ht; discriminate).
  assert (Et : foldl (kadd F) 0 s = t) by (rewrite foldl_sum; unfold t; ring).
  set (normed := map (fun x => x / t) s).
  set (l := map (fun x => klt F c x) (cumsum 0 normed)).
  assert (Ll : length l = length s) by (unfold l, normed; rewrite map_length, cumsum_length, map_length; auto).
  assert (El : forall i, (i < length s)%nat -> nth i l false = klt F (c * t) (sum (S i) (at1 s))).
  { intros i Hi. unfold l.
    rewrite (nth_indep _ false (klt F c 0)) by (fold l; lia). rewrite (map_nth (fun x => klt F c x)).
    change (nth i (cumsum 0 normed) 0) with (at1 (cumsum 0 normed) i).
    rewrite cumsum_nth by (unfold normed; rewrite map_length; auto).
    assert (Es : 0 + sum (S i) (at1 normed) = sum (S i) (at1 s) / t).
    { transitivity (sum (S i) (fun j => at1 s j * (1 / t))).
      - assert (E0 : forall x : F, 0 + x = x) by (intros; ring). rewrite E0. apply sum_ext. intros j Hj.
        unfold normed, at1. rewrite (nth_indep _ 0 (0 / t)) by (rewrite map_length; lia).
        rewrite (map_nth (fun x => x / t)). field. auto.
      - rewrite sum_mul_r. field. auto. }
    rewrite Es. pose proof (lt_div c (sum (S i) (at1 s)) t Rc (Rs _ Hi) Rt Ht) as G. unfold klt_p in G.
    destruct (klt F c _), (klt F (c * t) _); auto; [symmetry|]; apply G; auto. }
  unfold num_modes. rewrite Et. fold normed. fold l.
  pose proof (nonzero_spec l 0) as G. destruct (nonzero 0 l) as [|i r].
  - exfalso. specialize (G (length s - 1)%nat). rewrite El in G by (destruct s; simpl in *; [contradiction|lia]).
    replace (S (length s - 1)) with (length s) in G by (destruct s; simpl in *; [contradiction|lia]).
    fold t in G. rewrite Ll in G.
    assert (K : klt_p (c * t) t).
    { pose proof (proj1 (lt_mul_r c 1 t Rc real_1 Rt Ht) Hc) as K. replace (1 * t) with t in K by ring. exact K. }
    red in K. rewrite K in G. discriminate G. destruct s; simpl in *; [contradiction|lia].
  - destruct G as (G1 & G2 & G3). rewrite Nat.sub_0_r in *. exists (i + 1)%nat. split; [reflexivity|]. split; [lia|].
    replace (i + 1)%nat with (S i) by lia. split.
    + red. rewrite <- El by lia. exact G2.
    + intros m Hm. apply not_lt; auto using real_mul.
      * apply Rs. lia.
      * specialize (G3 (m - 1)%nat). rewrite El in G3 by lia. replace (S (m - 1)) with m in G3 by lia. apply G3. lia.
Qed.
End Count.
