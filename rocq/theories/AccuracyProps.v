(** Property C64: accuracy of linear combinations, on any number of processes. *)
From stdpp Require Import gmap list.
From Coq Require Import ZArith Lia QArith Qabs Lqa.
From Verif Require Import Prelude ParallelModel VecSpaceModel Spmd SpmdFacts
  SpmdLock SpmdEnds InnerProdModel InnerProdProps LinCombModel LinCombProofs LinCombProps
  FloatModel FloatProofs ObjectsProps AccuracyModel.
Open Scope nat_scope.

(** ** Specifications *)

Fixpoint q_sum (l : list Q) : Q := match l with [] => 0%Q | x :: l => (x + q_sum l)%Q end.
Fixpoint q_pow (x : Q) (n : nat) : Q := match n with 0 => 1%Q | S n => (x * q_pow x n)%Q end.

(** Entry [m] of basis vector [i] times its coefficient in sum [j], exactly. *)
Definition part (bv : list (list Q)) (a : coeffs Q) idx (j m i : nat) : Q :=
  match bv !! i, coef (length bv) a idx i j with
  | Some b, Some x => (nth m b 0 * x)%Q
  | _, _ => 0%Q
  end.
(** Entry [m] of sum [j], exactly, and the sum of the sizes of its terms. *)
Definition exact_entry bv a idx j m : Q := q_sum (map (part bv a idx j m) (seq 0 (length bv))).
Definition size_entry bv a idx j m : Q := q_sum (map (fun i => Qabs (part bv a idx j m i)) (seq 0 (length bv))).

(** The array [v] has the entries of sum [j] with an error of at most [e] times their size. *)
Definition accurate (e : Q) len bv a idx j (v : list Q) : Prop :=
  length v = len /\ forall m, m < len ->
    (Qabs (nth m v 0 - exact_entry bv a idx j m) <= e * size_entry bv a idx j m)%Q.

(** ** Rounding errors of sums *)
Section Rounding.
Context (rnd : Q -> Q) (u : Q).
Context (Hu : (0 <= u)%Q) (Hr : forall x, (Qabs (rnd x - x) <= Qabs x * u)%Q).

Fixpoint err (k : nat) : Q := match k with 0 => 0%Q | S k => (err k * (1 + u) + u)%Q end.
Lemma err_pow k : (err k == q_pow (1 + u) k - 1)%Q.
Proof. induction k as [|k IH]; simpl; [ring|]. rewrite IH. ring. Qed.
Lemma err_pos k : (0 <= err k)%Q.
Proof. induction k as [|k IH]; simpl; [lra|]. nra. Qed.
Lemma err_ge k : 1 <= k -> (u <= err k)%Q.
Proof. destruct k as [|k]; [lia|]. intros _. simpl. pose proof (err_pos k). nra. Qed.

Lemma err_step s S A t t' e : (0 <= A)%Q -> (u <= e)%Q ->
  (Qabs (s - S) <= e * A)%Q -> (Qabs S <= A)%Q -> (Qabs (t' - t) <= Qabs t * u)%Q ->
  (Qabs (rnd (s + t') - (S + t)) <= (e * (1 + u) + u) * (A + Qabs t))%Q.
Proof.
  intros HA He H1 H2 H3.
  pose proof (Hr (s + t')) as H4.
  pose proof (Qabs_nonneg t) as Ht.
  assert (H5 : (Qabs (s + t') <= e * A + A + Qabs t * u + Qabs t)%Q).
  { assert (E : (s + t' == (s - S) + S + (t' - t) + t)%Q) by ring. rewrite E.
    eapply Qle_trans; [apply Qabs_triangle|]. apply Qplus_le_compat; [|lra].
    eapply Qle_trans; [apply Qabs_triangle|]. apply Qplus_le_compat; [|lra].
    eapply Qle_trans; [apply Qabs_triangle|]. apply Qplus_le_compat; lra. }
  assert (H6 : (Qabs (s + t') * u <= (e * A + A + Qabs t * u + Qabs t) * u)%Q) by (apply Qmult_le_compat_r; auto).
  assert (E : (rnd (s + t') - (S + t) == (rnd (s + t') - (s + t')) + (s - S) + (t' - t))%Q) by ring. rewrite E.
  eapply Qle_trans; [apply Qabs_triangle|].
  assert (H7 : (Qabs (rnd (s + t') - (s + t') + (s - S)) <= Qabs (rnd (s + t') - (s + t')) + Qabs (s - S))%Q) by apply Qabs_triangle.
  assert (H8 : (0 <= (e - u) * Qabs t)%Q) by (apply Qmult_le_0_compat; lra).
  assert (H9 : (0 <= (e - u) * Qabs t * u)%Q) by (apply Qmult_le_0_compat; auto).
  lra.
Qed.

Lemma q_sum_abs l : (Qabs (q_sum l) <= q_sum (map Qabs l))%Q.
Proof.
  induction l as [|x l IH]; simpl; [apply Qle_refl|].
  eapply Qle_trans; [apply Qabs_triangle|]. lra.
Qed.
Lemma q_sum_app l l' : (q_sum (l ++ l') == q_sum l + q_sum l')%Q.
Proof. induction l as [|x l IH]; simpl; [ring|]. rewrite IH. ring. Qed.

(** Rounded sum [foldl] of rounded terms. *)
Lemma foldl_error ts ts' : Forall2 (fun t t' => Qabs (t' - t) <= Qabs t * u)%Q ts ts' ->
  forall done s, 1 <= length done -> (Qabs (s - q_sum done) <= err (length done) * q_sum (map Qabs done))%Q ->
  (Qabs (foldl (fun s x => rnd (s + x))%Q s ts' - q_sum (done ++ ts))
    <= err (length (done ++ ts)) * q_sum (map Qabs (done ++ ts)))%Q.
Proof.
  induction 1 as [|t t' ts ts' Ht _ IH]; intros done s Hd Hs; simpl.
  - rewrite app_nil_r. exact Hs.
  - specialize (IH (done ++ [t]) (rnd (s + t'))%Q).
    replace ((done ++ [t]) ++ ts) with (done ++ t :: ts) in IH by (rewrite <- app_assoc; reflexivity).
    apply IH; [rewrite app_length; simpl; lia|].
    rewrite app_length, Nat.add_1_r. cbn [err]. rewrite q_sum_app, map_app, q_sum_app. cbn [q_sum map].
    assert (E1 : (t + 0 == t)%Q) by ring. rewrite E1.
    assert (E2 : (Qabs t + 0 == Qabs t)%Q) by ring. rewrite E2.
    apply err_step; auto using err_ge, q_sum_abs.
    eapply Qle_trans; [apply Qabs_nonneg|apply q_sum_abs].
Qed.
Lemma fold1_error ts ts' t t' : (Qabs (t' - t) <= Qabs t * u)%Q -> Forall2 (fun t t' => Qabs (t' - t) <= Qabs t * u)%Q ts ts' ->
  (Qabs (foldl (fun s x => rnd (s + x))%Q t' ts' - q_sum (t :: ts)) <= err (S (length ts)) * q_sum (map Qabs (t :: ts)))%Q.
Proof.
  intros H1 H2. apply (foldl_error ts ts' H2 [t] t'); [simpl; lia|]. cbn [q_sum map err length].
  assert (E1 : (t' - (t + 0) == t' - t)%Q) by ring. rewrite E1. lra.
Qed.

(** Entries of the vector operations. *)
Lemma fl_vadd_length v : forall w, length w = length v -> length (fl_vadd rnd v w) = length v.
Proof. induction v as [|x v IH]; intros [|y w]; simpl; intros; try lia. rewrite IH; lia. Qed.
Lemma fl_vadd_nth v : forall w m, length w = length v -> m < length v ->
  nth m (fl_vadd rnd v w) 0%Q = rnd (nth m v 0 + nth m w 0)%Q.
Proof.
  induction v as [|x v IH]; intros [|y w] m; simpl; intros; try lia. destruct m as [|m]; auto. apply IH; lia.
Qed.
Lemma foldl_entries len ts : Forall (fun t => length t = len) ts -> forall t, length t = len ->
  length (foldl (fl_vadd rnd) t ts) = len /\ forall m, m < len ->
  nth m (foldl (fl_vadd rnd) t ts) 0%Q = foldl (fun s x => rnd (s + x))%Q (nth m t 0%Q) (map (fun t => nth m t 0%Q) ts).
Proof.
  induction 1 as [|x ts Hx _ IH]; intros t Ht; simpl; auto.
  assert (L : length (fl_vadd rnd t x) = len) by (rewrite fl_vadd_length; congruence).
  destruct (IH _ L) as [IH1 IH2]. split; auto. intros m Hm. rewrite IH2 by auto.
  rewrite fl_vadd_nth by congruence. reflexivity.
Qed.

Lemma q_sum_perm l l' : l ≡ₚ l' -> (q_sum l == q_sum l')%Q.
Proof.
  induction 1 as [|x l l' _ IH|x y l|l l' l'' _ IH1 _ IH2]; simpl; [reflexivity|rewrite IH; reflexivity|ring|].
  rewrite IH1. exact IH2.
Qed.

Lemma sum_accurate len (bv : list (list Q)) a idx j ord ts v :
  Forall (fun b => length b = len) bv -> ord ≡ₚ seq 0 (length bv) ->
  Forall2 (is_term (fl_scale rnd) bv a idx j) ord ts -> sum_of (fl_vadd rnd) ts v ->
  accurate (q_pow (1 + u) (length bv) - 1) len bv a idx j v.
Proof.
  intros Hl Hord Hts Hv.
  assert (Hlen : Forall (fun t => length t = len) ts).
  { clear -Hts Hl. induction Hts as [|i t is ts (b & x & Hb & _ & ->) _ IH]; constructor; auto.
    unfold fl_scale. rewrite map_length. exact (proj1 (Forall_lookup _ _) Hl i b Hb). }
  assert (Hent : forall m, m < len -> Forall2 (fun t t' => Qabs (t' - t) <= Qabs t * u)%Q
            (map (part bv a idx j m) ord) (map (fun t => nth m t 0%Q) ts)).
  { intros m Hm. clear -Hts Hl Hm Hr. induction Hts as [|i t is ts (b & x & Hb & Hx & ->) _ IH]; simpl; constructor; auto.
    pose proof (proj1 (Forall_lookup _ _) Hl i b Hb) as Lb. simpl in Lb.
    unfold part. rewrite Hb, Hx. unfold fl_scale.
    rewrite (nth_indep _ 0%Q (rnd (0 * x)%Q)) by (rewrite map_length; lia).
    rewrite (map_nth (fun y => rnd (y * x)%Q)). apply Hr. }
  assert (Lord : length ord = length bv) by (rewrite Hord; apply seq_length).
  destruct ts as [|t ts]; [destruct Hv|]. simpl in Hv. subst v.
  inversion Hlen as [|? ? Lt Lts]; subst.
  destruct (foldl_entries (length t) ts Lts t eq_refl) as [L1 L2].
  split; auto. intros m Hm. rewrite L2 by auto.
  specialize (Hent m Hm). destruct ord as [|i ord]; [inversion Hts|]. simpl in Hent.
  inversion Hent as [|? ? ? ? E1 E2]; subst.
  pose proof (fold1_error _ _ _ _ E1 E2) as H. rewrite map_length in H.
  unfold exact_entry, size_entry.
  assert (P1 : (q_sum (part bv a idx j m i :: map (part bv a idx j m) ord) == q_sum (map (part bv a idx j m) (seq 0 (length bv))))%Q).
  { apply q_sum_perm. change (map (part bv a idx j m) (i :: ord) ≡ₚ map (part bv a idx j m) (seq 0 (length bv))).
    apply Permutation_map, Hord. }
  assert (P2 : (q_sum (map Qabs (part bv a idx j m i :: map (part bv a idx j m) ord)) ==
                q_sum (map (fun i => Qabs (part bv a idx j m i)) (seq 0 (length bv))))%Q).
  { apply q_sum_perm. rewrite <- (map_map (part bv a idx j m) Qabs).
    change (map Qabs (map (part bv a idx j m) (i :: ord)) ≡ₚ map Qabs (map (part bv a idx j m) (seq 0 (length bv)))).
    apply Permutation_map, Permutation_map, Hord. }
  rewrite <- P1, <- P2. simpl in Lord. rewrite <- Lord, <- err_pow. exact H.
Qed.
End Rounding.

(** ** Theorems *)

(** Whatever the number of processes and the schedule, an entry of a sum of [n] terms is
    off by at most [(1 + u)^n - 1] times the sum of the sizes of its terms, where [u] bounds the
    relative error of one operation. *)
Theorem C64_accuracy rnd u tag_ub eager P N limit per_node per_proc st (sums basis : list loc)
    len (bv : list (list Q)) (a : coeffs Q) idx :
  (0 <= u)%Q -> (forall x, (Qabs (rnd x - x) <= Qabs x * u)%Q) ->
  made_with limit P N per_node per_proc -> P * P - 1 <= tag_ub ->
  holds st basis bv -> basis <> [] -> Forall (fun b => length b = len) bv ->
  NoDup sums -> (forall h, h ∈ sums -> h ∉ basis) ->
  rectangular a -> valid_columns (length basis) a idx -> fits (length basis) (length sums) a idx ->
  always_ends tag_ub eager
    (launch P (fun r => lin_combine P (fl_vadd rnd) (fl_scale rnd) per_node per_proc N r sums basis a idx) st)
    (fun c => all_return (fun _ (_ : unit) => True) c /\ length (procs c) = P /\
      (forall j h, sums !! j = Some h -> exists v, store c !! h = Some v /\
         accurate (q_pow (1 + u) (length basis) - 1) len bv a idx j v) /\
      (forall h, h ∉ sums -> store c !! h = st !! h)).
Proof.
  intros Hu Hrnd Hm Ht Hst Nb Hl Hnd Hdis Hr Hv Hf.
  destruct (C06_linear_combinations tag_ub eager P N limit per_node per_proc (fl_vadd rnd) (fl_scale rnd) st sums
    basis bv a idx Hm Ht Hst Nb Hnd Hdis Hr Hv Hf) as (ord & Hord & Hends).
  pose proof (Forall2_length _ _ _ Hst) as Lb.
  eapply ends_more; [|exact Hends].
  intros _ c _ (H1 & H2 & H3 & H4). split; auto. split; auto. split; auto.
  intros j h Hj. destruct (H3 j h Hj) as (r & ts & v & Hlt & F & S & E).
  exists v. split; auto. rewrite Lb in Hord |- *. apply (sum_accurate rnd u Hu Hrnd len bv a idx j (ord r) ts v); auto.
Qed.

(** [(1 + u)^n - 1] is at most [2 n u] if [n u] is at most one half. *)
Lemma pow_bound u n : (0 <= u)%Q -> (q_of n * u <= 1 # 2)%Q -> (q_pow (1 + u) n - 1 <= 2 * q_of n * u)%Q.
Proof.
  intros Hu Hn.
  assert (H : (q_pow (1 + u) n * (1 - q_of n * u) <= 1)%Q /\ (0 <= q_pow (1 + u) n)%Q).
  { clear Hn. assert (Hpos : forall n, (0 <= q_pow (1 + u) n)%Q).
    { intros k. induction k as [|k IH]; simpl; [lra|]. nra. }
    split; [|apply Hpos]. induction n as [|n IH]; cbn [q_pow].
    - change (q_of 0) with 0%Q. lra.
    - assert (E : (q_of (S n) == q_of n + 1)%Q).
      { unfold q_of. rewrite Nat2Z.inj_succ, <- Z.add_1_r, inject_Z_plus. reflexivity. }
      rewrite E. pose proof (Hpos n) as Hp.
      assert (Hn : (0 <= q_of n)%Q) by (unfold q_of; change 0%Q with (inject_Z 0); rewrite <- Zle_Qle; lia).
      assert (H1 : (0 <= q_pow (1 + u) n * (u * u) * (q_of n + 1))%Q).
      { apply Qmult_le_0_compat; [apply Qmult_le_0_compat; auto; nra|lra]. }
      lra. }
  destruct H as [H1 H2].
  assert (Hp : (q_pow (1 + u) n <= 2)%Q) by nra.
  assert (Hn' : (0 <= q_of n * u)%Q).
  { apply Qmult_le_0_compat; auto. unfold q_of. change 0%Q with (inject_Z 0). rewrite <- Zle_Qle. lia. }
  nra.
Qed.

(** In binary64, with at most 2^52 basis vectors: [n] times 2^-52. *)
Theorem C64_binary64 tag_ub eager P N limit per_node per_proc st (sums basis : list loc)
    len (bv : list (list Q)) (a : coeffs Q) idx :
  (Z.of_nat (length basis) <= 2 ^ 52)%Z ->
  made_with limit P N per_node per_proc -> P * P - 1 <= tag_ub ->
  holds st basis bv -> basis <> [] -> Forall (fun b => length b = len) bv ->
  NoDup sums -> (forall h, h ∈ sums -> h ∉ basis) ->
  rectangular a -> valid_columns (length basis) a idx -> fits (length basis) (length sums) a idx ->
  always_ends tag_ub eager
    (launch P (fun r => lin_combine P (fl_vadd binary64) (fl_scale binary64) per_node per_proc N r sums basis a idx) st)
    (fun c => all_return (fun _ (_ : unit) => True) c /\ length (procs c) = P /\
      (forall j h, sums !! j = Some h -> exists v, store c !! h = Some v /\
         accurate (q_of (length basis) * (1 # 2 ^ 52)) len bv a idx j v) /\
      (forall h, h ∉ sums -> store c !! h = st !! h)).
Proof.
  intros Hn Hm Ht Hst Nb Hl Hnd Hdis Hr Hv Hf.
  eapply ends_more; [|apply (C64_accuracy binary64 unit_roundoff tag_ub eager P N limit per_node per_proc st sums basis
    len bv a idx); auto; [discriminate|apply binary64_rounding]].
  intros _ c _ (H1 & H2 & H3 & H4). split; auto. split; auto. split; auto.
  intros j h Hj. destruct (H3 j h Hj) as (v & E & L & A). exists v. split; auto. split; auto.
  intros m Hm'. eapply Qle_trans; [exact (A m Hm')|].
  apply Qmult_le_compat_r.
  - eapply Qle_trans; [apply pow_bound; [discriminate|]|].
    + unfold unit_roundoff, q_of. unfold Qmult, Qle, inject_Z. cbn [Qnum Qden]. lia.
    + unfold unit_roundoff, q_of. unfold Qmult, Qle, inject_Z. cbn [Qnum Qden]. lia.
  - unfold size_entry. clear. induction (seq 0 (length bv)) as [|i is IH]; simpl; [lra|].
    pose proof (Qabs_nonneg (part bv a idx j m i)). lra.
Qed.

(** Sums by different numbers of processes, nodes, memory limits and schedules agree to twice
    that. *)
Theorem C64_agree tag_ub eager P N limit per_node per_proc tag_ub' eager' P' N' limit' per_node' per_proc' st
    (sums basis : list loc) len (bv : list (list Q)) (a : coeffs Q) idx k c k' c' :
  (Z.of_nat (length basis) <= 2 ^ 52)%Z ->
  made_with limit P N per_node per_proc -> P * P - 1 <= tag_ub ->
  made_with limit' P' N' per_node' per_proc' -> P' * P' - 1 <= tag_ub' ->
  holds st basis bv -> basis <> [] -> Forall (fun b => length b = len) bv ->
  NoDup sums -> (forall h, h ∈ sums -> h ∉ basis) ->
  rectangular a -> valid_columns (length basis) a idx -> fits (length basis) (length sums) a idx ->
  steps tag_ub eager k (launch P (fun r => lin_combine (O := unit) P (fl_vadd binary64) (fl_scale binary64) per_node per_proc N r
                                             sums basis a idx) st) c -> stuck tag_ub eager c ->
  steps tag_ub' eager' k' (launch P' (fun r => lin_combine (O := unit) P' (fl_vadd binary64) (fl_scale binary64) per_node' per_proc' N' r
                                             sums basis a idx) st) c' -> stuck tag_ub' eager' c' ->
  forall j h, sums !! j = Some h -> exists v v', store c !! h = Some v /\ store c' !! h = Some v' /\
    length v = len /\ length v' = len /\
    forall m, m < len -> (Qabs (nth m v 0 - nth m v' 0) <= q_of (length basis) * (1 # 2 ^ 51) * size_entry bv a idx j m)%Q.
Proof.
  intros Hn Hm Ht Hm' Ht' Hst Nb Hl Hnd Hdis Hr Hv Hf Hc Sc Hc' Sc' j h Hj.
  destruct (C64_binary64 tag_ub eager P N limit per_node per_proc st sums basis len bv a idx) as [n H]; auto.
  destruct (H k c Hc) as (_ & H1 & _). destruct (H1 Sc) as (_ & _ & H2 & _). destruct (H2 j h Hj) as (v & Ev & Lv & Av).
  destruct (C64_binary64 tag_ub' eager' P' N' limit' per_node' per_proc' st sums basis len bv a idx) as [n' H']; auto.
  destruct (H' k' c' Hc') as (_ & H1' & _). destruct (H1' Sc') as (_ & _ & H2' & _). destruct (H2' j h Hj) as (v' & Ev' & Lv' & Av').
  exists v, v'. split; auto. split; auto. split; auto. split; auto. intros m Hlt.
  specialize (Av m Hlt). specialize (Av' m Hlt).
  set (x := exact_entry bv a idx j m) in *. set (y := size_entry bv a idx j m) in *.
  assert (E : (nth m v 0 - nth m v' 0 == (nth m v 0 - x) - (nth m v' 0 - x))%Q) by ring. rewrite E.
  eapply Qle_trans; [apply Qabs_triangle|]. rewrite Qabs_opp.
  assert (E2 : (q_of (length basis) * (1 # 2 ^ 51) * y == q_of (length basis) * (1 # 2 ^ 52) * y + q_of (length basis) * (1 # 2 ^ 52) * y)%Q).
  { assert (E3 : (1 # 2 ^ 51 == (1 # 2 ^ 52) + (1 # 2 ^ 52))%Q) by (vm_compute; reflexivity). rewrite E3. ring. }
  rewrite E2. apply Qplus_le_compat; auto.
Qed.

(** ** Examples *)

(** Sums of 2^53, 1, 2 and -2^53, twice, and of tenths.  The first entries are 2 on one process, 4 and 3 on
    two: errors 1, 1 and 0 in sums with terms of size 2^54 + 3. *)
Definition q_big : Q := inject_Z (2 ^ 53).
Definition ac_vecs : list (list Q) := [[q_big; 1 # 10]; [1; 1 # 10]; [2; 1 # 10]; [- q_big; 1 # 10]]%Q.
Definition ac_store : gmap loc (list Q) := list_to_map (zip [1; 2; 3; 4] ac_vecs).
Definition ac_coeffs : coeffs Q := Arr2 4 2 (replicate 4 [1; 1]%Q).
Notation ac_run P per_node := (launch P (fun r => lin_combine P (fl_vadd binary64) (fl_scale binary64) per_node 3 1 r [10; 11]
  [1; 2; 3; 4] ac_coeffs None) ac_store).

Lemma ac_hyps : holds ac_store [1; 2; 3; 4] ac_vecs /\ Forall (fun b => length b = 2) ac_vecs /\ NoDup [10; 11] /\
  (forall h, h ∈ [10; 11] -> h ∉ [1; 2; 3; 4]) /\ rectangular ac_coeffs /\ valid_columns 4 ac_coeffs None /\
  fits 4 2 ac_coeffs None.
Proof.
  split; [repeat constructor|]. split; [repeat constructor|]. split; [apply (bool_decide_unpack (NoDup [10; 11])); reflexivity|].
  split. { intros h Hh. apply elem_of_cons in Hh as [->|Hh]; [|apply elem_of_list_singleton in Hh as ->]; (eapply bool_decide_unpack; reflexivity). }
  split; [repeat constructor|]. split; [repeat constructor; unfold valid_index; simpl; lia|]. repeat constructor.
Qed.

Example C64_example eager : always_ends 3 eager (ac_run 2 6)
  (fun c => all_return (fun _ (_ : unit) => True) c /\ length (procs c) = 2 /\
    (forall j h, [10; 11] !! j = Some h -> exists v, store c !! h = Some v /\
       accurate (q_of 4 * (1 # 2 ^ 52)) 2 ac_vecs ac_coeffs None j v) /\
    (forall h, h ∉ [10; 11] -> store c !! h = ac_store !! h)).
Proof.
  destruct ac_hyps as (H1 & H2 & H3 & H4 & H5 & H6 & H7).
  apply (C64_binary64 3 eager 2 1 (Some 1%Z) 6 3 ac_store [10; 11] [1; 2; 3; 4] 2 ac_vecs ac_coeffs None); auto;
    try discriminate; try (simpl; lia). repeat split; lia.
Qed.
Example C64_example_entries :
  let entry c h := Qred ∘ (fun v => nth 0 v 0%Q) <$> store c !! h in
  let c1 := some_run 10 (fun _ => true) 100 (ac_run 1 3) in let c2 := some_run 10 (fun _ => true) 200 (ac_run 2 6) in
  (entry c1 10, entry c1 11, entry c2 10, entry c2 11) = (Some 2%Q, Some 2%Q, Some 4%Q, Some 3%Q) /\
  Qred (exact_entry ac_vecs ac_coeffs None 0 0) = 3%Q /\ Qred (size_entry ac_vecs ac_coeffs None 0 0) = inject_Z (2 ^ 54 + 3).
Proof. vm_compute. auto. Qed.
(** The entries of tenths are not exact either: a tenth has no finite binary expansion. *)
Example C64_example_tenths :
  let c := some_run 10 (fun _ => true) 200 (ac_run 2 6) in
  (fun v : list Q => Qeq_bool (nth 1 v 0%Q) (4 # 10)) <$> store c !! 10 = Some false.
Proof. vm_compute. reflexivity. Qed.
(** One and two processes. *)
Example C64_agree_example k c k' c' :
  steps 3 (fun _ => true) k (ac_run 1 3) c -> stuck 3 (fun _ => true) c ->
  steps 3 (fun _ => false) k' (ac_run 2 6) c' -> stuck 3 (fun _ => false) c' ->
  forall j h, [10; 11] !! j = Some h -> exists v v', store c !! h = Some v /\ store c' !! h = Some v' /\
    length v = 2 /\ length v' = 2 /\
    forall m, m < 2 -> (Qabs (nth m v 0 - nth m v' 0) <= q_of 4 * (1 # 2 ^ 51) * size_entry ac_vecs ac_coeffs None j m)%Q.
Proof.
  destruct ac_hyps as (H1 & H2 & H3 & H4 & H5 & H6 & H7).
  apply (C64_agree 3 (fun _ => true) 1 1 (Some 1%Z) 3 3 3 (fun _ => false) 2 1 (Some 1%Z) 6 3 ac_store [10; 11] [1; 2; 3; 4] 2
    ac_vecs ac_coeffs None); auto; try discriminate; try (simpl; lia); repeat split; lia.
Qed.

Print Assumptions C64_accuracy.
Print Assumptions C64_binary64.
Print Assumptions C64_agree.
