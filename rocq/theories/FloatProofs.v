(** Rounding does not change the decisions made with these divisions. *)
From Coq Require Import List Arith QArith Qabs Qround ZArith Lia Lqa Bool Qfield.
From Verif Require Import Prelude ParallelModel ParallelProofs VecSpaceModel FloatModel.
Import ListNotations.
Open Scope nat_scope.

(** ** argmin depends on comparisons only *)

Lemma first_min_unique l k k' : is_first_min l k -> is_first_min l k' -> k = k'.
Proof.
  intros (A & B & C) (A' & B' & C').
  destruct (Nat.lt_trichotomy k k') as [H|[H|H]]; auto.
  - specialize (C' k H). specialize (B k' A'). lra.
  - specialize (C k' H). specialize (B' k A). lra.
Qed.

Lemma argmin_ext l l' : length l = length l' ->
  (forall i j, i < length l -> j < length l -> (nth i l 0 < nth j l 0)%Q <-> (nth i l' 0 < nth j l' 0)%Q) ->
  argmin l = argmin l'.
Proof.
  intros Hl H. destruct l as [|x l].
  { destruct l'; [reflexivity|discriminate]. }
  set (m := x :: l) in *.
  assert (Hm : m <> []) by discriminate.
  assert (Hm' : l' <> []) by (intros ->; discriminate).
  apply (first_min_unique l'); [|apply argmin_spec; auto].
  destruct (argmin_spec m Hm) as (A & B & C). repeat split.
  - lia.
  - intros j Hj. rewrite <- Hl in Hj. apply Qnot_lt_le. intros N. apply H in N; auto.
    specialize (B j Hj). lra.
  - intros j Hj. apply H; auto. lia.
Qed.

(** ** Sums of naturals are exact *)
Section Rnd.
Context (rnd : Q -> Q) (R : rounding rnd).

Definition nsum (l : list nat) : nat := fold_right Nat.add 0 l.

Lemma q_of_add a b : (q_of (a + b) == q_of a + q_of b)%Q.
Proof. unfold q_of. rewrite Nat2Z.inj_add, inject_Z_plus. reflexivity. Qed.
Lemma q_of_nonneg a : (0 <= q_of a)%Q.
Proof. unfold q_of, Qle. simpl. lia. Qed.
Lemma q_of_le a b : a <= b -> (q_of a <= q_of b)%Q.
Proof. unfold q_of. intros. rewrite <- Zle_Qle. lia. Qed.
Lemma q_of_eq x a b : (x == q_of a)%Q -> a = b -> (x == q_of b)%Q.
Proof. intros H <-. exact H. Qed.

Lemma rnd_nat x a : (x == q_of a)%Q -> (Z.of_nat a <= 2 ^ 52)%Z -> (rnd x == q_of a)%Q.
Proof.
  intros Hx Ha. rewrite <- Hx. apply (rnd_half rnd R x (2 * Z.of_nat a)); [|lia].
  rewrite Hx. unfold q_of. rewrite inject_Z_mult. reflexivity.
Qed.

Lemma fl_fold ns : forall acc a, (acc == q_of a)%Q -> (Z.of_nat (a + nsum ns) <= 2 ^ 52)%Z ->
  (fold_left (fun acc x => rnd (acc + x)) (map q_of ns) acc == q_of (a + nsum ns))%Q.
Proof.
  induction ns as [|n ns IH]; intros acc a Ha Hb; simpl in *.
  - rewrite Nat.add_0_r. exact Ha.
  - eapply q_of_eq; [apply (IH _ (a + n))|lia].
    + apply rnd_nat; [rewrite Ha, q_of_add; reflexivity|lia].
    + lia.
Qed.
Lemma fl_sum_exact ns : (Z.of_nat (nsum ns) <= 2 ^ 52)%Z -> (fl_sum rnd (map q_of ns) == q_of (nsum ns))%Q.
Proof. intros H. apply (fl_fold ns 0%Q 0); [reflexivity|exact H]. Qed.

Lemma fl_cumsum_length l : forall acc, length (fl_cumsum_from rnd acc l) = length l.
Proof. induction l; simpl; auto. Qed.
Lemma fl_cumsum_nth ns : forall acc a i, (acc == q_of a)%Q -> (Z.of_nat (a + nsum ns) <= 2 ^ 52)%Z ->
  i < length ns -> (nth i (fl_cumsum_from rnd acc (map q_of ns)) 0 == q_of (a + nsum (firstn (S i) ns)))%Q.
Proof.
  induction ns as [|n ns IH]; intros acc a i Ha Hb Hi; simpl in *; [lia|].
  assert (E : (rnd (acc + q_of n) == q_of (a + n))%Q).
  { apply rnd_nat; [rewrite Ha, q_of_add; reflexivity|lia]. }
  destruct i as [|i].
  - simpl. rewrite Nat.add_0_r. exact E.
  - eapply q_of_eq; [apply IH; [exact E|lia|lia]|simpl; lia].
Qed.

Lemma qsum_nsum ns : (qsum (map q_of ns) == q_of (nsum ns))%Q.
Proof. induction ns as [|n ns IH]; simpl; [reflexivity|]. rewrite IH, q_of_add. reflexivity. Qed.
Lemma nsum_firstn i ns : nsum (firstn i ns) <= nsum ns.
Proof.
  revert ns. induction i as [|i IH]; intros [|n ns]; simpl; try lia. specialize (IH ns). lia.
Qed.
Lemma nsum_skipn i ns : nsum (skipn i ns) <= nsum ns.
Proof.
  revert ns. induction i as [|i IH]; intros [|n ns]; simpl; try lia. specialize (IH ns). lia.
Qed.

(** ** Distances *)

Lemma Qabs_inject z : (Qabs (inject_Z z) == inject_Z (Z.abs z))%Q.
Proof. destruct z; reflexivity. Qed.

(** The exact distance of the integer [c] from [W/k] is a multiple of [1/k]. *)
Lemma dist_exact c W k : 0 < k ->
  (Qabs (q_of c - q_of W / q_of k) ==
   inject_Z (Z.abs (Z.of_nat k * Z.of_nat c - Z.of_nat W)) / q_of k)%Q.
Proof.
  intros Hk. assert (H : (0 < q_of k)%Q) by (unfold q_of, Qlt; simpl; lia).
  assert (E : (q_of c - q_of W / q_of k == inject_Z (Z.of_nat k * Z.of_nat c - Z.of_nat W) * / q_of k)%Q).
  { unfold Zminus. rewrite inject_Z_plus, inject_Z_opp, inject_Z_mult. fold (q_of k) (q_of c) (q_of W).
    field. lra. }
  rewrite E, Qabs_Qmult, Qabs_inject. unfold Qdiv. rewrite (Qabs_pos (/ q_of k)); [reflexivity|].
  apply Qlt_le_weak, Qinv_lt_0_compat. exact H.
Qed.

(** Three roundings, one of [x], one of [c - x]. *)
Lemma dist_error c' c W k x : (c' == q_of c)%Q -> c <= W -> 0 < k ->
  (Qabs (x - q_of W / q_of k) <= q_of W * unit_roundoff)%Q ->
  (Qabs (Qabs (rnd (c' - x)) - Qabs (q_of c - q_of W / q_of k)) <= 3 * (q_of W * unit_roundoff))%Q.
Proof.
  intros Hc HcW Hk Hx.
  assert (K : (1 <= q_of k)%Q) by (apply (q_of_le 1 k); lia).
  assert (W0 : (0 <= q_of W)%Q) by apply q_of_nonneg.
  assert (C0 : (0 <= q_of c)%Q) by apply q_of_nonneg.
  assert (CW : (q_of c <= q_of W)%Q) by (apply q_of_le; auto).
  set (w := (q_of W / q_of k)%Q) in *.
  assert (Bw : (0 <= w <= q_of W)%Q).
  { unfold w. split.
    - apply Qle_shift_div_l; lra.
    - apply Qle_shift_div_r; [lra|]. rewrite <- (Qmult_1_r (q_of W)) at 1.
      rewrite !(Qmult_comm (q_of W)). apply Qmult_le_compat_r; auto. }
  set (E := (q_of W * unit_roundoff)%Q) in *.
  assert (u : (0 <= unit_roundoff /\ unit_roundoff <= 1 # 2)%Q) by (split; discriminate).
  assert (E0 : (0 <= E)%Q) by (apply Qmult_le_0_compat; lra).
  assert (EW : (E <= q_of W)%Q).
  { unfold E. rewrite <- (Qmult_1_r (q_of W)) at 2. rewrite !(Qmult_comm (q_of W)).
    apply Qmult_le_compat_r; lra. }
  apply Qabs_Qle_condition in Hx.
  assert (G : (Qabs (c' - x) <= 2 * q_of W)%Q) by (apply Qabs_Qle_condition; lra).
  pose proof (rnd_error rnd R (c' - x)) as Hr.
  assert (G' : (Qabs (c' - x) * unit_roundoff <= 2 * E)%Q).
  { unfold E. rewrite Qmult_assoc. apply Qmult_le_compat_r; lra. }
  assert (Hr' : (Qabs (rnd (c' - x) - (c' - x)) <= 2 * E)%Q) by lra.
  apply Qabs_Qle_condition in Hr'.
  assert (D : (Qabs (rnd (c' - x) - (q_of c - w)) <= 3 * E)%Q) by (apply Qabs_Qle_condition; lra).
  apply Qabs_Qle_condition. split.
  - pose proof (Qabs_triangle_reverse (q_of c - w) (rnd (c' - x))) as T.
    rewrite Qabs_Qminus in D. lra.
  - pose proof (Qabs_triangle_reverse (rnd (c' - x)) (q_of c - w)) as T. lra.
Qed.

Lemma small_roundoff z : (z < 2 ^ 53)%Z -> (inject_Z z * unit_roundoff < 1)%Q.
Proof.
  intros H. apply (Qlt_le_trans _ (inject_Z (2 ^ 53) * unit_roundoff)); [|discriminate].
  apply Qmult_lt_compat_r; [reflexivity|]. rewrite <- Zlt_Qlt. exact H.
Qed.

(** Comparing two rounded distances. *)
Lemma dist_compare c1' c1 c2' c2 W k s : (c1' == q_of c1)%Q -> (c2' == q_of c2)%Q ->
  c1 <= W -> c2 <= W -> 0 < k -> (Z.of_nat W * Z.of_nat k <= 2 ^ 50)%Z -> (s == q_of W)%Q ->
  (Qabs (rnd (c1' - rnd (s / q_of k))) < Qabs (rnd (c2' - rnd (s / q_of k))))%Q <->
  (Qabs (q_of c1 - q_of W / q_of k) < Qabs (q_of c2 - q_of W / q_of k))%Q.
Proof.
  intros H1 H2 L1 L2 Hk HWk Hs.
  assert (K : (0 < q_of k)%Q) by (unfold q_of, Qlt; simpl; lia).
  assert (W0 : (0 <= q_of W)%Q) by apply q_of_nonneg.
  set (x := rnd (s / q_of k)).
  assert (X : (Qabs (x - q_of W / q_of k) <= q_of W * unit_roundoff)%Q).
  { pose proof (rnd_error rnd R (s / q_of k)) as He. fold x in He. rewrite Hs in He.
    eapply Qle_trans; [exact He|]. apply Qmult_le_compat_r; [|discriminate].
    assert (0 <= q_of W / q_of k)%Q by (apply Qle_shift_div_l; lra).
    rewrite Qabs_pos by auto. apply Qle_shift_div_r; [lra|].
    assert (1 <= q_of k)%Q by (apply (q_of_le 1 k); lia).
    rewrite <- (Qmult_1_r (q_of W)) at 1. rewrite !(Qmult_comm (q_of W)). apply Qmult_le_compat_r; auto. }
  pose proof (dist_error c1' c1 W k x H1 L1 Hk X) as D1.
  pose proof (dist_error c2' c2 W k x H2 L2 Hk X) as D2.
  set (z1 := Z.abs (Z.of_nat k * Z.of_nat c1 - Z.of_nat W)).
  set (z2 := Z.abs (Z.of_nat k * Z.of_nat c2 - Z.of_nat W)).
  pose proof (dist_exact c1 W k Hk) as F1. fold z1 in F1.
  pose proof (dist_exact c2 W k Hk) as F2. fold z2 in F2.
  set (d1 := Qabs (q_of c1 - q_of W / q_of k)) in *.
  set (d2 := Qabs (q_of c2 - q_of W / q_of k)) in *.
  set (r1 := Qabs (rnd (c1' - x))) in *. set (r2 := Qabs (rnd (c2' - x))) in *.
  (* the errors are smaller than the gaps *)
  assert (S : (6 * (q_of W * unit_roundoff) < / q_of k)%Q).
  { apply Qlt_shift_inv_l; [exact K|].
    setoid_replace (6 * (q_of W * unit_roundoff) * q_of k)%Q
      with (inject_Z (6 * (Z.of_nat W * Z.of_nat k)) * unit_roundoff)%Q
      by (rewrite !inject_Z_mult; unfold q_of; change (inject_Z 6) with 6%Q; ring).
    apply small_roundoff. lia. }
  apply Qabs_Qle_condition in D1. apply Qabs_Qle_condition in D2.
  assert (P : forall a b, (a < b)%Z -> (inject_Z a / q_of k + / q_of k <= inject_Z b / q_of k)%Q).
  { intros a b Hab. assert (I : (inject_Z a + 1 <= inject_Z b)%Q).
    { change 1%Q with (inject_Z 1). rewrite <- inject_Z_plus, <- Zle_Qle. lia. }
    unfold Qdiv. assert (0 <= / q_of k)%Q by (apply Qlt_le_weak, Qinv_lt_0_compat; lra).
    setoid_replace (inject_Z a * / q_of k + / q_of k)%Q with ((inject_Z a + 1) * / q_of k)%Q by ring.
    apply Qmult_le_compat_r; auto. }
  destruct (Z.lt_trichotomy z1 z2) as [L|[L|L]].
  - specialize (P _ _ L). split; intros; lra.
  - (* equal distances: exact *)
    assert (Ed : (d1 == d2)%Q) by (rewrite F1, F2, L; reflexivity).
    enough (Er : (r1 == r2)%Q) by (split; intros; lra).
    assert (Cs : c1 = c2 \/ (Z.of_nat k * (Z.of_nat c1 + Z.of_nat c2) = 2 * Z.of_nat W)%Z).
    { unfold z1, z2 in L.
      assert (Z.of_nat k * Z.of_nat c1 = Z.of_nat k * Z.of_nat c2 \/
              Z.of_nat k * (Z.of_nat c1 + Z.of_nat c2) = 2 * Z.of_nat W)%Z as [Q|Q] by lia; [left|right; exact Q].
      apply Z.mul_reg_l in Q; lia. }
    destruct Cs as [->|Cs].
    + unfold r1, r2. rewrite (rnd_proper rnd R (c1' - x) (c2' - x)); [reflexivity|].
      rewrite H1, H2. reflexivity.
    + assert (Hw : (2 * (q_of W / q_of k) == inject_Z (Z.of_nat c1 + Z.of_nat c2))%Q).
      { apply (Qmult_inj_r _ _ (q_of k)); [lra|].
        setoid_replace (2 * (q_of W / q_of k) * q_of k)%Q with (inject_Z 2 * q_of W)%Q by (unfold inject_Z at 1; field; lra).
        unfold q_of. rewrite <- !inject_Z_mult. apply inject_Z_injective. lia. }
      assert (Ex : (x == q_of W / q_of k)%Q).
      { unfold x. rewrite (rnd_half rnd R _ (Z.of_nat c1 + Z.of_nat c2)); [rewrite Hs; reflexivity|rewrite Hs; exact Hw|].
        nia. }
      assert (Eh : forall c' c, (c' == q_of c)%Q -> c <= W -> (Qabs (rnd (c' - x)) == Qabs (q_of c - q_of W / q_of k))%Q).
      { intros c' c Hc Hle. rewrite (rnd_half rnd R _ (2 * Z.of_nat c - (Z.of_nat c1 + Z.of_nat c2))).
        - rewrite Hc, Ex. reflexivity.
        - rewrite Hc, Ex. unfold Zminus. rewrite inject_Z_plus, inject_Z_opp, inject_Z_mult, <- Hw.
          unfold q_of. ring.
        - nia. }
      unfold r1, r2. rewrite (Eh c1' c1), (Eh c2' c2) by auto. exact Ed.
  - specialize (P _ _ L). split; intros; lra.
Qed.

(** ** Assignments *)

Lemma skipn_q n ns : skipn n (map q_of ns) = map q_of (skipn n ns).
Proof. apply skipn_map. Qed.

Lemma fl_argmin k ns : 0 < k -> (Z.of_nat (nsum ns) * Z.of_nat k <= 2 ^ 50)%Z ->
  argmin (map (fun c => Qabs (rnd (c - rnd (fl_sum rnd (map q_of ns) / q_of k)))) (fl_cumsum rnd (map q_of ns))) =
  argmin (map (fun c => Qabs (c - qsum (map q_of ns) / inject_Z (Z.of_nat k))) (cumsum (map q_of ns))).
Proof.
  intros Hk HW.
  assert (HS : (Z.of_nat (nsum ns) <= 2 ^ 52)%Z) by nia.
  apply argmin_ext.
  { unfold fl_cumsum. rewrite !map_length, fl_cumsum_length, cumsum_length. reflexivity. }
  unfold fl_cumsum. rewrite map_length, fl_cumsum_length, map_length. intros i j Hi Hj.
  assert (N : forall {A} (f : Q -> A) l i d, i < length l -> nth i (map f l) d = f (nth i l 0%Q)).
  { intros A f l a d Ha. rewrite (nth_indep _ d (f 0%Q)) by (rewrite map_length; auto). apply map_nth. }
  rewrite !N by (rewrite ?fl_cumsum_length, ?cumsum_length, ?map_length; auto).
  pose proof (fun a Ha => fl_cumsum_nth ns 0%Q 0 a (reflexivity _) HS Ha) as C. simpl in C.
  assert (C' : forall a, a < length ns -> (nth a (cumsum (map q_of ns)) 0 == q_of (nsum (firstn (S a) ns)))%Q).
  { intros a Ha. rewrite cumsum_nth by (rewrite map_length; auto). rewrite firstn_map. apply qsum_nsum. }
  rewrite (C' i Hi), (C' j Hj), qsum_nsum.
  apply (dist_compare _ _ _ _ (nsum ns) k); auto using nsum_firstn, fl_sum_exact.
  - apply (C i Hi).
  - apply (C j Hj).
Qed.

Lemma fl_assign_loop_exact {A} (tasks : list A) workers : forall first ns,
  (Z.of_nat (nsum ns) * Z.of_nat workers <= 2 ^ 50)%Z ->
  fl_assign_loop rnd workers first tasks (map q_of ns) = assign_loop workers first tasks (map q_of ns).
Proof.
  induction workers as [|workers IH]; intros first ns H; [reflexivity|].
  assert (IH' : forall first, fl_assign_loop rnd workers first tasks (map q_of ns) = assign_loop workers first tasks (map q_of ns)).
  { intros f. apply IH. nia. }
  cbn [fl_assign_loop assign_loop]. rewrite skipn_q.
  rewrite (fl_argmin (S workers)) by (pose proof (nsum_skipn first ns); nia).
  destruct (skipn first ns) as [|n ns']; cbn [map].
  - rewrite IH'. reflexivity.
  - rewrite IH'. reflexivity.
Qed.

Lemma repeat_ones n : repeat 1%Q n = map q_of (repeat 1 n).
Proof. induction n; simpl; [reflexivity|]. rewrite IHn. reflexivity. Qed.
Lemma nsum_repeat n : nsum (repeat 1 n) = n.
Proof. induction n; simpl; auto. Qed.

Lemma fl_find_weights {A} P (tasks : list A) ns : (Z.of_nat (nsum ns) * Z.of_nat P <= 2 ^ 50)%Z ->
  fl_find_assignments rnd P tasks (Some (map q_of ns)) = find_assignments P tasks (Some (map q_of ns)).
Proof. apply fl_assign_loop_exact. Qed.
Lemma fl_find_default {A} P (tasks : list A) : (Z.of_nat (length tasks) * Z.of_nat P <= 2 ^ 50)%Z ->
  fl_find_assignments rnd P tasks None = find_assignments P tasks None.
Proof.
  intros H. unfold fl_find_assignments, find_assignments. rewrite repeat_ones.
  apply fl_assign_loop_exact. rewrite nsum_repeat. exact H.
Qed.

(** ** Quotients of integers *)

(** Rounding a quotient does not carry it over an integer. *)
Lemma rnd_quot a b z : (0 <= a < 2 ^ 52)%Z -> (0 < b)%Z ->
  ((rnd (inject_Z a / inject_Z b) < inject_Z z)%Q <-> (a < z * b)%Z) /\
  ((inject_Z z < rnd (inject_Z a / inject_Z b))%Q <-> (z * b < a)%Z).
Proof.
  intros Ha Hb.
  assert (B : (0 < inject_Z b)%Q) by (change 0%Q with (inject_Z 0); rewrite <- Zlt_Qlt; lia).
  set (x := (inject_Z a / inject_Z b)%Q).
  assert (X0 : (0 <= x)%Q).
  { apply Qle_shift_div_l; [lra|]. rewrite Qmult_0_l. change 0%Q with (inject_Z 0). rewrite <- Zle_Qle. lia. }
  pose proof (rnd_error rnd R x) as E. rewrite (Qabs_pos x) in E by auto.
  assert (S : (x * unit_roundoff < / inject_Z b)%Q).
  { apply Qlt_shift_inv_l; [exact B|]. unfold x.
    setoid_replace (inject_Z a / inject_Z b * unit_roundoff * inject_Z b)%Q with (inject_Z a * unit_roundoff)%Q by (field; lra).
    apply small_roundoff. lia. }
  apply Qabs_Qle_condition in E.
  assert (Xq : (x == inject_Z a * / inject_Z b)%Q) by reflexivity.
  assert (V : (0 < / inject_Z b)%Q) by (apply Qinv_lt_0_compat; lra).
  assert (I : forall u v, (u < v)%Z -> (inject_Z u * / inject_Z b + / inject_Z b <= inject_Z v * / inject_Z b)%Q).
  { intros u v Huv. assert (I : (inject_Z u + 1 <= inject_Z v)%Q).
    { change 1%Q with (inject_Z 1). rewrite <- inject_Z_plus, <- Zle_Qle. lia. }
    setoid_replace (inject_Z u * / inject_Z b + / inject_Z b)%Q with ((inject_Z u + 1) * / inject_Z b)%Q by ring.
    apply Qmult_le_compat_r; lra. }
  assert (Z' : (inject_Z z == inject_Z (z * b) * / inject_Z b)%Q) by (rewrite inject_Z_mult; field; lra).
  destruct (Z.lt_trichotomy a (z * b)) as [L|[L|L]].
  - specialize (I _ _ L). rewrite Z'. split; split; intros; try lia; lra.
  - assert (Ex : (x == inject_Z z)%Q) by (rewrite Z', Xq, L; reflexivity).
    assert (Er : (rnd x == x)%Q).
    { apply (rnd_half rnd R x (2 * z)); [rewrite Ex, inject_Z_mult; reflexivity|]. nia. }
    rewrite Er, Ex. split; split; intros; try lia; lra.
  - specialize (I _ _ L). rewrite Z'. split; split; intros; try lia; lra.
Qed.

Lemma fl_ceil_exact a b : (0 <= a < 2 ^ 52)%Z -> (0 < b)%Z -> fl_ceil_div rnd a b = z_ceil_div a b.
Proof.
  intros Ha Hb. unfold fl_ceil_div. set (r := rnd _).
  pose proof (Qle_ceiling r) as H1. pose proof (Qceiling_lt r) as H2.
  set (c := Qceiling r) in *.
  assert (G1 : (a <= c * b)%Z).
  { apply Z.nlt_ge. intros N. apply (proj2 (rnd_quot a b c Ha Hb)) in N. fold r in N. lra. }
  assert (G2 : ((c - 1) * b < a)%Z) by (apply (proj2 (rnd_quot a b (c - 1) Ha Hb)); exact H2).
  unfold z_ceil_div. pose proof (Z.div_mod (- a) b ltac:(lia)). pose proof (Z.mod_pos_bound (- a) b Hb).
  nia.
Qed.

Lemma fl_init_exact m P N : (1 <= P)%Z -> (1 <= N)%Z -> (3 * P < 2 ^ 52)%Z ->
  fl_handles_init rnd m P N = handles_init m P N.
Proof.
  intros HP HN Hb. unfold fl_handles_init, handles_init.
  set (k := match m with None => 10000%Z | Some m => m end).
  assert (E : qltb (inject_Z k) (rnd (inject_Z (3 * P) / inject_Z N)) = (k * N <? 3 * P)%Z).
  { apply eq_true_iff_eq. rewrite qltb_spec, Z.ltb_lt. apply rnd_quot; lia. }
  rewrite E. rewrite fl_ceil_exact by lia. reflexivity.
Qed.

Lemma fl_estimate_pos m P N : (1 <= P)%Z -> (1 <= N)%Z -> (3 * P <= m * N)%Z -> (m * N < 2 ^ 52)%Z ->
  (0 < fl_estimate_divisor rnd m P N)%Q.
Proof.
  intros HP HN Hm Hb. unfold fl_estimate_divisor.
  set (r := rnd (inject_Z (m * N) / inject_Z P)).
  assert (H3 : (3 <= r)%Q).
  { apply Qnot_lt_le. intros C. change 3%Q with (inject_Z 3) in C.
    apply (proj1 (rnd_quot (m * N) P 3 ltac:(nia) ltac:(lia))) in C. lia. }
  pose proof (rnd_error rnd R (r - 2)) as E. rewrite (Qabs_pos (r - 2)) in E by lra.
  apply Qabs_Qle_condition in E.
  assert ((r - 2) * unit_roundoff <= (r - 2) * (1 # 2))%Q.
  { rewrite !(Qmult_comm (r - 2)). apply Qmult_le_compat_r; [discriminate|lra]. }
  lra.
Qed.

End Rnd.

(** ** binary64 *)
Open Scope Z_scope.

Lemma round_div_error n d : 0 < d -> 2 * Z.abs (round_div n d * d - n) <= d.
Proof.
  intros Hd. unfold round_div.
  pose proof (Z.div_mod n d ltac:(lia)). pose proof (Z.mod_pos_bound n d Hd).
  destruct (Z.compare_spec (2 * (n mod d)) d).
  - destruct (Z.even (n / d)); nia.
  - nia.
  - nia.
Qed.
Lemma round_div_exact n d : 0 < d -> (d | n) -> round_div n d * d = n.
Proof.
  intros Hd [q ->]. unfold round_div. rewrite Z_mod_mult, Z_div_mult by lia.
  rewrite Z.mul_0_r. destruct (Z.compare_spec 0 d); lia.
Qed.

Lemma up_pos u : 0 < up u.
Proof. unfold up. apply Z.pow_pos_nonneg; lia. Qed.
Lemma up_0 u : u <= 0 -> up u = 1.
Proof. intros. unfold up. rewrite Z.max_l by lia. reflexivity. Qed.
Lemma up_nonneg u : 0 <= u -> up u = 2 ^ u.
Proof. intros. unfold up. rewrite Z.max_r by lia. reflexivity. Qed.
(** up (-u) / up u = 2 ^ (-u), in the form used. *)
Lemma up_scale u a b : 0 <= a -> 0 <= b -> a - b = - u -> up (- u) * 2 ^ b = 2 ^ a * up u.
Proof.
  intros Ha Hb H. destruct (Z.le_gt_cases 0 u).
  - rewrite (up_0 (- u)), (up_nonneg u) by lia. rewrite <- Z.pow_add_r by lia.
    replace (a + u) with b by lia. lia.
  - rewrite (up_nonneg (- u)), (up_0 u) by lia. rewrite <- Z.pow_add_r by lia.
    replace (- u + b) with a by lia. lia.
Qed.

Lemma last_bit_spec n d : 0 < n -> 0 < d ->
  let u := last_bit n d in
  d * up u * 2 ^ 52 <= n * up (- u) < d * up u * 2 ^ 53.
Proof.
  intros Hn Hd. cbv zeta. unfold last_bit.
  pose proof (Z.log2_spec n Hn) as [N1 N2]. pose proof (Z.log2_spec d Hd) as [D1 D2].
  pose proof (Z.log2_nonneg n). pose proof (Z.log2_nonneg d).
  set (ln := Z.log2 n) in *. set (ld := Z.log2 d) in *.
  rewrite Z.pow_succ_r in N2, D2 by lia.
  set (u := ln - ld - 52).
  pose proof (up_pos u). pose proof (up_pos (- u)).
  assert (L : n * up (- u) < d * up u * 2 ^ 53).
  { (* n < 2^(ln+1), 2^ld <= d *)
    assert (E : up (- u) * 2 ^ ln = 2 ^ (ld + 52) * up u) by (apply up_scale; lia).
    rewrite Z.pow_add_r in E by lia. nia. }
  destruct (Z.leb_spec (d * up u * 2 ^ 52) (n * up (- u))) as [C|C].
  - split; assumption.
  - assert (U : up (- (u - 1)) * up u = 2 * (up (- u) * up (u - 1))).
    { destruct (Z.le_gt_cases 1 u).
      - rewrite (up_0 (- (u - 1))), (up_0 (- u)), (up_nonneg u), (up_nonneg (u - 1)) by lia.
        replace u with (Z.succ (u - 1)) at 1 by lia. rewrite Z.pow_succ_r by lia. lia.
      - rewrite (up_0 u), (up_0 (u - 1)), (up_nonneg (- u)), (up_nonneg (- (u - 1))) by lia.
        replace (- (u - 1)) with (Z.succ (- u)) by lia. rewrite Z.pow_succ_r by lia. lia. }
    pose proof (up_pos (u - 1)). pose proof (up_pos (- (u - 1))).
    assert (E : up (- (u - 1)) * 2 ^ ln = 2 ^ (ld + 53) * up (u - 1)) by (apply up_scale; lia).
    rewrite Z.pow_add_r in E by lia. split.
    + nia.
    + assert (M : n * (up (- (u - 1)) * up u) < d * up (u - 1) * 2 ^ 53 * up u) by (rewrite U; nia).
      nia.
Qed.

Lemma inject_pos z : 0 < z -> ~ (inject_Z z == 0)%Q.
Proof. intros H C. unfold Qeq in C. simpl in C. lia. Qed.

Lemma round_pos_value n d : 0 < n -> 0 < d ->
  let u := last_bit n d in
  (round_pos n d - inject_Z n / inject_Z d ==
   inject_Z (round_div (n * up (- u)) (d * up u) * (d * up u) - n * up (- u)) / inject_Z (up (- u) * d))%Q.
Proof.
  intros Hn Hd u. unfold round_pos. fold u. pose proof (up_pos (- u)).
  assert (A : ~ (inject_Z (up (- u)) == 0)%Q) by (apply inject_pos; lia).
  assert (B : ~ (inject_Z d == 0)%Q) by (apply inject_pos; lia).
  unfold Zminus. rewrite inject_Z_plus, inject_Z_opp, !inject_Z_mult. field. auto.
Qed.

Lemma Qabs_div z w : 0 < w -> (Qabs (inject_Z z / inject_Z w) == inject_Z (Z.abs z) / inject_Z w)%Q.
Proof.
  intros Hw. unfold Qdiv. rewrite Qabs_Qmult, Qabs_inject. rewrite (Qabs_pos (/ inject_Z w)); [reflexivity|].
  apply Qlt_le_weak, Qinv_lt_0_compat. change 0%Q with (inject_Z 0). rewrite <- Zlt_Qlt. lia.
Qed.
Lemma frac_le a b c d : 0 < b -> 0 < d -> a * d <= c * b -> (inject_Z a / inject_Z b <= inject_Z c / inject_Z d)%Q.
Proof.
  intros Hb Hd H.
  assert (0 < inject_Z b)%Q by (change 0%Q with (inject_Z 0); rewrite <- Zlt_Qlt; lia).
  assert (0 < inject_Z d)%Q by (change 0%Q with (inject_Z 0); rewrite <- Zlt_Qlt; lia).
  apply Qle_shift_div_l; [lra|].
  setoid_replace (inject_Z a / inject_Z b * inject_Z d)%Q with ((inject_Z a * inject_Z d) / inject_Z b)%Q by (field; lra).
  apply Qle_shift_div_r; [lra|]. rewrite <- !inject_Z_mult, <- Zle_Qle. exact H.
Qed.

Lemma round_pos_error n d : 0 < n -> 0 < d ->
  (Qabs (round_pos n d - inject_Z n / inject_Z d) <= inject_Z n / inject_Z d * unit_roundoff)%Q.
Proof.
  intros Hn Hd. pose proof (round_pos_value n d Hn Hd) as V. cbv zeta in V.
  pose proof (last_bit_spec n d Hn Hd) as S. cbv zeta in S. set (u := last_bit n d) in *.
  pose proof (up_pos u). pose proof (up_pos (- u)).
  rewrite V, Qabs_div by nia.
  assert (E : (inject_Z n / inject_Z d * unit_roundoff == inject_Z n / inject_Z (d * 2 ^ 53))%Q).
  { rewrite inject_Z_mult. unfold unit_roundoff. change (1 # 2 ^ 53)%Q with (/ inject_Z (2 ^ 53))%Q.
    assert (~ (inject_Z d == 0)%Q) by (apply inject_pos; lia).
    field. split; [discriminate|auto]. }
  rewrite E. apply frac_le; [nia|lia|].
  pose proof (round_div_error (n * up (- u)) (d * up u) ltac:(nia)) as D.
  set (e := Z.abs _) in *. assert (0 <= e) by (unfold e; lia).
  change (2 ^ 53) with (2 * 2 ^ 52). nia.
Qed.

Lemma round_pos_half n d z : 0 < n -> 0 < d -> 2 * n = z * d -> z <= 2 ^ 53 ->
  (round_pos n d == inject_Z n / inject_Z d)%Q.
Proof.
  intros Hn Hd Hz Hb. pose proof (round_pos_value n d Hn Hd) as V. cbv zeta in V.
  pose proof (last_bit_spec n d Hn Hd) as S. cbv zeta in S. set (u := last_bit n d) in *.
  pose proof (up_pos u). pose proof (up_pos (- u)).
  assert (Dv : (d * up u | n * up (- u))).
  { destruct (Z.le_gt_cases 0 u) as [U|U].
    - rewrite (up_0 (- u)) in * by lia. rewrite (up_nonneg u) in * by lia.
      pose proof (Z.pow_pos_nonneg 2 u ltac:(lia) U) as P0. set (p := 2 ^ u) in *.
      assert (zd : z * d <= 2 ^ 53 * d) by (apply Z.mul_le_mono_nonneg_r; lia).
      assert (dp : d * p <= d) by lia.
      assert (P : p = 1) by (assert (p <= 1) by (apply (Z.mul_le_mono_pos_l _ _ d); lia); lia).
      assert (E : d * p = d) by (rewrite P; lia). rewrite E in *. exists (2 ^ 52). lia.
    - rewrite (up_0 u) by lia. rewrite (up_nonneg (- u)) by lia.
      replace (- u) with (Z.succ (- u - 1)) by lia. rewrite Z.pow_succ_r by lia.
      exists (z * 2 ^ (- u - 1)). nia. }
  rewrite (round_div_exact (n * up (- u)) (d * up u) ltac:(nia) Dv), Z.sub_diag in V.
  assert (Z0 : (inject_Z 0 / inject_Z (up (- u) * d) == 0)%Q) by reflexivity.
  rewrite Z0 in V. apply (Qplus_inj_r _ _ (- (inject_Z n / inject_Z d))). rewrite Qplus_opp_r. exact V.
Qed.

Lemma Qred_frac x : (x == inject_Z (Qnum (Qred x)) / inject_Z (Z.pos (Qden (Qred x))))%Q.
Proof.
  rewrite <- (Qred_correct x) at 1. destruct (Qred x) as [n d]. cbn [Qnum Qden].
  unfold Qeq, Qdiv, Qmult, Qinv, inject_Z. cbn. lia.
Qed.

Lemma frac_opp n d : (inject_Z (Z.neg n) / inject_Z d == - (inject_Z (Z.pos n) / inject_Z d))%Q.
Proof. change (Z.neg n) with (- Z.pos n). rewrite inject_Z_opp. unfold Qdiv. ring. Qed.
Lemma Qabs_negate a b : (a == - b)%Q -> (Qabs a == Qabs b)%Q.
Proof. intros ->. apply Qabs_opp. Qed.
Lemma frac_nonneg n d : (0 <= inject_Z (Z.pos n) / inject_Z (Z.pos d))%Q.
Proof. unfold Qle, Qdiv, Qmult, Qinv, inject_Z. cbn. lia. Qed.

Lemma binary64_rounding : rounding binary64.
Proof.
  split.
  - intros x y E. unfold binary64. rewrite (Qred_complete x y E). reflexivity.
  - intros x. pose proof (Qred_frac x) as F. unfold binary64.
    set (d := Qden (Qred x)) in *. destruct (Qnum (Qred x)) as [|n|n].
    + rewrite F. unfold Qle. cbn. lia.
    + pose proof (round_pos_error (Z.pos n) (Z.pos d) eq_refl eq_refl) as H.
      rewrite F at 1 2. rewrite (Qabs_pos (_ / _)) by apply frac_nonneg. exact H.
    + pose proof (round_pos_error (Z.pos n) (Z.pos d) eq_refl eq_refl) as H.
      rewrite frac_opp in F. rewrite F at 1 2. rewrite Qabs_opp.
      rewrite (Qabs_pos (_ / _)) by apply frac_nonneg.
      rewrite (Qabs_negate (- round_pos _ _ - - _) (round_pos (Z.pos n) (Z.pos d) - inject_Z (Z.pos n) / inject_Z (Z.pos d)))
        by ring. exact H.
  - intros x z Hz Hb. pose proof (Qred_frac x) as F. unfold binary64.
    set (d := Qden (Qred x)) in *.
    assert (D0 : ~ (inject_Z (Z.pos d) == 0)%Q) by discriminate.
    assert (Hn : 2 * Qnum (Qred x) = z * Z.pos d).
    { apply inject_Z_injective. rewrite !inject_Z_mult, <- Hz. rewrite F at 2.
      change (inject_Z 2) with 2%Q. field. exact D0. }
    destruct (Qnum (Qred x)) as [|n|n].
    + rewrite F. reflexivity.
    + rewrite F. apply (round_pos_half (Z.pos n) (Z.pos d) z); lia.
    + rewrite frac_opp in F. rewrite F. rewrite (round_pos_half (Z.pos n) (Z.pos d) (- z)); [reflexivity|lia..].
Qed.

(** ** Whatever the rounding, a prefix of the tasks is assigned in order *)
Close Scope Z_scope.
Open Scope nat_scope.

Lemma fl_assign_length rnd {A} (tasks : list A) w workers : forall first,
  length (fl_assign_loop rnd workers first tasks w) = workers.
Proof.
  induction workers as [|k IH]; intros first; cbn [fl_assign_loop]; [reflexivity|].
  destruct (skipn first w); cbn [length]; rewrite IH; reflexivity.
Qed.

Lemma firstn_slice {A} (l : list A) a b : a <= b -> firstn b l = firstn a l ++ slice a b l.
Proof.
  intros H. unfold slice. revert b l H. induction a as [|a IH]; intros b l H; simpl.
  - rewrite Nat.sub_0_r. reflexivity.
  - destruct b as [|b]; [lia|]. destruct l as [|x l]; simpl.
    + rewrite firstn_nil. reflexivity.
    + f_equal. apply IH. lia.
Qed.

Lemma fl_assign_prefix rnd {A} (tasks : list A) w workers : forall first,
  exists m, first <= m /\ firstn first tasks ++ concat (fl_assign_loop rnd workers first tasks w) = firstn m tasks.
Proof.
  induction workers as [|k IH]; intros first; cbn [fl_assign_loop].
  - exists first. rewrite app_nil_r. auto.
  - destruct (skipn first w) eqn:E; cbn [concat].
    + apply IH.
    + set (n := _ + first + 1). destruct (IH n) as (m & Hm & Em). exists m. split; [lia|].
      rewrite app_assoc, <- firstn_slice by lia. exact Em.
Qed.
