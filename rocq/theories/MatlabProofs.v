(** Lemmas for C58: the MATLAB version of OKID. *)
From Coq Require Import List Arith Lia Bool ZArith Field Ring Setoid Morphisms.
Import ListNotations.
From Verif Require Import Prelude Field Matrix NdArray DecompModel DecompProofs EraModel Lti OkidModel OkidProofs MatlabModel.
Open Scope nat_scope.

(** A [for] loop keeps what its body keeps. *)
Lemma fold_seq {T} (f : T -> nat -> T) (P : nat -> T -> Prop) n : forall a s, P a s ->
  (forall k s, a <= k < a + n -> P k s -> P (k + 1) (f s k)) -> P (a + n) (fold_left f (seq a n) s).
Proof.
  induction n as [|n IH]; intros a s H0 H; simpl.
  - rewrite Nat.add_0_r. auto.
  - replace (a + S n) with (S a + n) by lia. apply IH.
    + replace (S a) with (a + 1) by lia. apply H; [lia|auto].
    + intros k s' Hk. apply H. lia.
Qed.
(** A list that grows by one element at a time. *)
Lemma fold_snoc {T} (f : list T -> nat -> T) (d : T) p : let L := fold_left (fun Y k => Y ++ [f Y k]) (seq 1 p) [] in
  length L = p /\ forall k, k < p -> nth k L d = f (firstn k L) (S k).
Proof.
  induction p as [|p IH]; [split; [reflexivity|intros; lia]|]. intros L. unfold L. rewrite seq_S, fold_left_app. cbn [fold_left].
  set (L0 := fold_left (fun Y k => Y ++ [f Y k]) (seq 1 p) []) in *. destruct IH as [I1 I2].
  split; [rewrite app_length, I1; simpl; lia|]. intros k Hk. destruct (Nat.eq_dec k p) as [->|N].
  - rewrite app_nth2 by lia. rewrite I1, Nat.sub_diag. cbn [nth]. rewrite firstn_app, I1, Nat.sub_diag, firstn_all2 by lia.
    cbn [firstn]. rewrite app_nil_r. reflexivity.
  - rewrite app_nth1 by lia. rewrite firstn_app, I1. replace (k - p) with 0 by lia. cbn [firstn]. rewrite app_nil_r.
    apply I2. lia.
Qed.

Section Matlab.
Context {F : sfield}.
Add Field Matlab_F : (k_field F).
Open Scope k_scope.

Lemma cells_col_in r0 n c (B H : mat F) i j : r0 <= i < r0 + n -> j = c -> set_cells r0 n c 1 B H i j = B (i - r0)%nat O.
Proof.
  intros H1 ->. unfold set_cells. rewrite (proj2 (Nat.leb_le r0 i)), (proj2 (Nat.ltb_lt i (r0 + n))), Nat.leb_refl,
    (proj2 (Nat.ltb_lt c (c + 1))) by lia. cbn. rewrite Nat.sub_diag. reflexivity.
Qed.
Lemma cells_col_out r0 n c (B H : mat F) i j : ~ (r0 <= i < r0 + n) \/ j <> c -> set_cells r0 n c 1 B H i j = H i j.
Proof.
  intros N. unfold set_cells.
  destruct (Nat.leb_spec r0 i); destruct (Nat.ltb_spec i (r0 + n)); destruct (Nat.leb_spec c j);
    destruct (Nat.ltb_spec j (c + 1)); cbn; try reflexivity. exfalso. lia.
Qed.

(** V holds the regressors. *)
Lemma matlab_V_ok (y u : arr F) p : nc u = nc y -> let m := nr u in let q := nr y in
  nr (matlab_V y u p) = (m + (m + q) * p)%nat /\ nc (matlab_V y u p) = nc y /\
  meq (m + (m + q) * p) (nc y) (ent (matlab_V y u p))
    (regressor m q (fun t j => ent u j t) (fun t j => ent y j t)).
Proof.
  intros HC m q. split; [reflexivity|]. split; [reflexivity|]. set (l := nc y). set (b := (m + q)%nat).
  set (io := fun k j : nat => if (j <? m)%nat then ent u j k else ent y (j - m)%nat k).
  set (V0 := fold_left (fun V i => set_cells 0 m (i - 1) 1 (fun a _ => ent u a (i - 1)%nat) V) (seq 1 l) mzero).
  assert (H0 : (forall r t, r < m -> t < l -> V0 r t = ent u r t) /\ (forall r t, m <= r -> V0 r t = 0)).
  { unfold V0. set (P := fun i (V : mat F) => (forall r t, r < m -> S t < i -> V r t = ent u r t) /\
      (forall r t, m <= r -> V r t = 0)).
    assert (G : P (1 + l)%nat V0).
    { unfold V0. apply (fold_seq _ P).
      - split; [intros; lia|reflexivity].
      - intros i V Hi [P1 P2]. split.
        + intros r t Hr Ht. destruct (Nat.eq_dec t (i - 1)) as [->|N].
          * rewrite cells_col_in by lia. rewrite Nat.sub_0_r. reflexivity.
          * rewrite cells_col_out by auto. apply P1; lia.
        + intros r t Hr. rewrite cells_col_out by lia. apply P2; auto. }
    destruct G as [G1 G2]. split; auto. intros. apply G1; lia. }
  destruct H0 as [V1 V2].
  (* after the turns below i, and column positions below j of turn i *)
  set (Q := fun i j (V : mat F) => (forall r t, r < m -> t < l -> V r t = ent u r t) /\
     forall k a t, a < b -> t < l -> V (m + k * b + a)%nat t =
       if ((k + 2 <? i) || ((k + 2 =? i) && (t <? i + j - 2)))%nat then (if (t <? S k)%nat then 0 else io (t - S k)%nat a) else 0).
  set (body := fun (V : mat F) i => fold_left (fun V j =>
       set_cells (m + (i - 2) * b) b (i + j - 2) 1 (stacked u y j) V) (seq 1 (l + 1 - i)) V).
  assert (G : Q (2 + p)%nat 1%nat (fold_left body (seq 2 p) V0)).
  { apply (fold_seq body (fun i V => Q i 1%nat V)).
    - split; [exact V1|]. intros k a t Ha Ht. rewrite V2 by lia.
      destruct (Nat.ltb_spec (k + 2) 2); [lia|]. destruct (Nat.eqb_spec (k + 2) 2); [|reflexivity].
      cbn [orb andb]. replace k with O by lia. destruct (Nat.ltb_spec t (2 + 1 - 2)); [|reflexivity].
      rewrite (proj2 (Nat.ltb_lt t 1)) by lia. reflexivity.
    - intros i V Hi HQ. assert (K : Q i (1 + (l + 1 - i))%nat (body V i)).
      { unfold body. apply (fold_seq (fun V j => set_cells (m + (i - 2) * b) b (i + j - 2) 1 (stacked u y j) V)
          (fun j V => Q i j V)); [exact HQ|]. intros j W Hj [Q1 Q2]. split.
        - intros r t Hr Ht. rewrite cells_col_out; [apply Q1; auto|]. left. intros [C _].
          assert (m <= m + (i - 2) * b)%nat by apply Nat.le_add_r. lia.
        - intros k a t Ha Ht. destruct (Nat.eq_dec (k + 2) i) as [E|E].
          + assert (Ek : (i - 2 = k)%nat) by lia. rewrite Ek. destruct (Nat.eq_dec t (i + j - 2)) as [Et|Et].
            * rewrite cells_col_in by lia. rewrite (proj2 (Nat.eqb_eq (k + 2) i)) by auto.
              rewrite (proj2 (Nat.ltb_lt t (i + (j + 1) - 2))) by lia. rewrite orb_true_r.
              rewrite (proj2 (Nat.ltb_ge t (S k))) by lia. unfold stacked, io. fold m.
              replace (m + k * b + a - (m + k * b))%nat with a by lia.
              replace (t - S k)%nat with (j - 1)%nat by lia. reflexivity.
            * rewrite cells_col_out by auto. rewrite Q2 by auto.
              rewrite (proj2 (Nat.eqb_eq (k + 2) i)) by auto. cbn [andb].
              replace (t <? i + (j + 1) - 2)%nat with (t <? i + j - 2)%nat; [reflexivity|].
              destruct (Nat.ltb_spec t (i + j - 2)); destruct (Nat.ltb_spec t (i + (j + 1) - 2)); auto; lia.
          + rewrite cells_col_out.
            * rewrite Q2 by auto. rewrite (proj2 (Nat.eqb_neq (k + 2) i)) by auto. reflexivity.
            * left. intros [C1 C2]. apply E.
              assert (k < i - 2 \/ k = i - 2 \/ i - 2 < k)%nat as [L|[L|L]] by lia; [exfalso| lia |exfalso].
              -- assert ((k + 1) * b <= (i - 2) * b)%nat by (apply Nat.mul_le_mono_r; lia). lia.
              -- assert ((i - 2 + 1) * b <= k * b)%nat by (apply Nat.mul_le_mono_r; lia). lia. }
      destruct K as [K1 K2]. split; [exact K1|]. intros k a t Ha Ht. rewrite K2 by auto.
      destruct (Nat.ltb_spec (k + 2) i); destruct (Nat.ltb_spec (k + 2) (i + 1)); try lia; cbn [orb]; [reflexivity| |].
      + rewrite (proj2 (Nat.eqb_eq (k + 2) i)) by lia. cbn [andb]. destruct (Nat.ltb_spec t (i + (1 + (l + 1 - i)) - 2)).
        * reflexivity.
        * rewrite (proj2 (Nat.ltb_lt t (S k))) by lia. reflexivity.
      + rewrite (proj2 (Nat.eqb_neq (k + 2) i)) by lia. cbn [andb].
        destruct (Nat.eqb_spec (k + 2) (i + 1)); [|reflexivity]. cbn [andb].
        destruct (Nat.ltb_spec t (i + 1 + 1 - 2)); [|reflexivity].
        rewrite (proj2 (Nat.ltb_lt t (S k))) by lia. reflexivity. }
  destruct G as [G1 G2]. split. intros r t Hr Ht. change (ent (matlab_V y u p)) with (fold_left body (seq 2 p) V0).
  destruct (Nat.lt_ge_cases r m) as [L|L].
  - rewrite G1, regressor_first by auto. reflexivity.
  - assert (Hb : (0 < b)%nat) by (unfold b in *; destruct (m + q)%nat; lia).
    pose proof (Nat.div_mod (r - m) b ltac:(lia)) as Dm. pose proof (Nat.mod_upper_bound (r - m) b ltac:(lia)) as Um.
    set (k := ((r - m) / b)%nat) in *. set (a := ((r - m) mod b)%nat) in *.
    assert (Er : r = (m + k * b + a)%nat) by lia.
    assert (Hk : (k < p)%nat) by (unfold k; apply Nat.div_lt_upper_bound; lia).
    rewrite Er, G2, regressor_block by auto. rewrite (proj2 (Nat.ltb_lt (k + 2) (2 + p))) by lia. reflexivity.
Qed.

(** The sums of OKID.m:62-64. *)
Lemma fold_madd (g : nat -> mat F) n S0 a b :
  fold_left (fun S i => madd S (g i)) (seq 1 n) S0 a b = S0 a b + sum n (fun l => g (l + 1)%nat a b).
Proof.
  induction n as [|n IH]; [simpl; ring|]. rewrite seq_S, fold_left_app. cbn [fold_left sum]. unfold madd at 1. rewrite IH.
  replace (1 + n)%nat with (n + 1)%nat by lia. ring.
Qed.
Lemma matlab_Y_rec q (D : mat F) Y1 Y2 p : let Y := fold_left (matlab_step q D Y1 Y2) (seq 1 p) [] in
  forall k a b, k < p -> nth k Y mzero a b =
    Y1 (k + 1)%nat a b + sum (S k) (fun l => mmul q (Y2 (l + 1)%nat)
      (match (k - l)%nat with O => D | S j => nth j Y mzero end) a b).
Proof.
  intros Y k a b Hk.
  destruct (fold_snoc (fun Y k => fold_left (fun S i => madd S (mmul q (Y2 i) (nth (k - i - 1) Y mzero))) (seq 1 (k - 1))
     (madd (Y1 k) (mmul q (Y2 k) D))) mzero p) as [L1 L2].
  fold (matlab_step q D Y1 Y2) in L1, L2. change (fold_left _ (seq 1 p) []) with Y in L1, L2.
  rewrite L2 by auto. rewrite (fold_madd (fun i => mmul q (Y2 i) (nth (S k - i - 1) (firstn k Y) mzero)) (S k - 1)).
  replace (S k - 1)%nat with k by lia. cbn [sum]. rewrite Nat.sub_diag. replace (S k) with (k + 1)%nat by lia. unfold madd.
  rewrite (sum_ext k (fun l => mmul q (Y2 (l + 1)%nat) (nth (k + 1 - (l + 1) - 1) (firstn k Y) mzero) a b)
    (fun l => mmul q (Y2 (l + 1)%nat) (match (k - l)%nat with O => D | S j => nth j Y mzero end) a b)); [ring|].
  intros l Hl. unfold mmul. apply sum_ext. intros c Hc. f_equal.
  replace (k + 1 - (l + 1) - 1)%nat with (k - l - 1)%nat by lia.
  destruct (k - l)%nat as [|j] eqn:E; [lia|]. replace (S j - 1)%nat with j by lia.
  rewrite <- (firstn_skipn k Y) at 2. rewrite app_nth1; [reflexivity|]. rewrite firstn_length, L1. lia.
Qed.
(** The blocks of H. *)
Lemma append_blocks m (D : mat F) (Y : list (mat F)) p k i j : k <= p -> j < m ->
  fold_left (fun H k => append_cols (m * k) H (nth (k - 1) Y mzero)) (seq 1 p) D i (m * k + j)%nat =
  match k with O => D i j | S k => nth k Y mzero i j end.
Proof.
  intros Hk Hj. induction p as [|p IH].
  - assert (k = O) as -> by lia. rewrite Nat.mul_0_r. reflexivity.
  - rewrite seq_S, fold_left_app. cbn [fold_left]. unfold append_cols at 1. replace (1 + p)%nat with (S p) by lia.
    destruct (Nat.eq_dec k (S p)) as [->|N].
    + rewrite (proj2 (Nat.ltb_ge (m * S p + j) (m * S p))) by lia.
      replace (m * S p + j - m * S p)%nat with j by lia. replace (S p - 1)%nat with p by lia. reflexivity.
    + assert (m * (k + 1) <= m * S p)%nat by (apply Nat.mul_le_mono_l; lia).
      rewrite (proj2 (Nat.ltb_lt (m * k + j) (m * S p))) by lia. apply IH. lia.
Qed.

(** OKID.m returns the Markov parameters of the fitted model. *)
Lemma matlab_arx (q m p : nat) (M : mat F) (H : arr F) :
  let Y1 i : mat F := fun a b => M a (m + ((m + q) * (i - 1) + b))%nat in
  let Y2 i : mat F := fun a b => M a (m + ((m + q) * (i - 1) + m + b))%nat in
  H = Arr q (m * (p + 1)) (fold_left (fun H k => append_cols (m * k) H
        (nth (k - 1) (fold_left (matlab_step q M Y1 Y2) (seq 1 p) []) mzero)) (seq 1 p) M) ->
  arx_Markov q M (co_a m q p M) (co_b m q p M) (fun k i j => ent H i (m * k + j)%nat) m (p + 1).
Proof.
  intros Y1 Y2 ->. cbn [ent]. set (Y := fold_left (matlab_step q M Y1 Y2) (seq 1 p) []). split.
  - split. intros i j Hi Hj. apply (append_blocks m M Y p O i j); auto; lia.
  - intros k Hk. split. intros i j Hi Hj.
    etransitivity; [apply (append_blocks m M Y p (S k) i j); auto; lia|].
    etransitivity; [apply matlab_Y_rec; lia|]. unfold madd. f_equal.
    + unfold Y1, co_a. rewrite (proj2 (Nat.ltb_lt k p)) by lia. replace (k + 1 - 1)%nat with k by lia. f_equal. lia.
    + apply sum_ext. intros l Hl. unfold mmul. apply sum_ext. intros c Hc. f_equal.
      * unfold Y2, co_b. rewrite (proj2 (Nat.ltb_lt l p)) by lia. replace (l + 1 - 1)%nat with l by lia. f_equal. lia.
      * symmetry. etransitivity; [apply (append_blocks m M Y p (k - l) c j); auto; lia|].
        destruct (k - l)%nat; reflexivity.
Qed.

(** A least squares solution in the span of the regressors is unique. *)
Lemma fit_unique q R ns (V Y M M' Z Z' : mat F) :
  meq q R (mmul ns (msub (mmul R M V) Y) (madj V)) mzero -> meq q R (mmul ns (msub (mmul R M' V) Y) (madj V)) mzero ->
  meq q R M (mmul ns Z (madj V)) -> meq q R M' (mmul ns Z' (madj V)) -> meq q R M M'.
Proof.
  intros H1 H2 HZ HZ'. set (E := msub M M').
  assert (EV : meq q R (mmul ns (mmul R E V) (madj V)) mzero).
  { unfold E. rewrite mmul_sub_l. rewrite mmul_sub_l in H1, H2.
    rewrite mmul_sub_l. apply (proj1 (msub_zero _ _ _ _)) in H1. apply (proj1 (msub_zero _ _ _ _)) in H2.
    apply (proj2 (msub_zero _ _ _ _)). rewrite H1, H2. reflexivity. }
  assert (E0 : meq q ns (mmul R E V) mzero).
  { assert (G : meq q q (mmul ns (madj (madj (mmul R E V))) (madj (mmul R E V))) mzero).
    { rewrite madj_madj. rewrite (madj_mmul ns q R E V). rewrite <- mmul_assoc, EV. apply mmul_zero_l. }
    apply gram_zero in G. split. intros i j Hi Hj. pose proof (meq_at _ _ _ _ G j i Hj Hi) as C. unfold madj, mzero in C.
    rewrite <- (conj_conj F (mmul R E V i j)), C, conj_0. reflexivity. }
  apply (proj1 (msub_zero _ _ _ _)). fold E.
  assert (EZ : meq q R E (mmul ns (msub Z Z') (madj V))) by (unfold E; rewrite mmul_sub_l, HZ, HZ'; reflexivity).
  assert (G : meq q q (mmul R (madj (madj E)) (madj E)) mzero).
  { rewrite madj_madj.
    assert (EA : meq R q (madj E) (mmul ns V (madj (msub Z Z')))) by (rewrite EZ, madj_mmul, madj_madj; reflexivity).
    rewrite EA, <- mmul_assoc, E0. apply mmul_zero_l. }
  apply gram_zero in G. split. intros i j Hi Hj. pose proof (meq_at _ _ _ _ G j i Hj Hi) as C. unfold madj, mzero in C.
  rewrite <- (conj_conj F (E i j)), C, conj_0. reflexivity.
Qed.

(** [y pinv(V)]: a least squares solution in the span of the regressors when the
    tolerance drops zeros only. *)
Lemma pinv_fit tol q (V P U : arr F) (S : list F) (Vh : arr F) (Y : mat F) :
  pinv_contract tol V P U S Vh -> real tol -> kle 0 tol ->
  (forall i, i < length S -> at1 S i = 0 \/ klt_p tol (at1 S i)) ->
  let M := mmul (nc V) Y (ent P) in
  meq q (nr V) (mmul (nc V) (msub (mmul (nr V) M (ent V)) Y) (madj (ent V))) mzero /\
  exists Z, meq q (nr V) M (mmul (nc V) Z (madj (ent V))).
Proof.
  intros HP Rt Ht HS M. destruct HP as [SV P1 P2 P3].
  set (k := length S) in *. set (d := fun i => pinv_value tol (at1 S i)) in *.
  assert (RS : forall i, i < k -> real (at1 S i)).
  { intros i Hi. apply (proj1 (Forall_forall _ _) (svd_real _ _ _ _ SV)). apply nth_In. auto. }
  assert (D1 : forall i, i < k -> d i * at1 S i * at1 S i = at1 S i /\ d i * d i * at1 S i = d i).
  { intros i Hi. unfold d, pinv_value. destruct (HS i Hi) as [E|E].
    - rewrite E. assert (N : klt F tol 0 = false).
      { apply not_true_iff_false. intros C. apply (lt_not_le tol 0); auto using real_0. }
      rewrite N. split; ring.
    - rewrite E. assert (at1 S i <> 0).
      { intros Z. rewrite Z in E. apply (lt_not_le tol 0); auto using real_0. }
      split; field; auto. }
  pose proof (svd_eq _ _ _ _ SV) as EV. fold k in EV.
  pose proof (svd_U _ _ _ _ SV) as OU. pose proof (svd_V _ _ _ _ SV) as OV. unfold orthonormal in OU, OV. fold k in OU, OV.
  set (W := madj (ent Vh)) in *.
  assert (OW : meq k k (mmul (nc V) (ent Vh) W) mid).
  { transitivity (mmul (nc V) (madj W) W); [|exact OV]. unfold W. rewrite madj_madj. reflexivity. }
  assert (EA : meq (nc V) (nr V) (madj (ent V)) (mmul k W (mmul k (mdiag (at1 S)) (madj (ent U))))).
  { rewrite EV. rewrite madj_mmul, madj_mmul. rewrite (madj_diag_real k (at1 S) RS). rewrite mmul_assoc. reflexivity. }
  split.
  - rewrite mmul_sub_l. apply (proj2 (msub_zero _ _ _ _)). unfold M.
    assert (G : meq (nc V) (nr V) (mmul (nc V) (mmul (nr V) (ent P) (ent V)) (madj (ent V))) (madj (ent V))).
    { rewrite P3, EV at 1.
      rewrite (mmul_assoc (nc V) (nc V) k (nr V)). rewrite (mmul_assoc k (nc V) k (nr V)).
      rewrite <- (mmul_assoc k (nc V) (nr V) k (madj (ent U))). rewrite OU, mmul_id_l.
      rewrite EA. rewrite (mmul_assoc (nc V) (nr V) k (nc V)). rewrite (mmul_assoc k (nr V) k (nc V)).
      rewrite (mmul_assoc k (nr V) k (nc V)). rewrite <- (mmul_assoc k (nr V) (nc V) k (ent Vh)). rewrite OW, mmul_id_l.
      rewrite <- (mmul_assoc k (nr V) k k (mdiag (at1 S))). rewrite <- (mmul_assoc k (nr V) k k (mdiag d)).
      rewrite mmul_diag_diag, mmul_diag_diag.
      rewrite (mdiag_ext k (fun i => d i * (at1 S i * at1 S i)) (at1 S)); [reflexivity|].
      intros i Hi. rewrite <- (proj1 (D1 i Hi)) at 3. ring. }
    rewrite (mmul_assoc q (nc V) (nc V) (nr V)). rewrite (mmul_assoc q (nr V) (nc V) (nc V)). rewrite G. reflexivity.
  - exists (mmul (nc V) Y (mmul k W (mmul k (mdiag (fun i => d i * d i)) (ent Vh)))). unfold M.
    rewrite mmul_assoc. 
    assert (G : meq (nc V) (nr V) (ent P) (mmul (nc V) (mmul k W (mmul k (mdiag (fun i => d i * d i)) (ent Vh))) (madj (ent V)))).
    { rewrite P3, EA. rewrite (mmul_assoc (nc V) (nr V) k (nc V)). rewrite (mmul_assoc k (nr V) k (nc V)).
      rewrite <- (mmul_assoc k (nr V) (nc V) k (ent Vh)). rewrite OW, mmul_id_l.
      rewrite <- (mmul_assoc k (nr V) k k (mdiag _)). rewrite mmul_diag_diag.
      rewrite (mdiag_ext k (fun i => d i * d i * at1 S i) d); [reflexivity|]. intros i Hi. apply D1; auto. }
    rewrite <- G. reflexivity.
Qed.
End Matlab.
