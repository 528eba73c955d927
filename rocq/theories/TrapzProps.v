(** C34: the trapezoid inner product. *)
From Coq Require Import List Arith Lia Bool ZArith Setoid Field Ring.
Import ListNotations.
From Verif Require Import Prelude Field Matrix NdArray FieldInst VSArraysModel TrapzModel DecompProps.
Open Scope nat_scope.

Section Spec.
Context {F : sfield}.
Open Scope k_scope.

(** The entry of an array at a multi-index, in C order. *)
Fixpoint ravel (s idx : list nat) : nat :=
  match s, idx with
  | n :: s, i :: idx => (i * size s + ravel s idx)%nat
  | _, _ => O
  end.
Definition entry (a : nd F) (idx : list nat) : F := at1 (flat a) (ravel (shape a) idx).

(** The sum over all multi-indices of a shape. *)
Fixpoint msum (s : list nat) (f : list nat -> F) : F :=
  match s with
  | [] => f []
  | n :: s => sum n (fun i => msum s (fun idx => f (i :: idx)))
  end.

(** Trapezoid weight of grid point [i]: half the distance between its neighbours, or to its
    only one. *)
Definition weight (x : list F) (i : nat) : F :=
  ((if (i =? 0)%nat then 0 else at1 x i - at1 x (i - 1)) +
   (if (i + 1 <? length x)%nat then at1 x (i + 1) - at1 x i else 0)) / (1 + 1).
(** Product of the weights. *)
Fixpoint mweight (xs : list (list F)) (idx : list nat) : F :=
  match xs, idx with
  | x :: xs, i :: idx => weight x i * mweight xs idx
  | _, _ => 1
  end.

(** Tensor-product quadrature. *)
Definition quadrature (xs : list (list F)) (f : list nat -> F) : F :=
  msum (map (@length F) xs) (fun idx => mweight xs idx * f idx).

End Spec.

Section Proofs.
Context {F : sfield}.
Open Scope k_scope.
Add Field Ffield_trapz : (k_field F).

Lemma two_neq_0 : (1 + 1 : F) <> 0.
Proof.
  intros H. assert (G := add_eq_0 1 1 real_1 real_1 (lt_le 0 1 lt_0_1) (lt_le 0 1 lt_0_1) H).
  apply (one_neq_zero (F := F)). exact G.
Qed.
Lemma two_real : real (1 + 1 : F). Proof. apply real_add; apply real_1. Qed.
Lemma two_pos : klt_p 0 (1 + 1 : F).
Proof.
  destruct (le_0_add (F := F) 1 1 real_1 real_1 (lt_le 0 1 lt_0_1) (lt_le 0 1 lt_0_1)) as [H|H]; auto.
  exfalso. apply two_neq_0. auto.
Qed.

(** One dimension: the sum over intervals is the weighted sum over points. *)
Lemma trapz1_weights x (y : nat -> F) : trapz1 x y = sum (length x) (fun i => weight x i * y i).
Proof.
  assert (P2 := two_neq_0). unfold trapz1.
  transitivity (sum (length x) (fun i => (if (i + 1 <? length x)%nat then at1 x (i + 1) - at1 x i else 0) / (1 + 1) * y i) +
                sum (length x) (fun i => (if (i =? 0)%nat then 0 else at1 x i - at1 x (i - 1)) / (1 + 1) * y i)).
  - destruct (length x) as [|m]; [simpl; ring|]. replace (Datatypes.S m - 1)%nat with m by lia.
    rewrite (sum_S_l m (fun i => (if (i =? 0)%nat then 0 else at1 x i - at1 x (i - 1)) / (1 + 1) * y i)).
    simpl sum at 2. replace (m + 1 <? Datatypes.S m) with false by (symmetry; apply Nat.ltb_ge; lia).
    simpl (0 =? 0). cbv iota.
    transitivity (sum m (fun i => (if i + 1 <? Datatypes.S m then at1 x (i + 1) - at1 x i else 0) / (1 + 1) * y i) +
                  sum m (fun i => (if Datatypes.S i =? 0 then 0 else at1 x (Datatypes.S i) - at1 x (Datatypes.S i - 1)) / (1 + 1) * y (Datatypes.S i)));
      [|field; auto].
    rewrite <- sum_add. apply sum_ext. intros i Hi.
    replace (i + 1 <? Datatypes.S m) with true by (symmetry; apply Nat.ltb_lt; lia).
    replace (i + 1)%nat with (Datatypes.S i) by lia. simpl (_ =? 0).
    replace (Datatypes.S i - 1)%nat with i by lia. field. auto.
  - rewrite <- sum_add. apply sum_ext. intros i _. unfold weight. field. auto.
Qed.

(** Sums and sizes with a last dimension. *)
Lemma msum_app s : forall n (f : list nat -> F), msum (s ++ [n]) f = msum s (fun idx => sum n (fun i => f (idx ++ [i]))).
Proof.
  induction s as [|m s IH]; intros n f; simpl; [reflexivity|]. apply sum_ext. intros i _. rewrite IH. reflexivity.
Qed.
Lemma size_app s n : size (s ++ [n]) = (size s * n)%nat.
Proof.
  induction s as [|m s IH]; [simpl; lia|]. change (size ((m :: s) ++ [n])) with (m * size (s ++ [n]))%nat.
  rewrite IH. change (size (m :: s)) with (m * size s)%nat. lia.
Qed.
Lemma ravel_app s : forall idx n i, length idx = length s -> ravel (s ++ [n]) (idx ++ [i]) = (ravel s idx * n + i)%nat.
Proof.
  induction s as [|m s IH]; intros [|j idx] n i H; simpl in H; try discriminate; simpl; [lia|].
  rewrite IH by lia. rewrite size_app. lia.
Qed.
Definition inside (s idx : list nat) : Prop := Forall2 (fun i n => i < n)%nat idx s.
Lemma inside_length s idx : inside s idx -> length idx = length s.
Proof. intros H. induction H; simpl; auto. Qed.
Lemma ravel_lt s : forall idx, inside s idx -> (ravel s idx < size s)%nat.
Proof.
  induction s as [|n s IH]; intros idx H; inversion H; subst; simpl; [lia|].
  specialize (IH _ H4). change (size (n :: s)) with (n * size s)%nat. nia.
Qed.
Lemma msum_ext s : forall f g : list nat -> F, (forall idx, inside s idx -> f idx = g idx) -> msum s f = msum s g.
Proof.
  induction s as [|n s IH]; intros f g H; simpl; [apply H; constructor|].
  apply sum_ext. intros i Hi. apply IH. intros idx Hidx. apply H. constructor; auto.
Qed.
Lemma mweight_app xs : forall x idx i, length idx = length xs ->
  mweight (F := F) (xs ++ [x]) (idx ++ [i]) = mweight xs idx * weight x i.
Proof.
  induction xs as [|z xs IH]; intros x [|j idx] i H; simpl in H; try discriminate; simpl; [ring|].
  rewrite IH by lia. ring.
Qed.
Lemma msum_mul_l s : forall c (f : list nat -> F), msum s (fun idx => c * f idx) = c * msum s f.
Proof.
  induction s as [|n s IH]; intros c f; simpl; [reflexivity|]. rewrite <- sum_mul_l. apply sum_ext. intros. apply IH.
Qed.
Lemma msum_add s : forall f g : list nat -> F, msum s (fun idx => f idx + g idx) = msum s f + msum s g.
Proof.
  induction s as [|n s IH]; intros f g; simpl; [reflexivity|]. rewrite <- sum_add. apply sum_ext. intros. apply IH.
Qed.
Lemma msum_conj s : forall f : list nat -> F, (msum s f)^* = msum s (fun idx => (f idx)^*).
Proof.
  induction s as [|n s IH]; intros f; simpl; [reflexivity|]. rewrite sum_conj. apply sum_ext. intros. apply IH.
Qed.
Lemma msum_nonneg s : forall f : list nat -> F, (forall idx, inside s idx -> real (f idx) /\ kle 0 (f idx)) ->
  real (msum s f) /\ kle 0 (msum s f).
Proof.
  induction s as [|n s IH]; intros f H; simpl; [apply H; constructor|].
  assert (G : forall i, (i < n)%nat -> real (msum s (fun idx => f (i :: idx))) /\ kle 0 (msum s (fun idx => f (i :: idx)))).
  { intros i Hi. apply IH. intros idx Hidx. apply H. constructor; auto. }
  split; [apply sum_real|apply sum_nonneg]; intros i Hi; apply G; auto.
Qed.

Lemma at1_map {A} (f : A -> F) l i d : (i < length l)%nat -> at1 (map f l) i = f (nth i l d).
Proof.
  intros H. unfold at1. rewrite (nth_indep _ 0 (f d)) by (rewrite map_length; auto). apply map_nth.
Qed.
Lemma at1_seq (f : nat -> F) n i : (i < n)%nat -> at1 (map f (seq 0 n)) i = f i.
Proof. intros H. rewrite (at1_map f _ i O) by (rewrite seq_length; auto). rewrite seq_nth; auto. Qed.

(** The loop over the reversed grids is the tensor quadrature. *)
Lemma trapz_loop xs : forall a : nd F, shape a = map (@length F) xs ->
  at1 (flat (fold_left (fun a x => trapz x a) (rev xs) a)) 0 = quadrature xs (entry a).
Proof.
  induction xs as [|x xs IH] using rev_ind; intros a Ha.
  - unfold quadrature, entry. simpl in *. rewrite Ha. simpl. ring.
  - rewrite rev_unit. simpl fold_left. rewrite map_app in Ha. simpl in Ha.
    rewrite IH by (simpl; rewrite Ha, removelast_last; reflexivity).
    unfold quadrature. rewrite map_app. simpl map at 3. rewrite msum_app. apply msum_ext. intros idx Hidx.
    assert (L : length idx = length xs).
    { apply inside_length in Hidx. rewrite map_length in Hidx. auto. }
    unfold entry at 1. unfold trapz. simpl. rewrite Ha, removelast_last, last_last.
    rewrite at1_seq by (apply ravel_lt; auto). rewrite trapz1_weights, <- sum_mul_l.
    apply sum_ext. intros i Hi. rewrite mweight_app by auto.
    unfold entry. rewrite Ha, ravel_app by (rewrite map_length; auto). ring.
Qed.

Lemma shape_eqb_spec s t : shape_eqb s t = true <-> s = t.
Proof. unfold shape_eqb. destruct (list_eq_dec Nat.eq_dec s t); split; congruence. Qed.

(** ** The theorems *)

(** Arrays of the shape of the grids: the result is the tensor-product trapezoidal
    quadrature of conj(v1) * v2. *)
Theorem C34_quadrature (xs : list (list F)) v1 v2 :
  shape v1 = grid_shape xs -> shape v2 = grid_shape xs ->
  inner_product xs v1 v2 = Ok (quadrature xs (fun idx => (entry v1 idx)^* * entry v2 idx)).
Proof.
  intros H1 H2. unfold inner_product. rewrite (proj2 (shape_eqb_spec _ _) H1), (proj2 (shape_eqb_spec _ _) H2).
  simpl negb. cbv iota. f_equal. rewrite trapz_loop by (exact H1).
  unfold quadrature. apply msum_ext. intros idx Hidx. f_equal. unfold entry. simpl shape. simpl flat.
  rewrite at1_seq by (rewrite H1; apply ravel_lt; auto). rewrite H1, H2. reflexivity.
Qed.

(** Errors: no grid, a grid that is not an array, other shapes. *)
Theorem C34_no_grids : new_trapz (F := F) [] = Raise ValueError.
Proof. reflexivity. Qed.
Theorem C34_grids (gs : list (grid F)) : gs <> [] ->
  new_trapz gs = match new_trapz gs with Ok xs => Ok xs | Raise _ => Raise TypeError end /\
  (forall xs, new_trapz gs = Ok xs <-> gs = map Grid xs).
Proof.
  intros Hn. destruct gs as [|g gs]; [congruence|]. clear Hn. unfold new_trapz.
  assert (G : forall l : list (grid F), check_grids l = match check_grids l with Ok xs => Ok xs | Raise _ => Raise TypeError end /\
    (forall xs, check_grids l = Ok xs <-> l = map Grid xs)); [|apply G].
  induction l as [|[x|] l [IH1 IH2]].
  - simpl. split; auto. intros [|y xs]; split; simpl; congruence.
  - simpl. split.
    + destruct (check_grids l) as [xs|e]; simpl; auto.
    + intros xs. destruct (check_grids l) as [ys|e] eqn:E; simpl.
      * split; [intros [= <-]|]; [simpl; f_equal; apply IH2; auto|].
        intros H. destruct xs as [|y xs]; simpl in H; [discriminate|]. injection H as -> H.
        apply IH2 in H. injection H as ->. reflexivity.
      * split; [discriminate|]. intros H. destruct xs as [|y xs]; simpl in H; [discriminate|]. injection H as _ H.
        apply IH2 in H. discriminate.
  - simpl. split; auto. intros [|y xs]; split; simpl; discriminate.
Qed.
Theorem C34_shape_error (xs : list (list F)) v1 v2 :
  shape v1 <> grid_shape xs \/ shape v2 <> grid_shape xs -> inner_product xs v1 v2 = Raise TypeError.
Proof.
  intros H. unfold inner_product.
  destruct (shape_eqb (shape v1) (grid_shape xs)) eqn:E1; simpl; auto.
  destruct (shape_eqb (shape v2) (grid_shape xs)) eqn:E2; simpl; auto.
  apply shape_eqb_spec in E1, E2. tauto.
Qed.

(** Real grids. *)
Definition real_grids (xs : list (list F)) : Prop := forall x i, In x xs -> real (at1 x i).
Definition increasing (x : list F) : Prop := forall i, (i + 1 < length x)%nat -> kle (at1 x i) (at1 x (i + 1)).

Lemma real_half (z : F) : real z -> real (z / (1 + 1)).
Proof. intros H. apply real_div; auto using two_neq_0, two_real. Qed.
Lemma weight_real x i : (forall i, real (at1 x i)) -> real (weight (F := F) x i).
Proof.
  intros H. unfold weight. apply real_half. apply real_add.
  - destruct (i =? 0)%nat; auto using real_0, real_sub.
  - destruct (i + 1 <? length x)%nat; auto using real_0, real_sub.
Qed.
Lemma mweight_real xs : forall idx, real_grids xs -> real (mweight (F := F) xs idx).
Proof.
  induction xs as [|x xs IH]; intros [|i idx] H; simpl; try apply real_1.
  apply real_mul; [apply weight_real; intros; apply H; left; auto|apply IH; intros y j Hy; apply H; right; auto].
Qed.
Lemma le_sub (x y : F) : real x -> real y -> kle x y -> kle 0 (y - x).
Proof. intros Hx Hy [H| ->]; [left; apply (proj1 (lt_sub x y Hx Hy)); auto|right; ring]. Qed.
Lemma le_mul (x y : F) : real x -> real y -> kle 0 x -> kle 0 y -> kle 0 (x * y).
Proof.
  intros Hx Hy [H| <-] [G| <-]; [left; apply lt_mul; auto|right; ring|right; ring|right; ring].
Qed.
Lemma weight_nonneg x i : (i < length x)%nat -> (forall i, real (at1 x i)) -> increasing x -> kle 0 (weight (F := F) x i).
Proof.
  intros Hi Hr H. unfold weight. rewrite div_def. apply le_mul.
  - apply real_add; [destruct (i =? 0)%nat|destruct (i + 1 <? length x)%nat]; auto using real_0, real_sub.
  - apply real_inv; auto using two_neq_0, two_real.
  - apply le_0_add.
    + destruct (i =? 0)%nat; auto using real_0, real_sub.
    + destruct (i + 1 <? length x)%nat; auto using real_0, real_sub.
    + destruct (Nat.eqb_spec i 0); [apply le_refl|]. apply le_sub; auto.
      specialize (H (i - 1)%nat). replace (i - 1 + 1)%nat with i in H by lia. apply H. auto.
    + destruct (Nat.ltb_spec (i + 1) (length x)); [apply le_sub; auto|apply le_refl].
  - left. apply lt_inv; auto using two_real, two_pos.
Qed.
Lemma mweight_nonneg xs : forall idx, inside (map (@length F) xs) idx -> real_grids xs -> (forall x, In x xs -> increasing x) ->
  kle 0 (mweight (F := F) xs idx).
Proof.
  induction xs as [|x xs IH]; intros idx Hin Hr H; inversion Hin; subst; simpl.
  - left. apply lt_0_1.
  - apply le_mul.
    + apply weight_real. intros; apply Hr; left; auto.
    + apply mweight_real. intros y i Hy. apply Hr. right. auto.
    + apply weight_nonneg; auto; [intros; apply Hr|apply H]; left; auto.
    + apply IH; auto; [intros y i Hy; apply Hr|intros; apply H]; right; auto.
Qed.

(** Conjugate symmetry. *)
Theorem C34_conj_symmetric xs v1 v2 a b : real_grids xs ->
  inner_product xs v1 v2 = Ok a -> inner_product xs v2 v1 = Ok b -> b = a^*.
Proof.
  intros Hr Ha Hb.
  assert (S : shape v1 = grid_shape xs /\ shape v2 = grid_shape xs).
  { unfold inner_product in Ha. destruct (shape_eqb (shape v1) (grid_shape xs)) eqn:E1; [|discriminate].
    destruct (shape_eqb (shape v2) (grid_shape xs)) eqn:E2; [|discriminate]. rewrite <- !shape_eqb_spec. auto. }
  destruct S as [S1 S2]. rewrite C34_quadrature in Ha, Hb by auto. injection Ha as <-. injection Hb as <-.
  unfold quadrature. rewrite msum_conj. apply msum_ext. intros idx _.
  rewrite !conj_mul, conj_conj, (mweight_real xs idx Hr). ring.
Qed.

(** Entrywise sums and multiples of arrays of one shape. *)
Definition nadd (u v : nd F) : nd F := Nd (shape u) (map (fun k => at1 (flat u) k + at1 (flat v) k) (seq 0 (size (shape u)))).
Definition nscale (c : F) (v : nd F) : nd F := Nd (shape v) (map (fun k => c * at1 (flat v) k) (seq 0 (size (shape v)))).

(** Linearity in the second argument. *)
Theorem C34_linear xs v1 v2 v3 a b c : 
  inner_product xs v1 v2 = Ok a -> inner_product xs v1 v3 = Ok b ->
  inner_product xs v1 (nadd v2 (nscale c v3)) = Ok (a + c * b).
Proof.
  intros Ha Hb.
  assert (S : shape v1 = grid_shape xs /\ shape v2 = grid_shape xs /\ shape v3 = grid_shape xs).
  { unfold inner_product in Ha, Hb. destruct (shape_eqb (shape v1) (grid_shape xs)) eqn:E1; [|discriminate].
    destruct (shape_eqb (shape v2) (grid_shape xs)) eqn:E2; [|discriminate].
    destruct (shape_eqb (shape v3) (grid_shape xs)) eqn:E3; [|discriminate]. rewrite <- !shape_eqb_spec. auto. }
  destruct S as (S1 & S2 & S3). rewrite C34_quadrature in Ha, Hb by auto. injection Ha as <-. injection Hb as <-.
  rewrite C34_quadrature by auto. f_equal.
  unfold quadrature. rewrite <- msum_mul_l, <- msum_add. apply msum_ext. intros idx Hidx.
  assert (E : entry (nadd v2 (nscale c v3)) idx = entry v2 idx + c * entry v3 idx).
  { unfold entry. simpl shape. simpl flat. rewrite S2, S3.
    rewrite !at1_seq by (apply ravel_lt; auto). reflexivity. }
  rewrite E. ring.
Qed.

(** Positive semi-definiteness. *)
Theorem C34_nonneg xs v a : real_grids xs -> (forall x, In x xs -> increasing x) ->
  inner_product xs v v = Ok a -> real a /\ kle 0 a.
Proof.
  intros Hr Hi Ha.
  assert (S : shape v = grid_shape xs).
  { unfold inner_product in Ha. destruct (shape_eqb (shape v) (grid_shape xs)) eqn:E1; [|discriminate].
    apply shape_eqb_spec. auto. }
  rewrite C34_quadrature in Ha by auto. injection Ha as <-. apply msum_nonneg. intros idx Hidx. split.
  - apply real_mul; [apply mweight_real; auto|apply real_norm].
  - apply le_mul; [apply mweight_real; auto|apply real_norm|apply mweight_nonneg; auto|apply le_norm].
Qed.

(** Definite when every grid has at least two points and is strictly increasing. *)
Definition strictly_increasing (x : list F) : Prop :=
  (2 <= length x)%nat /\ forall i, (i + 1 < length x)%nat -> klt_p (at1 x i) (at1 x (i + 1)).
Lemma pos_neq (z : F) : real z -> klt_p 0 z -> z <> 0.
Proof. intros Hz H ->. red in H. rewrite (lt_irrefl F 0 real_0) in H. discriminate. Qed.
Lemma weight_pos x i : (i < length x)%nat -> (forall i, real (at1 x i)) -> strictly_increasing x -> weight (F := F) x i <> 0.
Proof.
  intros Hi Hr [H2 H] E.
  assert (R1 : real (if (i =? 0)%nat then 0 else at1 x i - at1 x (i - 1))) by (destruct (i =? 0)%nat; auto using real_0, real_sub).
  assert (R2 : real (if (i + 1 <? length x)%nat then at1 x (i + 1) - at1 x i else 0)) by (destruct (i + 1 <? length x)%nat; auto using real_0, real_sub).
  assert (D : forall j, (j + 1 < length x)%nat -> klt_p 0 (at1 x (j + 1) - at1 x j)).
  { intros j Hj. apply (proj1 (lt_sub _ _ (Hr j) (Hr (j + 1)%nat))). auto. }
  assert (N1 : kle 0 (if (i =? 0)%nat then 0 else at1 x i - at1 x (i - 1))).
  { destruct (Nat.eqb_spec i 0); [apply le_refl|]. left. specialize (D (i - 1)%nat).
    replace (i - 1 + 1)%nat with i in D by lia. apply D. auto. }
  assert (N2 : kle 0 (if (i + 1 <? length x)%nat then at1 x (i + 1) - at1 x i else 0)).
  { destruct (Nat.ltb_spec (i + 1) (length x)); [left; apply D; auto|apply le_refl]. }
  assert (Z : (if (i =? 0)%nat then 0 else at1 x i - at1 x (i - 1)) +
              (if (i + 1 <? length x)%nat then at1 x (i + 1) - at1 x i else 0) = 0).
  { unfold weight in E. rewrite div_def in E. destruct (mul_eq_0 _ _ E) as [Z|Z]; auto.
    exfalso. apply (inv_neq_0 _ two_neq_0 Z). }
  pose proof (add_eq_0 _ _ R1 R2 N1 N2 Z) as Z1.
  destruct (Nat.eqb_spec i 0) as [E0|E0].
  - destruct (Nat.ltb_spec (i + 1) (length x)) as [L|L]; [|lia].
    apply (pos_neq _ (real_sub _ _ (Hr _) (Hr _)) (D i L)). rewrite <- Z. ring.
  - specialize (D (i - 1)%nat). replace (i - 1 + 1)%nat with i in D by lia.
    apply (pos_neq _ (real_sub _ _ (Hr _) (Hr _)) (D Hi)). auto.
Qed.
Lemma msum_zero s : forall f : list nat -> F, (forall idx, inside s idx -> real (f idx) /\ kle 0 (f idx)) ->
  msum s f = 0 -> forall idx, inside s idx -> f idx = 0.
Proof.
  assert (SZ : forall n (g : nat -> F), (forall i, (i < n)%nat -> real (g i) /\ kle 0 (g i)) -> sum n g = 0 ->
    forall i, (i < n)%nat -> g i = 0).
  { induction n as [|n IH]; intros g Hg H i Hi; [lia|]. simpl in H.
    assert (Hg' : forall i, (i < n)%nat -> real (g i) /\ kle 0 (g i)) by (intros; apply Hg; lia).
    assert (R1 : real (sum n g)) by (apply sum_real; intros; apply Hg'; auto).
    assert (N1 : kle 0 (sum n g)) by (apply sum_nonneg; intros; apply Hg'; auto).
    destruct (Hg n ltac:(lia)) as [R2 N2].
    pose proof (add_eq_0 _ _ R1 R2 N1 N2 H) as Z.
    destruct (Nat.eq_dec i n) as [->|]; [|apply IH; auto; lia]. rewrite Z in H. rewrite <- H. ring. }
  induction s as [|n s IH]; intros f H Z idx Hidx; inversion Hidx; subst; simpl in Z; auto.
  apply (IH (fun idx => f (x :: idx))); auto.
  - intros idx' Hidx'. apply H. constructor; auto.
  - apply (SZ n (fun i => msum s (fun idx => f (i :: idx)))); auto. intros i Hi. apply msum_nonneg.
    intros idx' Hidx'. apply H. constructor; auto.
Qed.
Lemma mweight_pos xs : forall idx, inside (map (@length F) xs) idx -> real_grids xs -> (forall x, In x xs -> strictly_increasing x) ->
  mweight (F := F) xs idx <> 0.
Proof.
  induction xs as [|x xs IH]; intros idx Hin Hr H; inversion Hin; subst; simpl.
  - apply one_neq_zero.
  - apply mul_neq_0.
    + apply weight_pos; auto; [intros; apply Hr|apply H]; left; auto.
    + apply IH; auto; [intros y i Hy; apply Hr|intros; apply H]; right; auto.
Qed.
Theorem C34_definite xs v : real_grids xs -> (forall x, In x xs -> strictly_increasing x) ->
  inner_product xs v v = Ok 0 -> forall idx, inside (shape v) idx -> entry v idx = 0.
Proof.
  intros Hr Hi Ha idx Hidx.
  assert (S : shape v = grid_shape xs).
  { unfold inner_product in Ha. destruct (shape_eqb (shape v) (grid_shape xs)) eqn:E1; [|discriminate].
    apply shape_eqb_spec. auto. }
  assert (Hi' : forall x, In x xs -> increasing x).
  { intros x Hx i Hix. apply lt_le. apply (Hi x Hx). auto. }
  rewrite C34_quadrature in Ha by auto. injection Ha as Ha. rewrite S in Hidx.
  assert (Z : mweight xs idx * ((entry v idx)^* * entry v idx) = 0).
  { apply (msum_zero (map (@length F) xs) (fun idx => mweight xs idx * ((entry v idx)^* * entry v idx))); auto.
    intros idx' Hidx'. split.
    - apply real_mul; [apply mweight_real; auto|apply real_norm].
    - apply le_mul; [apply mweight_real; auto|apply real_norm|apply mweight_nonneg; auto|apply le_norm]. }
  destruct (mul_eq_0 _ _ Z) as [Z1|Z1]; [|apply norm_eq_0; auto].
  exfalso. apply (mweight_pos xs idx Hidx Hr Hi Z1).
Qed.

(** The plain inner product: over all entries, whatever the shapes. *)
Theorem C34_uniform (v1 v2 : nd F) : length (flat v1) = length (flat v2) ->
  exists a b, inner_product_array_uniform v1 v2 = Ok a /\ inner_product_array_uniform v2 v1 = Ok b /\ b = a^* /\
    a = sum (length (flat v1)) (fun k => (at1 (flat v1) k)^* * at1 (flat v2) k).
Proof.
  intros H. unfold inner_product_array_uniform. rewrite <- H, !Nat.eqb_refl. do 2 eexists.
  split; [reflexivity|]. split; [reflexivity|]. split; [|reflexivity].
  rewrite sum_conj. apply sum_ext. intros. rewrite conj_mul, conj_conj. ring.
Qed.
Theorem C34_uniform_definite (v : nd F) : exists a, inner_product_array_uniform v v = Ok a /\ real a /\ kle 0 a /\
  (a = 0 -> forall k, (k < length (flat v))%nat -> at1 (flat v) k = 0).
Proof.
  unfold inner_product_array_uniform. rewrite Nat.eqb_refl. eexists. split; [reflexivity|]. split; [|split].
  - apply sum_real. intros. apply real_norm.
  - apply sum_nonneg; intros; [apply real_norm|apply le_norm].
  - intros H. apply sum_norm_0. auto.
Qed.
Theorem C34_uniform_size (v1 v2 : nd F) : length (flat v1) <> length (flat v2) ->
  inner_product_array_uniform v1 v2 = Raise ValueError.
Proof. intros H. unfold inner_product_array_uniform. apply Nat.eqb_neq in H. rewrite H. reflexivity. Qed.
End Proofs.

(** ** Examples: a 3 x 2 grid over the Gaussian rationals *)
Definition xgrid : list QI := [q 0; q 1; q 3].
Definition ygrid : list QI := [q (-1); q 1].
Definition tv1 : nd QI := Nd [3; 2] [qi 1 1 1; q 2; qi 0 1 1; q 1; q 3; qi 1 (-1) 1].
Definition tv2 : nd QI := Nd [3; 2] [q 2; qi 0 1 1; q 1; qi 1 2 1; q 4; q 1].
Definition is_val (r : res QI) (v : QI) : bool := match r with Ok a => if k_dec QI a v then true else false | Raise _ => false end.
Lemma is_val_spec r v : is_val r v = true -> r = Ok v.
Proof. destruct r as [a|e]; unfold is_val; [destruct (k_dec QI a v) as [->|]|]; congruence. Qed.

Lemma xy_real : real_grids [xgrid; ygrid].
Proof.
  intros x i [<-|[<-|[]]]; do 4 (destruct i as [|i]; [apply keqb_true; vm_compute; reflexivity|]);
    unfold at1; rewrite nth_overflow by (simpl; lia); apply real_0.
Qed.
Lemma xy_increasing : forall x, In x [xgrid; ygrid] -> strictly_increasing x.
Proof.
  intros x [<-|[<-|[]]]; (split; [simpl; lia|]); intros i Hi; simpl in Hi.
  - do 2 (destruct i as [|i]; [vm_compute; reflexivity|]). lia.
  - do 1 (destruct i as [|i]; [vm_compute; reflexivity|]). lia.
Qed.
Example C34_example : inner_product [xgrid; ygrid] tv1 tv2 = Ok (quadrature [xgrid; ygrid] (fun idx => (entry tv1 idx)^*%K * entry tv2 idx)%K) /\
  is_val (inner_product [xgrid; ygrid] tv1 tv2) (qi 31 5 2) = true.
Proof. split; [apply C34_quadrature; reflexivity|vm_compute; reflexivity]. Qed.
Example C34_conj_symmetric_example : forall b, inner_product [xgrid; ygrid] tv2 tv1 = Ok b -> b = qi 31 (-5) 2.
Proof.
  intros b Hb. assert (E : inner_product [xgrid; ygrid] tv1 tv2 = Ok (qi 31 5 2)).
  { apply is_val_spec. vm_compute. reflexivity. }
  rewrite (C34_conj_symmetric _ _ _ _ _ xy_real E Hb). apply keqb_true. vm_compute. reflexivity.
Qed.
Example C34_linear_example : exists a b, inner_product [xgrid; ygrid] tv1 tv2 = Ok a /\ inner_product [xgrid; ygrid] tv1 tv1 = Ok b /\
  inner_product [xgrid; ygrid] tv1 (nadd tv2 (nscale (qi 0 1 1) tv1)) = Ok (a + qi 0 1 1 * b)%K.
Proof.
  do 2 eexists. split; [apply C34_quadrature; reflexivity|]. split; [apply C34_quadrature; reflexivity|].
  apply C34_linear; apply C34_quadrature; reflexivity.
Qed.
Example C34_nonneg_example : exists a, inner_product [xgrid; ygrid] tv1 tv1 = Ok a /\ real a /\ kle (k0 QI) a.
Proof.
  eexists. split; [apply C34_quadrature; reflexivity|]. apply (C34_nonneg [xgrid; ygrid] tv1); [apply xy_real| |apply C34_quadrature; reflexivity].
  intros x Hx i Hi. apply lt_le. apply (xy_increasing x Hx). auto.
Qed.
(** A decreasing grid gives negative squares; a one-point grid gives zero. *)
Example C34_decreasing : is_val (inner_product [[q 1; q 0]] (Nd [2] [q 1; q 1]) (Nd [2] [q 1; q 1])) (q (-1)) = true /\
  is_val (inner_product [[q 5]] (Nd [1] [q 1]) (Nd [1] [q 1])) (q 0) = true.
Proof. split; vm_compute; reflexivity. Qed.
Example C34_definite_example : forall v : nd QI, inner_product [xgrid; ygrid] v v = Ok (k0 QI) ->
  shape v = [3; 2] -> entry v [2; 1] = k0 QI.
Proof.
  intros v H S. apply (C34_definite [xgrid; ygrid] v xy_real xy_increasing H).
  rewrite S. repeat constructor.
Qed.
Example C34_grids_example : new_trapz [Grid xgrid; NotArray; Grid ygrid] = Raise TypeError /\
  new_trapz [Grid xgrid; Grid ygrid] = Ok [xgrid; ygrid].
Proof. split; [reflexivity|]. apply C34_grids; [discriminate|reflexivity]. Qed.
Example C34_shape_error_example : inner_product [ygrid; xgrid] tv1 tv2 = Raise TypeError.
Proof. apply C34_shape_error. left. discriminate. Qed.
Example C34_uniform_example : exists a, inner_product_array_uniform tv1 (Nd [6] (flat tv2)) = Ok a /\
  a = sum 6 (fun k => (at1 (flat tv1) k)^* * at1 (flat tv2) k)%K.
Proof. destruct (C34_uniform tv1 (Nd [6] (flat tv2)) eq_refl) as (a & b & Ha & _ & _ & Ea). exists a. auto. Qed.
Example C34_uniform_size_example : inner_product_array_uniform tv1 (Nd [2] ygrid) = Raise ValueError.
Proof. apply C34_uniform_size. discriminate. Qed.

Example C34_uniform_definite_example : exists a, inner_product_array_uniform tv1 tv1 = Ok a /\
  real a /\ kle (k0 QI) a /\ a <> k0 QI.
Proof.
  destruct (C34_uniform_definite tv1) as (a & E & R & P & D). exists a. do 3 (split; [auto|]).
  intros Z. pose proof (D Z 1%nat ltac:(simpl; lia)) as H. cbn [at1 nth flat tv1] in H.
  assert (keqb (q 2) (k0 QI) = true) by (apply keqb_true in H || (unfold keqb; rewrite H; destruct (k_dec QI (k0 QI) (k0 QI)); congruence)).
  vm_compute in H0. discriminate.
Qed.
Example C34_no_grids_example : new_trapz (F := QI) [] = Raise ValueError /\ new_trapz [Grid ygrid] = Ok [ygrid].
Proof. split; [apply C34_no_grids|reflexivity]. Qed.

Print Assumptions C34_quadrature.
Print Assumptions C34_no_grids.
Print Assumptions C34_grids.
Print Assumptions C34_shape_error.
Print Assumptions C34_conj_symmetric.
Print Assumptions C34_linear.
Print Assumptions C34_nonneg.
Print Assumptions C34_definite.
Print Assumptions C34_uniform.
Print Assumptions C34_uniform_definite.
Print Assumptions C34_uniform_size.
