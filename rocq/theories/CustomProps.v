(** C57: the vectors and inner products that come with modred and its examples form inner
    product spaces, as the theorems about handles ask of those a user supplies. *)
From Coq Require Import List Arith Lia Bool ZArith Setoid Field Ring.
Import ListNotations.
From Verif Require Import Prelude Field Matrix NdArray FieldInst VSArraysModel TrapzModel DecompProps TrapzProps
  HandlesModel HandlesProofs HandlesSpace CustomModel.
Open Scope nat_scope.
Open Scope k_scope.

Section C57.
Context {F : sfield}.
Add Field Ff_custom : (k_field F).
Variables per_node per_proc nodes : nat.

(** A space S of values of type V, seen by [val] as the objects of the program: adding,
    scaling and inner products of objects never raise, give objects in S again, and obey the laws. *)
Record realizes {V O : Type} (val : V -> O) (add : O -> O -> res O) (mul : O -> F -> O) (inner : O -> O -> res F) (S : space F V) : Prop := {
  re_add : forall u v, add (val u) (val v) = Ok (val (vadd S u v));
  re_mul : forall u c, mul (val u) c = val (smul S u c);
  re_ip : forall u v, inner (val u) (val v) = Ok (ip S u v);
  re_laws : ip_space S;
  (* numbers of vectors in memory and of nodes, as given to VectorSpaceHandles *)
  re_node : HandlesModel.per_node S = per_node; re_proc : HandlesModel.per_proc S = per_proc; re_nodes : num_nodes S = nodes
}.
(** Squared norms are not negative, and zero only of vectors without effect. *)
Definition positive {V} (S : space F V) : Prop := ip_definite S /\ forall v, real (ip S v v) /\ kle 0 (ip S v v).

(** Arrays of shape s. *)
Definition of_shape (s : list nat) : Type := { a : nd F | shape a = s /\ length (flat a) = size s }.
Definition arr_of {s} (a : of_shape s) : nd F := proj1_sig a.

Lemma add_valid s (u v : of_shape s) :
  let a := Nd s (map (fun k => at1 (flat (arr_of u)) k + at1 (flat (arr_of v)) k) (seq 0 (size s))) in shape a = s /\ length (flat a) = size s.
Proof. cbn. split; [reflexivity|]. rewrite map_length, seq_length. reflexivity. Qed.
Lemma mul_valid s (u : of_shape s) c :
  let a := Nd s (map (fun k => at1 (flat (arr_of u)) k * c) (seq 0 (size s))) in shape a = s /\ length (flat a) = size s.
Proof. cbn. split; [reflexivity|]. rewrite map_length, seq_length. reflexivity. Qed.
Definition add_s {s} (u v : of_shape s) : of_shape s := exist _ _ (add_valid s u v).
Definition mul_s {s} (u : of_shape s) (c : F) : of_shape s := exist _ _ (mul_valid s u c).
Lemma array_add_s s (u v : of_shape s) : array_add (arr_of u) (arr_of v) = Ok (arr_of (add_s u v)).
Proof.
  destruct u as [u [Hu Lu]], v as [v [Hv Lv]]. unfold array_add, add_s, arr_of. cbn.
  rewrite Hu, Hv. rewrite (proj2 (shape_eqb_spec s s) eq_refl). reflexivity.
Qed.
Lemma array_mul_s s (u : of_shape s) c : array_mul (arr_of u) c = arr_of (mul_s u c).
Proof. destruct u as [u [Hu Lu]]. unfold array_mul, mul_s, arr_of. cbn. rewrite Hu. reflexivity. Qed.

(** Trapezoid inner products of arrays on one grid. *)
Definition trapz_space (xs : list (list F)) : space F (of_shape (grid_shape xs)) :=
  Space F _ (fun u v => quadrature xs (fun idx => (entry (arr_of u) idx)^* * entry (arr_of v) idx)) add_s mul_s
    (fun _ x => Ok x) per_node per_proc nodes.
Lemma entry_add s (u v : of_shape s) idx : inside s idx -> entry (arr_of (add_s u v)) idx = entry (arr_of u) idx + entry (arr_of v) idx.
Proof.
  destruct u as [u [Hu Lu]], v as [v [Hv Lv]]. intros H. unfold entry, add_s, arr_of. cbn [flat shape proj1_sig]. rewrite at1_seq by (apply ravel_lt; auto).
  rewrite Hu, Hv. reflexivity.
Qed.
Lemma entry_mul s (u : of_shape s) c idx : inside s idx -> entry (arr_of (mul_s u c)) idx = entry (arr_of u) idx * c.
Proof.
  destruct u as [u [Hu Lu]]. intros H. unfold entry, mul_s, arr_of. cbn [flat shape proj1_sig]. rewrite at1_seq by (apply ravel_lt; auto). rewrite Hu. reflexivity.
Qed.

Lemma trapz_ok xs : real_grids xs ->
  realizes arr_of array_add array_mul (inner_product xs) (trapz_space xs) /\
  ((forall x, In x xs -> strictly_increasing x) -> positive (trapz_space xs)).
Proof.
  intros Hr.
  assert (I : forall u v, inner_product xs (arr_of u) (arr_of v) = Ok (ip (trapz_space xs) u v)).
  { intros [u [Hu Lu]] [v [Hv Lv]]. apply C34_quadrature; auto. }
  split.
  - split; [apply array_add_s|apply array_mul_s|exact I| |reflexivity|reflexivity|reflexivity]. split.
    + intros u v w. cbn [ip vadd trapz_space]. unfold quadrature. rewrite <- msum_add. apply msum_ext. intros idx Hi. rewrite entry_add by auto. ring.
    + intros u v c. cbn [ip smul trapz_space]. unfold quadrature. transitivity (c * msum (map (@length F) xs) (fun idx => mweight xs idx * ((entry (arr_of u) idx)^* * entry (arr_of v) idx))); [|ring].
      rewrite <- msum_mul_l. apply msum_ext. intros idx Hi. rewrite entry_mul by auto. ring.
    + intros u v. symmetry. apply (C34_conj_symmetric xs (arr_of u) (arr_of v)); auto.
    + reflexivity.
  - intros Hi. split.
    + intros w Hw u. cbn [ip trapz_space]. unfold quadrature. transitivity (msum (map (@length F) xs) (fun _ => 0 * 0 : F)).
      * apply msum_ext. intros idx Hin. assert (E : entry (arr_of w) idx = 0).
        { apply (C34_definite xs (arr_of w)); auto; [rewrite I, Hw; reflexivity|]. destruct w as [w [Sw Lw]]. cbn. rewrite Sw. exact Hin. }
        rewrite E. ring.
      * rewrite msum_mul_l. ring.
    + intros v. apply (C34_nonneg xs (arr_of v)); auto. intros x Hx i Hix. apply lt_le. apply (Hi x Hx). auto.
Qed.

Theorem C57_trapz xs : real_grids xs ->
  exists S : space F (of_shape (grid_shape xs)),
    realizes arr_of array_add array_mul (inner_product xs) S /\
    ((forall x, In x xs -> strictly_increasing x) -> positive S).
Proof. intros Hr. exists (trapz_space xs). apply trapz_ok. auto. Qed.

(** np.vdot of arrays of one shape. *)
Theorem C57_vdot s : exists S : space F (of_shape s),
  realizes arr_of array_add array_mul inner_product_array_uniform S /\ positive S.
Proof.
  exists (Space F _ (fun u v => sum (size s) (fun k => (at1 (flat (arr_of u)) k)^* * at1 (flat (arr_of v)) k)) add_s mul_s
    (fun _ x => Ok x) per_node per_proc nodes). split.
  - split; [apply array_add_s|apply array_mul_s| | |reflexivity|reflexivity|reflexivity].
    + intros [u [Hu Lu]] [v [Hv Lv]]. unfold inner_product_array_uniform, arr_of. cbn. rewrite Lu, Lv, Nat.eqb_refl. reflexivity.
    + split; cbn [ip vadd smul store_as].
      * intros u v w. rewrite <- sum_add. apply sum_ext. intros k Hk. unfold add_s. cbn [arr_of proj1_sig flat]. rewrite at1_seq by auto. ring.
      * intros u v c. rewrite <- sum_mul_r. apply sum_ext. intros k Hk. unfold mul_s. cbn [arr_of proj1_sig flat]. rewrite at1_seq by auto. ring.
      * intros u v. rewrite sum_conj. apply sum_ext. intros k Hk. rewrite conj_mul, conj_conj. ring.
      * reflexivity.
  - split; cbn [ip].
    + intros w Hw u. cbn [ip] in Hw. apply sum_0. intros k Hk. rewrite (sum_norm_0 _ _ Hw k Hk). ring.
    + intros v. split; [apply sum_real; intros; apply real_norm|apply sum_nonneg; intros; [apply real_norm|apply le_norm]].
Qed.

(** CustomVectors made with the same grids. *)
Definition custom_on (xs : list (list F)) : Type :=
  { v : custom F | new_custom (map Grid xs) (data_array v) = Ok v /\ shape (data_array v) = grid_shape xs /\ length (flat (data_array v)) = size (grid_shape xs) }.
Definition cust {xs} (v : custom_on xs) : custom F := proj1_sig v.
Lemma custom_form xs (v : custom_on xs) : exists a : of_shape (grid_shape xs), cust v = Custom (map Grid xs) (arr_of a) xs.
Proof.
  destruct v as [v (E & Hs & Hl)]. exists (exist _ (data_array v) (conj Hs Hl)). cbn. unfold new_custom in E.
  destruct xs as [|x xs]; [discriminate|]. 
  assert (T : new_trapz (map Grid (x :: xs)) = Ok (x :: xs)) by (apply C34_grids; [discriminate|reflexivity]).
  rewrite T in E. cbn [rbind] in E. congruence.
Qed.
Lemma custom_made xs (a : of_shape (grid_shape xs)) : xs <> [] ->
  let v := Custom (map Grid xs) (arr_of a) xs in
  new_custom (map Grid xs) (data_array v) = Ok v /\ shape (data_array v) = grid_shape xs /\ length (flat (data_array v)) = size (grid_shape xs).
Proof.
  intros Hn. destruct xs as [|x xs]; [congruence|]. destruct a as [a [Hs Hl]]. cbn [data_array arr_of proj1_sig]. split; [|auto].
  assert (T : new_trapz (map Grid (x :: xs)) = Ok (x :: xs)) by (apply C34_grids; [discriminate|reflexivity]).
  unfold new_custom. rewrite T. reflexivity.
Qed.
Definition data_of {xs} (v : custom_on xs) : of_shape (grid_shape xs) :=
  exist _ (data_array (proj1_sig v)) (proj2 (proj2_sig v)).
Definition custom_space xs (Hn : xs <> []) : space F (custom_on xs) :=
  Space F _ (fun u v => ip (trapz_space xs) (data_of u) (data_of v))
    (fun u v => exist _ _ (custom_made xs (add_s (data_of u) (data_of v)) Hn))
    (fun u c => exist _ _ (custom_made xs (mul_s (data_of u) c) Hn))
    (fun _ x => Ok x) per_node per_proc nodes.

Theorem C57_custom xs : xs <> [] -> real_grids xs ->
  exists S : space F (custom_on xs),
    realizes cust custom_add custom_mul custom_ip S /\
    ((forall x, In x xs -> strictly_increasing x) -> positive S).
Proof.
  intros Hn Hr. exists (custom_space xs Hn).
  assert (L : realizes arr_of array_add array_mul (inner_product xs) (trapz_space xs) /\
              ((forall x, In x xs -> strictly_increasing x) -> positive (trapz_space xs))) by (apply trapz_ok; auto).
  destruct L as [[A M I [L1 L2 L3 L4] _ _ _] P].
  assert (G : forall v : custom_on xs, cust v = Custom (map Grid xs) (arr_of (data_of v)) xs).
  { intros v. destruct (custom_form xs v) as [a Ea]. unfold data_of, arr_of. cbn [proj1_sig]. change (proj1_sig v) with (cust v). rewrite Ea. reflexivity. }
  split.
  - split; [| | | |reflexivity|reflexivity|reflexivity].
    + intros u v. rewrite (G u), (G v). unfold custom_add. cbn [data_array grids weighted_ip]. rewrite A. reflexivity.
    + intros u c. rewrite (G u). unfold custom_mul. cbn [data_array grids weighted_ip]. rewrite M. reflexivity.
    + intros u v. rewrite (G u), (G v). unfold custom_ip. cbn [data_array weighted_ip]. apply I.
    + split; [intros u v w; apply (L1 (data_of u) (data_of v) (data_of w))|intros u v c; apply (L2 (data_of u) (data_of v) c)|intros u v; apply L3|reflexivity].
  - intros Hi. destruct (P Hi) as [P1 P2]. split; [intros w Hw u; apply (P1 (data_of w) Hw)|intros v; apply P2].
Qed.

(** What is put is got back: vectors from the constructor, and sums and multiples of them. *)
Definition made (v : custom F) : Prop := new_custom (grids v) (data_array v) = Ok v.
Theorem C57_handle (u v : custom F) :
  (forall gs a, new_custom gs a = Ok v -> made v) /\
  (made u -> forall s, custom_add u v = Ok s -> made s) /\ (made u -> forall c, made (custom_mul u c)) /\
  (made v -> custom_get (custom_put v) = Some (Ok v)).
Proof.
  unfold made, new_custom. split; [|split; [|split]].
  - intros gs a E. destruct (new_trapz gs) as [xs|e] eqn:T; [|discriminate]. cbn [rbind] in E. injection E as <-. cbn. rewrite T. reflexivity.
  - intros E s Es. unfold custom_add in Es. destruct (array_add _ _) as [a|e]; [|discriminate]. cbn [rbind] in Es. injection Es as <-.
    cbn [grids data_array]. destruct (new_trapz (grids u)) as [xs|e]; [|discriminate]. cbn [rbind] in *.
    assert (X : xs = weighted_ip u) by (rewrite <- (f_equal (fun r => match r with Ok w => weighted_ip w | Raise _ => [] end) E); reflexivity).
    rewrite X. reflexivity.
  - intros E c. unfold custom_mul. cbn [grids data_array]. destruct (new_trapz (grids u)) as [xs|e]; [|discriminate]. cbn [rbind] in *.
    assert (X : xs = weighted_ip u) by (rewrite <- (f_equal (fun r => match r with Ok w => weighted_ip w | Raise _ => [] end) E); reflexivity).
    rewrite X. reflexivity.
  - intros E. cbn [custom_put custom_get]. unfold new_custom. rewrite E. reflexivity.
Qed.
(** Grids or shapes that do not fit: the constructor and the inner product raise; a sum has
    the grids of its first term, whatever those of the second. *)
Theorem C57_errors (u v : custom F) (a : nd F) :
  new_custom (F := F) [] a = Raise ValueError /\
  (shape (data_array u) <> grid_shape (weighted_ip u) \/ shape (data_array v) <> grid_shape (weighted_ip u) -> custom_ip u v = Raise TypeError) /\
  (forall s, custom_add u v = Ok s -> grids s = grids u /\ weighted_ip s = weighted_ip u).
Proof.
  split; [reflexivity|]. split.
  - intros H. apply C34_shape_error. exact H.
  - intros s E. unfold custom_add in E. destruct (array_add _ _) as [b|e]; [|discriminate]. cbn [rbind] in E. injection E as <-. auto.
Qed.
End C57.

(** CustomVectors on different grids with the same number of points: the inner product uses
    the grid of its first argument and is not conjugate symmetric. *)
Definition cg (h : QI) : list (grid QI) := [Grid [k0 QI; h]].
Definition cv (h : QI) : custom QI := Custom (cg h) (Nd [2] [q 1; q 1]) [[k0 QI; h]].
Theorem C57_mixed_refuted :
  ~ (forall (u v : custom QI) a b, made u -> made v -> custom_ip u v = Ok a -> custom_ip v u = Ok b -> b = (a^*)%K).
Proof.
  intros H. assert (A : custom_ip (cv (q 1)) (cv (q 2)) = Ok (q 1)) by (apply is_val_spec; vm_compute; reflexivity).
  assert (B : custom_ip (cv (q 2)) (cv (q 1)) = Ok (q 2)) by (apply is_val_spec; vm_compute; reflexivity).
  specialize (H (cv (q 1)) (cv (q 2)) _ _ eq_refl eq_refl A B). revert H. apply keqb_false. vm_compute. reflexivity.
Qed.

(** ** Examples *)
Definition cust1 : custom QI := Custom [Grid xgrid; Grid ygrid] tv1 [xgrid; ygrid].
Definition cust2 : custom QI := Custom [Grid xgrid; Grid ygrid] tv2 [xgrid; ygrid].
Lemma cust1_ok : new_custom (map Grid [xgrid; ygrid]) (data_array cust1) = Ok cust1 /\ shape (data_array cust1) = grid_shape [xgrid; ygrid] /\ length (flat (data_array cust1)) = size (grid_shape [xgrid; ygrid]).
Proof. repeat split; reflexivity. Qed.
Lemma cust2_ok : new_custom (map Grid [xgrid; ygrid]) (data_array cust2) = Ok cust2 /\ shape (data_array cust2) = grid_shape [xgrid; ygrid] /\ length (flat (data_array cust2)) = size (grid_shape [xgrid; ygrid]).
Proof. repeat split; reflexivity. Qed.
Example C57_custom_example : exists S : space QI (custom_on [xgrid; ygrid]),
  realizes 1 1 1 cust custom_add custom_mul custom_ip S /\ positive S /\
  ip S (exist _ cust1 cust1_ok) (exist _ cust2 cust2_ok) = qi 31 5 2.
Proof.
  destruct (C57_custom 1 1 1 [xgrid; ygrid] ltac:(discriminate) xy_real) as (S & R & P). exists S. split; [exact R|]. split; [apply P; exact xy_increasing|].
  assert (E : custom_ip cust1 cust2 = Ok (qi 31 5 2)) by (apply is_val_spec; vm_compute; reflexivity).
  pose proof (re_ip _ _ _ _ _ _ _ _ R (exist _ cust1 cust1_ok) (exist _ cust2 cust2_ok)) as E'. cbn [cust proj1_sig] in E'. congruence.
Qed.
Lemma tv_shape (v : nd QI) : shape v = [3; 2]%nat -> length (flat v) = 6%nat -> shape v = grid_shape [xgrid; ygrid] /\ length (flat v) = size (grid_shape [xgrid; ygrid]).
Proof. auto. Qed.
Example C57_trapz_example : exists S : space QI (of_shape (grid_shape [xgrid; ygrid])),
  realizes 1 1 1 arr_of array_add array_mul (inner_product [xgrid; ygrid]) S /\ positive S /\
  ip S (exist _ tv1 (tv_shape tv1 eq_refl eq_refl)) (exist _ tv2 (tv_shape tv2 eq_refl eq_refl)) = qi 31 5 2.
Proof.
  destruct (C57_trapz 1 1 1 [xgrid; ygrid] xy_real) as (S & R & P). exists S. split; [exact R|]. split; [apply P; exact xy_increasing|].
  assert (E : inner_product [xgrid; ygrid] tv1 tv2 = Ok (qi 31 5 2)) by (apply is_val_spec; vm_compute; reflexivity).
  pose proof (re_ip _ _ _ _ _ _ _ _ R (exist _ tv1 (tv_shape tv1 eq_refl eq_refl)) (exist _ tv2 (tv_shape tv2 eq_refl eq_refl))) as E'. cbn [arr_of proj1_sig] in E'. congruence.
Qed.
Example C57_vdot_example : exists S : space QI (of_shape [2]%nat),
  realizes 1 1 1 arr_of array_add array_mul inner_product_array_uniform S /\ positive S /\
  forall H1 H2, ip S (exist _ (Nd [2]%nat [qi 0 1 1; q 1]) H1) (exist _ (Nd [2]%nat [q 1; q 3]) H2) = qi 3 (-1) 1.
Proof.
  destruct (C57_vdot (F := QI) 1 1 1 [2]%nat) as (S & R & P). exists S. split; [exact R|]. split; [exact P|]. intros H1 H2.
  assert (E : inner_product_array_uniform (Nd [2]%nat [qi 0 1 1; q 1]) (Nd [2]%nat [q 1; q 3]) = Ok (qi 3 (-1) 1)) by (apply is_val_spec; vm_compute; reflexivity).
  pose proof (re_ip _ _ _ _ _ _ _ _ R (exist _ _ H1) (exist _ _ H2)) as E'. cbn [arr_of proj1_sig] in E'. congruence.
Qed.
Example C57_handle_example : made cust1 /\ custom_get (custom_put (custom_mul cust1 (qi 0 1 1))) = Some (Ok (custom_mul cust1 (qi 0 1 1))).
Proof.
  assert (M : made cust1) by reflexivity. split; [exact M|].
  apply (C57_handle cust1 (custom_mul cust1 (qi 0 1 1))). apply (C57_handle cust1 cust1). exact M.
Qed.
Example C57_errors_example : custom_ip cust1 (cv (q 1)) = Raise TypeError.
Proof. apply (C57_errors cust1 (cv (q 1)) tv1). right. discriminate. Qed.
Print Assumptions C57_trapz.
Print Assumptions C57_vdot.
Print Assumptions C57_custom.
Print Assumptions C57_handle.
Print Assumptions C57_errors.
Print Assumptions C57_mixed_refuted.
