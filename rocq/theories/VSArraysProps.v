(** Property C18: inner products and linear combinations of arrays. *)
From Coq Require Import List Arith Lia Bool ZArith Field Ring Setoid Morphisms.
Import ListNotations.
From Verif Require Import Prelude Field FieldInst Matrix NdArray VSArraysModel VSArraysProofs.
Open Scope nat_scope.
Open Scope k_scope.

Section C18.
Context {F : sfield}.
Add Field C18field : (k_field F).

(** Entry (i, j) is the weighted inner product of column i of the first and
    column j of the second array. *)
Theorem C18_entries ws (X Y : arr F) : nr X = nr Y -> wfits (nr X) ws ->
  exists C, inner_product_array ws X Y = Ok C /\ nr C = nc X /\ nc C = nc Y /\
    forall i j, i < nc X -> j < nc Y ->
      ent C i j = sum (nr X) (fun a => sum (nr X) (fun b =>
        (ent X a i)^* * wmat ws a b * ent Y b j)).
Proof.
  intros E Hw. destruct (ip_ok ws X Y E Hw) as (C & E1 & E2 & E3 & E4).
  exists C. repeat (split; auto). intros i j Hi Hj. rewrite (meq_at _ _ _ _ E4 i j Hi Hj).
  unfold wip, mmul, madj. apply sum_ext. intros a _. rewrite <- sum_mul_l. apply sum_ext.
  intros. ring.
Qed.

(** Linear in the second argument, conjugate linear in the first. *)
Definition comb (c d : F) (X Y : arr F) : arr F :=
  Arr (nr X) (nc X) (fun i j => c * ent X i j + d * ent Y i j).

Theorem C18_sesquilinear ws (X Y Z : arr F) c d : nr X = nr Y -> nr X = nr Z -> nc Y = nc Z ->
  wfits (nr X) ws ->
  exists P Q R P' Q' R',
    inner_product_array ws X (comb c d Y Z) = Ok P /\ inner_product_array ws X Y = Ok Q /\
    inner_product_array ws X Z = Ok R /\
    inner_product_array ws (comb c d Y Z) X = Ok P' /\ inner_product_array ws Y X = Ok Q' /\
    inner_product_array ws Z X = Ok R' /\
    (forall i j, i < nc X -> j < nc Y -> ent P i j = c * ent Q i j + d * ent R i j) /\
    (forall i j, i < nc Y -> j < nc X -> ent P' i j = c^* * ent Q' i j + d^* * ent R' i j).
Proof.
  intros E1 E2 E3 Hw.
  destruct (C18_entries ws X (comb c d Y Z)) as (P & P1 & _ & _ & P2); auto.
  destruct (C18_entries ws X Y) as (Q & Q1 & _ & _ & Q2); auto.
  destruct (C18_entries ws X Z) as (R & R1 & _ & _ & R2); auto.
  destruct (C18_entries ws (comb c d Y Z) X) as (P' & P1' & _ & _ & P2'); auto;
    [simpl; congruence|].
  destruct (C18_entries ws Y X) as (Q' & Q1' & _ & _ & Q2'); auto; [congruence|].
  destruct (C18_entries ws Z X) as (R' & R1' & _ & _ & R2'); auto; [congruence|].
  exists P, Q, R, P', Q', R'. repeat (split; auto).
  - intros i j Hi Hj. rewrite P2, Q2, R2 by (simpl; lia). rewrite <- !sum_mul_l, <- sum_add.
    apply sum_ext. intros a _. rewrite <- !sum_mul_l, <- sum_add. apply sum_ext. intros b _.
    simpl. ring.
  - intros i j Hi Hj. rewrite P2', Q2', R2' by (simpl; lia). simpl. rewrite <- E1, <- E2.
    rewrite <- !sum_mul_l, <- sum_add.
    apply sum_ext. intros a _. rewrite <- !sum_mul_l, <- sum_add. apply sum_ext. intros b _.
    simpl. rewrite conj_add, !conj_mul. ring.
Qed.

(** Hermitian weights give conjugate symmetric products, so the symmetric array is
    Hermitian. *)
Theorem C18_hermitian ws (X Y : arr F) : nr X = nr Y -> wfits (nr X) ws ->
  hermitian (nr X) (wmat ws) ->
  exists C D, inner_product_array ws X Y = Ok C /\ inner_product_array ws Y X = Ok D /\
    forall i j, i < nc X -> j < nc Y -> ent D j i = (ent C i j)^*.
Proof.
  intros E Hw HH. destruct (ip_ok ws X Y) as (C & C1 & _ & _ & C2); auto.
  destruct (ip_ok ws Y X) as (D & D1 & _ & _ & D2); [auto|rewrite <- E; auto|].
  exists C, D. split; auto. split; auto. intros i j Hi Hj.
  rewrite (meq_at _ _ _ _ D2 j i Hj Hi), (meq_at _ _ _ _ C2 i j Hi Hj), <- E.
  symmetry. apply (meq_at (Datatypes.S j) (Datatypes.S i) _ _
    (wip_adj (Datatypes.S j) (Datatypes.S i) (nr X) (wmat ws) (ent X) (ent Y) HH) j i); lia.
Qed.
Theorem C18_symm_hermitian ws (X : arr F) : wfits (nr X) ws -> hermitian (nr X) (wmat ws) ->
  exists C, symm_inner_product_array ws X = Ok C /\ nr C = nc X /\ nc C = nc X /\
    hermitian (nc X) (ent C).
Proof.
  intros Hw HH. destruct (ip_ok ws X X) as (C & C1 & C2 & C3 & C4); auto.
  exists C. unfold symm_inner_product_array. repeat (split; auto). intros i j Hi Hj.
  destruct (C18_hermitian ws X X) as (C' & D & E1 & E2 & E3); auto.
  rewrite C1 in E1, E2. injection E1 as <-. injection E2 as <-. unfold madj.
  rewrite <- E3; auto.
Qed.

(** One-dimensional weights are the diagonal array with these entries, and no
    weights the identity. *)
Theorem C18_diagonal (X Y : arr F) w : nr X = nr Y -> length w = nr X ->
  exists C D, inner_product_array (W1 w) X Y = Ok C /\
    inner_product_array (W2 (diag w)) X Y = Ok D /\ aeq C D.
Proof.
  intros E Hw. destruct (ip_ok (W1 w) X Y) as (C & C1 & C2 & C3 & C4); auto.
  destruct (ip_ok (W2 (diag w)) X Y) as (D & D1 & D2 & D3 & D4); auto; [simpl; auto|].
  exists C, D. split; auto. split; auto. split; [congruence|]. split; [congruence|].
  rewrite C2, C3. rewrite C4, D4. reflexivity.
Qed.
Theorem C18_no_weights (X Y : arr F) : nr X = nr Y ->
  exists C D, inner_product_array WNone X Y = Ok C /\
    inner_product_array (W2 (eye (nr X))) X Y = Ok D /\ aeq C D.
Proof.
  intros E. destruct (ip_ok WNone X Y) as (C & C1 & C2 & C3 & C4); [auto|exact I|].
  destruct (ip_ok (W2 (eye (nr X))) X Y) as (D & D1 & D2 & D3 & D4); auto; [simpl; auto|].
  exists C, D. split; auto. split; auto. split; [congruence|]. split; [congruence|].
  rewrite C2, C3. rewrite C4, D4. reflexivity.
Qed.

(** Linear combinations: basis times the selected columns. *)
Theorem C18_lin_combine (B C : arr F) : nc B = nr C ->
  exists R, lin_combine B C None = Ok R /\ nr R = nr B /\ nc R = nc C /\
    forall i j, ent R i j = sum (nc B) (fun l => ent B i l * ent C l j).
Proof.
  intros E. unfold lin_combine, dot. simpl. rewrite E, Nat.eqb_refl. eexists.
  split; [reflexivity|]. simpl. repeat (split; auto).
Qed.

Lemma wrap_all_ok n idx : Forall (fun z => (- Z.of_nat n <= z < Z.of_nat n)%Z) idx ->
  exists is, wrap_all n idx = Ok is /\ length is = length idx /\
    forall j z, nth_error idx j = Some z -> nth_error is j = Some (Z.to_nat (z mod Z.of_nat n)).
Proof.
  induction idx as [|z idx IH]; intros H.
  - exists []. repeat split; auto. intros [|j] z; discriminate.
  - inversion_clear H as [|? ? Hz Hi]. destruct (IH Hi) as (is & E & L & N). simpl.
    assert (W : wrap_index n z = Some (Z.to_nat (z mod Z.of_nat n))).
    { unfold wrap_index. destruct (Z.leb_spec 0 z).
      - rewrite (proj2 (Z.ltb_lt z (Z.of_nat n))) by lia. simpl. rewrite Z.mod_small by lia. auto.
      - simpl. rewrite (proj2 (Z.leb_le (- Z.of_nat n) z)) by lia.
        rewrite (proj2 (Z.ltb_lt z 0)) by lia. simpl. f_equal. f_equal.
        rewrite <- (Z.mod_small (z + Z.of_nat n) (Z.of_nat n)) by lia.
        replace (z + Z.of_nat n)%Z with (z + 1 * Z.of_nat n)%Z by lia. apply Z.mod_add. lia. }
    rewrite W, E. eexists. split; [reflexivity|]. split; [simpl; auto|].
    intros [|j] z' Hj; simpl in *; [congruence|]. apply N. auto.
Qed.
Lemma wrap_all_bad n idx : ~ Forall (fun z => (- Z.of_nat n <= z < Z.of_nat n)%Z) idx ->
  wrap_all n idx = Raise IndexError.
Proof.
  induction idx as [|z idx IH]; intros H; [exfalso; apply H; constructor|]. simpl.
  destruct (wrap_index n z) as [i|] eqn:E; [|reflexivity].
  rewrite IH; auto. intros G. apply H. constructor; auto. unfold wrap_index in E.
  destruct (Z.leb_spec 0 z); destruct (Z.ltb_spec z (Z.of_nat n));
    destruct (Z.leb_spec (- Z.of_nat n) z); destruct (Z.ltb_spec z 0); simpl in E;
    try discriminate; lia.
Qed.

(** Indices count from the end when negative; one out of range raises. *)
Theorem C18_lin_combine_indices (B C : arr F) idx : nc B = nr C ->
  (Forall (fun z => (- Z.of_nat (nc C) <= z < Z.of_nat (nc C))%Z) idx ->
   exists R, lin_combine B C (Some idx) = Ok R /\ nr R = nr B /\ nc R = length idx /\
    forall i j z, nth_error idx j = Some z -> ent R i j =
      sum (nc B) (fun l => ent B i l * ent C l (Z.to_nat (z mod Z.of_nat (nc C))))) /\
  (~ Forall (fun z => (- Z.of_nat (nc C) <= z < Z.of_nat (nc C))%Z) idx ->
   lin_combine B C (Some idx) = Raise IndexError).
Proof.
  intros E. unfold lin_combine, pick_opt, pick_cols. split; intros H.
  - destruct (wrap_all_ok _ _ H) as (is & E1 & L & N). rewrite E1. cbn [rbind].
    unfold dot. simpl. rewrite E, Nat.eqb_refl. eexists. split; [reflexivity|]. simpl.
    split; auto. split; auto. intros i j z Hj. unfold mmul, mcols.
    rewrite (nth_error_nth _ _ _ (N j z Hj)). reflexivity.
  - rewrite wrap_all_bad by auto. reflexivity.
Qed.

(** Mismatched dimensions raise. *)
Theorem C18_mismatch (X Y B C : arr F) :
  (nr X <> nr Y -> inner_product_array WNone X Y = Raise ValueError) /\
  (forall W, nc W <> nr Y \/ nr W <> nr X -> inner_product_array (W2 W) X Y = Raise ValueError) /\
  (forall w, (1 < length w)%nat -> length w <> nr Y ->
     inner_product_array (W1 w) X Y = Raise ValueError) /\
  (nc B <> nr C -> lin_combine B C None = Raise ValueError).
Proof.
  repeat split.
  - intros H. unfold inner_product_array, dot. simpl.
    rewrite (proj2 (Nat.eqb_neq _ _)) by auto. reflexivity.
  - intros W H. unfold inner_product_array, dot. simpl.
    destruct (Nat.eqb_spec (nc W) (nr Y)) as [E|E]; [|reflexivity]. cbn [rbind nr].
    rewrite (proj2 (Nat.eqb_neq _ _)); [reflexivity|]. destruct H; [contradiction|auto].
  - intros w H1 H2. unfold inner_product_array, mul_row. simpl.
    destruct (Nat.eqb_spec (nr X) (length w)) as [E|E].
    + cbn [rbind]. unfold dot. simpl. rewrite (proj2 (Nat.eqb_neq _ _)) by congruence. reflexivity.
    + destruct (Nat.eqb_spec (nr X) 1) as [E1|E1].
      * cbn [rbind]. unfold dot. simpl. rewrite (proj2 (Nat.eqb_neq _ _)) by congruence. reflexivity.
      * destruct (Nat.eqb_spec (length w) 1); [lia|]. reflexivity.
  - intros H. unfold lin_combine, dot. simpl. rewrite (proj2 (Nat.eqb_neq _ _)) by auto. reflexivity.
Qed.

(** Which weights the constructor accepts. [big s] are the non-trivial dimensions. *)
Definition big (s : list nat) : list nat := filter (fun d => negb (d =? 1)%nat) s.

Theorem C18_weights (a : nd F) :
  set_weights (None : option (nd F)) = Ok WNone /\
  (forall n, big (shape a) = [n] -> set_weights (Some a) = Ok (W1 (flat a))) /\
  (forall m n, big (shape a) = [m; n] -> exists W, set_weights (Some a) = Ok (W2 W) /\
     nr W = m /\ nc W = n /\ forall i j, ent W i j = nth (i * n + j) (flat a) 0) /\
  (length (big (shape a)) = 0%nat \/ 3 <= length (big (shape a)) ->
     set_weights (Some a) = Raise ValueError).
Proof.
  unfold set_weights. simpl. fold (big (shape a)). split; auto. split; [|split].
  - intros n ->. reflexivity.
  - intros m n ->. eexists. split; [reflexivity|]. auto.
  - destruct (big (shape a)) as [|x [|y [|z l]]]; simpl; intros [H|H]; auto; lia.
Qed.

(** The documentation allows one weight per vector entry, and for vectors of one
    entry that is rejected, whether given as one- or two-dimensional. *)
Theorem C18_one_element_refuted :
  ~ (forall (w : list F) s, length w = fold_right Nat.mul 1%nat s -> length s = 1%nat \/ length s = 2%nat ->
       exists ws, set_weights (Some (Nd s w)) = Ok ws).
Proof.
  intros H. destruct (H [1] [1%nat] eq_refl (or_introl eq_refl)) as [ws E]. discriminate.
Qed.

End C18.

(** ** Instances *)
Definition ex_X : arr QI := of_rows 2 [[qi 1 0 1; qi 0 1 1]; [qi 2 0 1; qi 1 1 1]].
Definition ex_ws : weights QI := W2 (of_rows 2 [[qi 2 0 1; qi 0 1 1]; [qi 0 (-1) 1; qi 3 0 1]]).

Example C18_example :
  wfits (nr ex_X) ex_ws /\ hermitian (nr ex_X) (wmat ex_ws) /\
  rmap (fun C => meqb 2 2 (ent C) (ent (of_rows 2
     [[qi 14 0 1; qi 7 9 1]; [qi 7 (-9) 1; qi 10 0 1]])))
    (symm_inner_product_array ex_ws ex_X) = Ok true /\
  rmap (fun C => (nc C, meqb 2 3 (ent C) (ent (of_rows 3
     [[qi 0 1 1; qi 1 0 1; qi 0 1 1]; [qi 1 1 1; qi 2 0 1; qi 1 1 1]]))))
    (lin_combine ex_X (eye 2) (Some [1; 0; -1]%Z)) = Ok (3%nat, true) /\
  set_weights (Some (Nd [1; 2; 1; 2]%nat [qi 1 0 1; qi 2 0 1; qi 3 0 1; qi 4 0 1] : nd QI)) <> Raise ValueError.
Proof.
  split; [split; reflexivity|]. split; [apply meqb_true; vm_compute; reflexivity|].
  split; [vm_compute; reflexivity|]. split; [vm_compute; reflexivity|]. discriminate.
Qed.

Definition ex_Y : arr QI := of_rows 1 [[qi 3 0 1]; [qi 0 1 1]].
Definition ex_Z : arr QI := of_rows 1 [[qi 0 1 2]; [qi 5 0 1]].

Lemma ex_ws_fits : wfits (nr ex_X) ex_ws.
Proof. split; reflexivity. Qed.
Lemma ex_ws_hermitian : hermitian (nr ex_X) (wmat ex_ws).
Proof. apply meqb_true. vm_compute. reflexivity. Qed.

Example C18_entries_example : exists C, inner_product_array ex_ws ex_X ex_Y = Ok C /\
  nr C = 2%nat /\ nc C = 1%nat /\ ent C 0%nat 0%nat = qi 5 0 1 /\ ent C 1%nat 0%nat = qi 0 (-5) 1.
Proof.
  destruct (C18_entries ex_ws ex_X ex_Y eq_refl ex_ws_fits) as (C & E & R & K & H).
  exists C. split; [exact E|]. split; [exact R|]. split; [exact K|].
  split; (rewrite H by (simpl; lia); apply keqb_true; vm_compute; reflexivity).
Qed.

Example C18_sesquilinear_example : exists P Q R P' Q' R',
  inner_product_array ex_ws ex_X (comb (qi 2 1 1) (qi 0 3 1) ex_Y ex_Z) = Ok P /\
  inner_product_array ex_ws ex_X ex_Y = Ok Q /\ inner_product_array ex_ws ex_X ex_Z = Ok R /\
  inner_product_array ex_ws (comb (qi 2 1 1) (qi 0 3 1) ex_Y ex_Z) ex_X = Ok P' /\
  inner_product_array ex_ws ex_Y ex_X = Ok Q' /\ inner_product_array ex_ws ex_Z ex_X = Ok R' /\
  (forall i j, i < 2 -> j < 1 -> ent P i j = qi 2 1 1 * ent Q i j + qi 0 3 1 * ent R i j) /\
  (forall i j, i < 1 -> j < 2 ->
     ent P' i j = (qi 2 1 1)^* * ent Q' i j + (qi 0 3 1)^* * ent R' i j).
Proof. apply C18_sesquilinear; try reflexivity. apply ex_ws_fits. Qed.

Example C18_hermitian_example : exists C D, inner_product_array ex_ws ex_X ex_Y = Ok C /\
  inner_product_array ex_ws ex_Y ex_X = Ok D /\
  forall i j, i < 2 -> j < 1 -> ent D j i = (ent C i j)^*.
Proof. apply C18_hermitian; [reflexivity|apply ex_ws_fits|apply ex_ws_hermitian]. Qed.

Example C18_symm_hermitian_example : exists C, symm_inner_product_array ex_ws ex_X = Ok C /\
  nr C = 2%nat /\ nc C = 2%nat /\ hermitian 2 (ent C).
Proof. apply (C18_symm_hermitian ex_ws ex_X); [apply ex_ws_fits|apply ex_ws_hermitian]. Qed.

Example C18_diagonal_example : exists C D,
  inner_product_array (W1 [qi 4 0 1; qi 1 0 9]) ex_X ex_Y = Ok C /\
  inner_product_array (W2 (diag [qi 4 0 1; qi 1 0 9])) ex_X ex_Y = Ok D /\ aeq C D.
Proof. apply C18_diagonal; reflexivity. Qed.

Example C18_no_weights_example : exists C D, inner_product_array WNone ex_X ex_Y = Ok C /\
  inner_product_array (W2 (eye 2)) ex_X ex_Y = Ok D /\ aeq C D.
Proof. apply (C18_no_weights ex_X ex_Y). reflexivity. Qed.

Example C18_lin_combine_example : exists R, lin_combine ex_X ex_Y None = Ok R /\
  nr R = 2%nat /\ nc R = 1%nat /\ ent R 0%nat 0%nat = qi 2 0 1 /\ ent R 1%nat 0%nat = qi 5 1 1.
Proof.
  destruct (C18_lin_combine ex_X ex_Y eq_refl) as (R & E & N & K & H).
  exists R. split; [exact E|]. split; [exact N|]. split; [exact K|].
  split; (rewrite H; apply keqb_true; vm_compute; reflexivity).
Qed.

Example C18_lin_combine_indices_example :
  (exists R, lin_combine ex_X ex_X (Some [-1; -1; 0]%Z) = Ok R /\ nr R = 2%nat /\ nc R = 3%nat /\
     ent R 0%nat 1%nat = qi (-1) 2 1) /\
  lin_combine ex_X ex_X (Some [0; -3]%Z) = Raise IndexError.
Proof.
  split.
  - destruct (proj1 (C18_lin_combine_indices ex_X ex_X [-1; -1; 0]%Z eq_refl))
      as (R & E & N & K & H); [repeat constructor; simpl; lia|].
    exists R. split; [exact E|]. split; [exact N|]. split; [exact K|].
    rewrite (H 0%nat 1%nat (-1)%Z eq_refl). apply keqb_true. vm_compute. reflexivity.
  - apply (proj2 (C18_lin_combine_indices ex_X ex_X [0; -3]%Z eq_refl)).
    intros H. inversion H as [|? ? _ H']; subst. inversion H' as [|? ? [A _]]; subst.
    simpl in A. lia.
Qed.

Example C18_mismatch_example :
  inner_product_array WNone ex_X (eye 3) = Raise ValueError /\
  inner_product_array (W2 (eye 3)) ex_X ex_Y = Raise ValueError /\
  inner_product_array (W1 [qi 1 0 1; qi 2 0 1; qi 3 0 1]) ex_X ex_Y = Raise ValueError /\
  lin_combine ex_X (eye 3) None = Raise ValueError.
Proof.
  split; [apply (proj1 (C18_mismatch ex_X (eye 3) ex_X ex_X)); discriminate|].
  destruct (C18_mismatch ex_X ex_Y ex_X (eye 3)) as (_ & H2 & H1 & H).
  split; [apply H2; left; discriminate|].
  split; [apply H1; [simpl; lia|discriminate]|]. apply H. discriminate.
Qed.

Example C18_weights_example :
  set_weights (Some (Nd [1; 2]%nat [qi 1 0 1; qi 2 0 1])) = Ok (W1 [qi 1 0 1; qi 2 0 1]) /\
  (exists W, set_weights (Some (Nd [2; 1; 2]%nat [qi 1 0 1; qi 2 0 1; qi 3 0 1; qi 4 0 1])) = Ok (W2 W) /\
     nr W = 2%nat /\ nc W = 2%nat /\ ent W 1%nat 0%nat = qi 3 0 1) /\
  set_weights (Some (Nd [1; 1]%nat [qi 5 0 1])) = Raise ValueError.
Proof.
  split; [apply (proj1 (proj2 (C18_weights (Nd [1; 2]%nat [qi 1 0 1; qi 2 0 1]))) 2%nat eq_refl)|].
  split.
  - destruct (proj1 (proj2 (proj2 (C18_weights
      (Nd [2; 1; 2]%nat [qi 1 0 1; qi 2 0 1; qi 3 0 1; qi 4 0 1])))) 2%nat 2%nat eq_refl)
      as (W & E & N & K & H).
    exists W. split; [exact E|]. split; [exact N|]. split; [exact K|]. apply (H 1%nat 0%nat).
  - apply (C18_weights (Nd [1; 1]%nat [qi 5 0 1])). left. reflexivity.
Qed.

Print Assumptions C18_entries.
Print Assumptions C18_sesquilinear.
Print Assumptions C18_hermitian.
Print Assumptions C18_symm_hermitian.
Print Assumptions C18_diagonal.
Print Assumptions C18_no_weights.
Print Assumptions C18_lin_combine.
Print Assumptions C18_lin_combine_indices.
Print Assumptions C18_mismatch.
Print Assumptions C18_weights.
Print Assumptions C18_one_element_refuted.
