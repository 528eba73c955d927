(** Properties C13, C14: Hankel arrays. *)
From Coq Require Import List Arith Lia Bool Field Ring ZArith.
Import ListNotations.
From Verif Require Import Prelude Field FieldInst Matrix NdArray HankelModel.
Open Scope nat_scope.
Open Scope k_scope.

(** * C13 *)

Lemma fancy_ok {F : sfield} (v : list F) m n f :
  (forall i j, i < m -> j < n -> f i j < length v) ->
  fancy v m n f = Ok (Arr m n (fun i j => at1 v (f i j))).
Proof.
  intros H. unfold fancy.
  replace (forallb _ (seq 0 m)) with true; auto. symmetry.
  apply forallb_forall. intros i Hi. apply forallb_forall. intros j Hj.
  apply in_seq in Hi, Hj. apply Nat.ltb_lt. apply H; lia.
Qed.

Record is_Hankel {F : sfield} (c r : list F) (H : arr F) : Prop := {
  hk_r : nr H = length c; hk_c : nc H = length r;
  hk_first : forall i, i < length c -> 0 < length r -> ent H i O = nth i c 0;
  hk_last : forall j, 0 < j < length r -> 0 < length c ->
    ent H (length c - 1)%nat j = nth j r 0;
  hk_skew : forall i j i' j', i < length c -> j < length r -> i' < length c -> j' < length r ->
    (i + j = i' + j')%nat -> ent H i j = ent H i' j'
}.

Theorem C13_Hankel {F : sfield} (c r : list F) :
  exists H, Hankel c (Some r) = Ok H /\ is_Hankel c r H.
Proof.
  unfold Hankel. rewrite fancy_ok.
  2:{ intros i j Hi Hj. rewrite app_length, skipn_length. lia. }
  eexists. split; [reflexivity|]. split; simpl; auto.
  - intros i Hi Hr. unfold at1. rewrite Nat.add_0_r, app_nth1; auto.
  - intros j Hj Hc. unfold at1. rewrite app_nth2 by lia.
    destruct r as [|x r]; simpl in *; [lia|].
    destruct j as [|j]; [lia|]. f_equal. lia.
Qed.

(** Without a last row: zero below the skew diagonal, the column on and above. *)
Theorem C13_default {F : sfield} (c : list F) :
  exists H, Hankel c None = Ok H /\ nr H = length c /\ nc H = length c /\
    forall i j, i < length c -> j < length c ->
      ent H i j = if (i + j <? length c)%nat then nth (i + j)%nat c 0 else 0.
Proof.
  unfold Hankel. rewrite fancy_ok.
  2:{ intros i j Hi Hj. rewrite app_length, skipn_length, repeat_length in *. lia. }
  eexists. split; [reflexivity|]. simpl. rewrite repeat_length. repeat (split; auto).
  intros i j Hi Hj. unfold at1. destruct (Nat.ltb_spec (i + j) (length c)).
  - apply app_nth1. auto.
  - rewrite app_nth2 by lia. destruct c as [|x c]; simpl in *; [lia|].
    apply nth_repeat.
Qed.

(** The specification has one solution: is_Hankel determines every entry. *)
Theorem C13_unique {F : sfield} (c r : list F) H H' :
  is_Hankel c r H -> is_Hankel c r H' -> aeq H H'.
Proof.
  intros A B. split; [|split].
  - rewrite (hk_r _ _ _ A), (hk_r _ _ _ B). auto.
  - rewrite (hk_c _ _ _ A), (hk_c _ _ _ B). auto.
  - rewrite (hk_r _ _ _ A), (hk_c _ _ _ A). split. intros i j Hi Hj.
    destruct (Nat.lt_ge_cases (i + j) (length c)) as [L|L].
    + rewrite (hk_skew _ _ _ A i j (i + j) 0), (hk_skew _ _ _ B i j (i + j) 0) by lia.
      rewrite (hk_first _ _ _ A), (hk_first _ _ _ B) by lia. reflexivity.
    + rewrite (hk_skew _ _ _ A i j (length c - 1) (i + j - (length c - 1))),
        (hk_skew _ _ _ B i j (length c - 1) (i + j - (length c - 1))) by lia.
      rewrite (hk_last _ _ _ A), (hk_last _ _ _ B) by lia. reflexivity.
Qed.

Example C13_example :
  rmap (fun H => map (fun i => map (ent H i) (seq 0 (nc H))) (seq 0 (nr H)))
    (Hankel [qi 1 0 1; qi 2 0 1; qi 0 3 1] (Some [qi 9 0 1; qi 4 0 1] : option (list QI)))
  = Ok [[qi 1 0 1; qi 2 0 1]; [qi 2 0 1; qi 0 3 1]; [qi 0 3 1; qi 4 0 1]].
Proof. reflexivity. Qed.

(** Two rows and three columns; the last row's first entry comes from the column. *)
Example C13_Hankel_example : exists H : arr QI,
  Hankel [qi 1 2 1; qi 0 5 1] (Some [qi 7 0 1; qi 3 0 2; qi 0 (-1) 1]) = Ok H /\
  is_Hankel [qi 1 2 1; qi 0 5 1] [qi 7 0 1; qi 3 0 2; qi 0 (-1) 1] H /\
  nr H = 2%nat /\ nc H = 3%nat /\ ent H 1%nat 0%nat = qi 0 5 1 /\
  ent H 0%nat 1%nat = qi 0 5 1 /\ ent H 1%nat 2%nat = qi 0 (-1) 1.
Proof.
  destruct (C13_Hankel [qi 1 2 1; qi 0 5 1] [qi 7 0 1; qi 3 0 2; qi 0 (-1) 1]) as (H & E & S).
  exists H. split; [exact E|]. split; [exact S|].
  split; [apply (hk_r _ _ _ S)|]. split; [apply (hk_c _ _ _ S)|].
  split; [apply (hk_first _ _ _ S 1%nat); simpl; lia|].
  split; [|apply (hk_last _ _ _ S 2%nat); simpl; lia].
  rewrite (hk_skew _ _ _ S 0%nat 1%nat 1%nat 0%nat) by (simpl; lia).
  apply (hk_first _ _ _ S 1%nat); simpl; lia.
Qed.

Example C13_default_example : exists H : arr QI,
  Hankel [qi 1 2 1; qi 0 5 1; qi 3 0 2] None = Ok H /\ nr H = 3%nat /\ nc H = 3%nat /\
  ent H 1%nat 1%nat = qi 3 0 2 /\ ent H 1%nat 2%nat = 0 /\ ent H 2%nat 2%nat = 0.
Proof.
  destruct (C13_default [qi 1 2 1; qi 0 5 1; qi 3 0 2]) as (H & E & R & C & S).
  exists H. repeat split; auto; apply S; simpl; lia.
Qed.

(** Built in another way, the same array. *)
Example C13_unique_example : let c := [qi 1 2 1; qi 0 5 1] in let r := [qi 7 0 1; qi 3 0 2] in
  exists H, Hankel c (Some r) = Ok H /\
    aeq H (of_rows 2 [[qi 1 2 1; qi 0 5 1]; [qi 0 5 1; qi 3 0 2]]).
Proof.
  intros c r. destruct (C13_Hankel c r) as (H & E & S). exists H. split; auto.
  apply (C13_unique c r); auto. split; try reflexivity; simpl; intros.
  - destruct i as [|[|i]]; [reflexivity|reflexivity|lia].
  - destruct j as [|[|j]]; [lia|reflexivity|lia].
  - destruct i as [|[|i]]; destruct j as [|[|j]]; destruct i' as [|[|i']];
      destruct j' as [|[|j']]; try lia; reflexivity.
Qed.

(** * C14 *)

Section Stack.
Context {F : sfield}.
Implicit Types (l : list (arr F)).

Definition shaped (p q : nat) l : Prop := Forall (fun A => nr A = p /\ nc A = q) l.

Lemma hstack_ok p q l : l <> [] -> shaped p q l ->
  exists H, hstack l = Ok H /\ nr H = p /\ nc H = (length l * q)%nat /\
    forall a j b A, nth_error l j = Some A -> b < q -> ent H a (j * q + b)%nat = ent A a b.
Proof.
  intros Hl Hs. induction l as [|A l IH]; [congruence|]. clear Hl.
  inversion_clear Hs as [|? ? [Hr Hc] Hs'].
  destruct l as [|B l].
  - exists A. simpl. rewrite Nat.add_0_r. repeat (split; auto).
    intros a [|j] b A' E Hb; [|destruct j; discriminate]. injection E as <-. reflexivity.
  - destruct IH as (H & E & H1 & H2 & H3); auto; [discriminate|].
    exists (hcat A H). remember (B :: l) as l' eqn:El'.
    assert (Eh : hstack (A :: l') = match hstack l' with
             | Ok B => if (nr A =? nr B)%nat then Ok (hcat A B) else Raise ValueError
             | Raise e => Raise e end) by (rewrite El'; reflexivity).
    rewrite Eh, E, H1, Hr, Nat.eqb_refl. split; auto. simpl. split; auto. split; [lia|].
    intros a [|j] b A' EA Hb; simpl in EA.
    + injection EA as <-. simpl. rewrite Hc. rewrite (proj2 (Nat.ltb_lt b q)) by auto. reflexivity.
    + rewrite Hc. rewrite (proj2 (Nat.ltb_ge (S j * q + b) q)) by lia.
      replace (S j * q + b - q)%nat with (j * q + b)%nat by lia. apply H3; auto.
Qed.

Lemma vstack_ok p q l : l <> [] -> shaped p q l ->
  exists H, vstack l = Ok H /\ nr H = (length l * p)%nat /\ nc H = q /\
    forall i a b A, nth_error l i = Some A -> a < p -> ent H (i * p + a)%nat b = ent A a b.
Proof.
  intros Hl Hs. induction l as [|A l IH]; [congruence|]. clear Hl.
  inversion_clear Hs as [|? ? [Hr Hc] Hs'].
  destruct l as [|B l].
  - exists A. simpl. rewrite Nat.add_0_r. repeat (split; auto).
    intros [|j] a b A' E Hb; [|destruct j; discriminate]. injection E as <-. reflexivity.
  - destruct IH as (H & E & H1 & H2 & H3); auto; [discriminate|].
    exists (vcat A H). remember (B :: l) as l' eqn:El'.
    assert (Eh : vstack (A :: l') = match vstack l' with
             | Ok B => if (nc A =? nc B)%nat then Ok (vcat A B) else Raise ValueError
             | Raise e => Raise e end) by (rewrite El'; reflexivity).
    rewrite Eh, E, H2, Hc, Nat.eqb_refl. split; auto. simpl. split; [lia|]. split; auto.
    intros [|j] a b A' EA Hb; simpl in EA.
    + injection EA as <-. simpl. rewrite Hr. rewrite (proj2 (Nat.ltb_lt a p)) by auto. reflexivity.
    + rewrite Hr. rewrite (proj2 (Nat.ltb_ge (S j * p + a) p)) by lia.
      replace (S j * p + a - p)%nat with (j * p + a)%nat by lia. apply H3; auto.
Qed.

Lemma np_array_ok p q l : shaped p q l -> np_array l = Ok l.
Proof.
  intros H. destruct l as [|A l]; auto. inversion_clear H as [|? ? [Hr Hc] Hs]. simpl.
  replace (forallb (same_shape A) l) with true; auto. symmetry. apply forallb_forall.
  intros B HB. pose proof (proj1 (Forall_forall _ _) Hs B HB) as [G1 G2].
  unfold same_shape. rewrite Hr, Hc, G1, G2, !Nat.eqb_refl. reflexivity.
Qed.

Lemma rmapM_ok {A B} (f : A -> res B) (xs : list A) (P : A -> B -> Prop) :
  (forall x, In x xs -> exists y, f x = Ok y /\ P x y) ->
  exists ys, rmapM f xs = Ok ys /\ Forall2 P xs ys.
Proof.
  induction xs as [|x xs IH]; intros H; simpl; [exists []; auto|].
  destruct (H x) as (y & E & Hy); [left; auto|].
  destruct IH as (ys & E' & Hys); [intros; apply H; right; auto|].
  rewrite E, E'. simpl. exists (y :: ys). auto.
Qed.
End Stack.

Lemma nth_error_slice {A} (l : list A) i n j : j < n -> nth_error (slice i (i + n)%nat l) j = nth_error l (i + j)%nat.
Proof.
  intros Hj. unfold slice. replace (i + n - i)%nat with n by lia.
  transitivity (nth_error (skipn i l) j).
  - revert n Hj. generalize (skipn i l) as l'. induction j as [|j IH]; intros l' n Hj;
      (destruct n; [lia|]); destruct l'; simpl; auto. apply IH. lia.
  - revert l. induction i as [|i IH]; intros l; simpl; auto. destruct l; simpl; auto.
    destruct j; reflexivity.
Qed.

(** Chunk [i + j], counted along the first column and on along the last row, is
    block (i, j). *)
Theorem C14_chunks {F : sfield} p q (c l : list (arr F)) :
  c <> [] -> l <> [] -> shaped p q c -> shaped p q l ->
  exists H, Hankel_chunks c (Some l) = Ok H /\
    nr H = (length c * p)%nat /\ nc H = (length l * q)%nat /\
    forall i j a b A, i < length c -> j < length l -> a < p -> b < q ->
      (if (i + j <? length c)%nat then nth_error c (i + j) else nth_error l (i + j - (length c - 1)))
        = Some A ->
      ent H (i * p + a)%nat (j * q + b)%nat = ent A a b.
Proof.
  intros Hc Hl Sc Sl. unfold Hankel_chunks. cbn [rbind].
  assert (Lc : 0 < length c) by (destruct c; [congruence|simpl; lia]).
  assert (Ll : 0 < length l) by (destruct l; [congruence|simpl; lia]).
  set (u := c ++ skipn 1 l).
  assert (Lu : length u = (length c + length l - 1)%nat).
  { unfold u. rewrite app_length, skipn_length. lia. }
  assert (Su : shaped p q u).
  { apply Forall_app. split; auto. rewrite <- (firstn_skipn 1 l) in Sl.
    apply Forall_app in Sl. apply Sl. }
  destruct (rmapM_ok (fun idx => rbind (np_array (slice idx (idx + length l)%nat u)) (fun r => hstack r))
    (seq 0 (length c)) (fun idx R => nr R = p /\ nc R = (length l * q)%nat /\
      forall a j b A, j < length l -> nth_error u (idx + j) = Some A -> b < q ->
        ent R a (j * q + b)%nat = ent A a b)) as (rows & E & HR).
  { intros idx Hi. apply in_seq in Hi.
    assert (Ss : shaped p q (slice idx (idx + length l)%nat u)).
    { unfold slice. apply Forall_forall. intros x Hx.
      apply (proj1 (Forall_forall _ _) Su). 
      rewrite <- (firstn_skipn idx u). apply in_or_app. right.
      rewrite <- (firstn_skipn (idx + length l - idx) (skipn idx u)). apply in_or_app. left. auto. }
    assert (Ls : length (slice idx (idx + length l)%nat u) = length l).
    { unfold slice. rewrite firstn_length, skipn_length. lia. }
    rewrite (np_array_ok p q) by auto. cbn [rbind].
    destruct (hstack_ok p q (slice idx (idx + length l)%nat u)) as (H & E1 & E2 & E3 & E4); auto.
    { intros E. rewrite E in Ls. simpl in Ls. lia. }
    exists H. split; auto. split; auto. split; [rewrite E3, Ls; auto|].
    intros a j b A Hj EA Hb. apply E4; auto. rewrite nth_error_slice by auto. auto. }
  rewrite E. cbn [rbind].
  assert (Lr : length rows = length c).
  { rewrite <- (seq_length (length c) 0). clear - HR. induction HR; simpl; congruence. }
  destruct (vstack_ok p (length l * q) rows) as (H & E1 & E2 & E3 & E4).
  { intros ->. simpl in Lr. lia. }
  { clear - HR. induction HR as [|? ? ? ? (H1 & H2 & _)]; constructor; auto. }
  exists H. split; auto. split; [rewrite E2, Lr; auto|]. split; auto.
  intros i j a b A Hi Hj Ha Hb EA.
  destruct (nth_error rows i) as [R|] eqn:ER.
  2:{ apply nth_error_None in ER. lia. }
  rewrite (E4 i a _ R ER Ha).
  assert (G : nr R = p /\ nc R = (length l * q)%nat /\
      forall a j b A, j < length l -> nth_error u (i + j) = Some A -> b < q ->
        ent R a (j * q + b)%nat = ent A a b).
  { clear - HR ER Hi. 
    assert (G : forall s n (rows : list (arr F)) i R P, Forall2 P (seq s n) rows ->
      nth_error rows i = Some R -> P (s + i)%nat R).
    { clear. intros s n. revert s. induction n as [|n IH]; intros s rows i R P HF ER; simpl in HF;
        inversion HF; subst; [destruct i; discriminate|].
      destruct i as [|i]; simpl in ER.
      - injection ER as <-. rewrite Nat.add_0_r. auto.
      - replace (s + S i)%nat with (S s + i)%nat by lia. eapply IH; eauto. }
    apply (G O _ _ i R _ HR ER). }
  apply G; auto. unfold u.
  destruct (Nat.ltb_spec (i + j) (length c)) as [L|L].
  - rewrite nth_error_app1 by auto. auto.
  - rewrite nth_error_app2 by auto. destruct l as [|x l]; [simpl in *; lia|]. simpl.
    replace (i + j - (length c - 1))%nat with (S (i + j - length c)) in EA by lia. exact EA.
Qed.

(** Without a last row the missing chunks are zero. *)
Theorem C14_default {F : sfield} p q (c : list (arr F)) :
  c <> [] -> shaped p q c ->
  Hankel_chunks c None = Hankel_chunks c (Some (repeat (zeros p q) (length c))).
Proof.
  intros Hc Sc. unfold Hankel_chunks. destruct c as [|A c]; [congruence|].
  inversion_clear Sc as [|? ? [Hr Hq] _]. unfold py_nth. simpl. rewrite Hr, Hq. reflexivity.
Qed.

(** One by one chunks give the entrywise Hankel array. *)
Definition one {F : sfield} (x : F) : arr F := Arr 1 1 (fun _ _ => x).

Theorem C14_agrees {F : sfield} (c r : list F) : c <> [] -> r <> [] ->
  exists H H', Hankel c (Some r) = Ok H /\
    Hankel_chunks (map one c) (Some (map one r)) = Ok H' /\ aeq H H'.
Proof.
  intros Hc Hr.
  destruct (C13_Hankel c r) as (H & E & HH).
  destruct (C14_chunks 1 1 (map one c) (map one r)) as (H' & E' & H1 & H2 & H3).
  { destruct c; [congruence|discriminate]. }
  { destruct r; [congruence|discriminate]. }
  { apply Forall_forall. intros A HA. apply in_map_iff in HA. destruct HA as (x & <- & _). auto. }
  { apply Forall_forall. intros A HA. apply in_map_iff in HA. destruct HA as (x & <- & _). auto. }
  exists H, H'. split; auto. split; auto. apply (C13_unique c r); auto.
  rewrite !map_length, Nat.mul_1_r in *.
  assert (G : forall i j, i < length c -> j < length r ->
    ent H' i j = if (i + j <? length c)%nat then nth (i + j)%nat c 0
      else nth (i + j - (length c - 1))%nat r 0).
  { intros i j Hi Hj. specialize (H3 i j 0%nat 0%nat).
    rewrite !Nat.mul_1_r, !Nat.add_0_r in H3.
    destruct (Nat.ltb_spec (i + j) (length c)) as [L|L].
    - specialize (H3 (one (nth (i + j)%nat c 0))). apply H3; auto.
      apply map_nth_error, nth_error_nth'. auto.
    - specialize (H3 (one (nth (i + j - (length c - 1))%nat r 0))). apply H3; auto.
      apply map_nth_error, nth_error_nth'. lia. }
  split; auto.
  - intros i Hi Hr'. rewrite G by auto. rewrite Nat.add_0_r.
    rewrite (proj2 (Nat.ltb_lt _ _)) by auto. reflexivity.
  - intros j Hj Hc'. rewrite G by lia.
    rewrite (proj2 (Nat.ltb_ge _ _)) by lia. f_equal. lia.
  - intros i j i' j' Hi Hj Hi' Hj' Es. rewrite !G by auto. rewrite Es. reflexivity.
Qed.

(** Degenerate inputs. *)
Theorem C14_no_chunks {F : sfield} (l : list (arr F)) :
  Hankel_chunks (@nil (arr F)) None = Raise IndexError /\
  Hankel_chunks [] (Some l) = Raise ValueError /\
  (forall c, c <> [] -> Hankel_chunks c (Some (@nil (arr F))) = Raise ValueError).
Proof.
  split; [reflexivity|]. split; [reflexivity|]. intros c Hc.
  destruct c as [|A c]; [congruence|]. unfold Hankel_chunks. simpl.
  unfold slice. simpl. reflexivity.
Qed.

Example C14_example :
  let A := of_rows 1 [[qi 1 0 1]; [qi 2 0 1]] : arr QI in
  let B := of_rows 1 [[qi 3 0 1]; [qi 4 0 1]] : arr QI in
  let C := of_rows 1 [[qi 5 0 1]; [qi 6 0 1]] : arr QI in
  rmap (fun H => map (fun i => map (ent H i) (seq 0 (nc H))) (seq 0 (nr H)))
    (Hankel_chunks [A; B] (Some [B; C; A]))
  = Ok [[qi 1 0 1; qi 3 0 1; qi 5 0 1]; [qi 2 0 1; qi 4 0 1; qi 6 0 1];
        [qi 3 0 1; qi 5 0 1; qi 1 0 1]; [qi 4 0 1; qi 6 0 1; qi 2 0 1]] /\
  shaped 2 1 [A; B] /\ shaped 2 1 [B; C; A].
Proof. split; [reflexivity|]. split; repeat constructor. Qed.

Example C14_chunks_example :
  let A := of_rows 2 [[qi 1 0 1; qi 2 0 1]] : arr QI in
  let B := of_rows 2 [[qi 0 3 1; qi 4 0 1]] : arr QI in
  let C := of_rows 2 [[qi 5 0 1; qi 6 1 1]] : arr QI in
  exists H, Hankel_chunks [A; B] (Some [A; C; B]) = Ok H /\ nr H = 2%nat /\ nc H = 6%nat /\
    ent H 0%nat 3%nat = qi 4 0 1 /\ ent H 1%nat 3%nat = qi 6 1 1 /\ ent H 1%nat 5%nat = qi 4 0 1.
Proof.
  intros A B C.
  destruct (C14_chunks 1 2 [A; B] [A; C; B]) as (H & E & R & K & S);
    [discriminate|discriminate|repeat constructor|repeat constructor|].
  exists H. split; [exact E|]. split; [exact R|]. split; [exact K|].
  split; [apply (S 0 1 0 1 B)%nat; simpl; auto|].
  split; [apply (S 1 1 0 1 C)%nat; simpl; auto|].
  apply (S 1 2 0 1 B)%nat; simpl; auto.
Qed.

Example C14_default_example :
  let A := of_rows 2 [[qi 1 0 1; qi 2 0 1]] : arr QI in
  let B := of_rows 2 [[qi 0 3 1; qi 4 0 1]] : arr QI in
  Hankel_chunks [A; B] None = Hankel_chunks [A; B] (Some [zeros 1 2; zeros 1 2]) /\
  rmap (fun H => map (fun i => map (ent H i) (seq 0 (nc H))) (seq 0 (nr H)))
    (Hankel_chunks [A; B] None)
  = Ok [[qi 1 0 1; qi 2 0 1; qi 0 3 1; qi 4 0 1]; [qi 0 3 1; qi 4 0 1; qi 0 0 1; qi 0 0 1]].
Proof.
  intros A B. split; [|reflexivity].
  apply (C14_default 1 2 [A; B]); [discriminate|repeat constructor].
Qed.

Example C14_agrees_example : exists H H' : arr QI,
  Hankel [qi 1 0 1; qi 0 2 1] (Some [qi 5 0 1; qi 7 0 1; qi 0 3 1]) = Ok H /\
  Hankel_chunks [one (qi 1 0 1); one (qi 0 2 1)] (Some [one (qi 5 0 1); one (qi 7 0 1); one (qi 0 3 1)]) = Ok H' /\
  aeq H H'.
Proof. apply (C14_agrees [qi 1 0 1; qi 0 2 1] [qi 5 0 1; qi 7 0 1; qi 0 3 1]); discriminate. Qed.

Example C14_no_chunks_example :
  let A := of_rows 2 [[qi 1 0 1; qi 2 0 1]] : arr QI in
  Hankel_chunks [] (Some [A]) = Raise ValueError /\ Hankel_chunks [A] (Some []) = Raise ValueError.
Proof.
  intros A. destruct (C14_no_chunks [A]) as (_ & E & E'). split; [exact E|].
  apply E'. discriminate.
Qed.

Print Assumptions C13_Hankel.
Print Assumptions C13_default.
Print Assumptions C13_unique.
Print Assumptions C14_chunks.
Print Assumptions C14_default.
Print Assumptions C14_agrees.
Print Assumptions C14_no_chunks.
