(** Arrays as lists of rows: entries, shapes and the block update of the
    inner-product routines. *)
From stdpp Require Import gmap list.
From Coq Require Import Lia.
From Verif Require Import Prelude InnerProdModel.

Section Arrays.
Context {K : Type}.
Notation arr := (list (list K)).

Definition ent (a : arr) (i j : nat) : option K := a !! i ≫= (fun row => row !! j).
Definition shape (m n : nat) (a : arr) : Prop :=
  length a = m /\ Forall (fun row => length row = n) a.

(** The array with entries [f i j]. *)
Definition tabulate (m n : nat) (f : nat -> nat -> K) : arr :=
  map (fun i => map (f i) (seq 0 n)) (seq 0 m).

Lemma shape_row m n a i row : shape m n a -> a !! i = Some row -> length row = n /\ i < m.
Proof.
  intros [Hl Hf] H. split.
  - eapply (Forall_lookup_1 _ _ _ _ Hf H).
  - apply lookup_lt_Some in H. lia.
Qed.
Lemma shape_ent m n a i j : shape m n a -> i < m -> j < n -> is_Some (ent a i j).
Proof.
  intros Hs Hi Hj. destruct Hs as [Hl Hf].
  destruct (lookup_lt_is_Some_2 a i) as [row Hr]; [lia|].
  unfold ent. rewrite Hr. simpl. apply lookup_lt_is_Some_2.
  rewrite (Forall_lookup_1 _ _ _ _ Hf Hr). lia.
Qed.
Lemma ent_bounds m n a i j x : shape m n a -> ent a i j = Some x -> i < m /\ j < n.
Proof.
  intros Hs H. unfold ent in H. destruct (a !! i) as [row|] eqn:E; [|discriminate].
  destruct (shape_row _ _ _ _ _ Hs E) as [Hr Hi]. simpl in H.
  apply lookup_lt_Some in H. lia.
Qed.

Lemma arr_ext m n (a b : arr) : shape m n a -> shape m n b ->
  (forall i j, i < m -> j < n -> ent a i j = ent b i j) -> a = b.
Proof.
  intros Ha Hb H. apply list_eq. intros i.
  destruct (decide (i < m)) as [Hi|Hi].
  - destruct (lookup_lt_is_Some_2 a i) as [ra Ea]; [destruct Ha; lia|].
    destruct (lookup_lt_is_Some_2 b i) as [rb Eb]; [destruct Hb; lia|].
    rewrite Ea, Eb. f_equal. apply list_eq. intros j.
    destruct (shape_row _ _ _ _ _ Ha Ea) as [La _].
    destruct (shape_row _ _ _ _ _ Hb Eb) as [Lb _].
    destruct (decide (j < n)) as [Hj|Hj].
    + specialize (H i j Hi Hj). unfold ent in H. rewrite Ea, Eb in H. exact H.
    + rewrite !lookup_ge_None_2 by lia. reflexivity.
  - rewrite !lookup_ge_None_2; auto; [destruct Hb; lia|destruct Ha; lia].
Qed.

Lemma lookup_map {A B} (f : A -> B) l i : map f l !! i = f <$> l !! i.
Proof. apply list_lookup_fmap. Qed.

Lemma nth_error_lookup {A} (l : list A) : forall i, nth_error l i = l !! i.
Proof. induction l as [|x l IH]; intros [|i]; simpl; auto. Qed.

Lemma shape_tabulate m n f : shape m n (tabulate m n f).
Proof.
  split; unfold tabulate.
  - rewrite map_length, seq_length. reflexivity.
  - apply Forall_forall. intros row Hr. apply elem_of_list_In in Hr.
    apply in_map_iff in Hr. destruct Hr as (i & <- & _).
    rewrite map_length, seq_length. reflexivity.
Qed.
Lemma ent_tabulate m n f i j : i < m -> j < n -> ent (tabulate m n f) i j = Some (f i j).
Proof.
  intros Hi Hj. unfold ent, tabulate. rewrite lookup_map.
  rewrite lookup_seq_lt by auto. simpl. rewrite lookup_map, lookup_seq_lt by auto. reflexivity.
Qed.
Lemma arr_eq_tabulate m n a f : shape m n a ->
  (forall i j, i < m -> j < n -> ent a i j = Some (f i j)) -> a = tabulate m n f.
Proof.
  intros Hs H. apply (arr_ext m n); auto; [apply shape_tabulate|].
  intros i j Hi Hj. rewrite ent_tabulate by auto. auto.
Qed.

Lemma set_entry_spec m n a i j v : shape m n a -> i < m -> j < n ->
  exists a', set_entry a i j v = Ok a' /\ shape m n a' /\
    forall i' j', ent a' i' j' = if decide (i' = i /\ j' = j) then Some v else ent a i' j'.
Proof.
  intros Hs Hi Hj. unfold set_entry.
  destruct (lookup_lt_is_Some_2 a i) as [row Hr]; [destruct Hs; lia|].
  destruct (shape_row _ _ _ _ _ Hs Hr) as [Hlen _].
  rewrite Hr. rewrite decide_True by lia. eexists. split; [reflexivity|]. split.
  - destruct Hs as [Hl Hf]. split; [rewrite insert_length; auto|].
    apply Forall_insert; auto. rewrite insert_length. auto.
  - intros i' j'. unfold ent. destruct (decide (i' = i)) as [->|Hne].
    + rewrite list_lookup_insert by (destruct Hs; lia). simpl. rewrite Hr. simpl.
      destruct (decide (j' = j)) as [->|Hnj].
      * rewrite list_lookup_insert by lia. rewrite decide_True by auto. reflexivity.
      * rewrite list_lookup_insert_ne by auto. rewrite decide_False by tauto. reflexivity.
    + rewrite list_lookup_insert_ne by auto. rewrite decide_False by tauto. reflexivity.
Qed.

Lemma shape_zeros (z : K) m n : shape m n (zeros z m n).
Proof.
  unfold zeros. split; [apply replicate_length|].
  apply Forall_replicate. apply replicate_length.
Qed.
Lemma ent_zeros (z : K) m n i j : i < m -> j < n -> ent (zeros z m n) i j = Some z.
Proof.
  intros Hi Hj. unfold ent, zeros. rewrite lookup_replicate_2 by auto. simpl.
  apply lookup_replicate_2; auto.
Qed.

Lemma shape_add add m n (a b : arr) : shape m n a -> shape m n b -> shape m n (arr_add add a b).
Proof.
  intros [La Fa] [Lb Fb]. unfold arr_add. split.
  - rewrite zip_with_length. lia.
  - apply Forall_lookup. intros i row H.
    rewrite lookup_zip_with in H.
    destruct (a !! i) as [ra|] eqn:Ea; [|discriminate].
    destruct (b !! i) as [rb|] eqn:Eb; [|discriminate]. simpl in H. injection H as <-.
    rewrite zip_with_length.
    rewrite (Forall_lookup_1 _ _ _ _ Fa Ea), (Forall_lookup_1 _ _ _ _ Fb Eb). lia.
Qed.
Lemma ent_add add (a b : arr) i j x y :
  ent a i j = Some x -> ent b i j = Some y -> ent (arr_add add a b) i j = Some (add x y).
Proof.
  unfold ent, arr_add. intros Ha Hb. rewrite lookup_zip_with.
  destruct (a !! i) as [ra|]; [|discriminate]. destruct (b !! i) as [rb|]; [|discriminate].
  simpl in *. rewrite lookup_zip_with, Ha. simpl. rewrite Hb. reflexivity.
Qed.

Lemma shape_conj_transpose z cj m n (a : arr) : shape m n a ->
  shape n m (conj_transpose z cj n a).
Proof.
  intros [Hl Hf]. unfold conj_transpose. split.
  - rewrite map_length, seq_length. auto.
  - apply Forall_forall. intros row Hr. apply elem_of_list_In in Hr.
    apply in_map_iff in Hr. destruct Hr as (i & <- & _). rewrite map_length. auto.
Qed.
Lemma ent_conj_transpose z cj m n (a : arr) i j x : shape m n a ->
  ent a j i = Some x -> ent (conj_transpose z cj n a) i j = Some (cj x).
Proof.
  intros Hs H. destruct (ent_bounds _ _ _ _ _ _ Hs H) as [Hj Hi].
  unfold ent, conj_transpose. rewrite lookup_map, lookup_seq_lt by auto. simpl.
  rewrite lookup_map. unfold ent in H.
  destruct (a !! j) as [row|] eqn:E; [|discriminate]. simpl in *. f_equal. f_equal.
  apply nth_lookup_Some. exact H.
Qed.
End Arrays.

(** ** Loops that may raise *)

Lemma res_fold_inv {A B} (f : A -> B -> res B) l : forall b (Inv : nat -> B -> Prop),
  Inv 0 b ->
  (forall k x b, l !! k = Some x -> Inv k b -> exists b', f x b = Ok b' /\ Inv (S k) b') ->
  exists b', res_fold f l b = Ok b' /\ Inv (length l) b'.
Proof.
  induction l as [|x l IH]; intros b Inv H0 H; simpl.
  - eauto.
  - destruct (H 0 x b eq_refl H0) as (b1 & -> & H1).
    apply (IH b1 (fun k => Inv (S k))); [exact H1|].
    intros k y b' Hk Hi. apply (H (S k) y b'); auto.
Qed.

Section Block.
Context {V K : Type}.
Notation arr := (list (list K)).
Context (store_as : K -> K -> res K) (ip : V -> V -> K) (like : K).

(** Writing a block: rows [start .. start+n), columns in [idx]; [g] gives the
    values that are stored. *)
Lemma ip_block_spec (g : V -> V -> K) m nc (rv cv : nat -> V) start n idx (a : arr) :
  shape m nc a -> start + n <= m -> Forall (fun j => j < nc) idx ->
  (forall i j, start <= i < start + n -> j ∈ idx ->
     store_as like (ip (rv i) (cv j)) = Ok (g (rv i) (cv j))) ->
  exists a', ip_block store_as ip like start (start + n) (map rv (seq start n))
               (map cv idx, idx) a = Ok a' /\ shape m nc a' /\
    forall i j, ent a' i j =
      if decide (start <= i < start + n /\ j ∈ idx) then Some (g (rv i) (cv j))
      else ent a i j.
Proof.
  intros Hs Hm Hidx Hst. unfold ip_block.
  replace (start + n - start) with n by lia. cbn [fst snd].
  destruct (res_fold_inv
    (fun row_index a =>
      res_fold (fun '(col_vec_index, col_vec) a =>
        (j <-? py_nth idx col_vec_index ;
         v <-? py_nth (map rv (seq start n)) (row_index - start) ;
         x <-? store_as like (ip v col_vec) ;
         set_entry a row_index j x)%res)
        (zip (seq 0 (length (map cv idx))) (map cv idx)) a)
    (seq start n) a
    (fun k a' => shape m nc a' /\
       forall i j, ent a' i j =
         if decide (start <= i < start + k /\ j ∈ idx) then Some (g (rv i) (cv j))
         else ent a i j)) as (a' & E & Hs' & He).
  - split; auto. intros i j. rewrite decide_False by lia. reflexivity.
  - intros k row b Hk [Hb He].
    apply lookup_seq in Hk. destruct Hk as [-> Hk].
    destruct (res_fold_inv
      (fun '(col_vec_index, col_vec) a =>
        (j <-? py_nth idx col_vec_index ;
         v <-? py_nth (map rv (seq start n)) (start + k - start) ;
         x <-? store_as like (ip v col_vec) ;
         set_entry a (start + k) j x)%res)
      (zip (seq 0 (length (map cv idx))) (map cv idx)) b
      (fun l b' => shape m nc b' /\
         forall i j, ent b' i j =
           if decide (i = start + k /\ j ∈ take l idx) then Some (g (rv i) (cv j))
           else ent b i j)) as (b' & E' & Hs' & He').
    + split; auto. intros i j. rewrite decide_False; auto. intros [_ Hx].
      apply elem_of_nil in Hx. auto.
    + intros l [ci col] b2 Hl [Hb2 He2].
      rewrite lookup_zip_with in Hl.
      destruct (seq 0 (length (map cv idx)) !! l) as [ci'|] eqn:El; [|discriminate].
      apply lookup_seq in El. destruct El as [-> El]. simpl in Hl.
      rewrite lookup_map in Hl.
      destruct (idx !! l) as [j|] eqn:Ej; [|discriminate]. simpl in Hl.
      injection Hl as <- <-.
      assert (Hjin : j ∈ idx) by (apply elem_of_list_lookup; eauto).
      assert (Hjn : j < nc).
      { rewrite Forall_forall in Hidx. apply Hidx. auto. }
      unfold py_nth at 1. rewrite nth_error_lookup, Ej. simpl.
      unfold py_nth. rewrite nth_error_lookup, lookup_map.
      replace (start + k - start) with k by lia.
      rewrite lookup_seq_lt by auto. simpl.
      rewrite Hst by (auto; lia). simpl.
      destruct (set_entry_spec m nc b2 (start + k) j (g (rv (start + k)) (cv j)) Hb2
                  ltac:(lia) Hjn) as (b3 & -> & Hs3 & He3).
      exists b3. split; auto. split; auto. intros i j'. rewrite He3.
      rewrite (take_S_r _ _ _ Ej).
      destruct (decide (i = start + k /\ j' = j)) as [[-> ->]|Hn].
      * rewrite decide_True; auto. split; auto. apply elem_of_app. right. left.
      * rewrite He2.
        destruct (decide (i = start + k /\ j' ∈ take l idx)) as [[-> Hin]|Hn2].
        -- rewrite decide_True; auto. split; auto. apply elem_of_app. auto.
        -- rewrite decide_False; auto. intros [-> Hin].
           apply elem_of_app in Hin. destruct Hin as [Hin|Hin]; [tauto|].
           apply elem_of_list_singleton in Hin. tauto.
    + exists b'. split; [exact E'|]. split; auto. intros i j. rewrite He'.
      rewrite zip_with_length, seq_length, map_length, Nat.min_id.
      rewrite take_ge by lia.
      destruct (decide (i = start + k /\ j ∈ idx)) as [[-> Hin]|Hn].
      * rewrite decide_True; auto. split; auto. lia.
      * rewrite He.
        destruct (decide (start <= i < start + k /\ j ∈ idx)) as [[Hi Hin]|Hn2].
        -- rewrite decide_True; auto. split; auto. lia.
        -- rewrite decide_False; auto. intros [Hi Hin].
           destruct (decide (i = start + k)); [tauto|]. apply Hn2. split; auto. lia.
  - exists a'. split; [exact E|]. split; auto. intros i j. rewrite He.
    rewrite seq_length. reflexivity.
Qed.
End Block.
