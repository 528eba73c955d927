(** Lemmas for property C70: what the methods of the handle classes do depends on the vectors
    through their inner products alone. *)
From stdpp Require Import gmap list.
From Coq Require Import ZArith Lia Field Ring.
From Verif Require Import Prelude Field Matrix NdArray DecompModel Spmd LinCombModel InnerProdProofs InnerProdProps
  HandlesModel HandlesProofs HandlesSpace.
Open Scope nat_scope.

(** The inner product of the vectors stored at [a] and [b], None when one is missing. *)
Definition gram_at {F : sfield} {V} (S : space F V) (st : gmap loc V) (a b : loc) : option F :=
  match st !! a, st !! b with Some u, Some v => Some (ip S u v) | _, _ => None end.

(** The stores hold vectors in the same places, and these have the same inner products. *)
Definition alike {F : sfield} {V V'} (S : space F V) (S' : space F V') (st : gmap loc V) (st' : gmap loc V') : Prop :=
  forall a b, gram_at S st a b = gram_at S' st' a b.

Section Alike.
Context {F : sfield} {V V' : Type} (S : space F V) (S' : space F V') (HS : ip_space S) (HS' : ip_space S').
Open Scope k_scope.

Lemma alike_some st st' a u : alike S S' st st' -> st !! a = Some u -> exists u', st' !! a = Some u'.
Proof using Type.
  intros H E. specialize (H a a). unfold gram_at in H. rewrite E in H. destruct (st' !! a); eauto. discriminate.
Qed.
Lemma alike_none st st' a : alike S S' st st' -> st !! a = None -> st' !! a = None.
Proof using Type.
  intros H E. specialize (H a a). unfold gram_at in H. rewrite E in H. destruct (st' !! a); [discriminate|auto].
Qed.
Lemma alike_ip st st' a b u v u' v' : alike S S' st st' -> st !! a = Some u -> st !! b = Some v ->
  st' !! a = Some u' -> st' !! b = Some v' -> ip S u v = ip S' u' v'.
Proof using Type.
  intros H E1 E2 E3 E4. specialize (H a b). unfold gram_at in H. rewrite E1, E2, E3, E4 in H. congruence.
Qed.
Lemma alike_holds st st' hs vs : alike S S' st st' -> holds st hs vs -> exists vs', holds st' hs vs'.
Proof using Type.
  intros H Hh. unfold holds in *. induction Hh as [|h v hs vs E _ [vs' IH]]; [exists []; constructor|].
  destruct (alike_some st st' h v H E) as [v' E']. exists (v' :: vs'). constructor; auto.
Qed.
Lemma alike_row st st' a u u' cs cv cv' : alike S S' st st' -> st !! a = Some u -> st' !! a = Some u' ->
  holds st cs cv -> holds st' cs cv' -> map (ip S u) cv = map (ip S' u') cv'.
Proof using Type.
  intros H E E' Hc. revert cv'. unfold holds in *. induction Hc as [|h v hs vs Eh _ IH]; intros cv' Hc'.
  - inversion Hc'. reflexivity.
  - inversion Hc' as [|? v' ? vs' Eh' Ht']; subst. simpl. rewrite (IH _ Ht'). f_equal.
    apply (alike_ip st st' a h); auto.
Qed.
Lemma alike_table st st' rs cs rv rv' cv cv' : alike S S' st st' ->
  holds st rs rv -> holds st' rs rv' -> holds st cs cv -> holds st' cs cv' ->
  table (ip S) rv cv = table (ip S') rv' cv'.
Proof using Type.
  intros H Hr. revert rv'. unfold table. unfold holds in Hr. induction Hr as [|h v hs vs Eh _ IH]; intros rv' Hr' Hc Hc'.
  - inversion Hr'. reflexivity.
  - inversion Hr' as [|? v' ? vs' Eh' Ht']; subst. simpl. rewrite (IH _ Ht' Hc Hc'). f_equal.
    apply (alike_row st st' h v v' cs); auto.
Qed.
Lemma alike_gram st st' rs cs rv rv' cv cv' : alike S S' st st' ->
  holds st rs rv -> holds st' rs rv' -> holds st cs cv -> holds st' cs cv' ->
  gram S rv cv = gram S' rv' cv'.
Proof using Type.
  intros H Hr Hr' Hc Hc'. unfold gram. rewrite (alike_table st st' rs cs rv rv' cv cv') by auto.
  rewrite <- (Forall2_length _ _ _ Hr), <- (Forall2_length _ _ _ Hr'), <- (Forall2_length _ _ _ Hc), <- (Forall2_length _ _ _ Hc').
  reflexivity.
Qed.

(** Combinations with the same coefficients have the same inner products. *)
Lemma alike_comb bv bv' (c : nat -> F) (u v : V) (u' v' : V') : length bv = length bv' ->
  (forall i d d', i < length bv -> ip S u (nth i bv d) = ip S' u' (nth i bv' d')) ->
  combination S bv c v -> combination S' bv' c v' -> ip S u v = ip S' u' v'.
Proof using Type.
  intros L H Hv Hv'. rewrite Hv, Hv', <- L. apply sum_ext. intros i Hi. rewrite (H i v v') by auto. reflexivity.
Qed.
Lemma flip_ip u v u' v' : ip S u v = ip S' u' v' -> ip S v u = ip S' v' u'.
Proof. intros H. rewrite <- (ips_conj _ HS u v), <- (ips_conj _ HS' u' v'), H. reflexivity. Qed.

Lemma sums_index (sums : list loc) a : a ∈ sums -> exists j, sums !! j = Some a.
Proof using Type. apply elem_of_list_lookup. Qed.

Lemma alike_written st st' basis bv bv' rows sums st2 st2' : alike S S' st st' ->
  holds st basis bv -> holds st' basis bv' ->
  written S bv rows sums st st2 -> written S' bv' rows sums st' st2' -> alike S S' st2 st2'.
Proof.
  intros H Hb Hb' [W1 W2] [W1' W2'].
  assert (L : length bv = length bv').
  { rewrite <- (Forall2_length _ _ _ Hb), <- (Forall2_length _ _ _ Hb'). reflexivity. }
  assert (B : forall i d, i < length bv -> exists h, st !! h = Some (nth i bv d) /\ forall d', st' !! h = Some (nth i bv' d')).
  { intros i d Hi. destruct (lookup_lt_is_Some_2 basis i) as [h E].
    { rewrite (Forall2_length _ _ _ Hb). auto. }
    exists h. split.
    - destruct (Forall2_lookup_l _ _ _ _ _ Hb E) as (v & E1 & E2). rewrite (nth_lookup_Some _ _ d _ E1). auto.
    - intros d'. destruct (Forall2_lookup_l _ _ _ _ _ Hb' E) as (v & E1 & E2). rewrite (nth_lookup_Some _ _ d' _ E1). auto. }
  assert (BB : forall i k d e d' e', i < length bv -> k < length bv ->
    ip S (nth i bv d) (nth k bv e) = ip S' (nth i bv' d') (nth k bv' e')).
  { intros i k d e d' e' Hi Hk. destruct (B i d Hi) as (h & E1 & E2). destruct (B k e Hk) as (g & E3 & E4).
    apply (alike_ip st st' h g); auto. }
  (* what is stored at [a] afterwards, against the basis *)
  assert (AB : forall a u u', st2 !! a = Some u -> st2' !! a = Some u' ->
    forall i d d', i < length bv -> ip S u (nth i bv d) = ip S' u' (nth i bv' d')).
  { intros a u u' Ea Ea' i d d' Hi. destruct (decide (a ∈ sums)) as [Hs|Hs].
    - destruct (sums_index sums a Hs) as [j Ej].
      destruct (W1 j a Ej) as (v & Ev & Cv). destruct (W1' j a Ej) as (v' & Ev' & Cv').
      assert (u = v) as -> by congruence. assert (u' = v') as -> by congruence.
      apply flip_ip. apply (alike_comb bv bv' _ _ _ _ _ L) with (2 := Cv) (3 := Cv').
      intros k e e' Hk. apply BB; auto.
    - rewrite W2 in Ea by auto. rewrite W2' in Ea' by auto. destruct (B i d Hi) as (h & E1 & E2).
      apply (alike_ip st st' a h); auto. }
  assert (N : forall a, st2 !! a = None <-> st2' !! a = None).
  { intros a. destruct (decide (a ∈ sums)) as [Hs|Hs].
    - destruct (sums_index sums a Hs) as [j Ej].
      destruct (W1 j a Ej) as (v & Ev & _). destruct (W1' j a Ej) as (v' & Ev' & _). rewrite Ev, Ev'. split; discriminate.
    - rewrite W2, W2' by auto. split; intros E; [eapply alike_none; eauto|].
      destruct (st !! a) eqn:E'; auto. destruct (alike_some st st' a _ H E') as [? ?]. congruence. }
  intros a b. unfold gram_at.
  destruct (st2 !! a) as [u|] eqn:Ea, (st2' !! a) as [u'|] eqn:Ea'.
  2: { exfalso. apply N in Ea'. congruence. }
  2: { exfalso. apply N in Ea. congruence. }
  2: reflexivity.
  destruct (st2 !! b) as [v|] eqn:Eb, (st2' !! b) as [v'|] eqn:Eb'.
  2: { exfalso. apply N in Eb'. congruence. }
  2: { exfalso. apply N in Eb. congruence. }
  2: reflexivity.
  f_equal. destruct (decide (b ∈ sums)) as [Hs|Hs].
  - destruct (sums_index sums b Hs) as [j Ej].
    destruct (W1 j b Ej) as (x & Ex & Cx). destruct (W1' j b Ej) as (x' & Ex' & Cx').
    assert (v = x) as -> by congruence. assert (v' = x') as -> by congruence.
    apply (alike_comb bv bv' _ _ _ _ _ L) with (2 := Cx) (3 := Cx'). intros i d d' Hi. apply (AB a); auto.
  - destruct (decide (a ∈ sums)) as [Hs'|Hs'].
    + destruct (sums_index sums a Hs') as [j Ej].
      destruct (W1 j a Ej) as (x & Ex & Cx). destruct (W1' j a Ej) as (x' & Ex' & Cx').
      assert (u = x) as -> by congruence. assert (u' = x') as -> by congruence.
      apply flip_ip. apply (alike_comb bv bv' _ _ _ _ _ L) with (2 := Cx) (3 := Cx'). intros i d d' Hi. apply (AB b); auto.
    + rewrite W2 in Ea, Eb by auto. rewrite W2' in Ea', Eb' by auto. apply (alike_ip st st' a b); auto.
Qed.
End Alike.

Section Exists.
Context {F : sfield} {V : Type} (S : space F V) (HS : ip_space S).

Lemma combs_exist bv (f : nat -> nat -> F) n : bv <> [] ->
  exists vl : list V, length vl = n /\ forall j v, vl !! j = Some v -> combination S bv (f j) v.
Proof.
  intros N. induction n as [|n (vl & L & H)]; [exists []; split; [auto|intros j v E; rewrite lookup_nil in E; discriminate]|].
  destruct (combination_exists S HS bv (f n) N) as [v Hv]. exists (vl ++ [v]). split; [rewrite app_length; simpl; lia|].
  intros j x E. apply lookup_app_Some in E. destruct E as [E|[Lj E]]; auto.
  apply list_lookup_singleton_Some in E. destruct E as [E ->]. replace j with n by lia. auto.
Qed.

Lemma written_exists bv rows sums st : bv <> [] -> NoDup sums -> exists st2, written S bv rows sums st st2.
Proof.
  intros N ND.
  destruct (combs_exist bv (fun j i => nth j (nth i rows []) (k0 F)) (length sums) N) as (vl & L & H).
  exists (list_to_map (zip sums vl) ∪ st).
  assert (Z : (zip sums vl).*1 = sums) by (apply fst_zip; lia). split.
  - intros j h E. destruct (lookup_lt_is_Some_2 vl j) as [v Ev].
    { rewrite L. apply lookup_lt_Some in E. auto. }
    exists v. split; [|apply H; auto]. apply lookup_union_Some_l. apply elem_of_list_to_map.
    + rewrite Z. auto.
    + apply elem_of_list_lookup. exists j. apply lookup_zip_with_Some. eauto.
  - intros h Hh. apply lookup_union_r. apply not_elem_of_list_to_map. rewrite Z. auto.
Qed.
End Exists.

Lemma alike_refl {F : sfield} {V} (S : space F V) st : alike S S st st.
Proof. intros a b. reflexivity. Qed.

(** The result and the inner products afterwards are the same for all such stores. *)
Lemma alike_ok {F : sfield} {V A} (S : space F V) (HS : ip_space S) (h : hprog F A) : forall st,
  ok S st h (fun _ _ => True) ->
  exists r g, forall (V' : Type) (S' : space F V') st', ip_space S' -> alike S S' st st' ->
    ok S' st' h (fun s x => x = r /\ forall a b, gram_at S' s a b = g a b).
Proof.
  induction h as [a|e|rows cols k IH|vecs k IH|call k IH|sums basis coeff idx k IH]; intros st H; simpl in H.
  - exists (Ok a), (gram_at S st). intros V' S' st' _ Ha. simpl. split; auto.
  - exists (Raise e), (gram_at S st). intros V' S' st' _ Ha. simpl. split; auto.
  - destruct H as (rv & cv & H1 & H2 & H3 & H4 & H5). destruct (IH _ _ H5) as (r & g & G).
    exists r, g. intros V' S' st' HS' Ha. simpl.
    destruct (alike_holds S S' st st' _ _ Ha H1) as [rv' H1']. destruct (alike_holds S S' st st' _ _ Ha H2) as [cv' H2'].
    exists rv', cv'. do 4 (split; [auto|]).
    rewrite <- (alike_gram S S' st st' rows cols rv rv' cv cv') by auto. auto.
  - destruct H as (vs & H1 & H2 & H3). destruct (IH _ _ H3) as (r & g & G).
    exists r, g. intros V' S' st' HS' Ha. simpl.
    destruct (alike_holds S S' st st' _ _ Ha H1) as [vs' H1'].
    exists vs'. do 2 (split; [auto|]).
    rewrite <- (alike_gram S S' st st' vecs vecs vs vs' vs vs') by auto. auto.
  - destruct H as (l & H1 & H2). destruct (IH _ _ H2) as (r & g & G).
    exists r, g. intros V' S' st' HS' Ha. simpl. exists l. auto.
  - destruct (lin_coeffs (length basis) (length sums) (Arr2 (nr coeff) (nc coeff) (to_lists coeff)) idx) as [rows|e] eqn:E.
    + destruct H as (bv & H1 & H2 & H3 & H4 & H5).
      assert (Nb : bv <> []).
      { intros ->. apply Forall2_length in H1. destruct basis; [congruence|discriminate]. }
      destruct (written_exists S HS bv rows sums st Nb H3) as [st2 W].
      destruct (IH _ (H5 _ W)) as (r & g & G). exists r, g. intros V' S' st' HS' Ha. simpl. rewrite E.
      destruct (alike_holds S S' st st' _ _ Ha H1) as [bv' H1']. exists bv'. do 4 (split; [auto|]).
      intros st2' W'. apply G; auto. apply (alike_written S S' HS HS' st st' basis bv bv' rows sums); auto.
    + exists (Raise e), (gram_at S st). intros V' S' st' _ Ha. simpl. rewrite E. split; auto.
Qed.
