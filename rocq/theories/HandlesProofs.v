(** Running a handle-class method on P processes: the sequential reading [ok] of a
    method is what every schedule ends with. *)
From stdpp Require Import gmap list.
From Coq Require Import ZArith Lia Field_theory Ring_theory.
From Verif Require Import Prelude Field Matrix NdArray DecompModel ParallelModel VecSpaceModel
  VecSpaceProofs Spmd SpmdFacts SpmdLock SpmdEnds ReductionsModel ReductionsProofs InnerProdModel
  ArrayProofs RingProofs TaskProofs InnerProdProofs InnerProdProps SymmModel SymmProofs SymmProps
  LinCombModel LinCombProofs LinCombProps HandlesModel.
Open Scope nat_scope.

(** ** Inner-product spaces *)

(** The inner product is linear in its second argument and conjugate-symmetric, and
    all inner products are numbers of one type. *)
Record ip_space {F : sfield} {V : Type} (S : space F V) : Prop := {
  ips_add : forall u v w, ip S u (vadd S v w) = kadd F (ip S u v) (ip S u w);
  ips_smul : forall u v c, ip S u (smul S v c) = kmul F (ip S u v) c;
  ips_conj : forall u v, kconj F (ip S u v) = ip S v u;
  ips_type : forall u v x y, store_as S (ip S u v) (ip S x y) = Ok (ip S x y)
}.

(** [v] is the linear combination of [vs] with coefficients [c], as far as inner
    products can tell. *)
Definition combination {F : sfield} {V} (S : space F V) (vs : list V) (c : nat -> F) (v : V) : Prop :=
  forall u, ip S u v = sum (length vs) (fun i => kmul F (ip S u (nth i vs v)) (c i)).

(** The array of inner products of [rv] and [cv]. *)
Definition gram {F : sfield} {V} (S : space F V) (rv cv : list V) : arr F :=
  of_lists (length rv) (length cv) (table (ip S) rv cv).

Lemma gram_ent {F : sfield} {V} (S : space F V) rv cv d i j : i < length rv -> j < length cv ->
  NdArray.ent (gram S rv cv) i j = ip S (nth i rv d) (nth j cv d).
Proof.
  intros Hi Hj. unfold gram, of_lists, table. cbn.
  rewrite (nth_indep _ [] (map (fun w => ip S d w) cv)) by (rewrite map_length; auto).
  rewrite (map_nth (fun v => map (fun w => ip S v w) cv)).
  rewrite (nth_indep _ (k0 F) (ip S (nth i rv d) d)) by (rewrite map_length; auto).
  rewrite (map_nth (fun w => ip S (nth i rv d) w)). reflexivity.
Qed.

(** ** Sums over lists *)

Section Lsum.
Context {F : sfield}.
Add Field Ff_handles : (k_field F).
Open Scope k_scope.

Definition lsum (l : list F) : F := foldr (kadd F) 0 l.
Lemma lsum_app l l' : lsum (l ++ l') = lsum l + lsum l'.
Proof. induction l as [|x l IH]; simpl; [ring|]. rewrite IH. ring. Qed.
Lemma lsum_perm l l' : l ≡ₚ l' -> lsum l = lsum l'.
Proof.
  induction 1 as [|x l l' _ IH|x y l|l l' l'' _ IH _ IH']; simpl; auto; [congruence|ring|congruence].
Qed.
Lemma lsum_one x : lsum [x] = x.
Proof. simpl. ring. Qed.
Lemma lsum_seq f n : lsum (map f (seq 0 n)) = sum n f.
Proof.
  induction n as [|n IH]; [reflexivity|]. rewrite seq_S, map_app, lsum_app, IH. simpl. ring.
Qed.

End Lsum.

(** ** The sequential reading *)

Section Ok.
Context {F : sfield} {V : Type} (S : space F V).

(** The combinations with coefficient columns [rows] have been stored, nothing else
    has changed. *)
Definition written (bv : list V) (rows : list (list F)) (sums : list loc) (st st' : gmap loc V) : Prop :=
  (forall j h, sums !! j = Some h -> exists v, st' !! h = Some v /\
     combination S bv (fun i => nth j (nth i rows []) (k0 F)) v) /\
  (forall h, h ∉ sums -> st' !! h = st !! h).

Fixpoint ok {A} (st : gmap loc V) (h : hprog F A) (Post : gmap loc V -> res A -> Prop) : Prop :=
  match h with
  | HRet a => Post st (Ok a)
  | HFail e => Post st (Raise e)
  | HIp rows cols k => exists rv cv, holds st rows rv /\ holds st cols cv /\
      rows <> [] /\ cols <> [] /\ ok st (k (gram S rv cv)) Post
  | HSymm vecs k => exists vs, holds st vecs vs /\ vecs <> [] /\ ok st (k (gram S vs vs)) Post
  | HCall call k => exists l, call = Ok l /\ ok st (k l) Post
  | HLin sums basis coeff idx k =>
      match lin_coeffs (length basis) (length sums) (Arr2 (nr coeff) (nc coeff) (to_lists coeff)) idx with
      | Raise e => Post st (Raise e)
      | Ok rows => exists bv, holds st basis bv /\ basis <> [] /\ NoDup sums /\
          (forall h, h ∈ sums -> h ∉ basis) /\
          forall st', written bv rows sums st st' -> ok st' k Post
      end
  end.

Lemma ok_mono {A} (h : hprog F A) : forall st (Q Q' : _ -> _ -> Prop),
  ok st h Q -> (forall st' r, Q st' r -> Q' st' r) -> ok st h Q'.
Proof.
  induction h as [a|e|rows cols k IH|vecs k IH|call k IH|sums basis coeff idx k IH];
    intros st Q Q' H HQ; simpl in *; auto.
  - destruct H as (rv & cv & H1 & H2 & H3 & H4 & H5). exists rv, cv. do 4 (split; [auto|]). eauto.
  - destruct H as (vs & H1 & H2 & H3). exists vs. do 2 (split; [auto|]). eauto.
  - destruct H as (l & H1 & H2). exists l. split; eauto.
  - destruct (lin_coeffs _ _ _ _); auto. destruct H as (bv & H1 & H2 & H3 & H4 & H5).
    exists bv. do 4 (split; [auto|]). intros st' Hw. eauto.
Qed.

Lemma ok_bind {A B} (h : hprog F A) (f : A -> hprog F B) : forall st Post,
  ok st h (fun st' r => match r with Ok a => ok st' (f a) Post | Raise e => Post st' (Raise e) end) ->
  ok st (hbind h f) Post.
Proof.
  induction h as [a|e|rows cols k IH|vecs k IH|call k IH|sums basis coeff idx k IH];
    intros st Post H; simpl in *; auto.
  - destruct H as (rv & cv & H1 & H2 & H3 & H4 & H5). exists rv, cv. do 4 (split; [auto|]). auto.
  - destruct H as (vs & H1 & H2 & H3). exists vs. do 2 (split; [auto|]). auto.
  - destruct H as (l & H1 & H2). exists l. auto.
  - destruct (lin_coeffs _ _ _ _); auto. destruct H as (bv & H1 & H2 & H3 & H4 & H5).
    exists bv. do 4 (split; [auto|]). intros st' Hw. auto.
Qed.

End Ok.

(** ** The coefficient array *)

Lemma res_map_Forall2 {A B} (f : A -> res B) l l' : res_map f l = Ok l' ->
  Forall2 (fun x y => f x = Ok y) l l'.
Proof.
  revert l'. induction l as [|x l IH]; intros l'; simpl.
  - intros [= <-]. constructor.
  - destruct (f x) as [y|] eqn:E; simpl; [|discriminate].
    destruct (res_map f l) as [ys|]; simpl; [|discriminate]. intros [= <-]. constructor; auto.
Qed.
Lemma res_map_ok {A B} (f : A -> res B) g l : (forall x, x ∈ l -> f x = Ok (g x)) ->
  res_map f l = Ok (map g l).
Proof.
  induction l as [|x l IH]; intros H; simpl; auto.
  rewrite H by left. simpl. rewrite IH; auto. intros y Hy. apply H. right. auto.
Qed.

Lemma to_lists_length {F : sfield} (A : arr F) : length (to_lists A) = nr A.
Proof. unfold to_lists. rewrite map_length, seq_length. reflexivity. Qed.
Lemma to_lists_row {F : sfield} (A : arr F) row : row ∈ to_lists A -> length row = nc A.
Proof.
  intros H. apply elem_of_list_In, in_map_iff in H. destruct H as (i & <- & _).
  rewrite map_length, seq_length. reflexivity.
Qed.
Lemma to_lists_nth {F : sfield} (A : arr F) i : i < nr A ->
  nth i (to_lists A) [] = map (fun j => NdArray.ent A i j) (seq 0 (nc A)).
Proof.
  intros Hi. unfold to_lists.
  rewrite (nth_indep _ [] (map (fun j => NdArray.ent A 0 j) (seq 0 (nc A)))) by (rewrite map_length, seq_length; auto).
  rewrite (map_nth (fun i => map (fun j => NdArray.ent A i j) (seq 0 (nc A)))), seq_nth by auto. reflexivity.
Qed.
Lemma to_lists_ent {F : sfield} (A : arr F) i j d : i < nr A -> j < nc A ->
  nth j (nth i (to_lists A) []) d = NdArray.ent A i j.
Proof.
  intros Hi Hj. rewrite to_lists_nth by auto.
  rewrite (nth_indep _ d (NdArray.ent A i 0)) by (rewrite map_length, seq_length; auto).
  rewrite (map_nth (fun j => NdArray.ent A i j)), seq_nth by auto. reflexivity.
Qed.

(** The rows that lin_combine uses have the right shape. *)
Lemma lin_coeffs_shape {F : sfield} nb ns (A : arr F) idx rows :
  lin_coeffs nb ns (Arr2 (nr A) (nc A) (to_lists A)) idx = Ok rows ->
  length rows = nb /\ Forall (fun row => length row = ns) rows.
Proof.
  unfold lin_coeffs. replace (if nb =? 1 then _ else _) with (nr A, nc A, to_lists A)
    by (destruct (nb =? 1); reflexivity).
  destruct idx as [i|].
  - unfold take_cols. destruct (res_map (norm_index (nc A)) _) as [js|] eqn:E1; simpl; [|discriminate].
    destruct (res_map _ (to_lists A)) as [rows'|] eqn:E2; simpl; [|discriminate].
    destruct (Nat.eqb_spec nb (nr A)); simpl; [|discriminate].
    destruct (Nat.eqb_spec ns (length js)); simpl; [|discriminate]. intros [= <-].
    apply res_map_Forall2 in E2. split.
    + rewrite <- (Forall2_length _ _ _ E2), to_lists_length. auto.
    + subst ns. clear -E2. induction E2 as [|x y l l' H _ IH]; constructor; auto.
      apply res_map_Forall2, Forall2_length in H. auto.
  - simpl. destruct (Nat.eqb_spec nb (nr A)); simpl; [|discriminate].
    destruct (Nat.eqb_spec ns (nc A)); simpl; [|discriminate]. intros [= <-]. subst. split.
    + apply to_lists_length.
    + apply Forall_forall. intros row Hr. apply to_lists_row; auto.
Qed.

Lemma norm_wrap n z : norm_index n z = match wrap_index n z with Some i => Ok i | None => Raise IndexError end.
Proof. unfold norm_index, wrap_index. do 2 (destruct (_ && _); auto). Qed.

Lemma wrap_all_map n l is : wrap_all n l = Ok is -> res_map (norm_index n) l = Ok is /\ length is = length l.
Proof.
  revert is. induction l as [|z l IH]; intros is; simpl; [intros [= <-]; auto|].
  rewrite norm_wrap. destruct (wrap_index n z) as [i|]; [|discriminate].
  destruct (wrap_all n l) as [is'|]; [|discriminate]. intros [= <-].
  destruct (IH is' eq_refl) as [-> L]. simpl. auto.
Qed.
Lemma wrap_all_lt n l is : wrap_all n l = Ok is -> Forall (fun i => i < n) is.
Proof.
  revert is. induction l as [|z l IH]; intros is; simpl; [intros [= <-]; constructor|].
  destruct (wrap_index n z) as [i|] eqn:E; [|discriminate].
  destruct (wrap_all n l) as [is'|]; [|discriminate]. intros [= <-]. constructor; auto.
  unfold wrap_index in E.
  destruct (0 <=? z)%Z eqn:E1, (z <? Z.of_nat n)%Z eqn:E2, (- Z.of_nat n <=? z)%Z eqn:E3,
    (z <? 0)%Z eqn:E4; simpl in E; try discriminate; injection E as <-; lia.
Qed.

(** With a list of column indices the coefficients are those of [A[:, idx]]. *)
Lemma lin_coeffs_pick {F : sfield} (A B : arr F) l : pick_cols A l = Ok B ->
  exists rows, lin_coeffs (nr A) (length l) (Arr2 (nr A) (nc A) (to_lists A)) (Some (Cols l)) = Ok rows /\
    forall i j, i < nr A -> j < length l -> nth j (nth i rows []) (k0 F) = NdArray.ent B i j.
Proof.
  unfold pick_cols. destruct (wrap_all (nc A) l) as [is|] eqn:E; [|discriminate]. intros [= <-].
  pose proof (wrap_all_lt _ _ _ E) as Hlt. apply wrap_all_map in E. destruct E as [E L].
  exists (map (fun row => map (fun j => nth j row (k0 F)) is) (to_lists A)). split.
  - unfold lin_coeffs. replace (if nr A =? 1 then _ else _) with (nr A, nc A, to_lists A)
      by (destruct (nr A =? 1); reflexivity).
    unfold take_cols. rewrite E. simpl.
    rewrite (res_map_ok _ (fun row => map (fun j => nth j row (k0 F)) is)).
    + simpl. rewrite Nat.eqb_refl, L, Nat.eqb_refl. reflexivity.
    + intros row Hrow. apply res_map_ok. intros j Hj. unfold py_nth.
      apply to_lists_row in Hrow. rewrite Forall_forall in Hlt. specialize (Hlt j Hj).
      rewrite (nth_error_nth' _ (k0 F)) by lia. reflexivity.
  - intros i j Hi Hj.
    rewrite (nth_indep _ [] (map (fun j => nth j [] (k0 F)) is)) by (rewrite map_length, to_lists_length; auto).
    rewrite (map_nth (fun row => map (fun j => nth j row (k0 F)) is)).
    rewrite (nth_indep _ (k0 F) (nth 0 (nth i (to_lists A) []) (k0 F))) by (rewrite map_length; lia).
    rewrite (map_nth (fun j => nth j (nth i (to_lists A) []) (k0 F))).
    cbn. unfold mcols. apply to_lists_ent; auto.
    rewrite Forall_forall in Hlt. apply Hlt. apply elem_of_list_In, nth_In. lia.
Qed.
Lemma lin_coeffs_all {F : sfield} (A : arr F) :
  lin_coeffs (nr A) (nc A) (Arr2 (nr A) (nc A) (to_lists A)) None = Ok (to_lists A).
Proof.
  unfold lin_coeffs. replace (if nr A =? 1 then _ else _) with (nr A, nc A, to_lists A)
    by (destruct (nr A =? 1); reflexivity).
  simpl. rewrite !Nat.eqb_refl. reflexivity.
Qed.

(** ** Combinations *)

Lemma foldl_combination {F : sfield} {V} (S : space F V) (HS : ip_space S) u ts : forall t,
  ip S u (foldl (vadd S) t ts) = lsum (map (ip S u) (t :: ts)).
Proof.
  induction ts as [|x ts IH] using rev_ind; intros t.
  - symmetry. apply lsum_one.
  - rewrite foldl_app. simpl foldl. rewrite (ips_add _ HS), IH.
    change (t :: ts ++ [x]) with ((t :: ts) ++ [x]). rewrite map_app, lsum_app.
    f_equal. symmetry. apply lsum_one.
Qed.

(** ** Running on P processes *)

(** All ranks return [a], or all raise [e]. *)
Definition finish {M V A} (r : res A) : proc M V A :=
  match r with Ok a => Ret a | Raise e => Fail e end.
Definition all_end {M V A} (r : res A) (c : config M V A) : Prop :=
  forall i p, procs c !! i = Some p -> p = finish r.

Section Run.
Context {F : sfield} {V : Type} (S : space F V) (HS : ip_space S).
Context (tag_ub : nat) (eager : msg V F -> bool) (P : nat) (limit : option Z).
Context (Hm : made_with limit P (num_nodes S) (per_node S) (per_proc S)).
Context (Ht : P * P - 2 + P / 2 <= tag_ub).

Lemma Hprocs : 0 < P. Proof. destruct Hm; auto. Qed.
Lemma Htag1 : P * P - 1 <= tag_ub.
Proof.
  pose proof Hprocs. destruct (Nat.eq_dec P 1) as [->|]; [lia|].
  assert (1 <= P / 2) by (apply Nat.div_le_lower_bound; lia). lia.
Qed.

Lemma neutral_kadd : neutral (k0 F) (kadd F).
Proof. split; intros x; rewrite ?(Radd_comm (F_R (k_field F)) x); apply (Radd_0_l (F_R (k_field F))). Qed.
Lemma test_zero_ok : tests_zero (k0 F) test_zero.
Proof. intros x. unfold test_zero. destruct (k_dec F x (k0 F)); split; congruence. Qed.

Lemma ip_table_conj (rv cv : list V) :
  table (fun v w => kconj F (ip S w v)) rv cv = table (ip S) rv cv.
Proof.
  unfold table. apply map_ext. intros v. apply map_ext. intros w. apply (ips_conj _ HS).
Qed.

Lemma wp_ip {O} st rows cols rv cv :
  holds st rows rv -> holds st cols cv -> rows <> [] -> cols <> [] ->
  @wp (msg V F) V O tag_ub eager P _ st
    (fun r => ip_array P tag_ub (k0 F) (kadd F) (kconj F) (store_as S) (Some (ip S))
             (per_node S) (per_proc S) (num_nodes S) r rows cols)
    (fun st' b => st' = st /\ forall r, r < P -> b r = table (ip S) rv cv).
Proof.
  intros Hr Hc Nr Nc. destruct (made_with_facts _ _ _ _ _ Hm) as [Hpp Hpn].
  destruct neutral_kadd as [Z1 Z2].
  apply (wp_ip_array P tag_ub eager (k0 F) (kadd F) (kconj F) (store_as S) Z1 Z2 Hprocs (ip S) (ip S)
           (per_node S) (per_proc S) (num_nodes S) st rows cols rv cv); auto.
  - apply Htag1.
  - destruct (_ <? _); unfold stored_as;
      [destruct cv, rv|destruct rv, cv]; auto; intros; apply (ips_type _ HS).
  - intros b Hb. split; auto. intros r Hlt. rewrite Hb by auto.
    destruct (_ <? _); auto. apply ip_table_conj.
Qed.

Lemma wp_symm {O} st vecs vs :
  holds st vecs vs -> vecs <> [] ->
  @wp (msg V F) V O tag_ub eager P _ st
    (fun r => symm_array P tag_ub (k0 F) (kadd F) (kconj F) test_zero (store_as S) (Some (ip S))
             (per_node S) (per_proc S) (num_nodes S) r vecs)
    (fun st' b => st' = st /\ forall r, r < P -> b r = table (ip S) vs vs).
Proof.
  intros Hv Nv. destruct (made_with_facts _ _ _ _ _ Hm) as [Hpp Hpn].
  destruct neutral_kadd as [Z1 Z2]. pose proof (Forall2_length _ _ _ Hv) as Lv.
  destruct vs as [|v0 vs']; [destruct vecs; simpl in *; congruence|]. set (vs := v0 :: vs') in *.
  apply (wp_symm_core P tag_ub eager (k0 F) (kadd F) (kconj F) test_zero (store_as S) Hprocs (ip S) (ip S)
           (per_node S) (per_proc S) (num_nodes S) v0 st vecs vs Hv Hpp (ip S v0 v0)
           (fun i j _ _ => ips_type _ HS _ _ _ _) Hpn Z1 Z2 (conj_0 (F := F)) test_zero_ok _ Ht); auto.
  - rewrite Lv. simpl. lia.
  - intros b x (Sx & D1 & D2) Hb. split; auto. intros r Hlt. rewrite Hb by auto.
    rewrite (table_tabulate P Hprocs (ip S) vs vs v0). rewrite <- Lv in *.
    apply arr_eq_tabulate; auto. intros i j Hi Hj.
    destruct (Nat.lt_trichotomy i j) as [L|[->|G]].
    + destruct (D2 i j L Hj) as (y & Hy & E1 & _). rewrite E1. f_equal.
      destruct Hy as [->| ->]; auto. apply (ips_conj _ HS).
    + apply D1. auto.
    + destruct (D2 j i G Hi) as (y & Hy & _ & E1). rewrite E1. f_equal.
      destruct Hy as [->| ->]; rewrite ?(ips_conj _ HS); reflexivity.
Qed.

Lemma wp_call {O} st l :
  @wp (msg V F) V O tag_ub eager P _ st
    (fun r => call_and_bcast P MNone r (lift (rmap MTup (Ok l))))
    (fun st' b => st' = st /\ forall r, r < P -> b r = MTup l).
Proof.
  unfold call_and_bcast. simpl.
  eapply wp_bind with (Q := fun st' b => st' = st /\
    forall i, i < P -> b i = if i =? 0 then MTup l else MNone).
  - apply wp_ext with (qs := fun i => ret (if i =? 0 then MTup l else MNone)).
    { intros i Hi k. destruct (i =? 0); reflexivity. }
    apply wp_ret. auto.
  - intros st' b [-> Hb]. pose proof Hprocs. destruct (Nat.ltb_spec 1 P).
    + apply wp_bcast; auto. intros a Ha. split; auto. intros r Hr. rewrite Ha, Hb by auto. reflexivity.
    + apply (wp_ret tag_ub eager P st b). split; auto. intros r Hr. rewrite Hb by auto.
      destruct r; [reflexivity|lia].
Qed.

Lemma wp_lin {O} st sums basis bv (coeff : arr F) idx rows :
  lin_coeffs (length basis) (length sums) (Arr2 (nr coeff) (nc coeff) (to_lists coeff)) idx = Ok rows ->
  holds st basis bv -> basis <> [] -> NoDup sums -> (forall h, h ∈ sums -> h ∉ basis) ->
  @wp (msg V F) V O tag_ub eager P _ st
    (fun r => lin_combine P (vadd S) (smul S) (per_node S) (per_proc S) (num_nodes S) r sums basis
        (Arr2 (nr coeff) (nc coeff) (to_lists coeff)) idx)
    (fun st' _ => written S bv rows sums st st').
Proof.
  intros El Hst Nb Hnd Hdis. destruct (made_with_facts _ _ _ _ _ Hm) as [Hpp Hpn].
  destruct (lin_coeffs_shape _ _ _ _ _ El) as [R1 R2].
  pose proof (Forall2_length _ _ _ Hst) as Lb.
  assert (Hnb : 0 < length basis) by (destruct basis; simpl; [congruence|lia]).
  assert (exists d : V, True) as [d _].
  { destruct bv as [|d bv']; [simpl in *; lia|]. eauto. }
  set (term := fun j i => smul S (nth i bv d) (nth j (nth i rows []) (k0 F))).
  assert (Hterm : forall i j, i < length basis -> j < length sums ->
    exists x, get_entry rows i j = Ok x /\ term j i = smul S (nth i bv d) x).
  { intros i j Hi Hj. exists (nth j (nth i rows []) (k0 F)). split; [|reflexivity].
    unfold get_entry, py_nth. rewrite (nth_error_nth' rows []) by lia. simpl.
    rewrite (nth_error_nth' _ (k0 F)); [reflexivity|].
    rewrite Forall_forall in R2. rewrite (R2 (nth i rows [])); auto.
    apply elem_of_list_In, nth_In. lia. }
  apply wp_ext with (qs := fun r => lin_core P (vadd S) (smul S) (per_node S) (per_proc S) (num_nodes S) r sums basis rows).
  { intros r _ k. unfold lin_combine. rewrite El. reflexivity. }
  apply (wp_lin_core P tag_ub eager (vadd S) (smul S) Hprocs (per_node S) (per_proc S) (num_nodes S) d sums basis bv rows
           term); auto; [apply Htag1|]. intros _.
  destruct (puts_finished P (vadd S) Hprocs (per_node S) (per_proc S) (num_nodes S) d sums basis bv term
              (eq_sym Lb) Hpp Hpn Hnb st Hnd) as [F1 F2].
  split; [|exact F2]. intros j h Hj.
  assert (Hjlt : j < length sums) by (apply lookup_lt_Some in Hj; auto).
  destruct (owner_spec P (length sums) j Hprocs Hjlt) as [Ho _].
  set (r := owner P (length sums) j) in *.
  exists (val P (vadd S) d basis term r j). split; [apply F1; auto|].
  intros u.
  pose proof (val_fold1 P (vadd S) Hprocs (per_node S) (per_proc S) (num_nodes S) d sums basis bv term
                (eq_sym Lb) Hpp Hpn Hnb r j Ho) as Hval.
  pose proof (order_perm P Hprocs (per_node S) (per_proc S) (num_nodes S) sums basis bv (eq_sym Lb) Hpp Hpn Hnb r Ho)
    as Hperm.
  set (v := val P (vadd S) d basis term r j) in *.
  assert (E : ip S u v = lsum (map (ip S u) (map (term j) (order P basis r)))).
  { destruct (map (term j) (order P basis r)) as [|t ts]; [discriminate|].
    simpl in Hval. injection Hval as <-. apply foldl_combination; auto. }
  rewrite E, <- lsum_seq, map_map, <- Lb.
  rewrite (lsum_perm _ (map (fun i => ip S u (term j i)) (seq 0 (length basis)))).
  - f_equal. apply map_ext_in. intros i Hi. apply in_seq in Hi.
    unfold term. rewrite (ips_smul _ HS). f_equal. f_equal. apply nth_indep. lia.
  - apply Permutation_map. exact Hperm.
Qed.

End Run.
