(** Coordinates: vectors that are combinations of given ones, and their inner
    products.  With them the algebra proved for arrays applies to handles: the
    coordinates are the array, the Gram array of the given vectors is the weight. *)
From stdpp Require Import gmap list.
From Coq Require Import ZArith Lia Field_theory Ring_theory Field Ring Setoid Morphisms.
From Verif Require Import Prelude Field Matrix NdArray DecompModel VSArraysModel VSArraysProofs
  Spmd SpmdEnds InnerProdModel InnerProdProps LinCombModel BpodModel DmdModel HandlesModel HandlesProofs HandlesSeqProofs.
Open Scope nat_scope.
Open Scope k_scope.

Section Coords.
Context {F : sfield} {V : Type} (S : space F V) (HS : ip_space S).
Add Field Ff_coords : (k_field F).

(** The Gram array of all vectors. *)
Definition gmat (all : list V) : mat F := NdArray.ent (gram S all all).

(** The vectors [bv] have the coordinates [X] (columns) with respect to [all]. *)
Definition coords (all : list V) (X : mat F) (bv : list V) : Prop :=
  forall j d, (j < length bv)%nat -> combination S all (fun a => X a j) (nth j bv d).

Lemma gmat_hermitian all : hermitian (length all) (gmat all).
Proof.
  split. intros i j Hi Hj. unfold gmat, madj.
  destruct all as [|d all']; [simpl in Hi; lia|]. set (all := d :: all') in *.
  rewrite !(gram_ent S all all d) by auto. apply (ips_conj _ HS).
Qed.

Lemma combination_ext all (c c' : nat -> F) v : (forall i, (i < length all)%nat -> c i = c' i) ->
  combination S all c v -> combination S all c' v.
Proof.
  intros E H u. rewrite H. apply sum_ext. intros i Hi. rewrite E by auto. reflexivity.
Qed.
Lemma coords_ext all (X X' : mat F) bv : meq (length all) (length bv) X X' ->
  coords all X bv -> coords all X' bv.
Proof.
  intros E H j d Hj. eapply combination_ext; [|apply H; auto]. intros i Hi. apply E; auto.
Qed.
Lemma coords_self all : coords all mid all.
Proof.
  intros j d Hj u.
  rewrite (sum_delta _ j); auto.
  - unfold mid. rewrite Nat.eqb_refl, (nth_indep all (nth j all d) d) by auto. ring.
  - intros i Hi Hne. unfold mid. rewrite (proj2 (Nat.eqb_neq i j)) by auto. ring.
Qed.

Lemma combination_trans all (X : mat F) bv (c : nat -> F) v :
  coords all X bv -> combination S bv c v ->
  combination S all (fun a => sum (length bv) (fun i => X a i * c i)) v.
Proof.
  intros HX H u. rewrite H.
  rewrite (sum_ext (length bv) _ (fun i => sum (length all) (fun a => ip S u (nth a all v) * X a i * c i))).
  - rewrite sum_swap. apply sum_ext. intros a Ha. rewrite <- sum_mul_l. apply sum_ext. intros i Hi. ring.
  - intros i Hi. rewrite (HX i v Hi u), <- sum_mul_r. apply sum_ext. intros a Ha.
    rewrite (nth_indep all (nth i bv v) v) by auto. reflexivity.
Qed.
Lemma coords_trans all (X C : mat F) bv vs :
  coords all X bv -> coords bv C vs -> coords all (mmul (length bv) X C) vs.
Proof. intros HX HC j d Hj. apply (combination_trans all X bv _ _ HX (HC j d Hj)). Qed.

(** Inner products from coordinates. *)
Lemma combination_ip all (c c' : nat -> F) u v :
  combination S all c u -> combination S all c' v ->
  ip S u v = sum (length all) (fun a => (c a)^* * sum (length all) (fun b => gmat all a b * c' b)).
Proof.
  intros Hu Hv.
  assert (E : forall w, ip S u w = sum (length all) (fun a => (c a)^* * ip S (nth a all u) w)).
  { intros w. rewrite <- (ips_conj _ HS), Hu, sum_conj. apply sum_ext. intros a Ha.
    rewrite conj_mul, (ips_conj _ HS). ring. }
  rewrite E. apply sum_ext. intros a Ha. f_equal. rewrite Hv. apply sum_ext. intros b Hb. f_equal.
  unfold gmat. rewrite (gram_ent S all all u) by auto.
  rewrite (nth_indep all v u) by auto. reflexivity.
Qed.
Lemma coords_ip all (X Y : mat F) us vs i j d :
  coords all X us -> coords all Y vs -> (i < length us)%nat -> (j < length vs)%nat ->
  ip S (nth i us d) (nth j vs d) = wip (length all) (gmat all) X Y i j.
Proof.
  intros HX HY Hi Hj. rewrite (combination_ip all _ _ _ _ (HX i d Hi) (HY j d Hj)). reflexivity.
Qed.
Lemma coords_gram all (X Y : mat F) us vs :
  coords all X us -> coords all Y vs ->
  meq (length us) (length vs) (NdArray.ent (gram S us vs)) (wip (length all) (gmat all) X Y).
Proof.
  intros HX HY. split. intros i j Hi Hj. destruct us as [|d us']; [simpl in Hi; lia|].
  rewrite (gram_ent S _ vs d) by auto. apply coords_ip; auto.
Qed.

(** A slice of [all] starting at [o]. *)
Definition sel (o : nat) : mat F := fun a j => if (a =? o + j)%nat then 1 else 0.
Lemma coords_sel all o bv : (forall j d, (j < length bv)%nat -> (o + j < length all)%nat /\ nth j bv d = nth (o + j)%nat all d) ->
  coords all (sel o) bv.
Proof.
  intros H j d Hj. destruct (H j d Hj) as [H1 H2]. rewrite H2.
  eapply combination_ext; [|apply (coords_self all (o + j)%nat d H1)].
  intros i Hi. reflexivity.
Qed.
Lemma coords_app_l all bv : coords (bv ++ all) (sel 0) bv.
Proof.
  apply coords_sel. intros j d Hj. rewrite app_length. split; [lia|]. simpl. rewrite app_nth1 by auto. auto.
Qed.
Lemma coords_app_r all bv : coords (all ++ bv) (sel (length all)) bv.
Proof.
  apply coords_sel. intros j d Hj. rewrite app_length. split; [lia|].
  rewrite app_nth2 by lia. f_equal. lia.
Qed.

(** What has been written. *)
Lemma written_coords bv rows sums st st' (C : mat F) :
  written S bv rows sums st st' ->
  (forall i j, (i < length bv)%nat -> (j < length sums)%nat -> nth j (nth i rows []) 0 = C i j) ->
  exists vs, holds st' sums vs /\ coords bv C vs.
Proof.
  intros [H1 _] HC.
  assert (G : forall n, (n <= length sums)%nat -> exists vs, holds st' (take n sums) vs /\
      coords bv C vs).
    { induction n as [|n IH]; intros Hn.
      - exists []. split; [constructor|]. intros j d Hj. simpl in Hj. lia.
      - destruct (IH ltac:(lia)) as (vs & Hh & Hc).
        destruct (lookup_lt_is_Some_2 sums n ltac:(lia)) as [h Hl].
        destruct (H1 n h Hl) as (v & Hv & Hcomb).
        assert (L : length vs = n).
        { rewrite <- (Forall2_length _ _ _ Hh), take_length. lia. }
        exists (vs ++ [v]). split.
        + rewrite (take_S_r _ _ _ Hl). apply Forall2_app; auto.
        + intros j d Hj. rewrite app_length in Hj. simpl in Hj.
          destruct (Nat.eq_dec j n) as [->|Hne].
          * rewrite app_nth2 by lia. rewrite L, Nat.sub_diag. simpl.
            eapply combination_ext; [|apply Hcomb]. intros i Hi. simpl. apply HC; auto.
          * rewrite app_nth1 by lia. apply Hc. lia. }
  destruct (G (length sums) ltac:(lia)) as (vs & Hh & Hc). rewrite take_ge in Hh by lia. eauto.
Qed.
Lemma written_keeps bv rows sums st st' hs vs :
  written S bv rows sums st st' -> (forall h, h ∈ sums -> h ∉ hs) -> holds st hs vs -> holds st' hs vs.
Proof.
  intros [_ H2] Hd Hh. unfold holds in *. apply Forall2_same_length_lookup.
  apply Forall2_same_length_lookup in Hh. destruct Hh as [L Hh]. split; auto.
  intros i h v E1 E2. rewrite H2; [eauto|]. intros Hin. apply (Hd h Hin).
  apply elem_of_list_lookup. eauto.
Qed.

(** Combinations exist. *)
Lemma combination_exists all (c : nat -> F) : all <> [] -> exists v, combination S all c v.
Proof.
  induction all as [|x all IH] using rev_ind; [congruence|]. intros _.
  destruct all as [|y all'].
  - exists (smul S x (c O)). intros u. simpl. rewrite (ips_smul _ HS). ring.
  - assert (N : y :: all' <> []) by discriminate. revert IH N. generalize (y :: all'). clear y all'.
    intros all IH N. destruct (IH N) as [v Hv].
    exists (vadd S v (smul S x (c (length all)))). intros u.
    rewrite (ips_add _ HS), (ips_smul _ HS), Hv, app_length. change (length [x]) with 1%nat.
    rewrite Nat.add_1_r. cbn [sum]. f_equal.
    + apply sum_ext. intros i Hi. rewrite app_nth1 by auto. f_equal. f_equal. apply nth_indep. auto.
    + rewrite app_nth2, Nat.sub_diag by lia. reflexivity.
Qed.

End Coords.

(** ** Proving [ok] of a method, one operation at a time *)

Section OkRules.
Context {F : sfield} {V : Type} (S : space F V) (HS : ip_space S).
Context {A : Type}.
Implicit Types (st : gmap loc V) (Post : gmap loc V -> res A -> Prop).

Lemma ok_lift {B} (r : res B) b (f : B -> hprog F A) st Post :
  r = Ok b -> ok S st (f b) Post -> ok S st (hbind (hlift r) f) Post.
Proof. intros ->. auto. Qed.
Lemma ok_lift_err {B} (r : res B) e (f : B -> hprog F A) st Post :
  r = Raise e -> Post st (Raise e) -> ok S st (hbind (hlift r) f) Post.
Proof. intros ->. auto. Qed.
Lemma ok_symm vecs vs (f : arr F -> hprog F A) st Post :
  holds st vecs vs -> vecs <> [] -> ok S st (f (gram S vs vs)) Post ->
  ok S st (hbind (symm_inner_products vecs) f) Post.
Proof. intros H1 H2 H3. exists vs. auto. Qed.
Lemma ok_need {B} e (x : option B) b (f : B -> hprog F A) st Post :
  x = Some b -> ok S st (f b) Post -> ok S st (hbind (need e x) f) Post.
Proof. intros -> H. exact H. Qed.
Lemma ok_ip rows cols rv cv (f : arr F -> hprog F A) st Post :
  holds st rows rv -> holds st cols cv -> rows <> [] -> cols <> [] -> ok S st (f (gram S rv cv)) Post ->
  ok S st (hbind (inner_products rows cols) f) Post.
Proof. intros H1 H2 H3 H4 H5. exists rv, cv. auto 6. Qed.
Lemma ok_eigh r w (U : arr F) (f : _ -> hprog F A) st Post :
  r = Ok (w, U) -> ok S st (f (w, U)) Post -> ok S st (hbind (bcast_eigh r) f) Post.
Proof. intros -> H. exists [IVec w; pack U]. split; [reflexivity|]. destruct U. exact H. Qed.
Lemma ok_svd r (L : arr F) w (R : arr F) (f : _ -> hprog F A) st Post :
  r = Ok (L, w, R) -> ok S st (f (L, w, R)) Post -> ok S st (hbind (bcast_svd r) f) Post.
Proof. intros -> H. exists [pack L; IVec w; pack R]. split; [reflexivity|]. destruct L, R. exact H. Qed.
Lemma ok_eig r w (R L : arr F) (f : _ -> hprog F A) st Post :
  r = Ok (w, R, L) -> ok S st (f (w, R, L)) Post -> ok S st (hbind (bcast_eig r) f) Post.
Proof. intros -> H. exists [IVec w; pack R; pack L]. split; [reflexivity|]. destruct L, R. exact H. Qed.
Lemma ok_arr r (B : arr F) (f : _ -> hprog F A) st Post :
  r = Ok B -> ok S st (f B) Post -> ok S st (hbind (bcast_arr r) f) Post.
Proof. intros -> H. exists [pack B]. split; [reflexivity|]. destruct B. exact H. Qed.

Lemma lin_coeffs_bad (C : arr F) l e : wrap_all (nc C) l = Raise e ->
  lin_coeffs (nr C) (length l) (Arr2 (nr C) (nc C) (to_lists C)) (Some (Cols l)) = Raise e.
Proof.
  intros E. unfold lin_coeffs. replace (if _ =? 1 then _ else _) with (nr C, nc C, to_lists C)
    by (destruct (_ =? 1); reflexivity).
  unfold take_cols.
  assert (G : res_map (norm_index (nc C)) l = Raise e).
  { revert E. induction l as [|z l IH]; simpl; [discriminate|]. rewrite norm_wrap.
    destruct (wrap_index (nc C) z); simpl; [|auto]. destruct (wrap_all (nc C) l); [discriminate|].
    intros [= ->]. rewrite IH by auto. reflexivity. }
  rewrite G. reflexivity.
Qed.

(** lin_combine with a list of column indices. *)
Lemma ok_combine sums basis (C : arr F) l bv (f : unit -> hprog F A) st Post :
  nr C = length basis -> length sums = length l ->
  holds st basis bv -> basis <> [] -> NoDup sums -> (forall h, h ∈ sums -> h ∉ basis) ->
  match wrap_all (nc C) l with
  | Raise e => Post st (Raise e)
  | Ok js => forall st' ms, length js = length l -> Forall (fun j => j < nc C) js ->
      holds st' sums ms -> length ms = length l ->
      coords S bv (mcols (NdArray.ent C) (fun j => nth j js O)) ms ->
      (forall h, h ∉ sums -> st' !! h = st !! h) -> ok S st' (f tt) Post
  end ->
  ok S st (hbind (combine sums basis C (Some (Cols l))) f) Post.
Proof.
  intros E1 E2 Hb Nb Hnd Hdis H. unfold combine. cbn [hbind ok]. rewrite <- E1, E2.
  destruct (wrap_all (nc C) l) as [js|e] eqn:Ew.
  - assert (Ep : pick_cols C l = Ok (Arr (nr C) (length js) (mcols (NdArray.ent C) (fun j => nth j js O)))).
    { unfold pick_cols. rewrite Ew. reflexivity. }
    destruct (lin_coeffs_pick C _ l Ep) as (rows & -> & Hrows).
    exists bv. do 4 (split; [auto|]). intros st' Hw.
    pose proof (Forall2_length _ _ _ Hb) as Lb.
    destruct (written_coords S bv rows sums st st' (mcols (NdArray.ent C) (fun j => nth j js O)) Hw)
      as (ms & Hms & Hco).
    { intros i j Hi Hj. rewrite Hrows by lia. reflexivity. }
    apply (H st' ms); auto.
    + apply wrap_all_map in Ew. tauto.
    + apply wrap_all_lt in Ew. auto.
    + rewrite <- (Forall2_length _ _ _ Hms). auto.
    + destruct Hw as [_ Hw]. auto.
  - rewrite (lin_coeffs_bad C l e Ew). auto.
Qed.
(** A wrong number of mode handles or of basis vectors. *)
Lemma ok_combine_mismatch sums basis (C : arr F) l js (f : unit -> hprog F A) st Post :
  wrap_all (nc C) l = Ok js -> nr C <> length basis \/ length sums <> length l -> Post st (Raise ValueError) ->
  ok S st (hbind (combine sums basis C (Some (Cols l))) f) Post.
Proof.
  intros Ew Hne HP. unfold combine. cbn [hbind ok].
  assert (E : lin_coeffs (length basis) (length sums) (Arr2 (nr C) (nc C) (to_lists C)) (Some (Cols l))
              = Raise ValueError); [|rewrite E; auto].
  unfold lin_coeffs. replace (if _ =? 1 then _ else _) with (nr C, nc C, to_lists C)
    by (destruct (_ =? 1); reflexivity).
  unfold take_cols. pose proof (wrap_all_lt _ _ _ Ew) as Hlt. apply wrap_all_map in Ew.
  destruct Ew as [-> L]. simpl.
  rewrite (res_map_ok _ (fun row => map (fun j => nth j row (k0 F)) js)).
  - simpl. destruct (Nat.eqb_spec (length basis) (nr C)) as [E1|E1]; simpl; [|reflexivity].
    destruct (Nat.eqb_spec (length sums) (length js)) as [E2|E2]; simpl; [|reflexivity].
    destruct Hne as [Hne|Hne]; exfalso; apply Hne; congruence.
  - intros row Hrow. apply res_map_ok. intros j Hj. unfold py_nth.
    apply to_lists_row in Hrow. rewrite Forall_forall in Hlt. specialize (Hlt j Hj).
    rewrite (nth_error_nth' _ (k0 F)) by lia. reflexivity.
Qed.

End OkRules.

(** ** Statements about methods run on all ranks *)

(** On every schedule the method ends on all [P] ranks with one result [r], and
    [Q (store) r] holds then. *)
Definition runs {F : sfield} {V A} (S : space F V) (P tag_ub : nat) (eager : InnerProdModel.msg V F -> bool)
    (st : gmap loc V) (h : hprog F A) (Q : gmap loc V -> res A -> Prop) : Prop :=
  always_ends tag_ub eager (launch P (fun r => exec P tag_ub S r h) st)
    (fun c => length (procs c) = P /\ exists r, all_end r c /\ Q (store c) r).

(** The vector space object was made on [P] processes, and MPI allows the tags used. *)
Definition set_up {F : sfield} {V} (limit : option Z) (P tag_ub : nat) (S : space F V) : Prop :=
  made_with limit P (num_nodes S) (per_node S) (per_proc S) /\ (P * P - 2 + P / 2 <= tag_ub)%nat.

(** Nothing with [hs] has changed. *)
Definition unchanged_but {V} (st st' : gmap loc V) (hs : list loc) : Prop :=
  forall h, h ∉ hs -> st' !! h = st !! h.

Lemma unchanged_holds {V} (st st' : gmap loc V) out hs vs :
  holds st hs vs -> unchanged_but st st' out -> (forall h, h ∈ hs -> h ∉ out) -> holds st' hs vs.
Proof.
  intros Hh Hu Hno. unfold holds in *. apply Forall2_same_length_lookup.
  apply Forall2_same_length_lookup in Hh. destruct Hh as [L0 Hh]. split; auto.
  intros i h v E1 E2. rewrite Hu; [eauto|]. apply Hno. apply elem_of_list_lookup. eauto.
Qed.

(** Definite: a vector of zero norm is invisible to the inner product. *)
Definition ip_definite {F : sfield} {V} (S : space F V) : Prop :=
  forall w, ip S w w = k0 F -> forall u, ip S u w = k0 F.

(** What one process does is what all do. *)
Lemma ok_runs {F : sfield} {V A} (S : space F V) limit P tag_ub eager (h : hprog F A) st Q :
  ip_space S -> set_up limit P tag_ub S -> ok S st h Q -> runs S P tag_ub eager st h Q.
Proof. intros HS [Hm Ht] H. exact (any_method_ends S HS tag_ub eager P limit Hm Ht h st Q H). Qed.

Lemma runs_mono {F : sfield} {V A} (S : space F V) P tag_ub eager (h : hprog F A) st (Q Q' : _ -> _ -> Prop) :
  runs S P tag_ub eager st h Q -> (forall st' r, Q st' r -> Q' st' r) -> runs S P tag_ub eager st h Q'.
Proof.
  intros [n H] HQ. exists n. intros k d Hd. destruct (H k d Hd) as (H1 & H2 & d' & H3 & H4).
  assert (G : forall c : config (InnerProdModel.msg V F) V A, (length (procs c) = P /\ exists r, all_end r c /\ Q (store c) r) ->
    length (procs c) = P /\ exists r, all_end r c /\ Q' (store c) r).
  { intros c (L & r & E & q). eauto. }
  split; auto. split; auto. eauto.
Qed.

Lemma mcols_wip {F : sfield} n (W A B : mat F) f g i j :
  wip n W (mcols A f) (mcols B g) i j = wip n W A B (f i) (g j).
Proof. reflexivity. Qed.
Lemma nth_js js n a : Forall (fun j => (j < n)%nat) js -> (a < length js)%nat -> (nth a js O < n)%nat.
Proof. intros H Ha. rewrite Forall_forall in H. apply H. apply elem_of_list_In, nth_In. auto. Qed.

(** Everything [h] may return satisfies [R]. *)
Fixpoint returns {F : sfield} {A} (R : A -> Prop) (h : hprog F A) : Prop :=
  match h with
  | HRet a => R a
  | HFail _ => True
  | HIp _ _ k | HSymm _ k => forall a, returns R (k a)
  | HCall _ k => forall l, returns R (k l)
  | HLin _ _ _ _ k => returns R k
  end.
Lemma returns_True {F : sfield} {A} (h : hprog F A) : returns (fun _ => True) h.
Proof. induction h; simpl; auto. Qed.
Lemma returns_bind {F : sfield} {A B} (R : A -> Prop) (Q : B -> Prop) (h : hprog F A) f :
  returns R h -> (forall a, R a -> returns Q (f a)) -> returns Q (hbind h f).
Proof. intros H Hf. induction h; simpl in *; auto. Qed.
Lemma returns_all {F : sfield} {A B} (Q : B -> Prop) (h : hprog F A) f :
  (forall a, returns Q (f a)) -> returns Q (hbind h f).
Proof. intros H. apply (returns_bind (fun _ => True)); [apply returns_True|auto]. Qed.
Lemma returns_need {F : sfield} {A} e (o : option A) : returns (F := F) (fun a => o = Some a) (need e o).
Proof. destruct o; simpl; auto. Qed.

(** Reading a sequence of methods backwards. *)
Lemma ok_unbind {F : sfield} {V A B} (S : space F V) (h : hprog F A) (f : A -> hprog F B) : forall st Post,
  ok S st (hbind h f) Post ->
  ok S st h (fun st' r => match r with Ok a => ok S st' (f a) Post | Raise e => Post st' (Raise e) end).
Proof.
  induction h as [a|e|rows cols k IH|vecs k IH|call k IH|sums basis coeff idx k IH];
    intros st Post H; simpl in *; auto.
  - destruct H as (rv & cv & H1 & H2 & H3 & H4 & H5). exists rv, cv. do 4 (split; [auto|]). auto.
  - destruct H as (vs & H1 & H2 & H3). exists vs. do 2 (split; [auto|]). auto.
  - destruct H as (l & H1 & H2). exists l. auto.
  - destruct (lin_coeffs _ _ _ _); auto. destruct H as (bv & H1 & H2 & H3 & H4 & H5).
    exists bv. do 4 (split; [auto|]). intros st' Hw. auto.
Qed.
(** Without commands. *)
Fixpoint pure {F : sfield} {A} (h : hprog F A) : Prop :=
  match h with HRet _ | HFail _ => True | _ => False end.
Lemma pure_bind {F : sfield} {A B} (h : hprog F A) (f : A -> hprog F B) :
  pure h -> (forall a, pure (f a)) -> pure (hbind h f).
Proof. destruct h; simpl; auto; contradiction. Qed.
Lemma pure_lift {F : sfield} {A} (r : res A) : pure (F := F) (hlift r).
Proof. destruct r; exact Logic.I. Qed.
Lemma pure_need {F : sfield} {A} e (o : option A) : pure (F := F) (need e o).
Proof. destruct o; exact Logic.I. Qed.
Lemma ok_pure {F : sfield} {V A} (S : space F V) (h : hprog F A) st Post : pure h -> ok S st h Post -> exists r, Post st r.
Proof. destruct h; simpl; try contradiction; eauto. Qed.
