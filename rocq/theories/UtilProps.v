(** Property C51, the helpers. *)
From Coq Require Import String Ascii ZArith QArith.
From stdpp Require Import gmap list.
From Verif Require Import Prelude ParallelModel ParallelProps Spmd SpmdEnds ReductionsModel ReductionsProps
  InnerProdModel InnerProdProofs DerivsProofs InnerProdProps VecSpaceModel UtilModel.
Open Scope nat_scope.

(** * Lists *)

Lemma flatten_push {A} (elem out : list A) :
  fold_left (fun out num => out ++ [num]) elem out = out ++ elem.
Proof.
  revert out. induction elem as [|x l IH]; intros out; simpl; [rewrite app_nil_r; auto|].
  rewrite IH, <- app_assoc. reflexivity.
Qed.
Theorem C51_flatten_list {A} (l : list (list A)) : flatten_list l = List.concat l.
Proof.
  unfold flatten_list. assert (G : forall out, fold_left (fun out elem =>
    fold_left (fun out num => out ++ [num]) elem out) l out = out ++ List.concat l).
  { induction l as [|e l IH]; intros out; simpl; [rewrite app_nil_r; auto|].
    rewrite IH, flatten_push, <- app_assoc. reflexivity. }
  apply (G []).
Qed.
(** Flattening the assignments of all workers gives the tasks back. *)
Theorem C51_flatten_assignments {A} P (tasks : list A) (w : list Q) :
  0 < P -> length w = length tasks -> Forall (fun x => 0 < x)%Q w ->
  flatten_list (find_assignments P tasks (Some w)) = tasks.
Proof.
  intros HP Hw Hp. rewrite C51_flatten_list. apply C01_positive_weights; auto.
Qed.

(** The result is always iterable, and making it iterable again changes nothing. *)
Theorem C51_make_iterable {A} (a : arg A) :
  make_iterable (Iterable (make_iterable a)) = make_iterable a /\
  (forall x, a = Single x -> make_iterable a = [x]) /\
  (forall l, a = Iterable l -> make_iterable a = l).
Proof. split; [reflexivity|]. split; intros ? ->; reflexivity. Qed.

Lemma sum_lists_zip {A} (add : A -> A -> A) l l' : length l = length l' ->
  sum_lists add l l' = Some (zip_with add l l').
Proof.
  intros E. unfold sum_lists. rewrite (proj2 (Nat.eqb_eq _ _) E).
  assert (G : forall p p' q q', l = p ++ q -> l' = p' ++ q' -> length p = length p' ->
    foldr (fun i out => match l !! i, l' !! i, out with
      | Some x, Some y, Some l => Some (add x y :: l) | _, _, _ => None end) (Some [])
      (seq (length p) (length q)) = Some (zip_with add q q')).
  { intros p p' q. revert p p'. induction q as [|x q IH]; intros p p' q' E1 E2 E3; [reflexivity|].
    destruct q' as [|y q'].
    { exfalso. assert (L : length l = length l') by exact E.
      rewrite E1, E2, !app_length in L. simpl in L. lia. }
    simpl.
    assert (L1 : l !! length p = Some x) by (rewrite E1; apply list_lookup_middle; auto).
    assert (L2 : l' !! length p = Some y) by (rewrite E2; apply list_lookup_middle; auto).
    rewrite L1, L2.
    specialize (IH (p ++ [x]) (p' ++ [y]) q').
    rewrite !app_length in IH. simpl in IH. rewrite Nat.add_1_r in IH.
    rewrite IH; [reflexivity| | |lia]; rewrite <- app_assoc; auto. }
  apply (G [] [] l l'); auto.
Qed.

(** Lists of equal length are added element by element, others rejected. *)
Theorem C51_sum_lists {A} (add : A -> A -> A) l l' :
  (length l = length l' -> exists s, sum_lists add l l' = Some s /\ length s = length l /\
     forall i x y, l !! i = Some x -> l' !! i = Some y -> s !! i = Some (add x y)) /\
  (length l <> length l' -> sum_lists add l l' = None).
Proof.
  split; intros E.
  - exists (zip_with add l l'). split; [apply sum_lists_zip; auto|].
    split; [rewrite zip_with_length; lia|].
    intros i x y Hx Hy. apply lookup_zip_with_Some. eauto.
  - unfold sum_lists. rewrite (proj2 (Nat.eqb_neq _ _) E). reflexivity.
Qed.

(** sum_arrays does the same on arrays of equal length, but also accepts a single
    number on one side. *)
Theorem C51_sum_arrays {A} (add : A -> A -> A) l l' :
  (length l = length l' -> exists s, sum_arrays add l l' = Ok s /\ sum_lists add l l' = Some s) /\
  (length l <> length l' -> length l <> 1 -> length l' <> 1 ->
     sum_arrays add l l' = Raise ValueError) /\
  (forall x, length l' <> 1 -> sum_arrays add [x] l' = Ok (map (add x) l') /\
     sum_lists add [x] l' = None) /\
  (forall y, length l <> 1 -> sum_arrays add l [y] = Ok (map (fun x => add x y) l) /\
     sum_lists add l [y] = None).
Proof.
  split; [|split; [|split]].
  - intros E. exists (zip_with add l l'). split; [|apply sum_lists_zip; auto].
    unfold sum_arrays. rewrite (proj2 (Nat.eqb_eq _ _) E). reflexivity.
  - intros E H1 H2. unfold sum_arrays. rewrite (proj2 (Nat.eqb_neq _ _) E).
    destruct l as [|x [|x' l]], l' as [|y [|y' l']]; simpl in *; auto; lia.
  - intros x H. unfold sum_arrays, sum_lists. cbn [length].
    rewrite (proj2 (Nat.eqb_neq 1 (length l'))) by lia. auto.
  - intros y H. unfold sum_arrays, sum_lists. cbn [length].
    rewrite (proj2 (Nat.eqb_neq (length l) 1)) by lia. split; auto.
    destruct l as [|x [|x' l]]; simpl in *; auto; lia.
Qed.

(** The operation as MPI sees it: [None] is a call that has raised. *)
Definition sum_op {A} (add : A -> A -> A) (a b : option (list A)) : option (list A) :=
  match a, b with Some l, Some l' => sum_lists add l l' | _, _ => None end.

Lemma sum_op_eq {A} (add : A -> A -> A) l l' :
  sum_op add (Some l) (Some l') =
  if length l =? length l' then Some (zip_with add l l') else None.
Proof.
  simpl. destruct (Nat.eqb_spec (length l) (length l')) as [E|E].
  - apply sum_lists_zip; auto.
  - apply C51_sum_lists; auto.
Qed.
Lemma zip_with_assoc {A} (add : A -> A -> A) : associative add -> forall a b c,
  zip_with add a (zip_with add b c) = zip_with add (zip_with add a b) c.
Proof.
  intros H a. induction a as [|x a IH]; intros [|y b] [|z c]; simpl; auto.
  rewrite H, IH. reflexivity.
Qed.
Lemma sum_op_assoc {A} (add : A -> A -> A) : associative add -> associative (sum_op add).
Proof.
  intros H [a|] [b|] [c|]; try reflexivity.
  - rewrite !sum_op_eq.
    destruct (Nat.eqb_spec (length b) (length c)) as [E|E],
      (Nat.eqb_spec (length a) (length b)) as [E'|E']; rewrite ?sum_op_eq; auto;
    rewrite ?zip_with_length; repeat match goal with
      |- context [Nat.eqb ?m ?n] => destruct (Nat.eqb_spec m n); try lia end; auto.
    rewrite zip_with_assoc; auto.
  - rewrite (sum_op_eq add a b). destruct (length a =? length b); auto.
Qed.

Lemma sum_op_fold {A} (add : A -> A -> A) n d (x : nat -> list A) is :
  (forall i, length (x i) = n) -> forall l, length l = n ->
  exists s, fold_left (sum_op add) (map (fun i => Some (x i)) is) (Some l) = Some s /\
    length s = n /\ forall j, j < n ->
      nth j s d = fold_left add (map (fun i => nth j (x i) d) is) (nth j l d).
Proof.
  intros Hx. induction is as [|i is IH]; intros l Hl; [exists l; simpl; auto|].
  cbn [map fold_left]. rewrite sum_op_eq. rewrite (proj2 (Nat.eqb_eq _ _)) by (rewrite Hx; auto).
  destruct (IH (zip_with add l (x i))) as (s & E & L & N).
  { rewrite zip_with_length, Hx. lia. }
  exists s. split; auto. split; auto. intros j Hj. rewrite N by auto. f_equal.
  assert (Hj' : j < length l) by lia. assert (Hj'' : j < length (x i)) by (rewrite Hx; auto).
  clear -Hj' Hj''. revert j l Hj' Hj''. generalize (x i) as m. intros m.
  induction m as [|y m IH]; intros [|j] [|z l]; simpl; intros; try lia; auto.
  apply IH; lia.
Qed.

Lemma all_return_mono {M V O} (Q Q' : nat -> O -> Prop) (c : config M V O) :
  (forall i o, Q i o -> Q' i o) -> all_return Q c -> all_return Q' c.
Proof.
  intros H [H1 H2]. split; auto. intros i p Hp. destruct (H1 i p Hp) as (o & -> & Ho). eauto.
Qed.

(** With [allreduce] every rank gets the sums over the ranks, and no call of
    sum_lists raises. *)
Theorem C51_sum_lists_allreduce {A V} tag_ub (eager : option (list A) -> bool) P add n d
    (x : nat -> list A) :
  0 < P -> associative add -> (forall r, length (x r) = n) ->
  collective (V := V) tag_ub eager P
    (fun r => allreduce P tag_ub (sum_op add) r (Some (x r)))
    (fun _ o => exists s, o = Some s /\ length s = n /\
       forall j, j < n -> nth j s d = ordered_fold add (fun r => nth j (x r) d) P).
Proof.
  intros HP Ha Hx st.
  refine (always_ends_mono _ _ _ _ _ (C08_allreduce tag_ub eager P (sum_op add)
    (fun r => Some (x r)) HP (sum_op_assoc add Ha) st) _).
  intros c (H1 & H2 & H3). split; [|auto]. revert H1. apply all_return_mono.
  intros i o ->. unfold ordered_fold. apply sum_op_fold; auto.
Qed.

(** If the ranks' lists have different lengths, the assertion fails. *)
Theorem C51_sum_lists_mismatch {A V} tag_ub (eager : option (list A) -> bool) P add
    (x : nat -> list A) r :
  r < P -> associative add -> length (x r) <> length (x 0) ->
  collective (V := V) tag_ub eager P
    (fun r => allreduce P tag_ub (sum_op add) r (Some (x r))) (fun _ o => o = None).
Proof.
  intros HP Ha Hx st. assert (HP' : 0 < P) by lia.
  refine (always_ends_mono _ _ _ _ _ (C08_allreduce tag_ub eager P (sum_op add)
    (fun r => Some (x r)) HP' (sum_op_assoc add Ha) st) _).
  intros c (H1 & H2 & H3). split; [|auto]. revert H1. apply all_return_mono.
  intros i o ->. unfold ordered_fold.
  assert (N : forall is, fold_left (sum_op add) (map (fun r => Some (x r)) is) None = None).
  { induction is; simpl; auto. }
  assert (G : forall is, In r is -> forall l, length l = length (x 0) ->
    fold_left (sum_op add) (map (fun r => Some (x r)) is) (Some l) = None).
  { induction is as [|k is IH]; intros Hin l Hl; [destruct Hin|].
    cbn [map fold_left]. rewrite sum_op_eq.
    destruct (Nat.eqb_spec (length l) (length (x k))) as [E|E]; [|apply N].
    destruct Hin as [->|Hin]; [exfalso; congruence|]. apply IH; auto.
    rewrite zip_with_length. lia. }
  apply G; auto. apply in_seq.
  assert (r <> 0) by (intros ->; auto). lia.
Qed.

(** * smart_eq *)

(** The entries fill the shape. *)
Definition well_formed {A} (a : pyobj A) : Prop :=
  match a with PArr s l => length l = fold_right Nat.mul 1 s | POther _ _ => True end.

Lemma all_equal_spec {A} (eqb : A -> A -> bool) l l' : length l = length l' ->
  all_equal eqb l l' = true <-> Forall2 (fun x y => eqb x y = true) l l'.
Proof.
  revert l'. induction l as [|x l IH]; intros [|y l'] E; try discriminate; simpl.
  - split; auto.
  - rewrite andb_true_iff, IH by (simpl in E; lia). split.
    + intros [H1 H2]. constructor; auto.
    + intros H. inversion_clear H. auto.
Qed.

(** Objects are equal exactly if they have the same type and the same value; for
    arrays, the same shape and equal entries. *)
Theorem C51_smart_eq {A} (eqb : A -> A -> bool) a b : well_formed a -> well_formed b ->
  smart_eq eqb a b = true <->
  match a, b with
  | PArr s l, PArr s' l' => s = s' /\ Forall2 (fun x y => eqb x y = true) l l'
  | POther t v, POther t' v' => t = t' /\ v = v'
  | _, _ => False
  end.
Proof.
  intros Ha Hb. unfold smart_eq. destruct a as [s l|t v], b as [s' l'|t' v']; simpl in *;
    try (split; [discriminate|contradiction]).
  - case_bool_decide as E; simpl.
    + subst s'. rewrite all_equal_spec by congruence. tauto.
    + split; [discriminate|]. intros [E' _]. contradiction.
  - destruct (Nat.eqb_spec t t') as [E|E]; simpl.
    + rewrite Nat.eqb_eq. tauto.
    + split; [discriminate|tauto].
Qed.

(** With entries that are equal only if identical it is equality. *)
Theorem C51_smart_eq_exact {A} (eqb : A -> A -> bool) a b :
  (forall x y, eqb x y = true <-> x = y) -> well_formed a -> well_formed b ->
  smart_eq eqb a b = true <-> a = b.
Proof.
  intros H Ha Hb. rewrite C51_smart_eq by auto.
  assert (G : forall l l', Forall2 (fun x y => eqb x y = true) l l' <-> l = l').
  { induction l as [|x l IH]; intros [|y l']; split; intros E; try inversion E; subst; auto.
    - f_equal; [apply H; auto|apply IH; auto].
    - constructor; [apply H; auto|apply IH; auto]. }
  destruct a, b; rewrite ?G; split; try contradiction; try discriminate.
  - intros [-> ->]; auto.
  - intros [= -> ->]; auto.
  - intros [-> ->]; auto.
  - intros [= -> ->]; auto.
Qed.

(** An array with an entry not equal to itself (a NaN) is not equal to itself. *)
Theorem C51_smart_eq_nan_refuted {A} (eqb : A -> A -> bool) (nan x : A) :
  eqb nan nan = false ->
  well_formed (PArr [2] [x; nan]) /\
  smart_eq eqb (PArr [2] [x; nan]) (PArr [2] [x; nan]) = false.
Proof.
  intros H. split; [reflexivity|]. unfold smart_eq. simpl. rewrite H.
  destruct (eqb x x); reflexivity.
Qed.

(** * InnerProductBlock *)

Section Block.
Context {V K : Type}.

Lemma fill_row (g : V -> K) (v : V) (i : nat) (vecs1 : list V) (vecs2 : list V) like
    (store_as : K -> K -> res K) (ip : V -> V -> K) :
  py_nth vecs1 i = Ok v ->
  (forall w, w ∈ vecs2 -> store_as like (ip v w) = Ok (g w)) ->
  forall pre suf (r : list K) (a : list (list K)), vecs2 = pre ++ suf ->
  length r = length suf -> a !! i = Some (map g pre ++ r) ->
  res_fold (fun j a => (v <-? py_nth vecs1 i ; w <-? py_nth vecs2 j ;
      x <-? store_as like (ip v w) ; set_entry a i j x)%res)
    (seq (length pre) (length suf)) a = Ok (<[i := map g vecs2]> a).
Proof.
  intros Hv Hg pre suf. match goal with |- context [res_fold ?f] => set (body := f) end.
  revert pre. induction suf as [|w suf IH]; intros pre r a E L Ha.
  - destruct r; [|discriminate]. rewrite !app_nil_r in *. subst vecs2. simpl.
    rewrite list_insert_id; auto.
  - destruct r as [|y r]; [discriminate|]. cbn [length seq res_fold].
    assert (Hb : body (length pre) a =
      Ok (<[i := <[length pre := g w]> (map g pre ++ y :: r)]> a)).
    { unfold body. rewrite Hv. cbn [rbind].
      assert (E2 : py_nth vecs2 (length pre) = Ok w).
      { unfold py_nth. rewrite E, nth_error_app2, Nat.sub_diag by lia. reflexivity. }
      rewrite E2. cbn [rbind].
      rewrite Hg by (rewrite E; apply elem_of_app; right; left). cbn [rbind].
      unfold set_entry. rewrite Ha.
      rewrite decide_True by (rewrite app_length, map_length; simpl; lia). reflexivity. }
    rewrite Hb.
    assert (L2 : length pre < length vecs2) by (rewrite E, app_length; simpl; lia).
    replace (S (length pre)) with (length (pre ++ [w])) by (rewrite app_length; simpl; lia).
    rewrite (IH (pre ++ [w]) r).
    + rewrite list_insert_insert. reflexivity.
    + rewrite <- app_assoc. exact E.
    + simpl in L. lia.
    + rewrite list_lookup_insert by (apply lookup_lt_Some in Ha; auto). f_equal.
      rewrite map_app, <- app_assoc. cbn [map app].
      replace (length pre) with (length (map g pre) + 0) by (rewrite map_length; lia).
      rewrite insert_app_r. reflexivity.
Qed.
End Block.

(** The block of all inner products, typed by the first. *)
Theorem C51_block {V K} (zero : K) store_as (ip g : V -> V -> K) vecs1 vecs2 v0 w0 :
  head vecs1 = Some v0 -> head vecs2 = Some w0 ->
  (forall v w, v ∈ vecs1 -> w ∈ vecs2 -> store_as (ip v0 w0) (ip v w) = Ok (g v w)) ->
  product_block zero store_as ip vecs1 vecs2 = Ok (all_pairs g vecs1 vecs2).
Proof.
  intros H1 H2 Hg. unfold product_block.
  assert (E1 : py_nth vecs1 0 = Ok v0) by (destruct vecs1; [discriminate|]; injection H1 as ->; auto).
  assert (E2 : py_nth vecs2 0 = Ok w0) by (destruct vecs2; [discriminate|]; injection H2 as ->; auto).
  rewrite E1. cbn [rbind]. rewrite E2. cbn [rbind].
  assert (G : forall suf pre, vecs1 = pre ++ suf ->
    res_fold (fun i a => res_fold (fun j a => (v <-? py_nth vecs1 i ; w <-? py_nth vecs2 j ;
        x <-? store_as (ip v0 w0) (ip v w) ; set_entry a i j x)%res)
        (seq 0 (length vecs2)) a) (seq (length pre) (length suf))
      (all_pairs g pre vecs2 ++ zeros zero (length suf) (length vecs2)) =
    Ok (all_pairs g vecs1 vecs2)).
  { induction suf as [|v suf IH]; intros pre E.
    - rewrite app_nil_r in E. subst pre. simpl. rewrite app_nil_r. reflexivity.
    - cbn [length seq res_fold].
      assert (Ev : py_nth vecs1 (length pre) = Ok v).
      { unfold py_nth. rewrite E, nth_error_app2, Nat.sub_diag by lia. reflexivity. }
      assert (Lp : length (all_pairs g pre vecs2) = length pre) by apply map_length.
      pose proof (fill_row (g v) v (length pre) vecs1 vecs2 (ip v0 w0) store_as ip Ev) as R.
      specialize (R ltac:(intros w Hw; apply Hg; auto; rewrite E; apply elem_of_app; right; left)).
      specialize (R [] vecs2 (replicate (length vecs2) zero)
        (all_pairs g pre vecs2 ++ zeros zero (S (length suf)) (length vecs2)) eq_refl
        ltac:(rewrite replicate_length; auto)).
      cbn [length map app] in R. rewrite R; clear R.
      + replace (S (length pre)) with (length (pre ++ [v])) by (rewrite app_length; simpl; lia).
        specialize (IH (pre ++ [v])). rewrite <- app_assoc in IH. specialize (IH E).
        rewrite <- IH. f_equal. unfold all_pairs at 2. rewrite map_app, <- app_assoc.
        replace (length pre) with (length (all_pairs g pre vecs2) + 0) by lia.
        rewrite insert_app_r. reflexivity.
      + rewrite lookup_app_r by lia. rewrite Lp, Nat.sub_diag. reflexivity. }
  apply (G vecs1 [] eq_refl).
Qed.
Theorem C51_block_empty {V K} (zero : K) store_as (ip : V -> V -> K) vecs1 vecs2 :
  vecs1 = [] \/ vecs2 = [] ->
  product_block zero store_as ip vecs1 vecs2 = Raise IndexError.
Proof. intros [->| ->]; [reflexivity|]. destruct vecs1; reflexivity. Qed.

(** It is the reference the parallel algorithm is tested against: under the
    hypotheses of C04 every rank computes the same array. *)
Theorem C51_block_parallel {V K} tag_ub (eager : msg V K -> bool) P N limit per_node
    per_proc zero add conj store_as (ip : V -> V -> K) st rows cols rv cv :
  made_with limit P N per_node per_proc -> neutral zero add -> P * P - 1 <= tag_ub ->
  holds st rows rv -> holds st cols cv -> rows <> [] -> cols <> [] ->
  (forall v w v' w', v ∈ rv ++ cv -> w ∈ rv ++ cv -> v' ∈ rv ++ cv -> w' ∈ rv ++ cv ->
     store_as (ip v' w') (ip v w) = Ok (ip v w)) ->
  (length cols < length rows ->
     forall v w, v ∈ rv -> w ∈ cv -> conj (ip w v) = ip v w) ->
  exists a, product_block zero store_as ip rv cv = Ok a /\
  always_ends tag_ub eager
    (launch P (fun r => ip_array P tag_ub zero add conj store_as (Some ip)
                          per_node per_proc N r rows cols) st)
    (fun c => all_return (fun _ a' => a' = a) c /\ length (procs c) = P /\ store c = st).
Proof.
  intros Hm Hz Ht Hr Hc Nr Nc Hty Hsym. exists (all_pairs ip rv cv). split.
  - pose proof (Forall2_length _ _ _ Hr) as Lr. pose proof (Forall2_length _ _ _ Hc) as Lc.
    destruct rv as [|v0 rv]; [destruct rows; simpl in *; congruence|].
    destruct cv as [|w0 cv]; [destruct cols; simpl in *; congruence|].
    apply (C51_block zero store_as ip ip (v0 :: rv) (w0 :: cv) v0 w0); auto.
    intros v w Hv Hw.
    apply Hty; apply elem_of_app; auto; [left; left|right; left].
  - eapply C04_inner_product_array; eauto.
Qed.

(** * Equality of handle vector spaces *)

Theorem C51_vs_eq s s' :
  (vs_eq s s' = true <-> vs_ip s = vs_ip s' /\ vs_verbosity s = vs_verbosity s') /\
  vs_ne s s' = negb (vs_eq s s').
Proof.
  split; [|reflexivity]. unfold vs_eq. rewrite andb_true_iff, bool_decide_eq_true, Z.eqb_eq.
  reflexivity.
Qed.

(** Equal spaces compute the same array on every rank, although their memory limits
    may differ.  [fn] is the function behind an identity. *)
Theorem C51_vs_eq_products {V K} tag_ub (eager : msg V K -> bool) P N s s' per_node per_proc
    per_node' per_proc' zero add conj store_as (fn : nat -> V -> V -> K) f st rows cols rv cv :
  vs_eq s s' = true -> vs_ip s = Some f ->
  made_with (vs_limit s) P N per_node per_proc ->
  made_with (vs_limit s') P N per_node' per_proc' ->
  neutral zero add -> P * P - 1 <= tag_ub ->
  holds st rows rv -> holds st cols cv -> rows <> [] -> cols <> [] ->
  (forall v w v' w', v ∈ rv ++ cv -> w ∈ rv ++ cv -> v' ∈ rv ++ cv -> w' ∈ rv ++ cv ->
     store_as (fn f v' w') (fn f v w) = Ok (fn f v w)) ->
  (length cols < length rows ->
     forall v w, v ∈ rv -> w ∈ cv -> conj (fn f w v) = fn f v w) ->
  exists a, forall t pn pp,
    (t = s /\ pn = per_node /\ pp = per_proc) \/ (t = s' /\ pn = per_node' /\ pp = per_proc') ->
  always_ends tag_ub eager
    (launch P (fun r => ip_array P tag_ub zero add conj store_as (option_map fn (vs_ip t))
                          pn pp N r rows cols) st)
    (fun c => all_return (fun _ a' => a' = a) c /\ length (procs c) = P /\ store c = st).
Proof.
  intros Heq Hf Hm Hm' Hz Ht Hr Hc Nr Nc Hty Hsym.
  apply (proj1 (proj1 (C51_vs_eq s s'))) in Heq. destruct Heq as [E _].
  exists (all_pairs (fn f) rv cv). intros t pn pp [(-> & -> & ->)|(-> & -> & ->)].
  - rewrite Hf. cbn [option_map]. eapply C04_inner_product_array; eauto.
  - rewrite <- E, Hf. cbn [option_map]. eapply C04_inner_product_array; eauto.
Qed.

(** Unequal spaces need not differ in anything they compute. *)
Theorem C51_vs_eq_refuted : exists s s', vs_eq s s' = false /\
  vs_ip s = vs_ip s' /\ vs_limit s = vs_limit s'.
Proof. exists (VSpace (Some 0) 0%Z None), (VSpace (Some 0) 1%Z None). auto. Qed.

(** * Printing *)

(** [s] is the word [t] of capital letters, in any mixture of capitals and small letters. *)
Fixpoint spelled (s t : string) : Prop :=
  match s, t with
  | EmptyString, EmptyString => True
  | String c s, String d t => (c = d \/ nat_of_ascii c = nat_of_ascii d + 32) /\ spelled s t
  | _, _ => False
  end.
Fixpoint capitals (t : string) : Prop :=
  match t with EmptyString => True | String d t => 65 <= nat_of_ascii d <= 90 /\ capitals t end.
Lemma upper_letter c d : 65 <= nat_of_ascii d <= 90 ->
  (upper_ascii c = d <-> c = d \/ nat_of_ascii c = nat_of_ascii d + 32).
Proof.
  intros Hd. unfold upper_ascii. pose proof (nat_ascii_bounded c) as Bc.
  destruct (97 <=? nat_of_ascii c) eqn:E1; cbn [andb]; [destruct (nat_of_ascii c <=? 122) eqn:E2; cbn [andb]|].
  - apply Nat.leb_le in E1, E2. split.
    + intros <-. right. rewrite nat_ascii_embedding by lia. lia.
    + intros [<-|H]; [lia|]. rewrite H. replace (nat_of_ascii d + 32 - 32) with (nat_of_ascii d) by lia.
      apply ascii_nat_embedding.
  - apply Nat.leb_gt in E2. split; [auto|]. intros [H|H]; [auto|lia].
  - apply Nat.leb_gt in E1. split; [auto|]. intros [H|H]; [auto|lia].
Qed.
Lemma upper_spelled t : capitals t -> forall s, upper s = t <-> spelled s t.
Proof.
  induction t as [|d t IH]; intros Ht [|c s]; simpl.
  - split; auto.
  - split; [discriminate|contradiction].
  - split; [discriminate|contradiction].
  - destruct Ht as [Hd Ht]. rewrite <- (IH Ht s), <- (upper_letter c d Hd). split.
    + intros [= E1 E2]. auto.
    + intros [-> ->]. reflexivity.
Qed.

(** Only rank zero of a verbose space prints, one message on the stream named. *)
Theorem C51_print verbosity rank msg channel :
  (rank <> 0 \/ (verbosity <= 0)%Z -> vs_print_msg verbosity rank msg channel = Ok []) /\
  (rank = 0 -> (0 < verbosity)%Z ->
     (spelled channel "STDOUT" ->
        vs_print_msg verbosity rank msg channel = Ok [(Stdout, msg)]) /\
     (spelled channel "STDERR" ->
        vs_print_msg verbosity rank msg channel = Ok [(Stderr, msg)]) /\
     (~ spelled channel "STDOUT" -> ~ spelled channel "STDERR" ->
        vs_print_msg verbosity rank msg channel = Raise ValueError)).
Proof.
  unfold vs_print_msg. split.
  - intros [H|H].
    + rewrite (proj2 (Nat.eqb_neq _ _) H), andb_false_r. reflexivity.
    + rewrite (proj2 (Z.ltb_ge _ _) H). reflexivity.
  - intros -> H. rewrite (proj2 (Z.ltb_lt _ _) H). simpl. unfold print_msg.
    rewrite <- (upper_spelled "STDOUT"), <- (upper_spelled "STDERR") by (cbn [capitals]; repeat split; apply Nat.leb_le; reflexivity).
    repeat split.
    + intros ->. reflexivity.
    + intros ->. reflexivity.
    + intros H1 H2. apply String.eqb_neq in H1, H2. rewrite H1, H2. reflexivity.
Qed.

(** A bad channel is an error on rank zero only, so the ranks part ways. *)
Theorem C51_print_agree_refuted : exists verbosity msg channel,
  vs_print_msg verbosity 0 msg channel = Raise ValueError /\
  forall rank, rank <> 0 -> vs_print_msg verbosity rank msg channel = Ok [].
Proof.
  exists 1%Z, "text"%string, "log"%string. split; [reflexivity|].
  intros rank H. apply (proj1 (C51_print 1 rank "text" "log")). auto.
Qed.

(** print_from_rank_zero pays no attention to its channel argument. *)
Theorem C51_print_from_rank_zero rank msg channel :
  print_from_rank_zero rank msg channel = if rank =? 0 then Ok [(Stdout, msg)] else Ok [].
Proof. reflexivity. Qed.
Theorem C51_print_channel_refuted : exists msg channel,
  print_msg msg channel = Ok [(Stderr, msg)] /\
  print_from_rank_zero 0 msg channel = Ok [(Stdout, msg)].
Proof. exists "text"%string, "stderr"%string. auto. Qed.

(** * Vector *)

(** In a subclass that is a vector space, subtraction undoes addition. *)
Theorem C51_vector_sub {V K} (add : V -> V -> V) (mul : V -> K -> V) (zero : V)
    (k0 k1 minus_one : K) (kadd : K -> K -> K) v w :
  associative add -> (forall x, add x zero = x) ->
  (forall x, mul x k1 = x) -> (forall x, mul x k0 = zero) ->
  (forall x a b, mul x (kadd a b) = add (mul x a) (mul x b)) ->
  kadd minus_one k1 = k0 ->
  exists d, vector_sub (Some add) (Some mul) minus_one v w = Ok d /\
    vector_add (Some add) d w = Ok v.
Proof.
  intros Ha Hz H1 H0 Hd Hm. exists (add v (mul w minus_one)). split; [reflexivity|].
  simpl. f_equal. rewrite <- Ha. rewrite <- (H1 w) at 2. rewrite <- Hd, Hm, H0. apply Hz.
Qed.

(** What the subclass leaves out raises NotImplementedError. *)
Theorem C51_vector_missing {V K} (add : option (V -> V -> V)) (mul : option (V -> K -> V))
    minus_one v w c :
  vector_init (V := V) None = Raise NotImplementedError /\
  vector_add (V := V) None v w = Raise NotImplementedError /\
  vector_mul (V := V) (K := K) None v c = Raise NotImplementedError /\
  vector_rmul (V := V) (K := K) None c v = Raise NotImplementedError /\
  vector_sub add None minus_one v w = Raise NotImplementedError /\
  vector_sub (K := K) None mul minus_one v w = Raise NotImplementedError.
Proof. repeat split. unfold vector_sub, vector_rmul, vector_mul. destruct mul; reflexivity. Qed.

(** * Instances *)

Example C51_example_lists :
  flatten_list [[1; 2]; []; [3]] = [1; 2; 3] /\
  flatten_list (find_assignments 3 [10; 11; 12; 13; 14] (Some [1; 1; 4; 1; 2]%Q)) =
    [10; 11; 12; 13; 14] /\
  make_iterable (Single 4) = [4] /\
  sum_lists Nat.add [1; 2; 3] [10; 20; 30] = Some [11; 22; 33] /\
  sum_lists Nat.add [1] [10; 20; 30] = None /\
  sum_arrays Nat.add [1] [10; 20; 30] = Ok [11; 21; 31] /\
  sum_arrays Nat.add [10; 20; 30] [1] = Ok [11; 21; 31] /\
  sum_arrays Nat.add [1; 2] [10; 20; 30] = Raise ValueError.
Proof. vm_compute. repeat split. Qed.

(** Four ranks adding lists of two numbers; associativity and lengths hold. *)
Example C51_example_allreduce tag_ub eager :
  collective (V := unit) tag_ub eager 4
    (fun r => allreduce 4 tag_ub (sum_op Nat.add) r (Some [r; 10 * r]))
    (fun _ o => exists s, o = Some s /\ length s = 2 /\
       forall j, j < 2 -> nth j s 0 = ordered_fold Nat.add (fun r => nth j [r; 10 * r] 0) 4) /\
  ordered_fold Nat.add (fun r => nth 1 [r; 10 * r] 0) 4 = 60.
Proof.
  split; [|reflexivity].
  apply (C51_sum_lists_allreduce tag_ub eager 4 Nat.add 2 0 (fun r => [r; 10 * r])); [lia| |auto].
  intros a b c. lia.
Qed.
Example C51_example_mismatch tag_ub eager :
  collective (V := unit) tag_ub eager 4
    (fun r => allreduce 4 tag_ub (sum_op Nat.add) r (Some (replicate (if r =? 2 then 1 else 3) r)))
    (fun _ o => o = None).
Proof.
  apply (C51_sum_lists_mismatch tag_ub eager 4 Nat.add
    (fun r => replicate (if r =? 2 then 1 else 3) r) 2); [lia| |simpl; lia].
  intros a b c. lia.
Qed.

Example C51_example_smart_eq :
  let arr := PArr [2; 2] [1; 2; 3; 4] in
  well_formed arr /\
  smart_eq Nat.eqb arr arr = true /\
  smart_eq Nat.eqb arr (PArr [4] [1; 2; 3; 4]) = false /\
  smart_eq Nat.eqb arr (PArr [2; 2] [1; 2; 3; 5]) = false /\
  smart_eq Nat.eqb (POther 0 1) (POther 1 1) = false /\
  smart_eq Nat.eqb (POther 0 1) arr = false.
Proof. vm_compute. repeat split. Qed.
(** A NaN: 0 here equals nothing. *)
Example C51_example_nan :
  smart_eq (fun x y => negb (x =? 0) && (x =? y)) (PArr [2] [5; 0]) (PArr [2] [5; 0]) = false.
Proof. reflexivity. Qed.

Example C51_example_block :
  product_block (0, 0)%Z (fun _ x => Ok x) g_dot
    [[(1, 2); (0, 1)]; [(3, 0); (-1, 1)]; [(0, 0); (2, -5)]]%Z [[(3, 0); (-1, 1)]; [(0, 0); (2, -5)]]%Z =
  Ok [[(4, -5); (-5, -2)]; [(11, 0); (-7, 3)]; [(-7, -3); (29, 0)]]%Z /\
  product_block (Int 0) num_store num_mul [Int 1] [Int 1; Flt 1] = Ok [[Int 1; Int 0]].
Proof. vm_compute. split; reflexivity. Qed.

(** Two spaces with the same inner product and verbosity but different limits, on
    two processes. *)
Example C51_example_vs eager :
  let s := VSpace (Some 0) 1%Z (Some 1%Z) in
  let s' := VSpace (Some 0) 1%Z None in
  exists a, forall t pn pp,
    (t = s /\ pn = 6 /\ pp = 3) \/ (t = s' /\ pn = 100 * 100 /\ pp = 50 * 100) ->
  always_ends 10 eager
    (launch 2 (fun r => ip_array 2 10 (0, 0)%Z g_add g_conj (fun _ x => Ok x)
       (option_map (fun _ => g_dot) (vs_ip t)) pn pp 1 r [1; 2; 3; 4; 7] [2; 3]) ex_store)
    (fun c => all_return (fun _ a' => a' = a) c /\ length (procs c) = 2 /\ store c = ex_store).
Proof.
  intros s s'.
  apply (C51_vs_eq_products 10 eager 2 1 s s' 6 3 (100 * 100) (50 * 100) (0, 0)%Z g_add g_conj
           (fun _ x => Ok x) (fun _ => g_dot) 0 ex_store [1; 2; 3; 4; 7] [2; 3]
           [[(1, 2); (0, 1)]; [(3, 0); (-1, 1)]; [(0, 0); (2, -5)];
            [(1, 1); (1, 1)]; [(0, -1); (4, 4)]]%Z
           [[(3, 0); (-1, 1)]; [(0, 0); (2, -5)]]%Z); auto.
  - split; [lia|]. split; [lia|]. reflexivity.
  - split; [lia|]. split; [lia|]. vm_compute. reflexivity.
  - exact g_neutral.
  - lia.
  - repeat constructor.
  - repeat constructor.
  - intros _ v w _ _. apply g_dot_conj.
Qed.

Example C51_example_print :
  vs_print_msg 1 0 "a" "StdErr" = Ok [(Stderr, "a"%string)] /\
  vs_print_msg 1 2 "a" "StdErr" = Ok [] /\ vs_print_msg 0 0 "a" "nowhere" = Ok [] /\
  vs_print_msg 1 0 "a" "nowhere" = Raise ValueError /\
  spelled "StdErr" "STDERR" /\ ~ spelled "StdErr" "STDOUT".
Proof.
  split; [|split; [|split; [|split; [|split]]]]; try reflexivity.
  - simpl. repeat split; auto.
  - simpl. intros (_ & _ & _ & [H|H] & _); discriminate.
Qed.

(** Pairs of integers as vectors. *)
Definition z_add (v w : Z * Z) : Z * Z := (fst v + fst w, snd v + snd w)%Z.
Definition z_mul (v : Z * Z) (c : Z) : Z * Z := (fst v * c, snd v * c)%Z.
Example C51_example_vector v w :
  exists d, vector_sub (Some z_add) (Some z_mul) (-1)%Z v w = Ok d /\
    vector_add (Some z_add) d w = Ok v.
Proof.
  apply (C51_vector_sub z_add z_mul (0, 0)%Z 0%Z 1%Z (-1)%Z Z.add).
  - intros [a b] [c d] [e f]. unfold z_add. simpl. f_equal; lia.
  - intros [a b]. unfold z_add. simpl. f_equal; lia.
  - intros [a b]. unfold z_mul. simpl. f_equal; lia.
  - intros [a b]. unfold z_mul. simpl. f_equal; lia.
  - intros [a b] c d. unfold z_add, z_mul. simpl. f_equal; lia.
  - reflexivity.
Qed.

Print Assumptions C51_flatten_list.
Print Assumptions C51_flatten_assignments.
Print Assumptions C51_make_iterable.
Print Assumptions C51_sum_lists.
Print Assumptions C51_sum_arrays.
Print Assumptions C51_sum_lists_allreduce.
Print Assumptions C51_sum_lists_mismatch.
Print Assumptions C51_smart_eq.
Print Assumptions C51_smart_eq_exact.
Print Assumptions C51_smart_eq_nan_refuted.
Print Assumptions C51_block.
Print Assumptions C51_block_empty.
Print Assumptions C51_block_parallel.
Print Assumptions C51_vs_eq.
Print Assumptions C51_vs_eq_products.
Print Assumptions C51_vs_eq_refuted.
Print Assumptions C51_print.
Print Assumptions C51_print_agree_refuted.
Print Assumptions C51_print_from_rank_zero.
Print Assumptions C51_print_channel_refuted.
Print Assumptions C51_vector_sub.
Print Assumptions C51_vector_missing.
