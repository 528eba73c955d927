(** Correctness of the distributed linear combinations. *)
From stdpp Require Import gmap list.
From Coq Require Import Lia ZArith.
From Verif Require Import Prelude ParallelModel ParallelProofs Spmd SpmdFacts SpmdLock SpmdEnds
  SpmdWrites ReductionsModel ReductionsProofs InnerProdModel ArrayProofs RingProofs TaskProofs
  InnerProdProofs LinCombModel.
Open Scope nat_scope.
Open Scope prog_scope.

(** ** Lists *)

Lemma flat_map_app {A B} (f : A -> list B) l l' :
  flat_map f (l ++ l') = flat_map f l ++ flat_map f l'.
Proof. induction l as [|x l IH]; simpl; auto. rewrite IH. apply app_assoc. Qed.

Lemma flat_map_ext_in {A B} (f g : A -> list B) l :
  (forall x, x ∈ l -> f x = g x) -> flat_map f l = flat_map g l.
Proof.
  induction l as [|x l IH]; intros H; simpl; auto. rewrite H by left. f_equal.
  apply IH. intros y Hy. apply H. right. auto.
Qed.

Lemma flat_map_perm {A B} (f g : A -> list B) l :
  (forall x, x ∈ l -> f x ≡ₚ g x) -> flat_map f l ≡ₚ flat_map g l.
Proof.
  induction l as [|x l IH]; intros H; simpl; auto. apply Permutation_app.
  - apply H. left.
  - apply IH. intros y Hy. apply H. right. auto.
Qed.

Lemma flat_map_list_perm {A B} (f : A -> list B) l l' :
  l ≡ₚ l' -> flat_map f l ≡ₚ flat_map f l'.
Proof.
  induction 1; simpl; auto.
  - apply Permutation_app_head. auto.
  - rewrite !app_assoc. apply Permutation_app_tail. apply Permutation_app_comm.
  - etrans; eauto.
Qed.

Lemma flat_map_app_fun {A B} (f g : A -> list B) l :
  flat_map (fun x => f x ++ g x) l ≡ₚ flat_map f l ++ flat_map g l.
Proof.
  induction l as [|x l IH]; simpl; auto. rewrite IH. rewrite <- !app_assoc.
  apply Permutation_app_head. rewrite !app_assoc. apply Permutation_app_tail.
  apply Permutation_app_comm.
Qed.

Lemma flat_map_swap {A B C} (f : A -> B -> list C) la lb :
  flat_map (fun a => flat_map (fun b => f a b) lb) la ≡ₚ
  flat_map (fun b => flat_map (fun a => f a b) la) lb.
Proof.
  induction la as [|a la IH]; simpl.
  - induction lb; auto.
  - rewrite flat_map_app_fun. rewrite IH. reflexivity.
Qed.

Lemma flat_map_map {A B C} (f : B -> list C) (g : A -> B) l :
  flat_map f (map g l) = flat_map (fun x => f (g x)) l.
Proof. induction l as [|x l IH]; simpl; [|rewrite IH]; reflexivity. Qed.
Lemma map_flat_map {A B C} (f : B -> C) (g : A -> list B) l :
  map f (flat_map g l) = flat_map (fun x => map f (g x)) l.
Proof. induction l as [|x l IH]; simpl; [|rewrite map_app, IH]; reflexivity. Qed.
Lemma flat_map_single {A B} (f : A -> B) l : flat_map (fun x => [f x]) l = map f l.
Proof. induction l as [|x l IH]; simpl; [|rewrite IH]; reflexivity. Qed.

Lemma elem_of_flat_map {A B} (f : A -> list B) l y :
  y ∈ flat_map f l <-> exists x, x ∈ l /\ y ∈ f x.
Proof.
  rewrite elem_of_list_In, in_flat_map. split; intros (x & H1 & H2); exists x.
  - rewrite !elem_of_list_In. auto.
  - rewrite !elem_of_list_In in *. auto.
Qed.

Lemma lookup_nth {A} (l : list A) i x : i < length l -> l !! i = Some (nth i l x).
Proof.
  intros H. destruct (lookup_lt_is_Some_2 l i H) as [y Hy]. rewrite Hy. f_equal. symmetry.
  apply nth_lookup_Some. auto.
Qed.

Lemma seq_S_end a n : seq a (S n) = seq a n ++ [a + n].
Proof. apply seq_S. Qed.

Lemma map_nth_seq {A} (d : A) (l : list A) :
  map (fun i => nth i l d) (seq 0 (length l)) = l.
Proof.
  apply list_eq. intros i. rewrite lookup_map. destruct (decide (i < length l)) as [Hi|Hi].
  - rewrite lookup_seq_lt by auto. simpl. rewrite (lookup_nth l i d) by auto. reflexivity.
  - rewrite lookup_seq_ge by lia. rewrite lookup_ge_None_2 by lia. reflexivity.
Qed.

(** The chunks of a rank make up its tasks. *)
Lemma chunks_concat t l c G :
  flat_map (fun g => let b := chunk_bounds (seq t l) g c in seq (fst b) (snd b - fst b))
    (seq 0 G) = seq t (Nat.min (G * c) l).
Proof.
  destruct (decide (l = 0)) as [->|Hl].
  { rewrite Nat.min_0_r. simpl. induction (seq 0 G); simpl; auto. }
  induction G as [|G IH]; [reflexivity|].
  rewrite seq_S_end, flat_map_app, IH. simpl flat_map. rewrite app_nil_r.
  unfold chunk_bounds. destruct (seq t l) as [|x0 xs] eqn:E.
  { destruct l; [lia|discriminate]. }
  rewrite <- E. rewrite first_of_seq, last_of_seq by lia. cbn [fst snd].
  set (a := Nat.min (G * c) l).
  assert (Ha : Nat.min (t + G * c) (t + l) = t + a) by (unfold a; lia).
  rewrite Ha.
  replace (Nat.min (S G * c) l) with (a + (Nat.min (t + l) (t + a + c) - (t + a)))
    by (unfold a; lia).
  rewrite seq_app. reflexivity.
Qed.

Lemma tasks_concat P n : 0 < P ->
  flat_map (fun r => seq (tstart P n r) (tlen P n r)) (seq 0 P) = seq 0 n.
Proof.
  intros HP.
  assert (G : forall k, k <= P ->
    flat_map (fun r => seq (tstart P n r) (tlen P n r)) (seq 0 k) = seq 0 (tstart P n k)).
  { induction k as [|k IH]; intros Hk.
    - rewrite tstart_0. reflexivity.
    - rewrite seq_S_end, flat_map_app, IH by lia. simpl. rewrite app_nil_r.
      rewrite tstart_S by lia. rewrite seq_app. reflexivity. }
  rewrite G by lia. rewrite tstart_P by auto. reflexivity.
Qed.

Lemma ring_order P r : r < P -> map (fun p => (r + P - p) mod P) (seq 0 P) ≡ₚ seq 0 P.
Proof.
  intros Hr.
  assert (E : forall p, p < P -> (r + P - p) mod P = if p <=? r then r - p else r + P - p).
  { intros p Hp. destruct (Nat.leb_spec p r).
    - replace (r + P - p) with (r - p + 1 * P) by lia. rewrite Nat.mod_add by lia.
      apply Nat.mod_small. lia.
    - apply Nat.mod_small. lia. }
  apply NoDup_Permutation.
  - apply NoDup_fmap_2_strong; [|apply NoDup_seq].
    intros x y Hx Hy. apply elem_of_seq in Hx, Hy. rewrite !E by lia.
    destruct (Nat.leb_spec x r), (Nat.leb_spec y r); lia.
  - apply NoDup_seq.
  - intros x. rewrite elem_of_seq. split.
    + intros H. apply elem_of_list_In, in_map_iff in H. destruct H as (p & <- & Hp).
      pose proof (Nat.mod_upper_bound (r + P - p) P). lia.
    + intros H. destruct (ring_visits P r x Hr ltac:(lia)) as (p & Hp & <-).
      apply elem_of_list_In, in_map_iff. exists p. split; auto.
      apply elem_of_list_In, elem_of_seq. lia.
Qed.

(** ** Writing lists of values *)

Section Puts.
Context {V : Type}.
Definition puts (st : gmap loc V) (l : list (loc * V)) : gmap loc V :=
  foldl (fun s x => <[fst x := snd x]> s) st l.

Lemma puts_app st l l' : puts st (l ++ l') = puts (puts st l) l'.
Proof. apply foldl_app. Qed.
Lemma puts_other st l h : h ∉ map fst l -> puts st l !! h = st !! h.
Proof.
  revert st. induction l as [|[h' v] l IH]; intros st H; simpl; auto.
  rewrite IH.
  - apply lookup_insert_ne. intros ->. apply H. left.
  - intros H'. apply H. right. auto.
Qed.
Lemma puts_same st l h v : (h, v) ∈ l -> (forall v', (h, v') ∈ l -> v' = v) ->
  puts st l !! h = Some v.
Proof.
  induction l as [|[h' v'] l IH] using rev_ind; intros Hin Hall.
  - inversion Hin.
  - rewrite puts_app. simpl. destruct (decide (h' = h)) as [->|Hne].
    + rewrite lookup_insert. f_equal. apply Hall. apply elem_of_app. right. left.
    + rewrite lookup_insert_ne by auto. apply IH.
      * apply elem_of_app in Hin. destruct Hin as [H|H]; auto.
        apply elem_of_list_singleton in H. congruence.
      * intros v2 H2. apply Hall. apply elem_of_app. auto.
Qed.
End Puts.

Section Proofs.
Context {V K O : Type}.
Context (P tag_ub : nat) (eager : msg V K -> bool).
Notation prog := (prog (msg V K) V O).
Notation wp := (@wp (msg V K) V O tag_ub eager P).
Context (vadd : V -> V -> V) (smul : V -> K -> V).
Context (HP : 0 < P).

(** ** The running sums *)

Definition fold1 (l : list V) : option V :=
  match l with [] => None | x :: l => Some (foldl vadd x l) end.

Lemma fold1_snoc l x :
  fold1 (l ++ [x]) = Some match fold1 l with None => x | Some s => vadd s x end.
Proof. destruct l; simpl; auto. rewrite foldl_app. reflexivity. Qed.

Section Core.
Context (per_node per_proc N : nat) (d : V).
Context (sums basis : list loc) (bv : list V) (coeff : list (list K)) (term : nat -> nat -> V).
Let nb := @length loc basis.
Let ns := @length loc sums.
Context (Hbv : length bv = nb).
(** [term j i]: basis vector [i] times its coefficient in sum [j]. *)
Context (Hcoeff : forall i j, i < nb -> j < ns -> exists x,
  get_entry coeff i j = Ok x /\ term j i = smul (nth i bv d) x).
Context (Hpp : 2 <= per_proc).
Context (Hpn : per_node * N <> 2 * P).
Context (Hnb : 0 < nb).

(** The list of partial sums for [lo..hi-1] after the basis vectors [L]. *)
Definition layers (lo hi : nat) (L : list nat) : list (option V) :=
  map (fun j => fold1 (map (term j) L)) (seq lo (hi - lo)).

Lemma layers_length lo hi L : length (layers lo hi L) = hi - lo.
Proof. unfold layers. rewrite map_length, seq_length. reflexivity. Qed.
Lemma layers_lookup lo hi L q : q < hi - lo ->
  layers lo hi L !! q = Some (fold1 (map (term (lo + q)) L)).
Proof. intros H. unfold layers. rewrite lookup_map, lookup_seq_lt by auto. reflexivity. Qed.

Lemma inner_spec (idx : list nat) j s : forall suf pre ls L,
  idx = pre ++ suf -> Forall (fun i => i < nb) idx -> j < ns ->
  ls !! s = Some (fold1 (map (term j) (L ++ pre))) ->
  res_fold (fun '(basis_index, basis_vec) layers =>
      (i <-? py_nth idx basis_index ;
       x <-? get_entry coeff i j ;
       old <-? py_nth layers s ;
       let layer := smul basis_vec x in
       Ok (<[s := Some match old with None => layer | Some s => vadd s layer end]> layers))%res)
      (zip (seq (length pre) (length suf)) (map (fun i => nth i bv d) suf)) ls
  = Ok (<[s := fold1 (map (term j) (L ++ idx))]> ls).
Proof.
  induction suf as [|i suf IH]; intros pre ls L -> Hidx Hj Hls; simpl.
  - rewrite app_nil_r. f_equal. symmetry. apply list_insert_id. auto.
  - unfold py_nth at 1. rewrite nth_error_app2 by lia. rewrite Nat.sub_diag. simpl.
    assert (Hi : i < nb).
    { rewrite Forall_forall in Hidx. apply Hidx. apply elem_of_app. right. left. }
    destruct (Hcoeff i j Hi Hj) as (x & Ex & Et). rewrite Ex. simpl. rewrite <- Et.
    unfold py_nth at 1. rewrite nth_error_lookup, Hls. simpl.
    set (ls' := <[s := _]> ls).
    assert (E : ls' = <[s := fold1 (map (term j) (L ++ (pre ++ [i])))]> ls).
    { unfold ls'. f_equal. rewrite (app_assoc L), (map_app _ (L ++ pre) [i]). simpl (map _ [i]).
      rewrite fold1_snoc. reflexivity. }
    pose proof (IH (pre ++ [i]) ls' L) as H.
    rewrite app_length in H. simpl length in H.
    replace (length pre + 1) with (S (length pre)) in H by lia.
    rewrite <- (app_assoc pre [i] suf) in H. simpl app in H.
    refine (eq_trans (H eq_refl Hidx Hj _) _).
    + rewrite E. apply list_lookup_insert. apply lookup_lt_Some in Hls. auto.
    + rewrite E, list_insert_insert. reflexivity.
Qed.

Lemma add_layers_spec lo hi L idx : hi <= ns -> Forall (fun i => i < nb) idx ->
  add_layers vadd smul coeff lo hi (map (fun i => nth i bv d) idx, idx) (layers lo hi L)
  = Ok (layers lo hi (L ++ idx)).
Proof.
  intros Hhi Hidx. unfold add_layers. cbn [fst snd].
  edestruct (res_fold_inv (fun sum_index layers =>
    res_fold (fun '(basis_index, basis_vec) layers =>
      (i <-? py_nth idx basis_index ;
       c <-? get_entry coeff i sum_index ;
       old <-? py_nth layers (sum_index - lo) ;
       let layer := smul basis_vec c in
       Ok (<[sum_index - lo :=
              Some match old with None => layer | Some s => vadd s layer end]> layers))%res)
      (zip (seq 0 (length (map (fun i => nth i bv d) idx))) (map (fun i => nth i bv d) idx))
      layers)
    (seq lo (hi - lo)) (layers lo hi L)
    (fun p ls => length ls = hi - lo /\ forall q, q < hi - lo ->
       ls !! q = Some (fold1 (map (term (lo + q)) (if q <? p then L ++ idx else L)))))
    as (ls & E & Hlen & Hls).
  - split; [apply layers_length|]. intros q Hq. simpl. apply layers_lookup; auto.
  - intros k x ls Hx [Hlen Hls]. apply lookup_seq in Hx. destruct Hx as [-> Hk].
    rewrite map_length.
    pose proof (inner_spec idx (lo + k) (lo + k - lo) idx [] ls L eq_refl Hidx) as H.
    simpl length in H. rewrite app_nil_r in H.
    rewrite H.
    + exists (<[lo + k - lo := fold1 (map (term (lo + k)) (L ++ idx))]> ls).
      split; auto. split; [rewrite insert_length; auto|].
      intros q Hq. replace (lo + k - lo) with k by lia.
      destruct (decide (q = k)) as [->|Hne].
      * rewrite list_lookup_insert by lia. rewrite (proj2 (Nat.ltb_lt k (S k))) by lia.
        reflexivity.
      * rewrite list_lookup_insert_ne by auto. rewrite Hls by auto.
        destruct (Nat.ltb_spec q k), (Nat.ltb_spec q (S k)); auto; lia.
    + lia.
    + replace (lo + k - lo) with k by lia. rewrite Hls by auto.
      rewrite (proj2 (Nat.ltb_ge k k)) by lia. reflexivity.
  - etransitivity; [exact E|]. f_equal. apply list_eq. intros q.
    rewrite seq_length in Hls.
    destruct (decide (q < hi - lo)) as [Hq|Hq].
    + rewrite Hls by auto. rewrite (proj2 (Nat.ltb_lt _ _)) by auto.
      symmetry. apply layers_lookup. auto.
    + rewrite !lookup_ge_None_2; auto; [rewrite layers_length|rewrite Hlen]; lia.
Qed.

(** ** Order in which a rank meets the basis vectors *)

Definition blk (s h : nat) : list nat :=
  let b := chunk_bounds (seq (tstart P nb s) (tlen P nb s)) h 1 in
  seq (fst b) (snd b - fst b).
Definition pass_order (r h p : nat) : list nat :=
  flat_map (fun p => blk ((r + P - p) mod P) h) (seq 0 p).
Definition order_upto (r h : nat) : list nat :=
  flat_map (fun h => pass_order r h P) (seq 0 h).
Definition BL := list_maximum (map length (find_assignments P (seq 0 nb) None)).
Definition order (r : nat) : list nat := order_upto r (ceil_div BL 1).

Lemma order_perm r : r < P -> order r ≡ₚ seq 0 nb.
Proof.
  intros Hr. unfold order, order_upto, pass_order.
  rewrite flat_map_swap.
  rewrite <- (flat_map_map (fun s => flat_map (fun h => blk s h) (seq 0 (ceil_div BL 1)))
               (fun p => (r + P - p) mod P)).
  rewrite (flat_map_list_perm _ _ _ (ring_order P r Hr)).
  rewrite <- (tasks_concat P nb HP).
  apply flat_map_perm. intros s Hs. apply elem_of_seq in Hs.
  unfold blk. rewrite chunks_concat.
  pose proof (ceil_div_ge BL 1 ltac:(lia)). pose proof (tlen_le_max P 0 nb s HP ltac:(lia)).
  fold BL in H0. rewrite Nat.min_r by lia. reflexivity.
Qed.

Lemma order_not_nil r : r < P -> order r <> [].
Proof.
  intros Hr E. pose proof (order_perm r Hr) as H. rewrite E in H.
  apply Permutation_length in H. rewrite seq_length in H. simpl in H. lia.
Qed.

(** ** Values and writes *)

Definition val (r j : nat) : V :=
  match fold1 (map (term j) (order r)) with Some v => v | None => d end.
Lemma val_fold1 r j : r < P -> fold1 (map (term j) (order r)) = Some (val r j).
Proof.
  intros Hr. unfold val. pose proof (order_not_nil r Hr) as H.
  destruct (order r); [congruence|]. reflexivity.
Qed.

Definition sb (r g : nat) : nat * nat :=
  chunk_bounds (seq (tstart P ns r) (tlen P ns r)) g (per_proc - 1).
Definition my_puts (r g : nat) : list (loc * V) :=
  map (fun j => (nth j sums 0, val r j)) (seq (fst (sb r g)) (snd (sb r g) - fst (sb r g))).
Definition puts_upto (g : nat) : list (loc * V) :=
  flat_map (fun g => flat_map (fun r => my_puts r g) (seq 0 P)) (seq 0 g).
Definition SL := list_maximum (map length (find_assignments P (seq 0 ns) None)).
Definition chunks : nat := ceil_div SL (per_proc - 1).

Lemma sb_spec r g : r < P ->
  fst (sb r g) <= snd (sb r g) <= ns /\
  (fst (sb r g) < snd (sb r g) ->
     tstart P ns r <= fst (sb r g) /\ snd (sb r g) <= tstart P ns r + tlen P ns r).
Proof.
  intros Hr. destruct (chunk_bounds_spec (tstart P ns r) (tlen P ns r) g (per_proc - 1))
    as (H1 & H2 & H3 & _). fold (sb r g) in H1, H2, H3.
  pose proof (tend_le P ns r HP Hr). split; [lia|]. intros H4. specialize (H3 H4). lia.
Qed.

Lemma in_puts_upto g h v : (h, v) ∈ puts_upto g ->
  exists j, j < ns /\ h = nth j sums 0 /\ v = val (owner P ns j) j.
Proof.
  intros H. apply elem_of_flat_map in H. destruct H as (g' & Hg & H).
  apply elem_of_flat_map in H. destruct H as (r & Hr & H). apply elem_of_seq in Hr.
  apply elem_of_list_In, in_map_iff in H. destruct H as (j & E & Hj).
  apply elem_of_list_In, elem_of_seq in Hj. injection E as <- <-.
  destruct (sb_spec r g' ltac:(lia)) as [H1 H2].
  exists j. split; [lia|]. split; auto. f_equal. symmetry. apply owner_unique; auto; lia.
Qed.

Lemma puts_upto_all j : j < ns ->
  (nth j sums 0, val (owner P ns j) j) ∈ puts_upto chunks.
Proof.
  intros Hj. destruct (owner_spec P ns j HP Hj) as [Ho Hjo]. set (r := owner P ns j) in *.
  destruct (chunk_bounds_cover (tstart P ns r) (tlen P ns r) (per_proc - 1) SL j)
    as (g & Hg & Hb).
  - lia.
  - apply (tlen_le_max P 0); auto.
  - lia.
  - fold (sb r g) in Hb. cbv zeta in Hb.
    apply elem_of_flat_map. exists g. split; [apply elem_of_seq; unfold chunks; lia|].
    apply elem_of_flat_map. exists r. split; [apply elem_of_seq; lia|].
    apply elem_of_list_In, in_map_iff. exists j. split; auto.
    apply elem_of_list_In, elem_of_seq. lia.
Qed.

Lemma puts_upto_keys g h : h ∈ map fst (puts_upto g) -> h ∈ sums.
Proof.
  intros H. apply elem_of_list_In, in_map_iff in H. destruct H as ([h' v] & <- & H).
  apply elem_of_list_In, in_puts_upto in H. destruct H as (j & Hj & -> & _).
  simpl. apply elem_of_list_In, nth_In. exact Hj.
Qed.

(** The store at the end. *)
Definition finished (st st' : gmap loc V) : Prop :=
  (forall j h, sums !! j = Some h -> st' !! h = Some (val (owner P ns j) j)) /\
  (forall h, h ∉ sums -> st' !! h = st !! h).

Lemma puts_finished st : NoDup sums -> finished st (puts st (puts_upto chunks)).
Proof.
  intros Hnd. split.
  - intros j h Hj. pose proof (lookup_lt_Some _ _ _ Hj) as Hlt.
    assert (E : nth j sums 0 = h) by (apply nth_lookup_Some; auto).
    apply puts_same.
    + rewrite <- E. apply puts_upto_all. exact Hlt.
    + intros v' Hv'. apply in_puts_upto in Hv'. destruct Hv' as (j' & Hj' & E' & ->).
      assert (j' = j) as ->; auto.
      apply (NoDup_lookup sums j' j h); auto. rewrite E'. apply lookup_nth. exact Hj'.
  - intros h Hh. apply puts_other. intros H. apply Hh. apply (puts_upto_keys chunks). auto.
Qed.

(** ** The main loop *)

Lemma local_put_sums st lo hi (L : list (option V)) w :
  hi <= ns -> length L = hi - lo ->
  (forall q, q < hi - lo -> L !! q = Some (Some (w (lo + q)))) ->
  local_run tag_ub eager P st (@put_sums V K O sums lo hi L)
    (puts st (map (fun j => (nth j sums 0, w j)) (seq lo (hi - lo)))) tt.
Proof.
  intros Hhi Hlen Hw. unfold put_sums.
  edestruct (@local_for (msg V K) V O tag_ub eager P nat unit (seq lo (hi - lo)))
    with (st := st) (s := tt)
    (body := fun sum_index (_ : unit) =>
      h <- lift (py_nth sums sum_index) ;;
      layer <- lift (py_nth L (sum_index - lo)) ;;
      match layer with Some v => @put (msg V K) V O h v | None => fail TypeError end)
    (Inv := fun k s (_ : unit) => s = puts st (map (fun j => (nth j sums 0, w j)) (seq lo k)))
    as (st' & [] & H & E).
  - reflexivity.
  - intros k x s [] Hx ->. apply lookup_seq in Hx. destruct Hx as [-> Hk].
    eexists _, tt. split.
    + unfold py_nth. rewrite !nth_error_lookup.
      rewrite (lookup_nth sums (lo + k) 0) by (fold ns; lia).
      replace (lo + k - lo) with k by lia. rewrite Hw by auto.
      eapply local_bind; [apply local_ret|].
      eapply local_bind; [apply local_ret|].
      cbv beta iota. apply local_put.
    + rewrite seq_S_end, map_app, puts_app. reflexivity.
  - rewrite seq_length in E. rewrite <- E. exact H.
Qed.

Lemma blk_small s h : s < P -> Forall (fun i => i < nb) (blk s h).
Proof.
  intros Hs. apply Forall_forall. intros i Hi. unfold blk in Hi. apply elem_of_seq in Hi.
  destruct (chunk_bounds_spec (tstart P nb s) (tlen P nb s) h 1) as (H1 & H2 & _).
  pose proof (tend_le P nb s HP Hs). cbv zeta in H1, H2, Hi. lia.
Qed.

Lemma local_fetch st s h : s < P -> stored st basis bv ->
  let b := chunk_bounds (seq (tstart P nb s) (tlen P nb s)) h 1 in
  local_run tag_ub eager P st
    (vs <- @get_slice V K O basis (fst b) (snd b) ;;
     ret (vs, seq (fst b) (snd b - fst b))) st
    (map (fun i => nth i bv d) (blk s h), blk s h).
Proof.
  intros Hs Hst b. eapply local_bind; [apply local_get_slice; exact Hst|].
  destruct (chunk_bounds_spec (tstart P nb s) (tlen P nb s) h 1) as (H1 & H2 & _).
  fold b in H1, H2. pose proof (tend_le P nb s HP Hs).
  unfold blk. fold b.
  replace (slice (fst b) (snd b) bv)
    with (map (fun i => nth i bv d) (seq (fst b) (snd b - fst b))).
  - apply local_ret.
  - rewrite <- slice_nth by lia. f_equal. lia.
Qed.

Lemma wp_lin_core st (Post : _ -> _ -> Prop) :
  P * P - 1 <= tag_ub -> stored st basis bv ->
  (chunks <= 1 \/ forall h, h ∈ sums -> h ∉ basis) ->
  (forall u, Post (puts st (puts_upto chunks)) u) ->
  wp st (fun r => lin_core P vadd smul per_node per_proc N r sums basis coeff) Post.
Proof.
  intros Htag Hst Hdis HPost. unfold lin_core. fold nb ns. fold BL SL. fold chunks.
  destruct (stored_nth d _ _ _ 0 Hst Hnb) as (h0 & Eh0 & Sh0).
  eapply wp_bind with (Q := fun st' (h : nat -> loc) => st' = st /\ forall r, r < P -> h r = h0).
  { apply (wp_read tag_ub eager P st _ (fun _ => h0)); auto.
    intros r Hr. unfold py_nth. rewrite nth_error_lookup, Eh0. apply local_ret. }
  intros st0 hs [-> Hhs].
  eapply wp_bind with (Q := fun st' (_ : nat -> V) => st' = st).
  { apply (wp_read tag_ub eager P st _ (fun _ => nth 0 bv d)); auto.
    intros r Hr. rewrite Hhs by auto. apply local_get. auto. }
  intros st0 _ ->.
  eapply wp_bind with (Q := fun st' (_ : nat -> V) => st' = st).
  { apply (wp_read tag_ub eager P st _ (fun _ => nth 0 bv d)); auto.
    intros r Hr. rewrite Hhs by auto. apply local_get. auto. }
  intros st0 _ ->.
  rewrite (proj2 (Nat.eqb_neq _ _) Hpn).
  eapply wp_bind with (Q := fun st' (_ : nat -> unit) => st' = st).
  { apply (wp_ret tag_ub eager P st (fun _ => tt)). reflexivity. }
  intros st0 _ ->.
  eapply wp_bind.
  { apply (wp_for_seq tag_ub eager P chunks st (fun _ => tt) _
      (fun g st' _ => st' = puts st (puts_upto g))).
    - reflexivity.
    - intros g st' u Hg ->.
      assert (Hst' : stored (puts st (puts_upto g)) basis bv).
      { destruct (decide (g = 0)) as [->|Hg0]; [exact Hst|].
        destruct Hdis as [Hc|Hdis]; [lia|].
        apply Forall2_same_length_lookup in Hst. apply Forall2_same_length_lookup.
        destruct Hst as [Hl Hst]. split; auto. intros i h v Hh Hv.
        rewrite puts_other; [eapply Hst; eauto|].
        intros Hk. apply puts_upto_keys in Hk. apply (Hdis h Hk).
        apply elem_of_list_lookup. eauto. }
      set (sg := puts st (puts_upto g)) in *.
      apply wp_ext with (qs := fun r =>
        layers <- for_loop (seq 0 (ceil_div BL 1))
          (replicate (snd (sb r g) - fst (sb r g)) None)
          (fun h layers =>
            let b := chunk_bounds (seq (tstart P nb r) (tlen P nb r)) h 1 in
            ring P r
              (vs <- get_slice basis (fst b) (snd b) ;;
               ret (vs, seq (fst b) (snd b - fst b)))
              (add_layers vadd smul coeff (fst (sb r g)) (snd (sb r g))) layers) ;;
        put_sums sums (fst (sb r g)) (snd (sb r g)) layers).
      { intros r Hr k. unfold sb. rewrite !tasks_nth by auto. reflexivity. }
      eapply wp_bind with (Q := fun st' a => st' = sg /\ forall r, r < P ->
        a r = layers (fst (sb r g)) (snd (sb r g)) (order r)).
      + apply (wp_for_seq tag_ub eager P (ceil_div BL 1) sg
          (fun r => replicate (snd (sb r g) - fst (sb r g)) None) _
          (fun h st' a => st' = sg /\ forall r, r < P ->
             a r = layers (fst (sb r g)) (snd (sb r g)) (order_upto r h))).
        * split; auto. intros r Hr. unfold layers, order_upto. simpl.
          apply list_eq. intros q. rewrite lookup_map.
          destruct (decide (q < snd (sb r g) - fst (sb r g))) as [Hq|Hq].
          -- rewrite lookup_replicate_2 by auto. rewrite lookup_seq_lt by auto. reflexivity.
          -- rewrite lookup_ge_None_2 by (rewrite replicate_length; lia).
             rewrite lookup_seq_ge by lia. reflexivity.
        * intros h st' a Hh [-> Ha]. cbv zeta.
          apply (wp_ring_inv P tag_ub eager sg _
            (fun s => (map (fun i => nth i bv d) (blk s h), blk s h)) _ a
            (fun p r b => b = layers (fst (sb r g)) (snd (sb r g))
               (order_upto r h ++ pass_order r h p))).
          -- exact HP.
          -- exact Htag.
          -- intros r Hr. apply local_fetch; auto.
          -- intros r Hr. rewrite Ha by auto. unfold pass_order. simpl.
             rewrite app_nil_r. reflexivity.
          -- intros p r b Hp Hr ->. eexists. split; [|reflexivity].
             rewrite add_layers_spec.
             ++ rewrite <- app_assoc. do 3 f_equal.
                unfold pass_order. rewrite seq_S_end, flat_map_app. simpl.
                rewrite app_nil_r. reflexivity.
             ++ apply (sb_spec r g Hr).
             ++ apply blk_small. apply Nat.mod_upper_bound. lia.
          -- intros b Hb. split; auto. intros r Hr. rewrite Hb by auto. f_equal.
             unfold order_upto at 2. rewrite seq_S_end, flat_map_app. simpl.
             rewrite app_nil_r. reflexivity.
      + intros st' a [-> Ha].
        set (stg := fun i => puts sg (flat_map (fun r => my_puts r g) (seq 0 i))).
        change sg with (stg 0).
        apply (wp_local tag_ub eager P _ stg (fun _ => tt)).
        * intros r Hr. rewrite Ha by auto.
          unfold stg. rewrite seq_S_end, flat_map_app. simpl flat_map. rewrite app_nil_r.
          rewrite puts_app.
          apply local_put_sums.
          -- apply (sb_spec r g Hr).
          -- apply layers_length.
          -- intros q Hq. rewrite layers_lookup by auto. f_equal. apply val_fold1. auto.
        * unfold stg, sg. rewrite <- puts_app. f_equal.
          unfold puts_upto. rewrite seq_S_end, flat_map_app. simpl.
          rewrite app_nil_r. reflexivity. }
  intros st' u ->.
  apply (wp_par_barrier tag_ub eager P _ Post); auto.
Qed.

(** With a tag limit below [P*P-1] the last rank fails. *)
Lemma lin_core_tag_fails st :
  1 < P -> tag_ub < P * P - 1 -> stored st basis bv -> 0 < ns ->
  local_fail tag_ub eager P st
    (@lin_core V K O P vadd smul per_node per_proc N (P - 1) sums basis coeff) MPIError.
Proof.
  intros H1 Ht Hst Hns. unfold lin_core. fold nb ns. fold BL SL. fold chunks.
  destruct (stored_nth d _ _ _ 0 Hst Hnb) as (h0 & Eh0 & Sh0).
  unfold py_nth at 1. rewrite nth_error_lookup, Eh0.
  eapply local_fail_after; [apply local_ret|].
  eapply local_fail_after; [apply local_get; exact Sh0|].
  eapply local_fail_after; [apply local_get; exact Sh0|].
  rewrite (proj2 (Nat.eqb_neq _ _) Hpn).
  eapply local_fail_after; [apply local_ret|].
  apply local_fail_bind. rewrite !tasks_nth by lia.
  assert (HSL : 0 < SL).
  { pose proof (tlen_le_max P 0 ns 0 HP HP). pose proof (proj2 (tlen_pos P ns 0 HP HP) Hns).
    fold SL in H. lia. }
  assert (HBL : 0 < BL).
  { pose proof (tlen_le_max P 0 nb 0 HP HP). pose proof (proj2 (tlen_pos P nb 0 HP HP) Hnb).
    fold BL in H. lia. }
  assert (L1 : exists k, seq 0 chunks = 0 :: seq 1 k).
  { pose proof (ceil_div_ge SL (per_proc - 1) ltac:(lia)). unfold chunks.
    destruct (ceil_div SL (per_proc - 1)) as [|k]; [lia|]. exists k. reflexivity. }
  assert (L2 : exists k, seq 0 (ceil_div BL 1) = 0 :: seq 1 k).
  { pose proof (ceil_div_ge BL 1 ltac:(lia)).
    destruct (ceil_div BL 1) as [|k]; [lia|]. exists k. reflexivity. }
  destruct L1 as [k1 ->]. destruct L2 as [k2 ->]. cbn [for_loop].
  apply local_fail_bind. apply local_fail_bind. apply local_fail_bind.
  eapply ring_fails; [exact H1| | |].
  - replace (P - 1 + 1) with P by lia. rewrite Nat.mod_same by lia. unfold pair_tag. nia.
  - apply (local_fetch st (P - 1) 0); auto. lia.
  - cbn [Nat.add]. fold (sb (P - 1) 0).
    replace (replicate (snd (sb (P - 1) 0) - fst (sb (P - 1) 0)) None)
      with (layers (fst (sb (P - 1) 0)) (snd (sb (P - 1) 0)) []).
    + apply add_layers_spec.
      * apply (sb_spec (P - 1) 0). lia.
      * apply blk_small. lia.
    + unfold layers. simpl. apply list_eq. intros q. rewrite lookup_map.
      destruct (decide (q < snd (sb (P - 1) 0) - fst (sb (P - 1) 0))) as [Hq|Hq].
      * rewrite lookup_replicate_2 by auto. rewrite lookup_seq_lt by auto. reflexivity.
      * rewrite (lookup_ge_None_2 (replicate _ _)) by (rewrite replicate_length; lia).
        rewrite lookup_seq_ge by lia. reflexivity.
Qed.
End Core.

(** ** Footprint and writes *)

Lemma puses_par_nth (R W : loc -> Prop) {A B} (l : list A) i (k : A -> prog B) :
  (forall x, l !! i = Some x -> puses R W (k x)) ->
  puses R W (x <- lift (py_nth l i) ;; k x).
Proof.
  intros Hk. unfold py_nth. rewrite nth_error_lookup. destruct (l !! i) as [x|] eqn:E.
  - intros k' Hk'. apply (Hk x); auto.
  - intros k' Hk'. exact I.
Qed.

Definition rank_tasks (n r : nat) : list nat := seq (tstart P n r) (tlen P n r).

Lemma chunk_sub n r g c j : r < P ->
  let b := chunk_bounds (rank_tasks n r) g c in
  fst b <= j < snd b -> j ∈ rank_tasks n r.
Proof.
  intros Hr b Hb. destruct (chunk_bounds_spec (tstart P n r) (tlen P n r) g c)
    as (H1 & H2 & H3 & _). fold (rank_tasks n r) in H1, H2, H3. fold b in H1, H2, H3.
  apply elem_of_seq. lia.
Qed.

Lemma puses_lin_core (R W : loc -> Prop) per_node per_proc N r (sums basis : list loc)
    (coeff : list (list K)) : r < P ->
  (forall h, h ∈ basis -> R h) ->
  (forall j h, j ∈ rank_tasks (length sums) r -> sums !! j = Some h -> W h) ->
  puses R W (@lin_core V K O P vadd smul per_node per_proc N r sums basis coeff).
Proof.
  intros Hr HR HW. unfold lin_core.
  apply puses_nth; [exact HR|intros h Hh].
  apply puses_bind; [apply puses_get; auto|intros _].
  apply puses_bind; [apply puses_get; auto|intros _].
  apply puses_bind; [destruct (_ =? _); [apply puses_fail|apply puses_ret]|intros _].
  apply puses_bind; [|intros; apply puses_par_barrier].
  rewrite !tasks_nth by auto.
  apply puses_for. intros g u _. apply puses_bind.
  - apply puses_for. intros h' b _. apply puses_ring.
    apply puses_bind; [apply puses_get_slice; auto|intros; apply puses_ret].
  - intros ls. unfold put_sums. apply puses_for. intros j [] Hj. apply elem_of_seq in Hj.
    apply puses_par_nth. intros hj Hhj. apply puses_par_nth. intros [v|] _.
    + apply puses_put. apply (HW j); auto.
      apply (chunk_sub (length sums) r g (per_proc - 1) j Hr). cbn in Hj |- *.
      unfold rank_tasks. lia.
    + apply puses_fail.
Qed.

Lemma pwrites_swap r dst src (pl : list V * list nat) :
  pwrites [] (@swap V K O P r dst src pl).
Proof.
  unfold swap. apply pwrites_bind_nil; [apply pwrites_isend|intros _].
  apply pwrites_bind_nil; [apply pwrites_recv|intros x].
  apply pwrites_bind_nil; [apply pwrites_wait|intros _]. apply pwrites_lift.
Qed.
Lemma pwrites_par_barrier : pwrites [] (@barrier (msg V K) V O P).
Proof. unfold barrier. destruct (1 <? P); [apply pwrites_barrier|apply pwrites_ret]. Qed.
Lemma pwrites_ring {T} r (fetch : prog (list V * list nat)) compute (acc : T) :
  pwrites [] fetch -> pwrites [] (ring P r fetch compute acc).
Proof.
  intros Hf. unfold ring. apply pwrites_bind_nil; [|intros [a b]; apply pwrites_ret].
  apply pwrites_for_nil. intros p s _. apply pwrites_bind_nil.
  - destruct (p =? 0); auto.
    apply pwrites_bind_nil; [apply pwrites_swap|intros x].
    apply pwrites_bind_nil; [apply pwrites_par_barrier|intros _]. apply pwrites_ret.
  - intros x. apply pwrites_bind_nil; [apply pwrites_lift|intros; apply pwrites_ret].
Qed.
Lemma pwrites_get_slice hs a b : pwrites [] (@get_slice V K O hs a b).
Proof. apply pwrites_map. intros. apply pwrites_get. Qed.

Lemma pwrites_put_sums (sums : list loc) lo hi (L : list (option V)) : hi <= length sums ->
  pwrites (map (fun j => nth j sums 0) (seq lo (hi - lo))) (@put_sums V K O sums lo hi L).
Proof.
  intros Hhi. unfold put_sums. rewrite <- flat_map_single. apply pwrites_for.
  intros j [] Hj. apply elem_of_seq in Hj.
  assert (Ej : py_nth sums j = Ok (nth j sums 0)).
  { unfold py_nth. rewrite nth_error_lookup, (lookup_nth sums j 0) by lia. reflexivity. }
  cbv beta. rewrite Ej. intros l' k Hk. cbn [lift ret bind].
  unfold py_nth. destruct (nth_error L (j - lo)) as [[v|]|]; cbn; auto.
  exists l'. split; auto.
Qed.

Lemma pwrites_lin_core per_node per_proc N r (sums basis : list loc) (coeff : list (list K)) :
  r < P -> 2 <= per_proc ->
  pwrites (map (fun j => nth j sums 0) (rank_tasks (length sums) r))
    (@lin_core V K O P vadd smul per_node per_proc N r sums basis coeff).
Proof.
  intros Hr Hpp. unfold lin_core.
  apply pwrites_bind_nil; [apply pwrites_lift|intros h].
  apply pwrites_bind_nil; [apply pwrites_get|intros _].
  apply pwrites_bind_nil; [apply pwrites_get|intros _].
  apply pwrites_bind_nil; [destruct (_ =? _); [apply pwrites_fail|apply pwrites_ret]|intros _].
  rewrite <- (app_nil_r (map _ _)).
  apply pwrites_bind; [|intros; apply pwrites_par_barrier].
  rewrite !tasks_nth by auto. cbn [Nat.add]. fold (rank_tasks (length sums) r).
  set (sc := per_proc - 1). set (SLm := list_maximum _).
  assert (E : rank_tasks (length sums) r = flat_map (fun g =>
     let b := chunk_bounds (rank_tasks (length sums) r) g sc in seq (fst b) (snd b - fst b))
     (seq 0 (ceil_div SLm sc))).
  { unfold rank_tasks. rewrite chunks_concat.
    pose proof (ceil_div_ge SLm sc ltac:(unfold sc; lia)).
    pose proof (tlen_le_max P 0 (length sums) r HP Hr). fold SLm in H0.
    rewrite Nat.min_r by lia. reflexivity. }
  pose proof (f_equal (map (fun j => nth j sums 0)) E) as E2. rewrite map_flat_map in E2.
  rewrite E2. clear E E2.
  apply pwrites_for. intros g [] _. apply pwrites_bind_nil.
  - apply pwrites_for_nil. intros h' b _. apply pwrites_ring.
    apply pwrites_bind_nil; [apply pwrites_get_slice|intros; apply pwrites_ret].
  - intros ls. cbv zeta. apply pwrites_put_sums.
    destruct (chunk_bounds_spec (tstart P (length sums) r) (tlen P (length sums) r) g sc)
      as (H1 & H2 & _).
    pose proof (tend_le P (length sums) r HP Hr). unfold rank_tasks. lia.
Qed.
End Proofs.

(** ** Folding in any order *)

Section Fold.
Context {V : Type} (vadd : V -> V -> V).
Context (Hassoc : forall x y z, vadd x (vadd y z) = vadd (vadd x y) z).
Context (Hcomm : forall x y, vadd x y = vadd y x).
Lemma foldl_perm l l' : l ≡ₚ l' -> forall x, foldl vadd x l = foldl vadd x l'.
Proof.
  induction 1; intros z; simpl; auto.
  - f_equal. rewrite <- !Hassoc. f_equal. apply Hcomm.
  - etransitivity; eauto.
Qed.
Lemma fold1_perm l l' : l ≡ₚ l' -> fold1 vadd l = fold1 vadd l'.
Proof.
  induction 1; simpl; auto.
  - f_equal. apply foldl_perm. auto.
  - do 2 f_equal. apply Hcomm.
  - etransitivity; eauto.
Qed.
End Fold.

(** ** Coefficient arrays *)

Section Coeffs.
Context {K : Type}.

(** Shape of an argument treated as a 2-D array. *)
Definition shape2 (nb : nat) (a : coeffs K) : nat * nat :=
  match a with
  | Scalar _ => (1, 1)
  | Vec1 l => if nb =? 1 then (1, length l) else (length l, 1)
  | Arr2 m n _ => (m, n)
  end.
Definition rectangular (a : coeffs K) : Prop :=
  match a with
  | Arr2 m n rows => length rows = m /\ Forall (fun row => length row = n) rows
  | _ => True
  end.
(** Entry of the argument treated as a 2-D array. *)
Definition entry2 (nb : nat) (a : coeffs K) (i k : nat) : option K :=
  match a with
  | Scalar x => if (i =? 0) && (k =? 0) then Some x else None
  | Vec1 l =>
      if nb =? 1 then (if i =? 0 then l !! k else None)
      else (if k =? 0 then l !! i else None)
  | Arr2 m n rows => rows !! i ≫= (fun row => row !! k)
  end.
Definition columns (n : nat) (idx : option col_index) : list Z :=
  match idx with
  | None => map Z.of_nat (seq 0 n)
  | Some (OneCol z) => [z]
  | Some (Cols l) => l
  end.
(** Python index: counts from the end when negative. *)
Definition valid_index (n : nat) (z : Z) : Prop := (- Z.of_nat n <= z < Z.of_nat n)%Z.
Definition wrap (n : nat) (z : Z) : nat := Z.to_nat (z mod Z.of_nat n)%Z.

Lemma wrap_lt n z : valid_index n z -> wrap n z < n.
Proof.
  unfold valid_index, wrap. intros H.
  pose proof (Z.mod_pos_bound z (Z.of_nat n) ltac:(lia)). lia.
Qed.
Lemma norm_index_ok n z : valid_index n z -> norm_index n z = Ok (wrap n z).
Proof.
  unfold valid_index, norm_index, wrap. intros H.
  destruct (Z.leb_spec 0 z) as [H0|H0].
  - rewrite (proj2 (Z.ltb_lt z _)) by lia. simpl. rewrite Z.mod_small by lia. reflexivity.
  - simpl. rewrite (proj2 (Z.leb_le _ z)) by lia. rewrite (proj2 (Z.ltb_lt z 0)) by lia.
    simpl. do 2 f_equal. rewrite <- (Z.mod_small (z + Z.of_nat n) (Z.of_nat n)) by lia.
    rewrite <- (Z.mul_1_l (Z.of_nat n)) at 1. rewrite Z.mod_add by lia. reflexivity.
Qed.
Lemma norm_index_bad n z : ~ valid_index n z -> norm_index n z = Raise IndexError.
Proof.
  unfold valid_index, norm_index. intros H.
  destruct (Z.leb_spec 0 z), (Z.ltb_spec z (Z.of_nat n)), (Z.leb_spec (- Z.of_nat n) z),
    (Z.ltb_spec z 0); simpl; auto; lia.
Qed.

Lemma res_map_ok {A B} (f : A -> res B) (g : A -> B) l :
  (forall x, x ∈ l -> f x = Ok (g x)) -> res_map f l = Ok (map g l).
Proof.
  induction l as [|x l IH]; intros H; simpl; auto.
  rewrite H by left. simpl. rewrite IH; auto. intros y Hy. apply H. right. auto.
Qed.
Lemma res_map_bad {A B} (f : A -> res B) e l :
  (forall x, x ∈ l -> f x = Raise e \/ exists y, f x = Ok y) ->
  (exists x, x ∈ l /\ f x = Raise e) -> res_map f l = Raise e.
Proof.
  induction l as [|x l IH]; intros H (y & Hy & E).
  - inversion Hy.
  - simpl. destruct (f x) as [z|e'] eqn:Ex; simpl.
    + apply elem_of_cons in Hy. destruct Hy as [->|Hy]; [congruence|].
      rewrite IH; auto.
      * intros w Hw. apply H. right. auto.
      * eauto.
    + destruct (H x ltac:(left)) as [E2|[w E2]]; congruence.
Qed.

Lemma entry2_shape nb a i k : rectangular a ->
  i < fst (shape2 nb a) -> k < snd (shape2 nb a) -> exists x, entry2 nb a i k = Some x.
Proof.
  intros Hr Hi Hk. destruct a as [x|l|m n rows]; simpl in *.
  - exists x. replace i with 0 by lia. replace k with 0 by lia. reflexivity.
  - destruct (nb =? 1); simpl in *.
    + replace i with 0 by lia. simpl. apply lookup_lt_is_Some_2. auto.
    + replace k with 0 by lia. simpl. apply lookup_lt_is_Some_2. auto.
  - destruct Hr as [Hm Hn]. destruct (lookup_lt_is_Some_2 rows i) as [row Hrow]; [lia|].
    rewrite Hrow. simpl. apply lookup_lt_is_Some_2.
    rewrite (proj1 (Forall_lookup _ _) Hn i row Hrow). auto.
Qed.

(** The two reshaping functions give an array of that shape and those entries. *)
Definition as2 (nb : nat) (a : coeffs K) : nat * nat * list (list K) :=
  if nb =? 1 then atleast_2d_row a else atleast_2d_col a.

Lemma as2_spec nb a : rectangular a ->
  fst (as2 nb a) = shape2 nb a /\
  length (snd (as2 nb a)) = fst (shape2 nb a) /\
  Forall (fun row => length row = snd (shape2 nb a)) (snd (as2 nb a)) /\
  forall i k, (snd (as2 nb a) !! i ≫= (fun row => row !! k)) = entry2 nb a i k.
Proof.
  intros Hr. unfold as2. destruct a as [x|l|m n rows]; simpl in *.
  - destruct (nb =? 1); simpl; (split; [reflexivity|]; split; [reflexivity|];
      split; [repeat constructor|]; intros [|i] [|k]; reflexivity).
  - destruct (nb =? 1); simpl.
    + split; [reflexivity|]. split; [reflexivity|]. split; [repeat constructor|].
      intros [|i] k; reflexivity.
    + split; [reflexivity|]. split; [apply map_length|]. split.
      * apply Forall_forall. intros row H. apply elem_of_list_In, in_map_iff in H.
        destruct H as (x & <- & _). reflexivity.
      * intros i k. rewrite lookup_map. destruct (l !! i); destruct k; reflexivity.
  - destruct Hr. destruct (nb =? 1); simpl; auto.
Qed.

(** The slicing picks the given columns. *)
Lemma take_cols_spec nb a (idx : col_index) : rectangular a ->
  let cs := match idx with OneCol z => [z] | Cols l => l end in
  Forall (valid_index (snd (shape2 nb a))) cs ->
  exists rows, take_cols (as2 nb a) idx = Ok (fst (shape2 nb a), length cs, rows) /\
    forall i j z, i < fst (shape2 nb a) -> cs !! j = Some z ->
      (rows !! i ≫= (fun row => row !! j)) = entry2 nb a i (wrap (snd (shape2 nb a)) z).
Proof.
  intros Hr cs Hv. destruct (as2_spec nb a Hr) as (Hs & Hl & Hw & He).
  destruct (as2 nb a) as [[m n] rows]. simpl in *. rewrite <- Hs in *. simpl in *.
  fold cs. rewrite (res_map_ok _ (wrap n)).
  2:{ intros z Hz. apply norm_index_ok. rewrite Forall_forall in Hv. auto. }
  simpl.
  assert (E : res_map (fun row => res_map (py_nth row) (map (wrap n) cs)) rows =
    Ok (map (fun row => omap (fun k => row !! k) (map (wrap n) cs)) rows)).
  { apply res_map_ok. intros row Hrow.
    assert (Hn : length row = n) by (rewrite Forall_forall in Hw; auto).
    clear -Hv Hn. induction cs as [|z cs IH]; simpl; auto.
    inversion Hv as [|? ? Hz Hv']; subst.
    pose proof (wrap_lt _ _ Hz) as Hlt.
    destruct (lookup_lt_is_Some_2 row _ Hlt) as [x Hx].
    unfold py_nth at 1. rewrite nth_error_lookup, Hx. simpl. rewrite IH by auto. reflexivity. }
  rewrite E. simpl. eexists. split; [rewrite map_length; reflexivity|].
  intros i j z Hi Hj. rewrite <- He, lookup_map.
  destruct (lookup_lt_is_Some_2 rows i) as [row Hrow]; [lia|]. rewrite Hrow. simpl.
  assert (Hn : length row = n) by (apply (proj1 (Forall_lookup _ _) Hw i row Hrow)).
  clear -Hv Hn Hj. revert j Hj. induction cs as [|z' cs IH]; intros j Hj; [discriminate|].
  inversion Hv as [|? ? Hz Hv']; subst. simpl.
  pose proof (wrap_lt _ _ Hz) as Hlt.
  destruct (lookup_lt_is_Some_2 row _ Hlt) as [x Hx]. rewrite Hx.
  destruct j as [|j]; simpl in *.
  - injection Hj as <-. auto.
  - apply IH; auto.
Qed.

Definition coef (nb : nat) (a : coeffs K) (idx : option col_index) (i j : nat) : option K :=
  let n := snd (shape2 nb a) in
  columns n idx !! j ≫= (fun z => entry2 nb a i (wrap n z)).

Lemma columns_valid n : Forall (valid_index n) (columns n None).
Proof.
  apply Forall_forall. intros z Hz. apply elem_of_list_In, in_map_iff in Hz.
  destruct Hz as (k & <- & Hk). apply elem_of_list_In, elem_of_seq in Hk.
  unfold valid_index. lia.
Qed.
Lemma wrap_nat n k : k < n -> wrap n (Z.of_nat k) = k.
Proof. intros H. unfold wrap. rewrite Z.mod_small by lia. apply Nat2Z.id. Qed.

Lemma get_entry_lookup (rows : list (list K)) i j x :
  (rows !! i ≫= (fun row => row !! j)) = Some x -> get_entry rows i j = Ok x.
Proof.
  unfold get_entry, py_nth. rewrite !nth_error_lookup.
  destruct (rows !! i) as [row|]; [|discriminate]. simpl. intros H.
  rewrite nth_error_lookup, H. reflexivity.
Qed.

(** Conforming arguments are accepted. *)
Lemma lin_coeffs_ok nb ns a idx : rectangular a ->
  Forall (valid_index (snd (shape2 nb a))) (columns (snd (shape2 nb a)) idx) ->
  fst (shape2 nb a) = nb -> length (columns (snd (shape2 nb a)) idx) = ns ->
  exists rows, lin_coeffs nb ns a idx = Ok rows /\
    forall i j x, i < nb -> j < ns -> coef nb a idx i j = Some x -> get_entry rows i j = Ok x.
Proof.
  intros Hr Hv Hm Hn. unfold lin_coeffs. fold (as2 nb a). destruct idx as [idx|].
  - destruct (take_cols_spec nb a idx Hr) as (rows & E & He).
    { destruct idx; exact Hv. }
    rewrite E. simpl. rewrite Hm.
    replace (length match idx with OneCol z => [z] | Cols l => l end) with ns
      by (rewrite <- Hn; destruct idx; reflexivity).
    rewrite !Nat.eqb_refl. simpl. exists rows. split; auto.
    intros i j x Hi Hj Hc. apply get_entry_lookup. unfold coef in Hc. rewrite <- Hc.
    destruct (columns (snd (shape2 nb a)) (Some idx) !! j) as [z|] eqn:Ez; [|discriminate].
    simpl. apply He; [lia|]. destruct idx; exact Ez.
  - destruct (as2_spec nb a Hr) as (Hs & Hl & Hw & He). simpl.
    rewrite Hs, Hm. simpl in Hn. rewrite !map_length, seq_length in Hn. rewrite Hn.
    rewrite !Nat.eqb_refl. simpl. exists (snd (as2 nb a)). split; auto.
    intros i j x Hi Hj Hc. apply get_entry_lookup. rewrite He, <- Hc. unfold coef. simpl.
    rewrite lookup_map, lookup_seq_lt by lia. simpl. rewrite wrap_nat by lia. reflexivity.
Qed.

(** An index out of range is an IndexError. *)
Lemma lin_coeffs_bad_index nb ns a idx : rectangular a ->
  ~ Forall (valid_index (snd (shape2 nb a))) (columns (snd (shape2 nb a)) idx) ->
  lin_coeffs nb ns a idx = Raise IndexError.
Proof.
  intros Hr Hv. destruct idx as [idx|]; [|destruct Hv; apply columns_valid].
  unfold lin_coeffs. fold (as2 nb a). destruct (as2_spec nb a Hr) as (Hs & _).
  destruct (as2 nb a) as [[m n] rows]. simpl in Hs. rewrite <- Hs in *. simpl in *.
  replace (match idx with OneCol z => [z] | Cols l => l end)
    with (columns n (Some idx)) by (destruct idx; reflexivity).
  rewrite (res_map_bad _ IndexError); [reflexivity| |].
  - intros z _. destruct (decide (- Z.of_nat n <= z < Z.of_nat n)%Z).
    + right. eexists. apply norm_index_ok. auto.
    + left. apply norm_index_bad. auto.
  - assert (Hd : forall z, Decision (valid_index n z)) by (intros; unfold valid_index; apply _).
    apply not_Forall_Exists in Hv; auto. apply Exists_exists in Hv.
    destruct Hv as (z & Hz & Hb). exists z. split; auto. apply norm_index_bad. auto.
Qed.

(** Otherwise a mismatch of the shape is a ValueError. *)
Lemma lin_coeffs_mismatch nb ns a idx : rectangular a ->
  Forall (valid_index (snd (shape2 nb a))) (columns (snd (shape2 nb a)) idx) ->
  fst (shape2 nb a) <> nb \/ length (columns (snd (shape2 nb a)) idx) <> ns ->
  lin_coeffs nb ns a idx = Raise ValueError.
Proof.
  intros Hr Hv Hm. unfold lin_coeffs. fold (as2 nb a).
  assert (E : exists rows, match idx with None => Ok (as2 nb a) | Some i => take_cols (as2 nb a) i end
    = Ok (fst (shape2 nb a), length (columns (snd (shape2 nb a)) idx), rows)).
  { destruct idx as [idx|].
    - destruct (take_cols_spec nb a idx Hr) as (rows & E & _).
      { destruct idx; exact Hv. }
      exists rows. rewrite E. destruct idx; reflexivity.
    - destruct (as2_spec nb a Hr) as (Hs & _). exists (snd (as2 nb a)).
      simpl. rewrite map_length, seq_length. rewrite <- Hs.
      destruct (as2 nb a) as [[m n] rows]. reflexivity. }
  destruct E as [rows ->]. simpl.
  destruct (Nat.eqb_spec nb (fst (shape2 nb a))); auto. simpl.
  destruct (Nat.eqb_spec ns (length (columns (snd (shape2 nb a)) idx))); auto. lia.
Qed.
End Coeffs.
