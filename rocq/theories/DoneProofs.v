(** When a rank has returned, the others have done all their reads and writes. *)
From stdpp Require Import gmap list.
From Coq Require Import Lia.
From Verif Require Import Prelude ParallelModel ParallelProofs Spmd SpmdFacts SpmdLock SpmdWrites SpmdTrace
  ReductionsModel InnerProdModel SymmModel LinCombModel ArrayProofs RingProofs TaskProofs InnerProdProofs
  SymmProofs LinCombProofs DerivsModel ReadsProofs.
Open Scope nat_scope.

(** ** Counting barriers *)

Inductive act := R (h : loc) | W (h : loc) | B.
Definition rd (h : loc) : list act := [R h].
Definition wr (h : loc) : list act := [W h].
Definition is_b (a : act) : bool := match a with B => true | _ => false end.
Definition count (l : list act) : nat := length (filter (fun a => is_b a = true) l).

Lemma count_app l l' : count (l ++ l') = count l + count l'.
Proof. unfold count. rewrite filter_app, app_length. reflexivity. Qed.
Lemma count_flat_map {A} (f : A -> list act) (g : A -> nat) l : (forall x, x ∈ l -> count (f x) = g x) ->
  count (flat_map f l) = sum_list (map g l).
Proof.
  induction l as [|x l IH]; intros H; simpl; auto.
  rewrite count_app, H by left. f_equal. apply IH. intros y Hy. apply H. right. auto.
Qed.
Lemma count_none {A} (f : A -> list act) l : (forall x, count (f x) = 0) -> count (flat_map f l) = 0.
Proof. intros H. induction l as [|x l IH]; simpl; auto. rewrite count_app, H, IH. reflexivity. Qed.
Lemma count_times n l : count (times n l) = n * count l.
Proof. induction n as [|n IH]; auto. unfold times in *. simpl. rewrite count_app, IH. reflexivity. Qed.
Lemma count_rd l : count (flat_map rd l) = 0.
Proof. apply count_none. reflexivity. Qed.

Section Counts.
Context (P : nat).
Notation nb := (count (bars P [B])).

Lemma count_pass hs r : count (pass_trace P rd [B] hs r) = ceil_div (length hs) P * ((P - 1) * nb).
Proof.
  unfold pass_trace. rewrite (count_flat_map _ (fun _ => (P - 1) * nb)).
  - generalize (ceil_div (length hs) P), ((P - 1) * nb). intros n k. clear.
    assert (G : forall a, sum_list (map (fun _ => k) (seq a n)) = n * k).
    { induction n as [|n IH]; intros a; simpl; auto. }
    apply G.
  - intros g _. rewrite count_app, count_times. unfold chunk_trace. cbv zeta. rewrite count_rd. reflexivity.
Qed.
Lemma count_core per_proc r r' rows cols :
  count (core_trace P rd [B] per_proc r rows cols) = count (core_trace P rd [B] per_proc r' rows cols).
Proof.
  unfold core_trace. rewrite !count_app, !count_rd. f_equal.
  rewrite (count_flat_map _ (fun _ => ceil_div (length cols) P * ((P - 1) * nb)) (seq _ _)).
  - symmetry. apply count_flat_map. intros g _. rewrite count_app, count_pass. unfold chunk_trace. cbv zeta.
    rewrite count_rd. reflexivity.
  - intros g _. rewrite count_app, count_pass. unfold chunk_trace. cbv zeta. rewrite count_rd. reflexivity.
Qed.
Lemma count_ip per_proc r r' rows cols :
  count (ip_trace P rd [B] per_proc r rows cols) = count (ip_trace P rd [B] per_proc r' rows cols).
Proof.
  unfold ip_trace. rewrite !count_app. f_equal. destruct (_ <? _); apply count_core.
Qed.
Lemma count_lin per_proc r r' sums basis :
  count (lin_trace P rd wr [B] per_proc r sums basis) = count (lin_trace P rd wr [B] per_proc r' sums basis).
Proof.
  assert (W0 : forall r g c, count (put_trace P wr sums r g c) = 0).
  { intros. unfold put_trace. cbv zeta. apply count_none. reflexivity. }
  unfold lin_trace. rewrite !count_app, !count_rd. f_equal. f_equal.
  rewrite (count_flat_map _ (fun _ => ceil_div (length basis) P * ((P - 1) * nb)) (seq _ _)).
  - symmetry. apply count_flat_map. intros g _. rewrite count_app, count_pass, W0. lia.
  - intros g _. rewrite count_app, count_pass, W0. lia.
Qed.
Lemma count_symm per_proc r r' vecs :
  count (symm_trace P rd [B] per_proc r vecs) = count (symm_trace P rd [B] per_proc r' vecs).
Proof.
  unfold symm_trace. rewrite !count_app, !count_rd. f_equal. f_equal.
  set (g := fun s => let e := Nat.min (length vecs) (s + (per_proc - 1) * P) in
              count (sets_trace P [B] s e) + sum_list (map (fun _ => (P - 1) * nb) (py_range e (length vecs) P))).
  assert (G : forall r, count (flat_map (fun s =>
    let e := Nat.min (length vecs) (s + (per_proc - 1) * P) in
    flat_map rd (share P vecs s (e - s) r) ++
    sets_trace P [B] s e ++
    flat_map (fun q => flat_map rd (share P vecs q (Nat.min (q + P) (length vecs) - q) r) ++ times (P - 1) (bars P [B]))
      (py_range e (length vecs) P))
    (py_range 0 (length vecs) ((per_proc - 1) * P))) = sum_list (map g (py_range 0 (length vecs) ((per_proc - 1) * P)))).
  { intros q. apply count_flat_map. intros s _. cbv zeta. unfold g. cbv zeta.
    rewrite !count_app, count_rd. simpl. f_equal. apply count_flat_map. intros x _.
    rewrite count_app, count_rd, count_times. reflexivity. }
  rewrite !G. reflexivity.
Qed.
End Counts.

(** ** Everybody is done when somebody has returned *)

Lemma count_passes {M} (l : list (event M)) :
  count (flat_map (watch rd wr [B]) l) =
  length (filter (fun e => match e with Passes => true | _ => false end = true) l).
Proof.
  induction l as [|e l IH]; auto. simpl. rewrite count_app, IH. destruct e; reflexivity.
Qed.

Lemma all_done {M V O} tag_ub eager P okm (m : nat -> prog M V O O) st
    (l front : nat -> list act) n tr d i o :
  (forall r, r < P -> pemits (watch rd wr [B]) okm (l r) (fun _ => True) (m r)) ->
  (forall r, r < P -> l r = front r ++ bars P [B]) ->
  (forall r, r < P -> count (l r) = n) ->
  trun tag_ub eager tr (launch P m st) d ->
  procs d !! i = Some (Ret o) ->
  forall r, r < P -> l r = flat_map (watch rd wr [B]) (of_rank r tr).
Proof.
  intros Hm Hf Hn Hrun Hi r Hr.
  assert (Hlen : length (procs (launch P m st)) = P).
  { simpl. rewrite fmap_length. apply seq_length. }
  assert (Hld : length (procs d) = P).
  { rewrite <- Hlen. destruct (trun_steps _ _ _ _ _ Hrun) as [k Hk]. eapply steps_procs_length; eauto. }
  assert (HiP : i < P) by (apply lookup_lt_Some in Hi; lia).
  destruct (launch_trace _ _ _ _ _ _ _ _ _ _ Hm Hrun) as [_ He].
  destruct (He i HiP) as (p & rest & Hp & Ei & Hrest). rewrite Hi in Hp. injection Hp as <-.
  specialize (Hrest o eq_refl). subst rest. rewrite app_nil_r in Ei.
  destruct (He r Hr) as (q & rest & Hq & Er & _).
  destruct (decide (r = i)) as [->|Hne]; [exact Ei|].
  assert (Hc : count rest = 0).
  { pose proof (Hn i HiP) as H1. pose proof (Hn r Hr) as H2. rewrite Ei in H1. rewrite Er in H2.
    rewrite count_app in H2. rewrite count_passes in H1, H2.
    pose proof (trun_passes tag_ub eager tr _ d i r Hrun ltac:(lia) ltac:(lia)) as H3. unfold passes in H3. lia. }
  rewrite Er. destruct rest as [|x rest] using rev_ind; [apply app_nil_r|].
  exfalso. rewrite (Hf r Hr), app_assoc in Er. unfold bars in Er. rewrite (proj2 (Nat.ltb_lt 1 P)) in Er by lia.
  apply app_inj_tail in Er. destruct Er as [_ <-]. rewrite count_app in Hc. unfold count in Hc at 2. simpl in Hc. lia.
Qed.

(** ** Projections *)

Section Proj.
Context {E F : Type} (f : E -> list F) (P : nat) (rd wr : loc -> list E) (bar : list E).
Notation rd' := (fun h => flat_map f (rd h)).
Notation wr' := (fun h => flat_map f (wr h)).
Notation bar' := (flat_map f bar).

Lemma proj_bars : flat_map f (bars P bar) = bars P bar'.
Proof. unfold bars. destruct (1 <? P); reflexivity. Qed.
Lemma proj_times n l : flat_map f (times n l) = times n (flat_map f l).
Proof. induction n as [|n IH]; auto. unfold times in *. simpl. rewrite flat_map_app, IH. reflexivity. Qed.
Lemma proj_pass hs r : flat_map f (pass_trace P rd bar hs r) = pass_trace P rd' bar' hs r.
Proof.
  unfold pass_trace. rewrite flat_map_flat_map. apply flat_map_ext_in. intros g _.
  rewrite flat_map_app, proj_times, proj_bars. f_equal. unfold chunk_trace. cbv zeta. apply flat_map_flat_map.
Qed.
Lemma proj_core per_proc r rows cols :
  flat_map f (core_trace P rd bar per_proc r rows cols) = core_trace P rd' bar' per_proc r rows cols.
Proof.
  unfold core_trace. rewrite flat_map_app, !flat_map_flat_map. f_equal.
  apply flat_map_ext_in. intros g _. rewrite flat_map_app, proj_pass. f_equal.
  unfold chunk_trace. cbv zeta. apply flat_map_flat_map.
Qed.
Lemma proj_ip per_proc r rows cols :
  flat_map f (ip_trace P rd bar per_proc r rows cols) = ip_trace P rd' bar' per_proc r rows cols.
Proof.
  unfold ip_trace. rewrite flat_map_app, proj_bars. f_equal. destruct (_ <? _); apply proj_core.
Qed.
Lemma proj_lin per_proc r sums basis :
  flat_map f (lin_trace P rd wr bar per_proc r sums basis) = lin_trace P rd' wr' bar' per_proc r sums basis.
Proof.
  unfold lin_trace. rewrite !flat_map_app, !flat_map_flat_map, proj_bars. f_equal. f_equal.
  apply flat_map_ext_in. intros g _. rewrite flat_map_app, proj_pass. f_equal.
  unfold put_trace. cbv zeta. apply flat_map_flat_map.
Qed.
Lemma proj_symm per_proc r vecs :
  flat_map f (symm_trace P rd bar per_proc r vecs) = symm_trace P rd' bar' per_proc r vecs.
Proof.
  unfold symm_trace. rewrite !flat_map_app, !flat_map_flat_map, proj_bars. f_equal. f_equal.
  apply flat_map_ext_in. intros s _. cbv zeta. rewrite !flat_map_app, !flat_map_flat_map. f_equal.
  unfold sets_trace. cbv zeta. rewrite proj_times, proj_bars. f_equal.
  apply flat_map_ext_in. intros q _. rewrite flat_map_app, flat_map_flat_map, proj_times, proj_bars. reflexivity.
Qed.
End Proj.

(** ** Writes of linear combinations *)

Lemma lin_writes P per_proc sums basis r : 0 < P -> r < P -> 2 <= per_proc ->
  lin_trace P never once [] per_proc r sums basis =
  map (fun j => nth j sums 0) (rank_tasks P (length sums) r).
Proof.
  intros HP Hr Hpp. unfold lin_trace. rewrite no_bars, app_nil_r.
  assert (Np : pass_trace P never [] basis r = []).
  { unfold pass_trace, chunk_trace, never. cbv zeta. rewrite no_bars.
    assert (G : forall l : list nat, flat_map (fun h => flat_map (fun _ : loc => [] : list loc)
       (slice (fst (chunk_bounds (rank_tasks P (length basis) r) h 1))
          (snd (chunk_bounds (rank_tasks P (length basis) r) h 1)) basis) ++ times (P - 1) []) l = []).
    { induction l as [|x l IH]; auto. simpl. rewrite IH, flat_map_const, !times_nil. reflexivity. }
    apply G. }
  simpl.
  rewrite <- (chunks_of_rank P HP sums r (per_proc - 1) (ceil_div (ceil_div (length sums) P) (per_proc - 1)));
    auto; [|lia|].
  2:{ pose proof (ceil_div_ge (ceil_div (length sums) P) (per_proc - 1) ltac:(lia)). lia. }
  apply flat_map_ext_in. intros g _. cbv zeta. rewrite Np. simpl.
  unfold put_trace, once. cbv zeta. rewrite flat_map_single. symmetry. apply nths_slice.
  pose proof (tend_le P (length sums) r HP Hr) as T.
  destruct (chunk_bounds_spec (tstart P (length sums) r) (tlen P (length sums) r) g (per_proc - 1)) as (H1 & H2 & _).
  fold (rank_tasks P (length sums) r) in H1, H2. lia.
Qed.

(** ** Derivatives *)

Section Derivs.
Context {M V K O : Type} (P : nat) (HP : 0 < P).

Definition derivs_trace (r : nat) (vecs advs derivs : list loc) : list act :=
  flat_map (fun i => [R (nth i vecs 0); R (nth i advs 0); W (nth i derivs 0)]) (rank_tasks P (length vecs) r) ++
  bars P [B].

Lemma emits_derivs (vsub : V -> V -> V) (smul : K -> V -> V) inv_dt r vecs advs derivs : r < P ->
  pemits (watch rd wr [B]) (fun _ : M => True) (derivs_trace r vecs advs derivs) (fun _ => True)
    (@derivs_handles M V K O P vsub smul inv_dt r vecs advs derivs).
Proof.
  intros Hr. unfold derivs_handles, derivs_trace. destruct (_ || _); [apply pemits_fail|].
  apply (pemits_bind _ _ _ _ (fun _ => True)).
  2:{ intros _ _. unfold barrier, bars. destruct (1 <? P); [|apply pemits_ret; exact I].
      apply (pemits_barrier (watch rd wr [B]) (fun _ => True)). }
  rewrite tasks_nth by auto. cbn [Nat.add]. apply pemits_for; [exact I|]. intros i [] _ _.
  apply (pemits_bind_nil _ _ _ (fun h => h = nth i vecs 0)).
  { apply pemits_lift. intros h Hh. apply (py_nth_ok vecs i h 0 Hh). }
  intros h ->.
  change [R (nth i vecs 0); R (nth i advs 0); W (nth i derivs 0)] with
    ([R (nth i vecs 0)] ++ [R (nth i advs 0)] ++ [W (nth i derivs 0)]).
  apply (pemits_bind _ _ _ _ (fun _ => True)); [apply (pemits_get (watch rd wr [B]))|]. intros v _.
  apply (pemits_bind_nil _ _ _ (fun h => h = nth i advs 0)).
  { apply pemits_lift. intros h Hh. apply (py_nth_ok advs i h 0 Hh). }
  intros h ->.
  apply (pemits_bind _ _ _ _ (fun _ => True)); [apply (pemits_get (watch rd wr [B]))|]. intros w _.
  apply (pemits_bind_nil _ _ _ (fun _ => True)); [apply pemits_lift; auto|]. intros c _.
  apply (pemits_bind_nil _ _ _ (fun h => h = nth i derivs 0)).
  { apply pemits_lift. intros h Hh. apply (py_nth_ok derivs i h 0 Hh). }
  intros h ->. apply (pemits_put (watch rd wr [B]) (fun _ => True)).
Qed.

Lemma count_derivs r vecs advs derivs : count (derivs_trace r vecs advs derivs) = count (bars P [B]).
Proof.
  unfold derivs_trace. rewrite count_app, count_none; auto.
Qed.
End Derivs.

(** ** The store *)

Section Store.
Context {M V O : Type} (tag_ub : nat) (eager : M -> bool).
Notation trun := (@trun M V O tag_ub eager).

Definition written (tr : list (nat * event M)) : list loc := flat_map (watch never once []) (map snd tr).

Lemma written_app tr tr' : written (tr ++ tr') = written tr ++ written tr'.
Proof. unfold written. rewrite map_app, flat_map_app. reflexivity. Qed.

Lemma trun_app tr tr' c d e : trun tr c d -> trun tr' d e -> trun (tr ++ tr') c e.
Proof.
  induction 1 as [c|k p c c' d w Hp Hr Hrun IH|ps ch st d w Hne Hall Hrun IH]; intros H; auto.
  - rewrite <- app_assoc. eapply trun_rank; eauto.
  - rewrite <- app_assoc. apply trun_barrier; auto.
Qed.

Lemma trun_store tr c d : trun tr c d -> written tr = [] -> store d = store c.
Proof.
  induction 1 as [c|k p c c' d w Hp Hr Hrun IH|ps ch st d w Hne Hall Hrun IH]; intros H; auto.
  - rewrite written_app in H. apply app_eq_nil in H. destruct H as [H1 H2]. rewrite (IH H2).
    unfold rank_step in Hr. rewrite Hp in Hr.
    destruct (local_step _ _ _ _ _ _ _) as [[[p' ch'] st']|] eqn:Hs; [|discriminate].
    injection Hr as <-. simpl.
    destruct p; simpl in Hs; try discriminate; repeat case_match; try discriminate; congruence || injection Hs as _ _ <-; reflexivity.
  - rewrite written_app in H. apply app_eq_nil in H. destruct H as [H1 H2]. rewrite (IH H2). reflexivity.
Qed.

(** When all writes of any complete run have been made, the store is final. *)
Lemma store_final ws Q tr c d : always_ends tag_ub eager c Q -> trun tr c d ->
  (forall tr' d', Q d' -> trun tr' c d' -> written tr' ≡ₚ ws) -> written tr ≡ₚ ws ->
  exists d', Q d' /\ store d' = store d.
Proof.
  intros [n H] Hrun Hall Hw. destruct (trun_steps _ _ _ _ _ Hrun) as [k Hk].
  destruct (H k d Hk) as (_ & _ & d' & Hs & HQ). exists d'. split; auto.
  destruct (steps_trun _ _ _ _ _ Hs) as [tr' Htr'].
  apply (trun_store _ _ _ Htr'). pose proof (Hall _ _ HQ (trun_app _ _ _ _ _ Hrun Htr')) as Hp.
  rewrite written_app, Hw in Hp. apply Permutation_length in Hp. rewrite app_length in Hp.
  destruct (written tr'); auto. simpl in Hp. lia.
Qed.
End Store.
