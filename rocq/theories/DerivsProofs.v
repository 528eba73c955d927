(** Finite differences of handles. *)
From stdpp Require Import gmap list.
From Coq Require Import Lia.
From Verif Require Import Prelude ParallelModel ParallelProofs Spmd SpmdFacts SpmdLock SpmdEnds
  SpmdWrites ReductionsModel ReductionsProofs InnerProdModel ArrayProofs TaskProofs LinCombProofs
  DerivsModel.
Open Scope prog_scope.

Section Proofs.
Context {M V K O : Type}.
Notation prog := (prog M V O).
Context (P tag_ub : nat) (eager : M -> bool).
Notation wp := (@wp M V O tag_ub eager P).
Context (vsub : V -> V -> V) (smul : K -> V -> V).
Context (HP : 0 < P).
Context (vecs advs derivs : list loc).
Context (L1 : length vecs = length advs) (L2 : length vecs = length derivs).
Context (st : gmap loc V) (vs ws : list V).
Context (Hv : Forall2 (fun h v => st !! h = Some v) vecs vs).
Context (Hw : Forall2 (fun h v => st !! h = Some v) advs ws).
Context (Hnd : NoDup derivs).
Context (Hdis : forall i j h, derivs !! i = Some h ->
  vecs !! j = Some h \/ advs !! j = Some h -> i = j).
Notation n := (length vecs).

Definition dputs c : list (loc * V) :=
  zip derivs (zip_with (fun w v => smul c (vsub w v)) ws vs).

Lemma dputs_lookup c i : i < n -> exists g h h' v w,
  derivs !! i = Some g /\ vecs !! i = Some h /\ advs !! i = Some h' /\
  st !! h = Some v /\ st !! h' = Some w /\ vs !! i = Some v /\ ws !! i = Some w /\
  dputs c !! i = Some (g, smul c (vsub w v)).
Proof.
  intros Hi.
  pose proof (Forall2_length _ _ _ Hv) as Lv. pose proof (Forall2_length _ _ _ Hw) as Lw.
  destruct (lookup_lt_is_Some_2 derivs i ltac:(lia)) as [g Eg].
  destruct (lookup_lt_is_Some_2 vecs i ltac:(lia)) as [h Eh].
  destruct (lookup_lt_is_Some_2 advs i ltac:(lia)) as [h' Eh'].
  destruct (lookup_lt_is_Some_2 vs i ltac:(lia)) as [v Ev].
  destruct (lookup_lt_is_Some_2 ws i ltac:(lia)) as [w Ew].
  exists g, h, h', v, w.
  pose proof (Forall2_lookup_lr _ _ _ _ _ _ Hv Eh Ev) as S1.
  pose proof (Forall2_lookup_lr _ _ _ _ _ _ Hw Eh' Ew) as S2.
  repeat (split; [assumption|]). unfold dputs. rewrite lookup_zip_with, Eg. simpl.
  rewrite lookup_zip_with, Ew. simpl. rewrite Ev. reflexivity.
Qed.

Lemma dputs_fst c i x : dputs c !! i = Some x -> derivs !! i = Some (fst x).
Proof.
  unfold dputs. rewrite lookup_zip_with. destruct (derivs !! i) as [g|]; [|discriminate].
  simpl. destruct (_ !! i); [|discriminate]. simpl. intros E. injection E as <-. reflexivity.
Qed.

Lemma dputs_length c : length (dputs c) = n.
Proof.
  pose proof (Forall2_length _ _ _ Hv) as Lv. pose proof (Forall2_length _ _ _ Hw) as Lw.
  unfold dputs. rewrite !zip_with_length. lia.
Qed.

Lemma dputs_other c i h : 
  vecs !! i = Some h \/ advs !! i = Some h ->
  puts st (take i (dputs c)) !! h = st !! h.
Proof.
  intros Hh. apply puts_other. intros Hin.
  apply elem_of_list_In, in_map_iff in Hin. destruct Hin as (x & Ex & Hj).
  apply elem_of_list_In, elem_of_list_lookup in Hj. destruct Hj as [j Hj].
  assert (j < i) as Hlt.
  { apply lookup_lt_Some in Hj. rewrite take_length in Hj. lia. }
  rewrite lookup_take in Hj by auto. apply dputs_fst in Hj. rewrite Ex in Hj.
  pose proof (Hdis j i h Hj Hh). lia.
Qed.

Lemma wp_derivs c (Post : _ -> _ -> Prop) :
  (forall u, Post (puts st (dputs c)) u) ->
  wp st (fun r => derivs_handles P vsub smul (Ok c) r vecs advs derivs) Post.
Proof.
  intros HPost. unfold derivs_handles.
  rewrite (proj2 (Nat.eqb_eq _ _) L1), (proj2 (Nat.eqb_eq _ _) L2). simpl.
  set (sr := fun r => puts st (take (tstart P n r) (dputs c))).
  eapply wp_bind with (Q := fun st' _ => st' = sr P).
  - pose proof (wp_local tag_ub eager P
      (fun r => for_loop (nth r (find_assignments P (seq 0 n) None) []) tt (fun i _ =>
        h <- lift (py_nth vecs i) ;;
        vec <- get h ;;
        h' <- lift (py_nth advs i) ;;
        vec_dt <- get h' ;;
        c <- lift (Ok c) ;;
        g <- lift (py_nth derivs i) ;;
        put g (smul c (vsub vec_dt vec))) : prog unit) sr (fun _ => tt)
      (fun st' _ => st' = sr P)) as W.
    assert (E0 : sr 0 = st) by (unfold sr; rewrite tstart_0; reflexivity).
    rewrite E0 in W. apply W; [|reflexivity].
    intros r Hr. rewrite tasks_nth by auto. rewrite Nat.add_0_l.
    set (t := tstart P n r). set (len := tlen P n r).
    pose proof (tend_le P n r HP Hr) as Le. fold t len in Le.
    edestruct (@local_for M V O tag_ub eager P nat unit (seq t len))
      with (st := sr r) (s := tt)
      (body := fun i (_ : unit) =>
        h <- lift (py_nth vecs i) ;;
        vec <- get h ;;
        h' <- lift (py_nth advs i) ;;
        vec_dt <- get h' ;;
        c <- lift (Ok c) ;;
        g <- lift (py_nth derivs i) ;;
        @put M V O g (smul c (vsub vec_dt vec)))
      (Inv := fun k s (_ : unit) => s = puts st (take (t + k) (dputs c)))
      as (st' & [] & H & E).
    + rewrite Nat.add_0_r. reflexivity.
    + intros k x s [] Hx ->. apply lookup_seq in Hx. destruct Hx as [-> Hk].
      set (i := t + k). assert (Hi : i < n) by (unfold i; lia).
      destruct (dputs_lookup c i Hi) as
        (g & h & h' & v & w & E3 & E1 & E2 & S1 & S2 & E4 & E5 & Ex).
      eexists _, tt. split.
      * unfold py_nth. rewrite !nth_error_lookup, E1, E2, E3.
        eapply local_bind; [apply local_ret|].
        eapply local_bind; [apply local_get; rewrite (dputs_other c i) by auto; exact S1|].
        eapply local_bind; [apply local_ret|].
        eapply local_bind; [apply local_get; rewrite (dputs_other c i) by auto; exact S2|].
        eapply local_bind; [apply local_ret|].
        eapply local_bind; [apply local_ret|].
        apply local_put.
      * replace (t + S k) with (S i) by (unfold i; lia).
        rewrite (take_S_r _ _ _ Ex), puts_app. reflexivity.
    + rewrite seq_length in E. unfold sr at 2. rewrite tstart_S by auto. fold t len.
      rewrite <- E. exact H.
  - intros st' u ->. apply (wp_par_barrier tag_ub eager P (sr P)); auto.
    intros u'. unfold sr. rewrite tstart_P by auto. rewrite take_ge by (rewrite dputs_length; auto).
    apply HPost.
Qed.

Lemma derivs_done c :
  let s := puts st (dputs c) in
  (forall i h v w, derivs !! i = Some h -> vs !! i = Some v -> ws !! i = Some w ->
     s !! h = Some (smul c (vsub w v))) /\
  (forall h, h ∉ derivs -> s !! h = st !! h).
Proof.
  simpl. split.
  - intros i h v w Hi Ei Ei'. assert (Hlt : i < n) by (apply lookup_lt_Some in Hi; lia).
    destruct (dputs_lookup c i Hlt) as
      (g & h1 & h' & v1 & w1 & E3 & E1 & E2 & S1 & S2 & E4 & E5 & Ex).
    assert (g = h) by congruence. assert (v1 = v) by congruence. assert (w1 = w) by congruence.
    subst g v1 w1.
    apply puts_same.
    + apply elem_of_list_lookup. eauto.
    + intros v' Hv'. apply elem_of_list_lookup in Hv'. destruct Hv' as [j Hj].
      pose proof (dputs_fst _ _ _ Hj) as Ej. simpl in Ej.
      assert (j = i) as -> by (apply (NoDup_lookup derivs j i h); auto). congruence.
  - intros h Hh. apply puts_other. intros Hin. apply Hh.
    apply elem_of_list_In, in_map_iff in Hin. destruct Hin as (x & Ex & Hj).
    apply elem_of_list_In, elem_of_list_lookup in Hj. destruct Hj as [j Hj].
    apply dputs_fst in Hj. rewrite Ex in Hj. eapply elem_of_list_lookup_2; eauto.
Qed.

End Proofs.

Section Footprint.
Context {M V K O : Type}.
Context (P tag_ub : nat).
Context (vsub : V -> V -> V) (smul : K -> V -> V).
Context (HP : 0 < P).
Context (vecs advs derivs : list loc).

Definition task_of (r i : nat) : Prop :=
  i ∈ nth r (find_assignments P (seq 0 (length vecs)) None) [].
Definition dreads (r : nat) (h : loc) : Prop :=
  exists i, task_of r i /\ (vecs !! i = Some h \/ advs !! i = Some h).
Definition dwrites (r : nat) (h : loc) : Prop :=
  exists i, r < P /\ task_of r i /\ derivs !! i = Some h.

Lemma puses_nth (R W : loc -> Prop) {A B} (l : list A) i (k : A -> prog M V O B) :
  (forall x, l !! i = Some x -> puses R W (k x)) ->
  puses R W (x <- lift (py_nth l i) ;; k x).
Proof.
  intros Hk. unfold py_nth. rewrite nth_error_lookup. destruct (l !! i) as [x|] eqn:E.
  - intros k' Hk'. apply (Hk x); auto.
  - intros k' Hk'. exact I.
Qed.

Lemma task_of_unique r r' i : r < P -> r' < P -> task_of r i -> task_of r' i -> r = r'.
Proof.
  intros Hr Hr' H H'. unfold task_of in *. rewrite tasks_nth in * by auto.
  apply elem_of_seq in H, H'. pose proof (tend_le P (length vecs) r HP Hr).
  rewrite <- (owner_unique P (length vecs) i r) by (auto; lia).
  apply owner_unique; auto; lia.
Qed.

Lemma derivs_separate :
  NoDup derivs ->
  (forall i j h, derivs !! i = Some h -> vecs !! j = Some h \/ advs !! j = Some h -> i = j) ->
  separate (fun r h => r < P /\ dreads r h) dwrites.
Proof.
  intros Hnd Hdis r r' h Hne (i & Hr & Hi & Eh). split.
  - intros (j & Hr' & Hj & Eh'). apply Hne.
    assert (i = j) as <- by (apply (NoDup_lookup derivs i j h); auto).
    apply (task_of_unique r r' i); auto.
  - intros (Hr' & j & Hj & Eh'). apply Hne.
    assert (i = j) as <- by (apply (Hdis i j h); auto).
    apply (task_of_unique r r' i); auto.
Qed.

Lemma puses_derivs inv_dt r : r < P ->
  puses (fun h => r < P /\ dreads r h) (dwrites r)
    (@derivs_handles M V K O P vsub smul inv_dt r vecs advs derivs).
Proof.
  intros Hr. unfold derivs_handles. destruct (_ || _); [apply puses_fail|].
  apply puses_bind; [|intros; apply puses_par_barrier].
  apply puses_for. intros i u Hi.
  apply puses_nth. intros h Hh.
  apply puses_bind; [apply puses_get; split; auto; exists i; auto|intros v].
  apply puses_nth. intros h' Hh'.
  apply puses_bind; [apply puses_get; split; auto; exists i; auto|intros w].
  apply puses_bind; [apply puses_lift|intros c].
  apply puses_nth. intros g Hg. apply puses_put. exists i. auto.
Qed.

Lemma pwrites_derivs inv_dt r : r < P -> length vecs = length derivs ->
  pwrites (map (fun i => nth i derivs 0) (rank_tasks P (length vecs) r))
    (@derivs_handles M V K O P vsub smul inv_dt r vecs advs derivs).
Proof.
  intros Hr L. unfold derivs_handles. destruct (_ || _); [apply pwrites_fail|].
  rewrite <- (app_nil_r (map _ _)).
  apply pwrites_bind.
  2:{ intros _. unfold barrier. destruct (1 <? P); [apply pwrites_barrier|apply pwrites_ret]. }
  rewrite tasks_nth by auto. rewrite Nat.add_0_l. fold (rank_tasks P (length vecs) r).
  replace (map (fun i => nth i derivs 0) (rank_tasks P (length vecs) r))
    with (flat_map (fun i => [nth i derivs 0]) (rank_tasks P (length vecs) r)).
  2:{ induction (rank_tasks P (length vecs) r) as [|x l IH]; simpl; f_equal; auto. }
  apply pwrites_for. intros i u Hi.
  apply pwrites_bind_nil; [apply pwrites_lift|intros h].
  apply pwrites_bind_nil; [apply pwrites_get|intros v].
  apply pwrites_bind_nil; [apply pwrites_lift|intros h'].
  apply pwrites_bind_nil; [apply pwrites_get|intros w].
  apply pwrites_bind_nil; [apply pwrites_lift|intros c].
  assert (Hil : i < length derivs).
  { apply elem_of_seq in Hi. pose proof (tend_le P (length vecs) r HP Hr). lia. }
  unfold py_nth. rewrite nth_error_lookup, (lookup_nth derivs i 0 Hil).
  apply (pwrites_put (nth i derivs 0)).
Qed.
End Footprint.
