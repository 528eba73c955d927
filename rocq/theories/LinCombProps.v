(** Properties C06, C41 and the part of C07 on linear combinations. *)
From stdpp Require Import gmap list.
From Coq Require Import ZArith Lia.
From Verif Require Import Prelude ParallelModel VecSpaceModel VecSpaceProofs Spmd SpmdFacts
  SpmdLock SpmdEnds SpmdWrites ReductionsModel ReductionsProofs InnerProdModel ArrayProofs
  RingProofs TaskProofs InnerProdProofs InnerProdProps LinCombModel LinCombProofs.
Open Scope nat_scope.

(** ** Specifications *)

(** [v] is the sum of the vectors [ts], from left to right. *)
Definition sum_of {V} (vadd : V -> V -> V) (ts : list V) (v : V) : Prop :=
  match ts with [] => False | t :: ts => v = foldl vadd t ts end.

(** [t] is basis vector [i] times its coefficient in sum [j]. *)
Definition is_term {V K} (smul : V -> K -> V) (bv : list V) (a : coeffs K)
    (idx : option col_index) (j i : nat) (t : V) : Prop :=
  exists b x, bv !! i = Some b /\ coef (length bv) a idx i j = Some x /\ t = smul b x.

(** The coefficient array fits [nb] basis vectors and [ns] sums. *)
Definition valid_columns {K} (nb : nat) (a : coeffs K) (idx : option col_index) : Prop :=
  Forall (valid_index (snd (shape2 nb a))) (columns (snd (shape2 nb a)) idx).
Definition fits {K} (nb ns : nat) (a : coeffs K) (idx : option col_index) : Prop :=
  fst (shape2 nb a) = nb /\ length (columns (snd (shape2 nb a)) idx) = ns.

Section Facts.
Context {V K : Type}.
Context (tag_ub : nat) (eager : msg V K -> bool).
Context (P N : nat) (limit : option Z) (per_node per_proc : nat).
Context (vadd : V -> V -> V) (smul : V -> K -> V).
Context (sums basis : list loc) (bv : list V) (a : coeffs K) (idx : option col_index).

Notation routine := (fun r : nat =>
  @lin_combine V K unit P vadd smul per_node per_proc N r sums basis a idx).

(** What holds at the end when rank [r]'s order of the terms is [ord r]. *)
Definition combined (ord : nat -> list nat) (st st' : gmap loc V) : Prop :=
  (forall j h, sums !! j = Some h -> exists r ts v, r < P /\
     Forall2 (is_term smul bv a idx j) (ord r) ts /\ sum_of vadd ts v /\ st' !! h = Some v) /\
  (forall h, h ∉ sums -> st' !! h = st !! h).


Lemma coef_defined i j : rectangular a -> valid_columns (length bv) a idx ->
  fits (length bv) (length sums) a idx -> i < length bv -> j < length sums ->
  exists x, coef (length bv) a idx i j = Some x.
Proof.
  intros Hr Hv [Hf1 Hf2] Hi Hj. unfold coef. cbv zeta.
  destruct (lookup_lt_is_Some_2 (columns (snd (shape2 (length bv) a)) idx) j) as [z Hz];
    [lia|]. rewrite Hz. simpl.
  apply entry2_shape; auto; [lia|]. apply wrap_lt.
  apply (proj1 (Forall_lookup _ _) Hv j z Hz).
Qed.

Definition term_of (d : V) (j i : nat) : V :=
  match bv !! i, coef (length bv) a idx i j with
  | Some b, Some x => smul b x
  | _, _ => d
  end.

Lemma term_of_spec d rows : rectangular a -> valid_columns (length bv) a idx ->
  fits (length bv) (length sums) a idx ->
  (forall i j x, i < length bv -> j < length sums -> coef (length bv) a idx i j = Some x ->
     get_entry rows i j = Ok x) ->
  forall i j, i < length bv -> j < length sums ->
    is_term smul bv a idx j i (term_of d j i) /\
    exists x, get_entry rows i j = Ok x /\ term_of d j i = smul (nth i bv d) x.
Proof.
  intros Hr Hv Hf He i j Hi Hj.
  destruct (coef_defined i j Hr Hv Hf Hi Hj) as [x Hx].
  destruct (lookup_lt_is_Some_2 bv i Hi) as [b Hb].
  unfold term_of. rewrite Hb, Hx. split.
  - exists b, x. auto.
  - exists x. split; [apply He; auto|]. do 2 f_equal. symmetry. apply nth_lookup_Some. auto.
Qed.

Lemma lin_combine_combined (HP : 0 < P) (Hpp : 2 <= per_proc) (Hpn : per_node * N <> 2 * P)
    (st : gmap loc V) (R W : nat -> loc -> Prop) :
  P * P - 1 <= tag_ub ->
  holds st basis bv -> basis <> [] -> NoDup sums ->
  (chunks P per_proc sums <= 1 \/ forall h, h ∈ sums -> h ∉ basis) ->
  rectangular a -> valid_columns (length basis) a idx ->
  fits (length basis) (length sums) a idx ->
  separate R W -> (forall r, r < P -> forall h, h ∈ basis -> R r h) ->
  (forall r, r < P -> forall j h, j ∈ rank_tasks P (length sums) r -> sums !! j = Some h -> W r h) ->
  always_ends tag_ub eager (launch P routine st)
    (fun c => all_return (fun _ _ => True) c /\ length (procs c) = P /\
              combined (order P basis) st (store c)).
Proof.
  intros Ht Hst Nb Hnd Hdis Hr Hv Hf Hsep HR HW.
  pose proof (Forall2_length _ _ _ Hst) as Lb.
  assert (exists d : V, True) as [d _].
  { destruct bv as [|d bv']; [destruct basis; simpl in *; congruence|]. eauto. }
  assert (Hnb : 0 < length basis) by (destruct basis; simpl; [congruence|lia]).
  destruct (lin_coeffs_ok (length basis) (length sums) a idx Hr Hv (proj1 Hf) (proj2 Hf))
    as (rows & El & He).
  rewrite Lb in Hv, Hf, He.
  pose proof (term_of_spec d rows Hr Hv Hf He) as Hterm.
  apply (wp_always_ends tag_ub eager P st _ R W
    (fun st' _ => combined (order P basis) st st') (fun _ _ => True)
    (fun st' => combined (order P basis) st st')); auto.
  - intros i Hi. apply puses_uses. unfold lin_combine. rewrite El.
    apply puses_bind; [apply puses_ret|]. intros x. apply puses_lin_core; auto.
    intros j h Hj Hh. apply (HW i Hi j h); auto.
  - apply wp_ext with (qs := fun r => lin_core P vadd smul per_node per_proc N r sums basis rows).
    { intros r _ k. unfold lin_combine. rewrite El. reflexivity. }
    apply (wp_lin_core P tag_ub eager vadd smul HP per_node per_proc N d sums basis bv rows
             (fun j i => term_of d j i)); auto.
    + rewrite Lb. intros i j Hi Hj. apply Hterm; auto.
    + intros u.
      destruct (puts_finished P vadd HP per_node per_proc N d sums basis bv (term_of d)
                  (eq_sym Lb) Hpp Hpn Hnb st Hnd) as [F1 F2].
      split; [|exact F2]. intros j h Hj.
      assert (Hjlt : j < length sums) by (apply lookup_lt_Some in Hj; auto).
      destruct (owner_spec P (length sums) j HP Hjlt) as [Ho _].
      set (r := owner P (length sums) j) in *.
      exists r, (map (term_of d j) (order P basis r)), (val P vadd d basis (term_of d) r j).
      split; auto. split; [|split; [|apply F1; auto]].
      * apply Forall2_same_length_lookup. split; [rewrite map_length; auto|].
        intros q i t Hq Hqt. rewrite lookup_map, Hq in Hqt. simpl in Hqt. injection Hqt as <-.
        apply Hterm; auto.
        assert (Hin : i ∈ order P basis r) by (apply elem_of_list_lookup; eauto).
        rewrite (order_perm P HP per_node per_proc N sums basis bv (eq_sym Lb) Hpp Hpn Hnb r Ho)
          in Hin.
        apply elem_of_seq in Hin. lia.
      * pose proof (val_fold1 P vadd HP per_node per_proc N d sums basis bv (term_of d)
                      (eq_sym Lb) Hpp Hpn Hnb r j Ho) as Hval.
        unfold sum_of. destruct (map (term_of d j) (order P basis r)); [discriminate|].
        simpl in Hval. injection Hval as <-. reflexivity.
Qed.

(** The footprints: a rank writes the sums of its tasks. *)
Definition reads (r : nat) (h : loc) : Prop := h ∈ basis.
Definition may_write (r : nat) (h : loc) : Prop :=
  r < P /\ exists j, j ∈ rank_tasks P (length sums) r /\ sums !! j = Some h.

Lemma footprints_separate : 0 < P -> NoDup sums -> (forall h, h ∈ sums -> h ∉ basis) ->
  separate reads may_write.
Proof.
  intros HP Hnd Hdis r r' h Hne (Hr & j & Hj & Hh). split.
  - intros (Hr' & j' & Hj' & Hh'). apply Hne.
    assert (j = j') as <- by (eapply NoDup_lookup; eauto).
    pose proof (lookup_lt_Some _ _ _ Hh) as Hlt.
    apply elem_of_seq in Hj, Hj'.
    transitivity (owner P (length sums) j); [symmetry|]; apply owner_unique; auto.
  - intros H. apply (Hdis h); auto. apply elem_of_list_lookup. eauto.
Qed.
End Facts.

(** * C06 *)

(** Every schedule ends with every sum handle holding the sum of all terms, in
    an order [ord r] of the basis vectors fixed by the number of processes, the
    number of basis vectors and a rank. *)
Theorem C06_linear_combinations {V K} tag_ub (eager : msg V K -> bool) P N limit per_node
    per_proc vadd smul st (sums basis : list loc) (bv : list V) (a : coeffs K) idx :
  made_with limit P N per_node per_proc -> P * P - 1 <= tag_ub ->
  holds st basis bv -> basis <> [] ->
  NoDup sums -> (forall h, h ∈ sums -> h ∉ basis) ->
  rectangular a -> valid_columns (length basis) a idx ->
  fits (length basis) (length sums) a idx ->
  exists ord, (forall r, r < P -> ord r ≡ₚ seq 0 (length basis)) /\
    always_ends tag_ub eager
      (launch P (fun r => lin_combine P vadd smul per_node per_proc N r sums basis a idx) st)
      (fun c => all_return (fun _ (_ : unit) => True) c /\ length (procs c) = P /\
        (forall j h, sums !! j = Some h -> exists r ts v, r < P /\
           Forall2 (is_term smul bv a idx j) (ord r) ts /\ sum_of vadd ts v /\
           store c !! h = Some v) /\
        (forall h, h ∉ sums -> store c !! h = st !! h)).
Proof.
  intros Hm Ht Hst Nb Hnd Hdis Hr Hv Hf.
  destruct (made_with_facts _ _ _ _ _ Hm) as [Hpp Hpn]. destruct Hm as (HP & HN & _).
  exists (order P basis). split.
  - intros r Hlt.
    apply (order_perm P HP per_node per_proc N sums basis bv); auto.
    + symmetry. apply (Forall2_length _ _ _ Hst).
    + destruct basis; simpl; [congruence|lia].
  - apply (lin_combine_combined tag_ub eager P N per_node per_proc vadd smul sums basis bv a idx
             HP Hpp Hpn st (reads basis) (may_write P sums)); auto.
    + apply footprints_separate; auto.
    + intros r Hlt j h Hj Hh. split; eauto.
Qed.

(** With an addition in which order does not matter, the sum over the basis in
    its own order. *)
Theorem C06_sums {V K} tag_ub (eager : msg V K -> bool) P N limit per_node
    per_proc vadd smul st (sums basis : list loc) (bv : list V) (a : coeffs K) idx :
  (forall x y z, vadd x (vadd y z) = vadd (vadd x y) z) ->
  (forall x y, vadd x y = vadd y x) ->
  made_with limit P N per_node per_proc -> P * P - 1 <= tag_ub ->
  holds st basis bv -> basis <> [] ->
  NoDup sums -> (forall h, h ∈ sums -> h ∉ basis) ->
  rectangular a -> valid_columns (length basis) a idx ->
  fits (length basis) (length sums) a idx ->
  always_ends tag_ub eager
    (launch P (fun r => lin_combine P vadd smul per_node per_proc N r sums basis a idx) st)
    (fun c => all_return (fun _ (_ : unit) => True) c /\ length (procs c) = P /\
      (forall j h, sums !! j = Some h -> exists ts v,
         Forall2 (is_term smul bv a idx j) (seq 0 (length basis)) ts /\ sum_of vadd ts v /\
         store c !! h = Some v) /\
      (forall h, h ∉ sums -> store c !! h = st !! h)).
Proof.
  intros Hassoc Hcomm Hm Ht Hst Nb Hnd Hdis Hr Hv Hf.
  destruct (C06_linear_combinations tag_ub eager P N limit per_node per_proc vadd smul st sums
    basis bv a idx Hm Ht Hst Nb Hnd Hdis Hr Hv Hf) as (ord & Hord & n & H).
  assert (G : forall c : config (msg V K) V unit,
    (all_return (fun _ (_ : unit) => True) c /\ length (procs c) = P /\
        (forall j h, sums !! j = Some h -> exists r ts v, r < P /\
           Forall2 (is_term smul bv a idx j) (ord r) ts /\ sum_of vadd ts v /\
           store c !! h = Some v) /\
        (forall h, h ∉ sums -> store c !! h = st !! h)) ->
    (all_return (fun _ (_ : unit) => True) c /\ length (procs c) = P /\
      (forall j h, sums !! j = Some h -> exists ts v,
         Forall2 (is_term smul bv a idx j) (seq 0 (length basis)) ts /\ sum_of vadd ts v /\
         store c !! h = Some v) /\
      (forall h, h ∉ sums -> store c !! h = st !! h))).
  { intros c (H1 & H2 & H3 & H4). split; auto. split; auto. split; auto.
    intros j h Hj. destruct (H3 j h Hj) as (r & ts & v & Hlt & F & S & E).
    specialize (Hord r Hlt).
    destruct (Permutation_Forall2 Hord F) as (ts' & Hp & F').
    exists ts', v. split; auto. split; auto.
    pose proof (fold1_perm vadd Hassoc Hcomm ts ts' Hp) as Ef.
    destruct ts as [|t ts]; [destruct S|]. destruct ts' as [|t' ts']; [discriminate|].
    simpl in *. injection Ef as Ef. congruence. }
  exists n. intros k d Hk. destruct (H k d Hk) as (H1 & H2 & d' & H3 & H4).
  split; auto. split; [auto|]. exists d'. auto.
Qed.

(** In every run that ends with all ranks returning, the list of all writes is
    the list of sum handles, up to order: each is written exactly once. *)
Theorem C06_written_once {V K} tag_ub (eager : msg V K -> bool) P N limit per_node
    per_proc vadd smul st (sums basis : list loc) (a : coeffs K) idx w d :
  made_with limit P N per_node per_proc ->
  run tag_ub eager w
    (launch P (fun r => lin_combine P vadd smul per_node per_proc N r sums basis a idx) st) d ->
  (forall i p, procs d !! i = Some p -> exists o : unit, p = Ret o) ->
  map snd w ≡ₚ sums.
Proof.
  intros Hm Hrun Hd.
  destruct (made_with_facts _ _ _ _ _ Hm) as [Hpp Hpn]. destruct Hm as (HP & HN & _).
  set (ws := fun r => map (fun j => nth j sums 0) (rank_tasks P (length sums) r)).
  assert (Hlen : length (procs (launch P (fun r =>
     lin_combine P vadd smul per_node per_proc N r sums basis a idx) st :
     config (msg V K) V unit)) = P).
  { simpl. rewrite fmap_length. apply seq_length. }
  assert (Hw : forall r, r < P -> writes_of_rank r w = ws r).
  { intros r Hr. apply (run_writes tag_ub eager w _ d Hrun ws); auto; [|rewrite Hlen; auto].
    simpl. intros i p Hp. rewrite list_lookup_fmap in Hp.
    destruct (seq 0 P !! i) as [i'|] eqn:Ei; [|discriminate].
    apply lookup_seq in Ei. destruct Ei as [-> Hi]. simpl in Hp. injection Hp as <-.
    apply pwrites_writes. unfold lin_combine.
    apply pwrites_bind_nil; [apply pwrites_lift|]. intros x. apply pwrites_lin_core; auto. }
  rewrite (by_rank P w).
  2:{ intros x Hx. rewrite <- Hlen. eapply run_ranks; eauto. }
  rewrite (flat_map_ext_in _ ws).
  2:{ intros r Hr. apply elem_of_seq in Hr. apply Hw. lia. }
  unfold ws. rewrite <- map_flat_map. unfold rank_tasks. rewrite tasks_concat by auto.
  rewrite map_nth_seq. reflexivity.
Qed.

(** A coefficient array that does not fit: ValueError on every rank, nothing
    written. *)
Theorem C06_shape_mismatch {V K} tag_ub (eager : msg V K -> bool) P N per_node per_proc
    vadd smul st (sums basis : list loc) (a : coeffs K) idx :
  0 < P -> rectangular a -> valid_columns (length basis) a idx ->
  ~ fits (length basis) (length sums) a idx ->
  always_ends tag_ub eager
    (launch P (fun r => lin_combine P vadd smul per_node per_proc N r sums basis a idx) st)
    (fun c => length (procs c) = P /\
       (forall i, i < P -> procs c !! i = Some (@Fail (msg V K) V unit ValueError)) /\
       chans c = ∅ /\ store c = st).
Proof.
  intros HP Hr Hv Hf.
  assert (E : lin_coeffs (length basis) (length sums) a idx = Raise ValueError).
  { apply lin_coeffs_mismatch; auto. unfold fits in Hf. lia. }
  apply (all_fail tag_ub eager P _ st (fun _ _ => True) (fun _ _ => False)); auto.
  - apply separate_readonly.
  - intros i Hi. unfold lin_combine. rewrite E. exact I.
  - intros i Hi. unfold lin_combine. rewrite E. apply local_fail_bind, local_fail_fail.
Qed.

(** A column index out of range, or an empty basis: IndexError on every rank,
    nothing written. *)
Theorem C06_bad_index {V K} tag_ub (eager : msg V K -> bool) P N per_node per_proc
    vadd smul st (sums basis : list loc) (a : coeffs K) idx :
  0 < P -> rectangular a ->
  ~ valid_columns (length basis) a idx \/ basis = [] /\ fits 0 (length sums) a idx ->
  always_ends tag_ub eager
    (launch P (fun r => lin_combine P vadd smul per_node per_proc N r sums basis a idx) st)
    (fun c => length (procs c) = P /\
       (forall i, i < P -> procs c !! i = Some (@Fail (msg V K) V unit IndexError)) /\
       chans c = ∅ /\ store c = st).
Proof.
  intros HP Hr Hc.
  assert (G : forall i, @lin_combine V K unit P vadd smul per_node per_proc N i sums basis a idx
                = fail IndexError).
  { intros i.
    assert (Hd : Decision (valid_columns (length basis) a idx)).
    { unfold valid_columns, valid_index. apply _. }
    unfold lin_combine. destruct Hd as [Hv|Hv].
    - destruct Hc as [Hc|[-> [Hf1 Hf2]]]; [contradiction|].
      destruct (lin_coeffs_ok 0 (length sums) a idx Hr Hv Hf1 Hf2) as (rows & E & _).
      simpl. rewrite E. reflexivity.
    - rewrite lin_coeffs_bad_index; auto. }
  apply (all_fail tag_ub eager P _ st (fun _ _ => True) (fun _ _ => False)); auto.
  - apply separate_readonly.
  - intros i Hi. rewrite G. exact I.
  - intros i Hi. rewrite G. apply local_fail_fail.
Qed.

(** A tag limit below P*P-1 makes the last rank fail on every schedule. *)
Theorem C07_lin_combine_limit_exceeded {V K} tag_ub (eager : msg V K -> bool) P N limit per_node
    per_proc vadd smul st (sums basis : list loc) (bv : list V) (a : coeffs K) idx :
  made_with limit P N per_node per_proc -> 1 < P -> tag_ub < P * P - 1 ->
  holds st basis bv -> basis <> [] -> sums <> [] ->
  NoDup sums -> (forall h, h ∈ sums -> h ∉ basis) ->
  rectangular a -> valid_columns (length basis) a idx ->
  fits (length basis) (length sums) a idx ->
  always_ends tag_ub eager
    (launch P (fun r => lin_combine P vadd smul per_node per_proc N r sums basis a idx) st)
    (fun c => procs c !! (P - 1) = Some (@Fail (msg V K) V unit MPIError)).
Proof.
  intros Hm H1 Ht Hst Nb Ns Hnd Hdis Hr Hv Hf.
  destruct (made_with_facts _ _ _ _ _ Hm) as [Hpp Hpn]. destruct Hm as (HP & HN & _).
  pose proof (Forall2_length _ _ _ Hst) as Lb.
  assert (exists d : V, True) as [d _].
  { destruct bv as [|d bv']; [destruct basis; simpl in *; congruence|]. eauto. }
  destruct (lin_coeffs_ok (length basis) (length sums) a idx Hr Hv (proj1 Hf) (proj2 Hf))
    as (rows & El & He).
  apply (rank_fails tag_ub eager P _ st (reads basis) (may_write P sums)); try lia.
  - apply footprints_separate; auto.
  - intros i Hi. apply puses_uses. unfold lin_combine. rewrite El.
    apply puses_bind; [apply puses_ret|]. intros x. apply puses_lin_core; auto.
    intros j h Hj Hh. split; eauto.
  - unfold lin_combine. rewrite El.
    eapply local_fail_after; [apply local_ret|].
    rewrite Lb in Hv, Hf, He.
    apply (lin_core_tag_fails P tag_ub eager vadd smul HP per_node per_proc N d sums basis bv rows
             (term_of smul bv a idx d)); auto.
    + rewrite Lb. intros i j Hi Hj. eapply term_of_spec; eauto.
    + destruct basis; simpl; [congruence|lia].
    + destruct sums; simpl; [congruence|lia].
Qed.

(** * C41 *)

(** In serial, with all sums in one chunk, sums may overlap the basis. *)
Theorem C41_serial_one_chunk {V K} tag_ub (eager : msg V K -> bool) N limit per_node
    per_proc vadd smul st (sums basis : list loc) (bv : list V) (a : coeffs K) idx :
  made_with limit 1 N per_node per_proc ->
  holds st basis bv -> basis <> [] ->
  NoDup sums -> length sums <= per_proc - 1 ->
  rectangular a -> valid_columns (length basis) a idx ->
  fits (length basis) (length sums) a idx ->
  always_ends tag_ub eager
    (launch 1 (fun r => lin_combine 1 vadd smul per_node per_proc N r sums basis a idx) st)
    (fun c => all_return (fun _ (_ : unit) => True) c /\ length (procs c) = 1 /\
      (forall j h, sums !! j = Some h -> exists ts v,
         Forall2 (is_term smul bv a idx j) (seq 0 (length basis)) ts /\ sum_of vadd ts v /\
         store c !! h = Some v) /\
      (forall h, h ∉ sums -> store c !! h = st !! h)).
Proof.
  intros Hm Hst Nb Hnd Hc Hr Hv Hf.
  destruct (made_with_facts _ _ _ _ _ Hm) as [Hpp Hpn]. destruct Hm as (HP & HN & _).
  assert (Hch : chunks 1 per_proc sums <= 1).
  { unfold chunks, SL. rewrite tasks_all by lia. simpl. rewrite seq_length, Nat.max_0_r.
    pose proof (tend_le 1 (length sums) 0 HP HP).
    unfold ceil_div. apply Nat.lt_succ_r. apply Nat.div_lt_upper_bound; lia. }
  assert (Ho : order 1 basis 0 = seq 0 (length basis)).
  { unfold order, order_upto, pass_order. 
    rewrite (flat_map_ext_in _ (fun h => blk 1 basis 0 h)).
    - unfold blk. rewrite chunks_concat.
      pose proof (tasks_concat 1 (length basis) HP) as E. simpl in E. rewrite app_nil_r in E.
      rewrite tstart_0 in *. rewrite Nat.min_r; auto.
      pose proof (ceil_div_ge (BL 1 basis) 1 ltac:(lia)).
      pose proof (tlen_le_max 1 0 (length basis) 0 HP HP). unfold BL in *. lia.
    - intros h _. simpl. apply app_nil_r. }
  assert (Hsep : separate (fun r h => r = 0 /\ h ∈ basis) (fun r (h : loc) => r = 0)).
  { intros i j h Hne ->. split; [intros ->; congruence|intros [-> _]; congruence]. }
  destruct (lin_combine_combined tag_ub eager 1 N per_node per_proc vadd smul sums basis bv a idx
             HP Hpp Hpn st (fun r h => r = 0 /\ h ∈ basis) (fun r h => r = 0)) as [n H]; auto.
  { simpl. lia. }
  { intros r Hlt h Hh. split; auto. lia. }
  { intros r Hlt j h _ _. lia. }
  assert (G : forall c : config (msg V K) V unit,
    (all_return (fun _ (_ : unit) => True) c /\ length (procs c) = 1 /\
       combined 1 vadd smul sums bv a idx (order 1 basis) st (store c)) ->
    (all_return (fun _ (_ : unit) => True) c /\ length (procs c) = 1 /\
      (forall j h, sums !! j = Some h -> exists ts v,
         Forall2 (is_term smul bv a idx j) (seq 0 (length basis)) ts /\ sum_of vadd ts v /\
         store c !! h = Some v) /\
      (forall h, h ∉ sums -> store c !! h = st !! h))).
  { intros c (H1 & H2 & H3 & H4). split; auto. split; auto. split; auto.
    intros j h Hj. destruct (H3 j h Hj) as (r & ts & v & Hlt & F & S & E).
    replace r with 0 in F by lia. rewrite Ho in F. exists ts, v. auto. }
  exists n. intros k d Hk. destruct (H k d Hk) as (H1 & H2 & d' & H3 & H4).
  split; auto. split; [auto|]. exists d'. auto.
Qed.

(** Running the only rank of a serial program. *)
Fixpoint exec {M V O} tag_ub (eager : M -> bool) (fuel : nat) (c : config M V O)
    : nat * config M V O :=
  match fuel with
  | 0 => (0, c)
  | S fuel =>
      match rank_step tag_ub eager 0 c with
      | Some c' => let r := exec tag_ub eager fuel c' in (S (fst r), snd r)
      | None => (0, c)
      end
  end.
Lemma exec_steps {M V O} tag_ub (eager : M -> bool) fuel : forall c : config M V O,
  steps tag_ub eager (fst (exec tag_ub eager fuel c)) c (snd (exec tag_ub eager fuel c)).
Proof.
  induction fuel as [|fuel IH]; intros c; simpl; [constructor|].
  destruct (rank_step tag_ub eager 0 c) as [c'|] eqn:E; [|constructor].
  simpl. econstructor; [|apply IH]. eapply step_rank; eauto.
Qed.
Lemma uses_all {M V O} (p : proc M V O) : uses (fun _ => True) (fun _ => True) p.
Proof. induction p; simpl; auto. Qed.

(** A serial run that does all its steps. *)
Lemma serial_ends {M V O} tag_ub (eager : M -> bool) fuel (p : proc M V O) st o :
  procs (snd (exec tag_ub eager fuel (Config [p] ∅ st))) = [Ret o] ->
  always_ends tag_ub eager (Config [p] ∅ st)
    (fun c => c = snd (exec tag_ub eager fuel (Config [p] ∅ st))).
Proof.
  intros Ho.
  apply (one_schedule_suffices tag_ub eager (fun i _ => i = 0) (fun i _ => i = 0)
           (Config [p] ∅ st) (snd (exec tag_ub eager fuel (Config [p] ∅ st)))
           (fst (exec tag_ub eager fuel (Config [p] ∅ st)))).
  - split.
    + intros i j h Hne ->. split; congruence.
    + intros i q Hq. destruct i as [|i]; [|discriminate]. simpl in Hq.
      injection Hq as <-. clear Ho. induction p; simpl; auto.
  - apply exec_steps.
  - destruct (snd _) as [ps ch s]. simpl in Ho. subst ps.
    intros c' Hc. inversion Hc as [i c0 c1 Hr|ps' ch' st' Hne Hall]; subst.
    + unfold rank_step in Hr. destruct i as [|i]; discriminate.
    + inversion Hall as [|? ? Hb]. exact Hb.
  - reflexivity.
Qed.

(** With the sums in two chunks, replacing three vectors in place by their sum
    gives a wrong third result: 322 = 111 + 111 + 100 instead of 111. *)
Theorem C41_in_place_refuted eager : exists (sums basis : list loc) (a : coeffs Z) st,
  made_with (Some 1%Z) 1 1 3 3 /\
  NoDup sums /\ holds st basis [1; 10; 100]%Z /\ rectangular a /\
  valid_columns (length basis) a None /\ fits (length basis) (length sums) a None /\
  (forall j ts v, j < 3 -> Forall2 (is_term Z.mul [1; 10; 100]%Z a None j) (seq 0 3) ts ->
     sum_of Z.add ts v -> v = 111%Z) /\
  always_ends 100 eager
    (launch 1 (fun r => lin_combine 1 Z.add Z.mul 3 3 1 r sums basis a None) st)
    (fun c => all_return (fun _ (_ : unit) => True) c /\
              map (fun h => store c !! h) sums = [Some 111; Some 111; Some 322]%Z).
Proof.
  exists [1; 2; 3], [1; 2; 3], (Arr2 3 3 [[1; 1; 1]; [1; 1; 1]; [1; 1; 1]]%Z).
  exists {[ 1 := 1%Z; 2 := 10%Z; 3 := 100%Z ]}.
  split. { split; [lia|]. split; [lia|]. reflexivity. }
  split. { apply (bool_decide_unpack (NoDup [1; 2; 3])). reflexivity. }
  split. { repeat constructor. }
  split. { repeat constructor. }
  split. { apply columns_valid. }
  split. { split; reflexivity. }
  split.
  { intros j ts v Hj F S.
    assert (G : forall i t, is_term Z.mul [1; 10; 100]%Z
        (Arr2 3 3 [[1; 1; 1]; [1; 1; 1]; [1; 1; 1]]%Z) None j i t ->
        [1; 10; 100]%Z !! i = Some t).
    { intros i t (b & x & Hb & Hx & ->). rewrite Hb. f_equal. enough (x = 1%Z) by (subst; lia).
      unfold coef in Hx. simpl in Hx.
      destruct j as [|[|[|j]]]; [| | |lia]; destruct i as [|[|[|i]]]; simpl in Hx;
        vm_compute in Hx; congruence. }
    inversion F as [|? t0 ? ts0 H0 F0]; subst.
    inversion F0 as [|? t1 ? ts1 H1 F1]; subst.
    inversion F1 as [|? t2 ? ts2 H2 F2]; subst. inversion F2; subst.
    apply G in H0, H1, H2. simpl in H0, H1, H2.
    injection H0 as <-. injection H1 as <-. injection H2 as <-. exact S. }
  match goal with |- always_ends _ _ ?c _ => set (c0 := c) end.
  destruct (serial_ends 100 eager 100
    (lin_combine 1 Z.add Z.mul 3 3 1 0 [1; 2; 3] [1; 2; 3]
       (Arr2 3 3 [[1; 1; 1]; [1; 1; 1]; [1; 1; 1]]%Z) None Ret)
    {[ 1 := 1%Z; 2 := 10%Z; 3 := 100%Z ]} tt) as [n H].
  { vm_compute. reflexivity. }
  assert (G : forall c, c = snd (exec 100 eager 100 c0) ->
    all_return (fun _ (_ : unit) => True) c /\
    map (fun h => store c !! h) [1; 2; 3] = [Some 111; Some 111; Some 322]%Z).
  { intros c ->. split; [split|].
    - intros i p Hp.
      assert (E : procs (snd (exec 100 eager 100 c0)) = [Ret tt]) by (vm_compute; reflexivity).
      rewrite E in Hp. clear -Hp. destruct i; [|discriminate]. injection Hp as <-. eauto.
    - vm_compute. reflexivity.
    - vm_compute. reflexivity. }
  exists n. intros k d Hk. destruct (H k d Hk) as (H1 & H2 & d' & H3 & H4).
  split; auto. split; [auto|]. exists d'. auto.
Qed.

(** ** Instances *)

Definition v_add (v w : list Z) : list Z := zip_with Z.add v w.
Definition v_mul (v : list Z) (x : Z) : list Z := map (fun y => (y * x)%Z) v.
Definition lc_store : gmap loc (list Z) :=
  {[ 1 := [1; 2]%Z; 2 := [3; -1]%Z; 3 := [0; 5]%Z; 9 := [7; 7]%Z ]}.
Definition lc_coeffs : coeffs Z := Arr2 3 2 [[1; 2]; [3; 4]; [5; 6]]%Z.

Lemma v_add_assoc x : forall y z, v_add x (v_add y z) = v_add (v_add x y) z.
Proof.
  induction x as [|a x IH]; intros [|b y] [|c z]; simpl; auto. f_equal; [lia|apply IH].
Qed.
Lemma v_add_comm x : forall y, v_add x y = v_add y x.
Proof. induction x as [|a x IH]; intros [|b y]; simpl; auto. f_equal; [lia|apply IH]. Qed.

(** Two processes, three basis vectors, four sums with columns picked by
    indices counting from both ends. *)
Example C06_example eager :
  always_ends 10 eager
    (launch 2 (fun r => lin_combine 2 v_add v_mul 6 3 1 r [10; 11; 12; 13] [1; 2; 3]
                          lc_coeffs (Some (Cols [1; 0; -1; 1]%Z))) lc_store)
    (fun c => all_return (fun _ (_ : unit) => True) c /\
       map (fun h => store c !! h) [10; 11; 12; 13; 9] =
         [Some [14; 30]; Some [10; 24]; Some [14; 30]; Some [14; 30]; Some [7; 7]]%Z).
Proof.
  destruct (C06_sums 10 eager 2 1 (Some 1%Z) 6 3 v_add v_mul lc_store [10; 11; 12; 13] [1; 2; 3]
    [[1; 2]; [3; -1]; [0; 5]]%Z lc_coeffs (Some (Cols [1; 0; -1; 1]%Z))) as [n H].
  - intros x y z. apply v_add_assoc.
  - intros x y. apply v_add_comm.
  - split; [lia|]. split; [lia|]. reflexivity.
  - lia.
  - repeat constructor.
  - discriminate.
  - apply (bool_decide_unpack (NoDup [10; 11; 12; 13])). reflexivity.
  - intros h Hh. apply (bool_decide_unpack (h ∉ [1; 2; 3])).
    repeat (apply elem_of_cons in Hh; destruct Hh as [->|Hh]; [reflexivity|]). inversion Hh.
  - repeat constructor.
  - apply (bool_decide_unpack (Forall (fun z => -2 <= z < 2)%Z [1; 0; -1; 1]%Z)). reflexivity.
  - split; reflexivity.
  - assert (G : forall c : config (msg (list Z) Z) (list Z) unit,
      (all_return (fun _ (_ : unit) => True) c /\ length (procs c) = 2 /\
      (forall j h, [10; 11; 12; 13] !! j = Some h -> exists ts v,
         Forall2 (is_term v_mul [[1; 2]; [3; -1]; [0; 5]]%Z lc_coeffs
           (Some (Cols [1; 0; -1; 1]%Z)) j) (seq 0 (length [1; 2; 3])) ts /\ sum_of v_add ts v /\
         store c !! h = Some v) /\
      (forall h, h ∉ [10; 11; 12; 13] -> store c !! h = lc_store !! h)) ->
      all_return (fun _ (_ : unit) => True) c /\
       map (fun h => store c !! h) [10; 11; 12; 13; 9] =
         [Some [14; 30]; Some [10; 24]; Some [14; 30]; Some [14; 30]; Some [7; 7]]%Z).
    { intros c (H1 & _ & H3 & H4). split; auto. simpl.
      assert (E : forall j h v0, [10; 11; 12; 13] !! j = Some h ->
        (forall ts v, Forall2 (is_term v_mul [[1; 2]; [3; -1]; [0; 5]]%Z lc_coeffs
           (Some (Cols [1; 0; -1; 1]%Z)) j) [0; 1; 2] ts -> sum_of v_add ts v -> v = v0) ->
        store c !! h = Some v0).
      { intros j h v0 Hj Hv. destruct (H3 j h Hj) as (ts & v & F & S & ->).
        f_equal. apply (Hv ts v F S). }
      assert (T : forall ts (v : list Z) j, Forall2 (is_term v_mul [[1; 2]; [3; -1]; [0; 5]]%Z lc_coeffs
           (Some (Cols [1; 0; -1; 1]%Z)) j) [0; 1; 2] ts -> sum_of v_add ts v ->
         exists t0 t1 t2,
           is_term v_mul [[1; 2]; [3; -1]; [0; 5]]%Z lc_coeffs (Some (Cols [1; 0; -1; 1]%Z)) j 0 t0 /\
           is_term v_mul [[1; 2]; [3; -1]; [0; 5]]%Z lc_coeffs (Some (Cols [1; 0; -1; 1]%Z)) j 1 t1 /\
           is_term v_mul [[1; 2]; [3; -1]; [0; 5]]%Z lc_coeffs (Some (Cols [1; 0; -1; 1]%Z)) j 2 t2 /\
           v = v_add (v_add t0 t1) t2).
      { intros ts v j F S.
        inversion F as [|? t0 ? ts0 T0 F0]; subst. inversion F0 as [|? t1 ? ts1 T1 F1]; subst.
        inversion F1 as [|? t2 ? ts2 T2 F2]; subst. inversion F2; subst.
        exists t0, t1, t2. auto. }
      rewrite (E 0 10 [14; 30]%Z eq_refl), (E 1 11 [10; 24]%Z eq_refl),
        (E 2 12 [14; 30]%Z eq_refl), (E 3 13 [14; 30]%Z eq_refl).
      2-5: intros ts v F S; destruct (T ts v _ F S) as (t0 & t1 & t2 & T0 & T1 & T2 & ->);
        destruct T0 as (b0 & x0 & B0 & X0 & ->); destruct T1 as (b1 & x1 & B1 & X1 & ->);
        destruct T2 as (b2 & x2 & B2 & X2 & ->);
        vm_compute in B0, B1, B2, X0, X1, X2; simplify_eq; reflexivity.
      rewrite H4; [reflexivity|].
      apply (bool_decide_unpack (9 ∉ [10; 11; 12; 13])). reflexivity. }
    exists n. intros k d Hk. destruct (H k d Hk) as (H1 & H2 & d' & H3 & H4).
    split; auto. split; [auto|]. exists d'. auto.
Qed.

Example C06_written_once_example eager : exists w d,
  run 10 eager w
    (launch 2 (fun r => lin_combine 2 v_add v_mul 6 3 1 r [10; 11; 12; 13] [1; 2; 3]
                          lc_coeffs (Some (Cols [1; 0; -1; 1]%Z))) lc_store) d /\
  (forall i p, procs d !! i = Some p -> exists o : unit, p = Ret o) /\ map snd w ≡ₚ [10; 11; 12; 13].
Proof.
  destruct (C06_example eager) as [n H]. destruct (H 0 _ (steps_O _ _ _)) as (_ & _ & d & Hs & (Hr & _) & _).
  destruct (steps_run _ _ _ _ _ Hs) as [w Hw].
  assert (Hd : forall i p, procs d !! i = Some p -> exists o : unit, p = Ret o).
  { intros i p Hp. destruct (Hr i p Hp) as (o & -> & _). eauto. }
  exists w, d. split; [exact Hw|]. split; [exact Hd|].
  refine (C06_written_once 10 eager 2 1 (Some 1%Z) 6 3 v_add v_mul lc_store _ _ _ _ w d _ Hw Hd).
  split; [lia|]. split; [lia|]. reflexivity.
Qed.

(** Two ranks need tags up to 3; with 2 the last rank fails. *)
Example C07_lin_combine_limit_example eager :
  always_ends 2 eager
    (launch 2 (fun r => lin_combine 2 v_add v_mul 6 3 1 r [10; 11; 12; 13] [1; 2; 3]
                          lc_coeffs (Some (Cols [1; 0; -1; 1]%Z))) lc_store)
    (fun c => procs c !! 1 = Some (Fail MPIError : proc _ _ unit)).
Proof.
  apply (C07_lin_combine_limit_exceeded 2 eager 2 1 (Some 1%Z) 6 3 v_add v_mul lc_store [10; 11; 12; 13] [1; 2; 3]
    [[1; 2]; [3; -1]; [0; 5]]%Z lc_coeffs (Some (Cols [1; 0; -1; 1]%Z))); try lia; try discriminate.
  - split; [lia|]. split; [lia|]. reflexivity.
  - repeat constructor.
  - apply (bool_decide_unpack (NoDup [10; 11; 12; 13])). reflexivity.
  - intros h Hh. apply (bool_decide_unpack (h ∉ [1; 2; 3])).
    repeat (apply elem_of_cons in Hh; destruct Hh as [->|Hh]; [reflexivity|]). inversion Hh.
  - repeat constructor.
  - apply (bool_decide_unpack (Forall (fun z => -2 <= z < 2)%Z [1; 0; -1; 1]%Z)). reflexivity.
  - split; reflexivity.
Qed.

(** The hypotheses of the error theorems are met by simple arguments. *)
Example C06_mismatch_example : rectangular lc_coeffs /\ valid_columns 3 lc_coeffs None /\
  ~ fits 3 3 lc_coeffs None /\ ~ valid_columns 3 lc_coeffs (Some (OneCol 2)).
Proof.
  split; [repeat constructor|]. split; [apply columns_valid|]. split.
  - intros [_ H]. discriminate.
  - intros H. inversion H as [|? ? Hv _]. unfold valid_index in Hv. simpl in Hv. lia.
Qed.

Example C06_shape_mismatch_example eager :
  always_ends 10 eager
    (launch 2 (fun r => lin_combine 2 v_add v_mul 6 3 1 r [10; 11; 12] [1; 2; 3] lc_coeffs None) lc_store)
    (fun c => procs c !! 1 = Some (@Fail (msg (list Z) Z) (list Z) unit ValueError) /\ store c = lc_store).
Proof.
  destruct C06_mismatch_example as (H1 & H2 & H3 & _).
  eapply always_ends_mono; [apply (C06_shape_mismatch 10 eager 2 1 6 3); auto|].
  intros c (_ & H & _ & Hs). split; [apply H; lia|exact Hs].
Qed.
Example C06_bad_index_example eager :
  always_ends 10 eager
    (launch 2 (fun r => lin_combine 2 v_add v_mul 6 3 1 r [10] [1; 2; 3] lc_coeffs (Some (OneCol 2))) lc_store)
    (fun c => procs c !! 1 = Some (@Fail (msg (list Z) Z) (list Z) unit IndexError) /\ store c = lc_store).
Proof.
  destruct C06_mismatch_example as (H1 & _ & _ & H4).
  eapply always_ends_mono; [apply (C06_bad_index 10 eager 2 1 6 3); auto|].
  intros c (_ & H & _ & Hs). split; [apply H; lia|exact Hs].
Qed.
(** The sum in handle 11 is of terms 1 [1; 2], 3 [3; -1] and 5 [0; 5] in some order. *)
Example C06_linear_combinations_example eager :
  always_ends 10 eager
    (launch 2 (fun r => lin_combine 2 v_add v_mul 6 3 1 r [10; 11] [1; 2; 3] lc_coeffs (Some (Cols [1; 0]%Z))) lc_store)
    (fun c => exists ts v, ts ≡ₚ [[1; 2]; [9; -3]; [0; 25]]%Z /\ sum_of v_add ts v /\ store c !! 11 = Some v).
Proof.
  destruct (C06_linear_combinations 10 eager 2 1 (Some 1%Z) 6 3 v_add v_mul lc_store [10; 11] [1; 2; 3]
    [[1; 2]; [3; -1]; [0; 5]]%Z lc_coeffs (Some (Cols [1; 0]%Z))) as (ord & Hord & H).
  - split; [lia|]. split; [lia|]. reflexivity.
  - lia.
  - repeat constructor.
  - discriminate.
  - apply (bool_decide_unpack (NoDup [10; 11])). reflexivity.
  - intros h Hh. apply (bool_decide_unpack (h ∉ [1; 2; 3])).
    repeat (apply elem_of_cons in Hh; destruct Hh as [->|Hh]; [reflexivity|]). inversion Hh.
  - repeat constructor.
  - apply (bool_decide_unpack (Forall (fun z => -2 <= z < 2)%Z [1; 0]%Z)). reflexivity.
  - split; reflexivity.
  - eapply always_ends_mono; [exact H|]. intros c (_ & _ & Hs & _).
    destruct (Hs 1 11 eq_refl) as (r & ts & v & Hr & Ht & Hv & Hst). exists ts, v. split; [|auto].
    assert (E : ts = map (fun i => nth i [[1; 2]; [9; -3]; [0; 25]]%Z []) (ord r)).
    { specialize (Hord r Hr). assert (B : Forall (fun i => i < 3) (ord r)).
      { rewrite Hord. repeat constructor; lia. }
      clear - Ht B. induction Ht as [|i t l ts Hi _ IH]; [reflexivity|]. inversion B as [|? ? Bi Bl]. subst. simpl. f_equal; [|auto].
      destruct Hi as (b & x & Hb & Hx & ->). destruct i as [|[|[|]]]; [..|lia]; simpl in Hb; injection Hb as <-;
        vm_compute in Hx; injection Hx as <-; reflexivity. }
    rewrite E, (Hord r Hr). reflexivity.
Qed.

(** One chunk in serial: in-place doubling and mixing. *)
Example C41_example eager :
  always_ends 10 eager
    (launch 1 (fun r => lin_combine 1 v_add v_mul 3 3 1 r [2; 1] [1; 2; 3] lc_coeffs None) lc_store)
    (fun c => all_return (fun _ (_ : unit) => True) c).
Proof.
  destruct (C41_serial_one_chunk 10 eager 1 (Some 1%Z) 3 3 v_add v_mul lc_store [2; 1] [1; 2; 3]
    [[1; 2]; [3; -1]; [0; 5]]%Z lc_coeffs None) as [n H].
  - split; [lia|]. split; [lia|]. reflexivity.
  - repeat constructor.
  - discriminate.
  - apply (bool_decide_unpack (NoDup [2; 1])). reflexivity.
  - simpl. lia.
  - repeat constructor.
  - apply columns_valid.
  - split; reflexivity.
  - exists n. intros k d Hk. destruct (H k d Hk) as (H1 & H2 & d' & H3 & H4).
    split; auto. split; [intros Hs; apply (proj1 (H2 Hs))|]. exists d'. split; auto. apply H4.
Qed.

Print Assumptions C06_linear_combinations.
Print Assumptions C06_sums.
Print Assumptions C06_written_once.
Print Assumptions C06_shape_mismatch.
Print Assumptions C06_bad_index.
Print Assumptions C07_lin_combine_limit_exceeded.
Print Assumptions C41_serial_one_chunk.
Print Assumptions C41_in_place_refuted.
