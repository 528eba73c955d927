(** Property C61: a rank that fails is never hidden by a rank that returns. *)
From stdpp Require Import gmap list.
From Coq Require Import ZArith Lia.
From Verif Require Import Prelude ParallelModel VecSpaceModel Spmd SpmdFacts SpmdLock SpmdEnds SpmdWrites SpmdTrace
  ReductionsModel InnerProdModel SymmModel LinCombModel TaskProofs InnerProdProofs SymmProofs LinCombProofs ReadsProofs
  DerivsModel DerivsProofs DoneProofs InnerProdProps SymmProps LinCombProps DerivsProps ReadsProps DoneProps FailProofs.
Open Scope nat_scope.

(** ** Specifications *)

Definition every_returned {M V O} (c : config M V O) : Prop :=
  forall i p, procs c !! i = Some p -> exists o, p = Ret o.

(** If a rank has returned, every rank has. *)
Definition all_or_none {M V O} (c : config M V O) : Prop := one_returned c -> every_returned c.

(** Some rank has raised [e]. *)
Definition raised {M V O} (e : exn) (c : config M V O) : Prop := exists i, procs c !! i = Some (Fail e).

(** On every schedule the ranks stop after finitely many steps, one of them with
    [OSError], and none ever returns. *)
Definition fails_loudly {M V O} tag_ub (eager : M -> bool) (c : config M V O) : Prop :=
  exists n, forall k d, steps tag_ub eager k c d ->
    k <= n /\ ~ one_returned d /\ (stuck tag_ub eager d -> raised OSError d).

(** ** Lemmas *)

Lemma fails_not_returned {M V O} (d : config M V O) : raised OSError d -> ~ every_returned d.
Proof. intros [i Hi] H. destruct (H i _ Hi) as [o E]. discriminate. Qed.

Lemma one_rank {M V O} (c : config M V O) : length (procs c) <= 1 -> all_or_none c.
Proof.
  intros L (i & o & Hi) j p Hj. pose proof (lookup_lt_Some _ _ _ Hi). pose proof (lookup_lt_Some _ _ _ Hj).
  assert (i = j) as <- by lia. rewrite Hi in Hj. injection Hj as <-. eauto.
Qed.

Lemma launch_length {M V O} P (m : nat -> prog M V O O) st : length (procs (launch P m st)) = P.
Proof. simpl. rewrite fmap_length. apply seq_length. Qed.

Lemma closing {M V O} tag_ub (eager : M -> bool) P (m : nat -> prog M V O O) st n d :
  (1 < P -> exists b, forall r, closes b (m r)) ->
  steps tag_ub eager n (launch P m st) d -> all_or_none d.
Proof.
  intros Hc Hs. destruct (Nat.lt_ge_cases 1 P) as [HP|HP].
  - destruct (Hc HP) as [b Hb]. intros (i & o & Hi) j p Hj.
    eapply level_returned; [|exact Hi|exact Hj]. eapply level_steps; [|exact Hs]. eapply level_launch; eauto.
  - apply one_rank. rewrite (steps_procs_length _ _ _ _ _ Hs), launch_length. exact HP.
Qed.

Lemma less_launch {M V O} P (m : nat -> prog M V O O) (st st' : gmap loc V) : st ⊆ st' ->
  less (launch P m st) (launch P m st').
Proof.
  intros H. constructor; auto. intros i p p' Hp Hp'. left. simpl in *. congruence.
Qed.

Lemma read_in {M} (tr : list (nat * event M)) h :
  h ∈ flat_map (fun e => match e with Reads h => [h] | _ => [] end) (map snd tr) -> exists r, (r, Reads h) ∈ tr.
Proof.
  intros H. apply elem_of_list_In, in_flat_map in H. destruct H as (e & He & Hh).
  apply in_map_iff in He. destruct He as ([r e'] & <- & Hin). simpl in Hh.
  destruct e'; simpl in Hh; try contradiction. destruct Hh as [->|[]]. exists r. apply elem_of_list_In, Hin.
Qed.
Lemma not_written {M} (tr : list (nat * event M)) h : h ∉ handles_written tr -> forall r, (r, Writes h) ∉ tr.
Proof.
  intros H r Hin. apply H. unfold handles_written. apply elem_of_list_In, in_flat_map. exists (Writes h).
  split; [|left; auto]. apply in_map_iff. exists (r, Writes h). split; auto. apply elem_of_list_In, Hin.
Qed.

Lemma uses_trace {M V O} tag_ub (eager : M -> bool) (W : loc -> Prop) tr (c d : config M V O) :
  trun tag_ub eager tr c d -> (forall i p, procs c !! i = Some p -> uses (fun _ => True) W p) ->
  forall r h, (r, Writes h) ∈ tr -> W h.
Proof.
  induction 1 as [c|i p c c' d tr Hp Hr Hrun IH|ps ch st d tr Hne Hall Hrun IH]; intros Hu r h Hin.
  - apply elem_of_nil in Hin. contradiction.
  - apply elem_of_app in Hin. destruct Hin as [Hin|Hin].
    + pose proof (Hu _ _ Hp) as U. destruct p; simpl in Hin; try (apply elem_of_nil in Hin; contradiction);
        apply elem_of_list_singleton in Hin; try discriminate. injection Hin as _ ->. apply U.
    + refine (IH _ r h Hin). destruct (rank_stepped _ _ _ _ _ Hr) as (p0 & q & ch1 & st1 & Hp0 & Hl & ->). simpl.
      intros j pj Hj. destruct (decide (i = j)) as [<-|N].
      * rewrite list_lookup_insert in Hj by (eapply lookup_lt_Some; eauto). injection Hj as <-.
        eapply local_step_uses; [|exact Hl]. eauto.
      * rewrite list_lookup_insert_ne in Hj by auto. eauto.
  - apply elem_of_app in Hin. destruct Hin as [Hin|Hin].
    + apply elem_of_list_fmap in Hin. destruct Hin as (j & E & _). discriminate.
    + refine (IH _ r h Hin). simpl. intros j pj Hj. rewrite list_lookup_fmap in Hj.
      destruct (ps !! j) as [q|] eqn:E; [|discriminate]. injection Hj as <-. apply uses_past_barrier. eauto.
Qed.

Lemma no_writes {M V O} tag_ub (eager : M -> bool) P (m : nat -> prog M V O O) st tr d :
  (forall r, r < P -> puses (fun _ => True) (fun _ => False) (m r)) ->
  trun tag_ub eager tr (launch P m st) d -> forall r h, (r, Writes h) ∉ tr.
Proof.
  intros Hm Hrun r h Hin. refine (uses_trace tag_ub eager (fun _ => False) tr _ d Hrun _ r h Hin).
  intros i p Hp. simpl in Hp. rewrite list_lookup_fmap in Hp. destruct (seq 0 P !! i) as [j|] eqn:E; [|discriminate].
  apply lookup_seq in E. destruct E as [-> E]. injection Hp as <-. apply puses_uses, Hm. lia.
Qed.

Lemma never_returns {M V O} tag_ub (eager : M -> bool) (c : config M V O) h n d :
  store c !! h = None ->
  (forall k e, steps tag_ub eager k c e -> all_or_none e) ->
  (forall tr e, trun tag_ub eager tr c e -> one_returned e ->
     (exists r, (r, Reads h) ∈ tr) /\ forall r, (r, Writes h) ∉ tr) ->
  steps tag_ub eager n c d -> ~ one_returned d.
Proof.
  intros Hn Hall Htr Hs H1. destruct (steps_trun _ _ _ _ _ Hs) as [tr Hrun].
  destruct (Htr _ _ Hrun H1) as [Hr Hw].
  apply (fails_not_returned d); [|eapply Hall; eauto]. exact (missing_read _ _ _ _ _ _ Hrun Hn Hw Hr).
Qed.

Lemma loudly {M V O} tag_ub (eager : M -> bool) (c c' : config M V O) Q :
  less c c' -> always_ends tag_ub eager c' Q -> (forall d, Q d -> length (procs d) = length (procs c') /\ every_returned d) ->
  0 < length (procs c) ->
  (forall n d, steps tag_ub eager n c d -> ~ one_returned d) -> fails_loudly tag_ub eager c.
Proof.
  intros Hl He HQ HP Hno. destruct (less_ends _ _ _ _ _ Hl He) as [n H]. exists n. intros k d Hs.
  destruct (H k d Hs) as [Hk Hst]. split; auto. split; [eauto|]. intros Hd.
  destruct (Hst Hd) as [Hi|(d' & Hq & Ep)]; [exact Hi|]. exfalso. apply (Hno _ _ Hs).
  destruct (HQ _ Hq) as [L R]. rewrite (less_length _ _ Hl), <- L in HP.
  destruct (lookup_lt_is_Some_2 (procs d') 0 HP) as [p Hp]. destruct (R 0 p Hp) as [o ->]. exists 0, o. rewrite <- Ep. exact Hp.
Qed.

Lemma all_return_every {M V O} (R : nat -> O -> Prop) (d : config M V O) : all_return R d -> every_returned d.
Proof. intros [H _] i p Hp. destruct (H i p Hp) as (o & -> & _). eauto. Qed.

(** ** A rank that returns *)

(** Whatever the vectors, the inner product and the lists: once one rank has its
    array, every rank has. So after a failure anywhere, of any kind, no rank gets a result. *)
Theorem C61_inner_products_all_or_none {V K} tag_ub (eager : msg V K -> bool) P N per_node
    per_proc zero add conj store_as ip st rows cols n d :
  steps tag_ub eager n
    (launch P (fun r => ip_array P tag_ub zero add conj store_as ip per_node per_proc N r rows cols) st) d ->
  all_or_none d.
Proof. apply closing. apply closes_ip. Qed.

Theorem C61_symmetric_all_or_none {V K} tag_ub (eager : msg V K -> bool) P N per_node
    per_proc zero add conj is_zero store_as ip st vecs n d :
  steps tag_ub eager n
    (launch P (fun r => symm_array P tag_ub zero add conj is_zero store_as ip per_node per_proc N r vecs) st) d ->
  all_or_none d.
Proof. apply closing. apply closes_symm. Qed.

Theorem C61_lin_combine_all_or_none {V K} tag_ub (eager : msg V K -> bool) P N per_node
    per_proc vadd smul st (sums basis : list loc) (a : coeffs K) idx n d :
  steps tag_ub eager n
    (launch P (fun r => lin_combine P vadd smul per_node per_proc N r sums basis a idx) st) d ->
  all_or_none (O := unit) d.
Proof. apply closing. apply closes_lin. Qed.

Theorem C61_derivs_all_or_none {M V K} tag_ub (eager : M -> bool) P vsub smul (inv_dt : res K) st
    (vecs advs derivs : list loc) n (d : config M V unit) :
  steps tag_ub eager n
    (launch P (fun r => derivs_handles P vsub smul inv_dt r vecs advs derivs) st) d ->
  all_or_none d.
Proof. apply closing. intros HP. exists 0. apply closes_derivs. exact HP. Qed.

(** ** A vector that cannot be read *)

(** Any program of the model: if every rank returns with the store [st'], then with
    part of it the ranks still stop, and either every one has returned or some rank
    has raised [OSError]. *)
Theorem C61_incomplete_store {M V O} tag_ub (eager : M -> bool) P (m : nat -> prog M V O O) (st st' : gmap loc V) :
  st ⊆ st' -> always_ends tag_ub eager (launch P m st') every_returned ->
  exists n, forall k d, steps tag_ub eager k (launch P m st) d ->
    k <= n /\ (stuck tag_ub eager d -> raised OSError d \/ every_returned d).
Proof.
  intros Hsub He. destruct (less_ends tag_ub eager _ _ _ (less_launch P m st st' Hsub) He) as [n H].
  exists n. intros k d Hs. destruct (H k d Hs) as [Hk Hd]. split; auto. intros Hst.
  destruct (Hd Hst) as [Hi|(d' & Hq & Ep)]; [left; exact Hi|]. right. intros i p Hp. apply (Hq i). congruence.
Qed.

Lemma copies_in {A} (x : A) n l : 0 < n -> x ∈ l -> x ∈ copies n l.
Proof. destruct n as [|n]; [lia|]. intros _ H. simpl. apply elem_of_app. auto. Qed.
Lemma ceil_pos a b : 0 < a -> 0 < b -> 0 < ceil_div a b.
Proof. intros Ha Hb. pose proof (ceil_div_ge a b Hb). destruct (ceil_div a b); simpl in *; lia. Qed.

(** Inner products of vectors of which one is missing: the ranks stop, none with an
    array, one with [OSError]. The hypotheses on [st'] say that nothing else is wrong. *)
Theorem C61_inner_products {V K} tag_ub (eager : msg V K -> bool) P N limit per_node per_proc
    zero add conj store_as (ip g : V -> V -> K) (st st' : gmap loc V) rows cols rv cv v0 w0 h :
  made_with limit P N per_node per_proc -> neutral zero add -> P * P - 1 <= tag_ub ->
  st ⊆ st' -> holds st' rows rv -> holds st' cols cv ->
  head rv = Some v0 -> head cv = Some w0 ->
  (forall v w, v ∈ rv -> w ∈ cv ->
     if length cols <? length rows then store_as (ip w0 v0) (ip w v) = Ok (g w v)
     else store_as (ip v0 w0) (ip v w) = Ok (g v w)) ->
  h ∈ rows ++ cols -> st !! h = None ->
  fails_loudly tag_ub eager
    (launch P (fun r => ip_array P tag_ub zero add conj store_as (Some ip)
                          per_node per_proc N r rows cols) st).
Proof.
  intros Hm Hz Ht Hsub Hr Hc Hv Hw Hg Hh Hn.
  pose proof (C04_stored_values tag_ub eager P N limit per_node per_proc zero add conj store_as ip g st' rows cols
    rv cv v0 w0 Hm Hz Ht Hr Hc Hv Hw Hg) as HE.
  assert (Nr : 0 < length rows) by (rewrite (Forall2_length _ _ _ Hr); destruct rv; [discriminate|simpl; lia]).
  assert (Nc : 0 < length cols) by (rewrite (Forall2_length _ _ _ Hc); destruct cv; [discriminate|simpl; lia]).
  destruct (made_with_facts _ _ _ _ _ Hm) as [Hpp _].
  eapply loudly; [apply less_launch; exact Hsub|exact HE| | |].
  - intros d (Ha & Hl & _). rewrite launch_length. split; auto. eapply all_return_every; eauto.
  - rewrite launch_length. apply Hm.
  - intros n d Hs. eapply (never_returns tag_ub eager _ h); [| | |exact Hs]; [exact Hn| |].
    + intros k e. apply C61_inner_products_all_or_none.
    + intros tr e Hrun H1. split.
      * pose proof (C45_inner_products _ _ _ _ _ _ _ _ _ _ _ _ _ _ _ _ _ Hm Hrun H1) as Hp.
        apply read_in. change (h ∈ handles_read tr). apply elem_of_app in Hh.
        destruct (length cols <? length rows); rewrite Hp; apply elem_of_app; right; apply elem_of_app;
          destruct Hh as [Hh|Hh]; auto; right; apply copies_in; auto;
          repeat apply ceil_pos; try lia; apply Hm.
      * intros r. eapply no_writes; [|exact Hrun]. intros r' _. apply puses_ip_array; auto.
Qed.

(** The symmetric routine. *)
Theorem C61_symmetric {V K} tag_ub (eager : msg V K -> bool) P N limit per_node per_proc
    zero add conj is_zero store_as (ip : V -> V -> K) (st st' : gmap loc V) vecs vs h :
  made_with limit P N per_node per_proc -> neutral zero add -> conj zero = zero ->
  tests_zero zero is_zero -> P * P - 2 + P / 2 <= tag_ub ->
  st ⊆ st' -> holds st' vecs vs ->
  (forall v w u, v ∈ vs -> w ∈ vs -> u ∈ vs -> store_as (ip u u) (ip v w) = Ok (ip v w)) ->
  (forall v w, v ∈ vs -> w ∈ vs -> conj (ip w v) = ip v w) ->
  h ∈ vecs -> st !! h = None ->
  fails_loudly tag_ub eager
    (launch P (fun r => symm_array P tag_ub zero add conj is_zero store_as (Some ip)
                          per_node per_proc N r vecs) st).
Proof.
  intros Hm Hz Hcz Htz Ht Hsub Hv Hty Hsym Hh Hn.
  assert (Nv : vecs <> []) by (intros ->; apply elem_of_nil in Hh; contradiction).
  pose proof (C05_symmetric_array tag_ub eager P N limit per_node per_proc zero add conj is_zero store_as ip st' vecs vs
    Hm Hz Hcz Htz Ht Hv Nv Hty Hsym) as HE.
  eapply loudly; [apply less_launch; exact Hsub|exact HE| | |].
  - intros d (Ha & Hl & _). rewrite launch_length. split; auto. eapply all_return_every; eauto.
  - rewrite launch_length. apply Hm.
  - intros n d Hs. eapply (never_returns tag_ub eager _ h); [| | |exact Hs]; [exact Hn| |].
    + intros k e. apply C61_symmetric_all_or_none.
    + intros tr e Hrun H1. split.
      * pose proof (C45_symmetric _ _ _ _ _ _ _ _ _ _ _ _ _ _ _ _ _ Hm Hrun H1) as Hp.
        apply read_in. change (h ∈ handles_read tr). rewrite Hp. apply elem_of_app. right.
        apply elem_of_list_lookup in Hh. destruct Hh as [i Hi].
        apply elem_of_list_In, in_flat_map. exists i. split.
        -- apply in_seq. apply lookup_lt_Some in Hi. lia.
        -- apply elem_of_list_In. apply copies_in; [lia|]. rewrite (nth_lookup_Some _ _ _ _ Hi). left.
      * intros r. eapply no_writes; [|exact Hrun]. intros r' _. apply puses_symm_array; auto.
Qed.

(** Linear combinations: a basis vector is missing. *)
Theorem C61_lin_combine {V K} tag_ub (eager : msg V K -> bool) P N limit per_node
    per_proc vadd smul (st st' : gmap loc V) (sums basis : list loc) (bv : list V) (a : coeffs K) idx h :
  made_with limit P N per_node per_proc -> P * P - 1 <= tag_ub ->
  st ⊆ st' -> holds st' basis bv ->
  NoDup sums -> (forall h, h ∈ sums -> h ∉ basis) -> sums <> [] ->
  rectangular a -> valid_columns (length basis) a idx ->
  fits (length basis) (length sums) a idx ->
  h ∈ basis -> st !! h = None ->
  fails_loudly tag_ub eager
    (launch P (fun r => lin_combine P vadd smul per_node per_proc N r sums basis a idx : prog _ _ unit unit) st).
Proof.
  intros Hm Ht Hsub Hb Hnd Hdis Ns Hr Hv Hf Hh Hn.
  assert (Nb : basis <> []) by (intros ->; apply elem_of_nil in Hh; contradiction).
  destruct (C06_linear_combinations tag_ub eager P N limit per_node per_proc vadd smul st' sums basis bv a idx
    Hm Ht Hb Nb Hnd Hdis Hr Hv Hf) as (ord & _ & HE).
  destruct (made_with_facts _ _ _ _ _ Hm) as [Hpp _].
  eapply loudly; [apply less_launch; exact Hsub|exact HE| | |].
  - intros d (Ha & Hl & _). rewrite launch_length. split; auto. eapply all_return_every; eauto.
  - rewrite launch_length. apply Hm.
  - intros n d Hs. eapply (never_returns tag_ub eager _ h); [| | |exact Hs]; [exact Hn| |].
    + intros k e. apply C61_lin_combine_all_or_none.
    + intros tr e Hrun H1.
      destruct (C45_lin_combine _ _ _ _ _ _ _ _ _ _ _ _ _ _ _ _ Hm Hrun H1) as [Hw Hp]. split.
      * apply read_in. change (h ∈ handles_read tr). rewrite Hp. apply elem_of_app. right.
        apply copies_in; auto. assert (0 < length sums) by (destruct sums; simpl; [congruence|lia]).
        repeat apply ceil_pos; try lia; apply Hm.
      * apply not_written. rewrite Hw. intros Hs'. exact (Hdis h Hs' Hh).
Qed.

Lemma derivs_reads {M V K} tag_ub (eager : M -> bool) P vsub smul (inv_dt : res K) st
    (vecs advs derivs : list loc) tr (d : config M V unit) h :
  0 < P -> length vecs = length advs ->
  trun tag_ub eager tr
    (launch P (fun r => derivs_handles P vsub smul inv_dt r vecs advs derivs) st) d ->
  one_returned d -> h ∈ vecs ++ advs -> exists r, (r, Reads h) ∈ tr.
Proof.
  intros HP L Hrun (i & o & Hi) Hh.
  assert (H : flat_map (watch rd wr [B]) (map snd tr) ≡ₚ
     flat_map (fun r => derivs_trace P r vecs advs derivs) (seq 0 P)).
  { eapply whole_trace; [exact Hrun|].
    eapply (all_done tag_ub eager P (fun _ => True) _ st (fun r => derivs_trace P r vecs advs derivs)
      (fun r => flat_map (fun i => [R (nth i vecs 0); R (nth i advs 0); W (nth i derivs 0)])
                  (rank_tasks P (length vecs) r)) (count (bars P [B])) tr d i o); eauto.
    - intros r Hr. apply emits_derivs; auto.
    - intros r Hr. apply count_derivs. }
  assert (G : R h ∈ flat_map (fun r => derivs_trace P r vecs advs derivs) (seq 0 P)).
  { assert (T : exists j, j < length vecs /\ (nth j vecs 0 = h \/ nth j advs 0 = h)).
    { apply elem_of_app in Hh. destruct Hh as [Hh|Hh]; apply elem_of_list_lookup in Hh; destruct Hh as [j Hj];
        exists j; pose proof (lookup_lt_Some _ _ _ Hj); rewrite (nth_lookup_Some _ _ _ _ Hj); split; auto; lia. }
    destruct T as (j & Hj & E).
    assert (T : j ∈ flat_map (rank_tasks P (length vecs)) (seq 0 P)).
    { unfold rank_tasks. rewrite tasks_concat by auto. apply elem_of_seq. lia. }
    apply elem_of_list_In, in_flat_map in T. destruct T as (r & Hr & Ht).
    apply elem_of_list_In, in_flat_map. exists r. split; auto. unfold derivs_trace.
    apply in_app_iff. left. apply in_flat_map. exists j. split; auto. destruct E as [<- | <-]; simpl; auto. }
  rewrite <- H in G. apply elem_of_list_In, in_flat_map in G. destruct G as (e & He & Hin).
  apply in_map_iff in He. destruct He as ([r e'] & <- & He). simpl in Hin. exists r.
  destruct e'; simpl in Hin; try (destruct Hin as [E|[]]; try discriminate); try contradiction.
  injection E as ->. apply elem_of_list_In, He.
Qed.

(** Derivatives: a snapshot is missing. *)
Theorem C61_derivs {M V K} tag_ub (eager : M -> bool) P vsub smul (c : K) (st st' : gmap loc V)
    (vecs advs derivs : list loc) (vs ws : list V) h :
  0 < P -> length vecs = length advs -> length vecs = length derivs ->
  st ⊆ st' -> holds st' vecs vs -> holds st' advs ws ->
  NoDup derivs -> no_clash vecs advs derivs ->
  h ∈ vecs ++ advs -> h ∉ derivs -> st !! h = None ->
  fails_loudly tag_ub eager
    (launch P (fun r => derivs_handles P vsub smul (Ok c) r vecs advs derivs : prog M V unit unit) st).
Proof.
  intros HP L1 L2 Hsub Hv Hw Hnd Hc Hh Hd Hn.
  pose proof (C33_derivatives tag_ub eager P vsub smul c st' vecs advs derivs vs ws HP L1 L2 Hv Hw Hnd Hc) as HE.
  eapply loudly; [apply less_launch; exact Hsub|exact HE| | |].
  - intros d (Ha & Hl & _). rewrite launch_length. split; auto. eapply all_return_every; eauto.
  - rewrite launch_length. exact HP.
  - intros n d Hs. eapply (never_returns tag_ub eager _ h); [| | |exact Hs]; [exact Hn| |].
    + intros k e. apply C61_derivs_all_or_none.
    + intros tr e Hrun H1. split.
      * exact (derivs_reads _ _ _ _ _ _ _ _ _ _ _ _ _ HP L1 Hrun H1 Hh).
      * apply not_written. rewrite (C45_derivs _ _ _ _ _ _ _ _ _ _ _ _ HP L2 Hrun H1). exact Hd.
Qed.

(** ** Instances *)

(** A run in which a rank has returned. *)
Example C61_inner_products_all_or_none_example eager : exists n d,
  steps 10 eager n
    (launch 2 (fun r => ip_array 2 10 (0, 0)%Z g_add g_conj (fun _ x => Ok x) (Some g_dot)
                          6 3 1 r [1; 2; 3; 4; 7] [2; 3]) ex_store) d /\
  one_returned d /\ every_returned d.
Proof.
  destruct (some_run_one 10 eager _ _ _ (C04_example eager) ltac:(simpl; lia)) as (tr & n & d & Hs & _ & Hd).
  exists n, d. split; auto. split; auto. exact (C61_inner_products_all_or_none _ _ _ _ _ _ _ _ _ _ _ _ _ _ _ _ Hs Hd).
Qed.

(** An inner product whose values do not all fit the array ([store_as] raises for
    the product of vectors 7 and 3): when the rank concerned has raised TypeError, no rank
    has returned. *)
Example C61_bad_value_example eager n d :
  steps 10 eager n
    (launch 2 (fun r => ip_array 2 10 (0, 0)%Z g_add g_conj
                          (fun _ x => if decide (x = (-12, -28)%Z) then Raise TypeError else Ok x) (Some g_dot)
                          6 3 1 r [1; 2; 3; 4; 7] [2; 3]) ex_store) d ->
  raised TypeError d -> ~ one_returned d.
Proof.
  intros Hs [i Hi] H. apply (C61_inner_products_all_or_none _ _ _ _ _ _ _ _ _ _ _ _ _ _ _ _ Hs) in H.
  destruct (H i _ Hi) as [o E]. discriminate.
Qed.

Example C61_symmetric_all_or_none_example eager : exists n d,
  steps 10 eager n
    (launch 3 (fun r => symm_array 3 10 (0, 0)%Z g_add g_conj g_is_zero (fun _ x => Ok x)
                          (Some g_dot) 9 3 1 r [1; 2; 3; 4; 7]) ex_store) d /\
  one_returned d /\ every_returned d.
Proof.
  destruct (some_run_one 10 eager _ _ _ (C05_example eager) ltac:(simpl; lia)) as (tr & n & d & Hs & _ & Hd).
  exists n, d. split; auto. split; auto. exact (C61_symmetric_all_or_none _ _ _ _ _ _ _ _ _ _ _ _ _ _ _ _ Hs Hd).
Qed.

Example C61_lin_combine_all_or_none_example eager : exists n d,
  steps 10 eager n
    (launch 2 (fun r => lin_combine 2 v_add v_mul 6 3 1 r [10; 11; 12; 13] [1; 2; 3]
                          lc_coeffs (Some (Cols [1; 0; -1; 1]%Z))) lc_store) d /\
  one_returned (O := unit) d /\ every_returned d.
Proof.
  destruct (some_run_one 10 eager _ _ _ (C06_example eager) ltac:(simpl; lia)) as (tr & n & d & Hs & _ & Hd).
  exists n, d. split; auto. split; auto. exact (C61_lin_combine_all_or_none _ _ _ _ _ _ _ _ _ _ _ _ _ _ _ Hs Hd).
Qed.

Example C61_derivs_all_or_none_example (eager : unit -> bool) : exists n d,
  steps 0 eager n
    (launch 2 (fun r => derivs_handles 2 z_sub z_smul (Ok 2%Z) r [1; 2; 3] [2; 3; 4] [5; 6; 4]) d_store) d /\
  one_returned (O := unit) d /\ every_returned d.
Proof.
  destruct (some_run_one 0 eager _ _ _ (C33_example eager) ltac:(simpl; lia)) as (tr & n & d & Hs & _ & Hd).
  exists n, d. split; auto. split; auto. exact (C61_derivs_all_or_none _ _ _ _ _ _ _ _ _ _ _ _ Hs Hd).
Qed.

(** Vector 7 is missing. *)
Example C61_incomplete_store_example eager :
  exists n, forall k d, steps 10 eager k
    (launch 3 (fun r => symm_array 3 10 (0, 0)%Z g_add g_conj g_is_zero (fun _ x => Ok x)
                          (Some g_dot) 9 3 1 r [1; 2; 3; 4; 7]) (delete 7 ex_store)) d ->
    k <= n /\ (stuck 10 eager d -> raised OSError d \/ every_returned d).
Proof.
  apply (C61_incomplete_store 10 eager 3 _ (delete 7 ex_store) ex_store); [apply delete_subseteq|].
  eapply always_ends_mono; [apply (C05_example eager)|]. intros d (H & _). eapply all_return_every; eauto.
Qed.

Example C61_inner_products_example eager :
  fails_loudly 10 eager
    (launch 2 (fun r => ip_array 2 10 (0, 0)%Z g_add g_conj (fun _ x => Ok x) (Some g_dot)
                          6 3 1 r [1; 2; 3; 4; 7] [2; 3]) (delete 7 ex_store)).
Proof.
  apply (C61_inner_products 10 eager 2 1 (Some 1%Z) 6 3 (0, 0)%Z g_add g_conj
           (fun _ x => Ok x) g_dot g_dot (delete 7 ex_store) ex_store [1; 2; 3; 4; 7] [2; 3]
           [[(1, 2); (0, 1)]; [(3, 0); (-1, 1)]; [(0, 0); (2, -5)];
            [(1, 1); (1, 1)]; [(0, -1); (4, 4)]]%Z
           [[(3, 0); (-1, 1)]; [(0, 0); (2, -5)]]%Z [(1, 2); (0, 1)]%Z [(3, 0); (-1, 1)]%Z 7).
  - split; [lia|]. split; [lia|]. reflexivity.
  - exact g_neutral.
  - lia.
  - apply delete_subseteq.
  - repeat constructor.
  - repeat constructor.
  - reflexivity.
  - reflexivity.
  - intros v w _ _. reflexivity.
  - apply (bool_decide_unpack (7 ∈ [1; 2; 3; 4; 7] ++ [2; 3])). reflexivity.
  - apply lookup_delete.
Qed.

Example C61_symmetric_example eager :
  fails_loudly 10 eager
    (launch 3 (fun r => symm_array 3 10 (0, 0)%Z g_add g_conj g_is_zero (fun _ x => Ok x)
                          (Some g_dot) 9 3 1 r [1; 2; 3; 4; 7]) (delete 4 ex_store)).
Proof.
  apply (C61_symmetric 10 eager 3 1 (Some 1%Z) 9 3 (0, 0)%Z g_add g_conj g_is_zero
           (fun _ x => Ok x) g_dot (delete 4 ex_store) ex_store [1; 2; 3; 4; 7]
           [[(1, 2); (0, 1)]; [(3, 0); (-1, 1)]; [(0, 0); (2, -5)];
            [(1, 1); (1, 1)]; [(0, -1); (4, 4)]]%Z 4).
  - split; [lia|]. split; [lia|]. reflexivity.
  - exact g_neutral.
  - reflexivity.
  - exact g_tests_zero.
  - simpl. lia.
  - apply delete_subseteq.
  - repeat constructor.
  - auto.
  - intros v w _ _. apply g_dot_conj.
  - apply (bool_decide_unpack (4 ∈ [1; 2; 3; 4; 7])). reflexivity.
  - apply lookup_delete.
Qed.

Example C61_lin_combine_example eager :
  fails_loudly 10 eager
    (launch 2 (fun r => lin_combine 2 v_add v_mul 6 3 1 r [10; 11; 12; 13] [1; 2; 3]
                          lc_coeffs (Some (Cols [1; 0; -1; 1]%Z)) : prog _ _ unit unit) (delete 3 lc_store)).
Proof.
  apply (C61_lin_combine 10 eager 2 1 (Some 1%Z) 6 3 v_add v_mul (delete 3 lc_store) lc_store [10; 11; 12; 13] [1; 2; 3]
    [[1; 2]; [3; -1]; [0; 5]]%Z lc_coeffs (Some (Cols [1; 0; -1; 1]%Z)) 3).
  - split; [lia|]. split; [lia|]. reflexivity.
  - lia.
  - apply delete_subseteq.
  - repeat constructor.
  - apply (bool_decide_unpack (NoDup [10; 11; 12; 13])). reflexivity.
  - intros h Hh. apply (bool_decide_unpack (h ∉ [1; 2; 3])).
    repeat (apply elem_of_cons in Hh; destruct Hh as [->|Hh]; [reflexivity|]). inversion Hh.
  - discriminate.
  - repeat constructor.
  - apply (bool_decide_unpack (Forall (fun z => -2 <= z < 2)%Z [1; 0; -1; 1]%Z)). reflexivity.
  - split; reflexivity.
  - apply (bool_decide_unpack (3 ∈ [1; 2; 3])). reflexivity.
  - apply lookup_delete.
Qed.

Example C61_derivs_example (eager : unit -> bool) :
  fails_loudly 0 eager
    (launch 2 (fun r => derivs_handles 2 z_sub z_smul (Ok 2%Z) r [1; 2; 3] [2; 3; 4] [5; 6; 4] : prog _ _ unit unit)
       (delete 2 d_store)).
Proof.
  apply (C61_derivs 0 eager 2 z_sub z_smul 2%Z (delete 2 d_store) d_store [1; 2; 3]
    [2; 3; 4] [5; 6; 4] [[1; 2]; [4; 8]; [9; 7]]%Z [[4; 8]; [9; 7]; [0; 0]]%Z 2); auto.
  - apply delete_subseteq.
  - repeat constructor.
  - repeat constructor.
  - apply (bool_decide_unpack (NoDup [5; 6; 4])). reflexivity.
  - intros i j h Hi Hj.
    destruct i as [|[|[|i]]]; destruct j as [|[|[|j]]]; simpl in *; rewrite ?lookup_nil in *; intuition congruence.
  - apply (bool_decide_unpack (2 ∈ [1; 2; 3] ++ [2; 3; 4])). reflexivity.
  - apply (bool_decide_unpack (2 ∉ [5; 6; 4])). reflexivity.
Qed.

(** The other ranks need not learn of it: with one snapshot, which is missing, rank 0
    raises and rank 1 waits at the barrier for ever. *)
Theorem C61_every_rank_fails_refuted : exists (eager : unit -> bool) n (d : config unit (list Z) unit),
  steps 0 eager n
    (launch 2 (fun r => derivs_handles 2 z_sub z_smul (Ok 2%Z) r [1] [2] [5] : prog _ _ unit unit) ∅) d /\
  stuck 0 eager d /\ procs d = [Fail OSError; Barrier (Ret tt)].
Proof.
  exists (fun _ => true), 1, (Config [Fail OSError; Barrier (Ret tt)] ∅ ∅). split; [|split; [|reflexivity]].
  - eapply steps_S; [|constructor]. apply (step_rank _ _ 0). reflexivity.
  - intros c Hs. inversion Hs as [i c0 c1 Hr E1 E2|ps ch st Hne Hall]; subst.
    + destruct i as [|[|i]]; simpl in Hr; try discriminate.
    + inversion Hall as [|? ? H _]. destruct H.
Qed.

Print Assumptions C61_inner_products_all_or_none.
Print Assumptions C61_symmetric_all_or_none.
Print Assumptions C61_lin_combine_all_or_none.
Print Assumptions C61_derivs_all_or_none.
Print Assumptions C61_incomplete_store.
Print Assumptions C61_inner_products.
Print Assumptions C61_symmetric.
Print Assumptions C61_lin_combine.
Print Assumptions C61_derivs.
Print Assumptions C61_every_rank_fails_refuted.
