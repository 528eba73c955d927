(** Property C45: when a rank has returned, the work of all ranks is done. *)
From stdpp Require Import gmap list.
From Coq Require Import ZArith Lia.
From Verif Require Import Prelude ParallelModel VecSpaceModel Spmd SpmdFacts SpmdLock SpmdEnds SpmdWrites SpmdTrace
  ReductionsModel InnerProdModel SymmModel LinCombModel TaskProofs InnerProdProofs LinCombProofs ReadsProofs
  DerivsModel DerivsProofs DoneProofs InnerProdProps SymmProps LinCombProps DerivsProps ReadsProps.
Open Scope nat_scope.

(** ** Specifications *)

(** All handles written in a trace, by any rank, in order. *)
Definition handles_written {M} (tr : list (nat * event M)) : list loc :=
  flat_map (fun e => match e with Writes h => [h] | _ => [] end) (map snd tr).

(** Some rank has returned. *)
Definition one_returned {M V O} (c : config M V O) : Prop := exists i o, procs c !! i = Some (Ret o).

(** ** Shares *)

Definition reads_of (a : act) : list loc := match a with R h => [h] | _ => [] end.
Definition writes_of (a : act) : list loc := match a with W h => [h] | _ => [] end.

Lemma project {M} (f : act -> list loc) (l : list (event M)) :
  flat_map f (flat_map (watch rd wr [B]) l) =
  flat_map (watch (fun h => f (R h)) (fun h => f (W h)) (f B)) l.
Proof.
  rewrite flat_map_flat_map. apply flat_map_ext_in. intros e _.
  destruct e; simpl; rewrite ?app_nil_r; reflexivity.
Qed.
Lemma read_watch {V K} (tr : list (nat * event (msg V K))) :
  handles_read tr = flat_map reads_of (flat_map (watch rd wr [B]) (map snd tr)).
Proof. rewrite project. apply flat_map_ext_in. intros [] _; reflexivity. Qed.
Lemma written_watch {M} (tr : list (nat * event M)) :
  handles_written tr = flat_map writes_of (flat_map (watch rd wr [B]) (map snd tr)).
Proof. rewrite project. apply flat_map_ext_in. intros [] _; reflexivity. Qed.
Lemma written_eq {M} (tr : list (nat * event M)) : written tr = handles_written tr.
Proof. apply flat_map_ext_in. intros [] _; reflexivity. Qed.

Lemma lin_done {V K} tag_ub (eager : msg V K -> bool) P N per_node per_proc vadd smul st
    (sums basis : list loc) (a : coeffs K) idx tr d : 0 < P -> 2 <= per_proc ->
  trun tag_ub eager tr
    (launch P (fun r => lin_combine P vadd smul per_node per_proc N r sums basis a idx) st) d ->
  one_returned (O := unit) d ->
  flat_map (watch rd wr [B]) (map snd tr) ≡ₚ
  flat_map (fun r => lin_trace P rd wr [B] per_proc r sums basis) (seq 0 P).
Proof.
  intros HP Hpp Hrun (i & o & Hi). eapply whole_trace; [exact Hrun|].
  eapply (all_done tag_ub eager P one_vector _ st (fun r => lin_trace P rd wr [B] per_proc r sums basis)
    (fun r => flat_map rd [nth 0 basis 0; nth 0 basis 0] ++
       flat_map (fun g => pass_trace P rd [B] basis r ++ put_trace P wr sums r g (per_proc - 1))
         (seq 0 (ceil_div (ceil_div (length sums) P) (per_proc - 1))))
    (count (lin_trace P rd wr [B] per_proc 0 sums basis)) tr d i o); eauto.
  - intros r Hr. apply emits_lin_combine; auto.
  - intros r Hr. apply count_lin.
Qed.

(** ** Theorems *)

(** Linear combinations: in any configuration in which some rank has returned, every
    sum has been written and every read made. *)
Theorem C45_lin_combine {V K} tag_ub (eager : msg V K -> bool) P N limit per_node
    per_proc vadd smul st (sums basis : list loc) (a : coeffs K) idx tr d :
  made_with limit P N per_node per_proc ->
  trun tag_ub eager tr
    (launch P (fun r => lin_combine P vadd smul per_node per_proc N r sums basis a idx) st) d ->
  one_returned (O := unit) d ->
  handles_written tr ≡ₚ sums /\
  handles_read tr ≡ₚ
    copies P [nth 0 basis 0; nth 0 basis 0] ++
    copies (ceil_div (ceil_div (length sums) P) (per_proc - 1)) basis.
Proof.
  intros Hm Hrun Hd.
  destruct (made_with_facts _ _ _ _ _ Hm) as [Hpp Hpn]. destruct Hm as (HP & HN & _).
  pose proof (lin_done _ _ _ _ _ _ _ _ _ _ _ _ _ _ _ HP Hpp Hrun Hd) as H. split.
  - rewrite written_watch, (flat_map_list_perm _ _ _ H), flat_map_flat_map.
    rewrite (flat_map_ext_in _ (fun r => map (fun j => nth j sums 0) (rank_tasks P (length sums) r))).
    + rewrite all_ranks_tasks by auto. reflexivity.
    + intros r Hr. apply elem_of_seq in Hr. rewrite proj_lin.
      apply (lin_writes P per_proc sums basis r); auto; lia.
  - rewrite read_watch, (flat_map_list_perm _ _ _ H), flat_map_flat_map, !copies_times.
    rewrite (flat_map_ext_in _ (fun r => lin_reads P per_proc r sums basis)).
    + apply all_lin_reads; auto.
    + intros r Hr. apply elem_of_seq in Hr. rewrite proj_lin. apply (lin_trace_reads P HP); lia.
Qed.

(** So from the moment a rank returns from lin_combine, the handles hold the sums. *)
Theorem C45_sums_available {V K} tag_ub (eager : msg V K -> bool) P N limit per_node
    per_proc vadd smul st (sums basis : list loc) (bv : list V) (a : coeffs K) idx n d :
  (forall x y z, vadd x (vadd y z) = vadd (vadd x y) z) ->
  (forall x y, vadd x y = vadd y x) ->
  made_with limit P N per_node per_proc -> P * P - 1 <= tag_ub ->
  holds st basis bv -> basis <> [] ->
  NoDup sums -> (forall h, h ∈ sums -> h ∉ basis) ->
  rectangular a -> valid_columns (length basis) a idx ->
  fits (length basis) (length sums) a idx ->
  steps tag_ub eager n
    (launch P (fun r => lin_combine P vadd smul per_node per_proc N r sums basis a idx) st) d ->
  one_returned (O := unit) d ->
  (forall j h, sums !! j = Some h -> exists ts v,
     Forall2 (is_term smul bv a idx j) (seq 0 (length basis)) ts /\ sum_of vadd ts v /\
     store d !! h = Some v) /\
  (forall h, h ∉ sums -> store d !! h = st !! h).
Proof.
  intros Ha Hc Hm Ht Hst Nb Hnd Hdis Hr Hv Hf Hn Hd.
  pose proof (C06_sums tag_ub eager P N limit per_node per_proc vadd smul st sums basis bv a idx
    Ha Hc Hm Ht Hst Nb Hnd Hdis Hr Hv Hf) as HE.
  destruct (steps_trun _ _ _ _ _ Hn) as [tr Hrun].
  destruct (store_final tag_ub eager sums _ tr _ d HE Hrun) as (d' & (_ & _ & G) & <-); auto.
  - intros tr' d' ((Hret & _) & Hlen & _) Hrun'. rewrite written_eq.
    apply (C45_lin_combine _ _ _ _ _ _ _ _ _ _ _ _ _ _ _ _ Hm Hrun').
    destruct (lookup_lt_is_Some_2 (procs d') 0) as [p Hp]; [destruct Hm; lia|].
    destruct (Hret 0 p Hp) as (o & -> & _). exists 0, o. exact Hp.
  - rewrite written_eq. apply (C45_lin_combine _ _ _ _ _ _ _ _ _ _ _ _ _ _ _ _ Hm Hrun Hd).
Qed.

(** Derivatives. *)
Theorem C45_derivs {M V K} tag_ub (eager : M -> bool) P vsub smul (inv_dt : res K) st
    (vecs advs derivs : list loc) tr (d : config M V unit) :
  0 < P -> length vecs = length derivs ->
  trun tag_ub eager tr
    (launch P (fun r => derivs_handles P vsub smul inv_dt r vecs advs derivs) st) d ->
  one_returned d -> handles_written tr ≡ₚ derivs.
Proof.
  intros HP L Hrun (i & o & Hi).
  assert (H : flat_map (watch rd wr [B]) (map snd tr) ≡ₚ
     flat_map (fun r => derivs_trace P r vecs advs derivs) (seq 0 P)).
  { eapply whole_trace; [exact Hrun|].
    eapply (all_done tag_ub eager P (fun _ => True) _ st (fun r => derivs_trace P r vecs advs derivs)
      (fun r => flat_map (fun i => [R (nth i vecs 0); R (nth i advs 0); W (nth i derivs 0)])
                  (rank_tasks P (length vecs) r)) (count (bars P [B])) tr d i o); eauto.
    - intros r Hr. apply emits_derivs; auto.
    - intros r Hr. apply count_derivs. }
  rewrite written_watch, (flat_map_list_perm _ _ _ H), flat_map_flat_map.
  rewrite (flat_map_ext_in _ (fun r => map (fun j => nth j derivs 0) (rank_tasks P (length derivs) r))).
  - rewrite all_ranks_tasks by auto. reflexivity.
  - intros r Hr. unfold derivs_trace. rewrite flat_map_app, flat_map_flat_map, L.
    rewrite proj_bars. simpl. rewrite no_bars, app_nil_r. apply flat_map_single.
Qed.

Theorem C45_derivs_available {M V K} tag_ub (eager : M -> bool) P vsub smul (c : K) st
    (vecs advs derivs : list loc) (vs ws : list V) n (d : config M V unit) :
  0 < P -> length vecs = length advs -> length vecs = length derivs ->
  holds st vecs vs -> holds st advs ws ->
  NoDup derivs -> no_clash vecs advs derivs ->
  steps tag_ub eager n
    (launch P (fun r => derivs_handles P vsub smul (Ok c) r vecs advs derivs) st) d ->
  one_returned d ->
  (forall i h v w, derivs !! i = Some h -> vs !! i = Some v -> ws !! i = Some w ->
     store d !! h = Some (smul c (vsub w v))) /\
  (forall h, h ∉ derivs -> store d !! h = st !! h).
Proof.
  intros HP L1 L2 Hv Hw Hnd Hnc Hn Hd.
  pose proof (C33_derivatives tag_ub eager P vsub smul c st vecs advs derivs vs ws HP L1 L2 Hv Hw Hnd Hnc) as HE.
  destruct (steps_trun _ _ _ _ _ Hn) as [tr Hrun].
  destruct (store_final tag_ub eager derivs _ tr _ d HE Hrun) as (d' & (_ & _ & G) & <-); auto.
  - intros tr' d' ((Hret & _) & Hlen & _) Hrun'. rewrite written_eq.
    apply (C45_derivs _ _ _ _ _ _ _ _ _ _ _ _ HP L2 Hrun').
    destruct (lookup_lt_is_Some_2 (procs d') 0) as [p Hp]; [lia|].
    destruct (Hret 0 p Hp) as (o & -> & _). exists 0, o. exact Hp.
  - rewrite written_eq. apply (C45_derivs _ _ _ _ _ _ _ _ _ _ _ _ HP L2 Hrun Hd).
Qed.

(** Inner products: when a rank has its array, all ranks have made all their reads
    (so the vectors may be overwritten). *)
Theorem C45_inner_products {V K} tag_ub (eager : msg V K -> bool) P N limit per_node
    per_proc zero add conj store_as ip st rows cols tr d :
  made_with limit P N per_node per_proc ->
  trun tag_ub eager tr
    (launch P (fun r => ip_array P tag_ub zero add conj store_as ip
                          per_node per_proc N r rows cols) st) d ->
  one_returned d ->
  let '(short, long) := if length cols <? length rows then (cols, rows) else (rows, cols) in
  handles_read tr ≡ₚ
    copies P [nth 0 short 0; nth 0 long 0; nth 0 short 0] ++ short ++
    copies (ceil_div (ceil_div (length short) P) (per_proc - 1)) long.
Proof.
  intros Hm Hrun (i & o & Hi).
  destruct (made_with_facts _ _ _ _ _ Hm) as [Hpp Hpn]. destruct Hm as (HP & HN & _).
  assert (H : flat_map (watch rd wr [B]) (map snd tr) ≡ₚ
     flat_map (fun r => ip_trace P rd [B] per_proc r rows cols) (seq 0 P)).
  { eapply whole_trace; [exact Hrun|].
    eapply (all_done tag_ub eager P one_vector _ st (fun r => ip_trace P rd [B] per_proc r rows cols)
      (fun r => if length cols <? length rows then core_trace P rd [B] per_proc r cols rows
                else core_trace P rd [B] per_proc r rows cols)
      (count (ip_trace P rd [B] per_proc 0 rows cols)) tr d i o); eauto.
    - intros r Hr. apply emits_ip_array; auto.
    - intros r Hr. apply count_ip. }
  assert (G : handles_read tr ≡ₚ flat_map (fun r => ip_reads P per_proc r rows cols) (seq 0 P)).
  { rewrite read_watch, (flat_map_list_perm _ _ _ H), flat_map_flat_map.
    apply flat_map_perm. intros r Hr. apply elem_of_seq in Hr. rewrite proj_ip.
    rewrite <- (ip_trace_reads P HP per_proc r rows cols) by lia. reflexivity. }
  unfold ip_reads in G. destruct (length cols <? length rows); rewrite !copies_times, G; apply all_core_reads; auto.
Qed.

Theorem C45_symmetric {V K} tag_ub (eager : msg V K -> bool) P N limit per_node
    per_proc zero add conj is_zero store_as ip st vecs tr d :
  made_with limit P N per_node per_proc ->
  trun tag_ub eager tr
    (launch P (fun r => symm_array P tag_ub zero add conj is_zero store_as ip
                          per_node per_proc N r vecs) st) d ->
  one_returned d ->
  handles_read tr ≡ₚ
    copies P [nth 0 vecs 0; nth 0 vecs 0] ++
    flat_map (fun i => copies (i / ((per_proc - 1) * P) + 1) [nth i vecs 0])
      (seq 0 (length vecs)).
Proof.
  intros Hm Hrun (i & o & Hi).
  destruct (made_with_facts _ _ _ _ _ Hm) as [Hpp Hpn]. destruct Hm as (HP & HN & _).
  assert (H : flat_map (watch rd wr [B]) (map snd tr) ≡ₚ
     flat_map (fun r => symm_trace P rd [B] per_proc r vecs) (seq 0 P)).
  { eapply whole_trace; [exact Hrun|].
    eapply (all_done tag_ub eager P one_vector _ st (fun r => symm_trace P rd [B] per_proc r vecs)
      (fun r => flat_map rd [nth 0 vecs 0; nth 0 vecs 0] ++
        flat_map (fun s =>
          let e := Nat.min (length vecs) (s + (per_proc - 1) * P) in
          flat_map rd (share P vecs s (e - s) r) ++
          sets_trace P [B] s e ++
          flat_map (fun q => flat_map rd (share P vecs q (Nat.min (q + P) (length vecs) - q) r) ++
                       times (P - 1) (bars P [B]))
            (py_range e (length vecs) P))
          (py_range 0 (length vecs) ((per_proc - 1) * P)))
      (count (symm_trace P rd [B] per_proc 0 vecs)) tr d i o); eauto.
    - intros r Hr. apply emits_symm; auto.
    - intros r Hr. apply count_symm. }
  rewrite read_watch, (flat_map_list_perm _ _ _ H), flat_map_flat_map, !copies_times.
  rewrite (flat_map_ext_in _ (fun r => symm_reads P per_proc r vecs) (seq 0 P)).
  2:{ intros r _. rewrite proj_symm. apply symm_trace_reads. }
  rewrite (flat_map_ext_in _ (fun i => replicate (i / ((per_proc - 1) * P) + 1) (nth i vecs 0))
             (seq 0 (length vecs))).
  - apply all_symm_reads; auto.
  - intros k _. rewrite copies_times. unfold times.
    induction (_ + 1) as [|n IH]; simpl; auto. rewrite IH. reflexivity.
Qed.

(** ** Instances *)

Lemma some_run_one {M V O} tag_ub (eager : M -> bool) (c : config M V O) (R : nat -> O -> Prop) Q :
  always_ends tag_ub eager c (fun d => all_return R d /\ Q d) -> 0 < length (procs c) ->
  exists tr n d, steps tag_ub eager n c d /\ trun tag_ub eager tr c d /\ one_returned d.
Proof.
  intros [n H] Hl. destruct (H 0 c) as (_ & _ & d & Hs & [Hr _] & _); [constructor|].
  destruct (steps_trun _ _ _ _ _ Hs) as [tr Htr]. exists tr, (n - 0), d. split; auto. split; auto.
  rewrite <- (steps_procs_length _ _ _ _ _ Hs) in Hl.
  destruct (lookup_lt_is_Some_2 (procs d) 0 Hl) as [p Hp].
  destruct (Hr 0 p Hp) as (o & -> & _). exists 0, o. exact Hp.
Qed.

Example C45_lin_combine_example eager : exists tr d,
  trun 10 eager tr
    (launch 2 (fun r => lin_combine 2 v_add v_mul 6 3 1 r [10; 11; 12; 13] [1; 2; 3]
                          lc_coeffs (Some (Cols [1; 0; -1; 1]%Z))) lc_store) d /\
  one_returned (O := unit) d /\ handles_written tr ≡ₚ [10; 11; 12; 13] /\
  handles_read tr ≡ₚ [1; 1; 1; 1; 1; 2; 3].
Proof.
  assert (Hm : made_with (Some 1%Z) 2 1 6 3) by (split; [lia|]; split; [lia|]; reflexivity).
  destruct (some_run_one 10 eager _ _ _ (C06_example eager) ltac:(simpl; lia)) as (tr & n & d & _ & Hrun & Hd).
  exists tr, d. split; auto. split; auto.
  apply (C45_lin_combine _ _ _ _ _ _ _ _ _ _ _ _ _ _ _ _ Hm Hrun Hd).
Qed.

(** The coefficients of sum 10 are those of column 1: 2, 4, 6. *)
Example C45_sums_available_example eager n d :
  steps 10 eager n
    (launch 2 (fun r => lin_combine 2 v_add v_mul 6 3 1 r [10; 11; 12; 13] [1; 2; 3]
                          lc_coeffs (Some (Cols [1; 0; -1; 1]%Z))) lc_store) d ->
  one_returned (O := unit) d ->
  store d !! 10 = Some [14; 30]%Z /\ store d !! 9 = Some [7; 7]%Z.
Proof.
  intros Hn Hd.
  destruct (C45_sums_available 10 eager 2 1 (Some 1%Z) 6 3 v_add v_mul lc_store [10; 11; 12; 13] [1; 2; 3]
    [[1; 2]; [3; -1]; [0; 5]]%Z lc_coeffs (Some (Cols [1; 0; -1; 1]%Z)) n d) as [H3 H4].
  - intros x y z. apply v_add_assoc.
  - intros x y. apply v_add_comm.
  - split; [lia|]. split; [lia|]. reflexivity.
  - lia.
  - repeat constructor.
  - discriminate.
  - apply (bool_decide_unpack (NoDup [10; 11; 12; 13])). reflexivity.
  - intros h Hh. apply (bool_decide_unpack (h ∉ [1; 2; 3])).
    repeat (apply elem_of_cons in Hh; destruct Hh as [->|Hh]; [reflexivity|]). inversion Hh.
  - repeat constructor.
  - apply (bool_decide_unpack (Forall (fun z => -2 <= z < 2)%Z [1; 0; -1; 1]%Z)). reflexivity.
  - split; reflexivity.
  - exact Hn.
  - exact Hd.
  - split.
    + destruct (H3 0 10 eq_refl) as (ts & v & F & S & Es). etransitivity; [exact Es|]. f_equal.
      inversion F as [|? t0 ? ts0 T0 F0]; subst. inversion F0 as [|? t1 ? ts1 T1 F1]; subst.
      inversion F1 as [|? t2 ? ts2 T2 F2]; subst. inversion F2; subst.
      destruct T0 as (b0 & x0 & B0 & X0 & ->); destruct T1 as (b1 & x1 & B1 & X1 & ->);
        destruct T2 as (b2 & x2 & B2 & X2 & ->).
      vm_compute in B0, B1, B2, X0, X1, X2. simplify_eq. simpl in S. subst v. reflexivity.
    + etransitivity; [apply H4|reflexivity].
      apply (bool_decide_unpack (9 ∉ [10; 11; 12; 13])). reflexivity.
Qed.

Example C45_derivs_example (eager : unit -> bool) : exists tr d,
  trun 0 eager tr
    (launch 2 (fun r => derivs_handles 2 z_sub z_smul (Ok 2%Z) r [1; 2; 3] [2; 3; 4] [5; 6; 4])
       d_store) d /\
  one_returned (O := unit) d /\ handles_written tr ≡ₚ [5; 6; 4].
Proof.
  destruct (some_run_one 0 eager _ _ _ (C33_example eager) ltac:(simpl; lia)) as (tr & n & d & _ & Hrun & Hd).
  exists tr, d. split; auto. split; auto.
  apply (C45_derivs 0 eager 2 z_sub z_smul (Ok 2%Z) d_store [1; 2; 3] [2; 3; 4] [5; 6; 4] tr d); auto.
Qed.
Example C45_derivs_available_example (eager : unit -> bool) n d :
  steps 0 eager n
    (launch 2 (fun r => derivs_handles 2 z_sub z_smul (Ok 2%Z) r [1; 2; 3] [2; 3; 4] [5; 6; 4])
       d_store) d ->
  one_returned (O := unit) d -> store d !! 5 = Some [6; 12]%Z /\ store d !! 1 = Some [1; 2]%Z.
Proof.
  intros Hn Hd.
  destruct (C45_derivs_available 0 eager 2 z_sub z_smul 2%Z d_store [1; 2; 3]
    [2; 3; 4] [5; 6; 4] [[1; 2]; [4; 8]; [9; 7]]%Z [[4; 8]; [9; 7]; [0; 0]]%Z n d) as [H3 H4]; auto.
  - repeat constructor.
  - repeat constructor.
  - apply (bool_decide_unpack (NoDup [5; 6; 4])). reflexivity.
  - intros i j h Hi Hj.
    destruct i as [|[|[|i]]]; destruct j as [|[|[|j]]]; simpl in *; rewrite ?lookup_nil in *; intuition congruence.
  - split; [apply (H3 0 5 [1; 2]%Z [4; 8]%Z); reflexivity|].
    etransitivity; [apply H4|reflexivity]. apply (bool_decide_unpack (1 ∉ [5; 6; 4])). reflexivity.
Qed.

Example C45_inner_products_example eager : exists tr d,
  trun 10 eager tr
    (launch 2 (fun r => ip_array 2 10 (0, 0)%Z g_add g_conj (fun _ x => Ok x) (Some g_dot)
                          6 3 1 r [1; 2; 3; 4; 7] [2; 3]) ex_store) d /\
  one_returned d /\ handles_read tr ≡ₚ [2; 1; 2; 2; 1; 2] ++ [2; 3] ++ [1; 2; 3; 4; 7].
Proof.
  assert (Hm : made_with (Some 1%Z) 2 1 6 3) by (split; [lia|]; split; [lia|]; reflexivity).
  destruct (some_run_one 10 eager _ _ _ (C04_example eager) ltac:(simpl; lia)) as (tr & n & d & _ & Hrun & Hd).
  exists tr, d. split; auto. split; auto.
  apply (C45_inner_products _ _ _ _ _ _ _ _ _ _ _ _ _ _ _ _ _ Hm Hrun Hd).
Qed.
Example C45_symmetric_example eager : exists tr d,
  trun 10 eager tr
    (launch 3 (fun r => symm_array 3 10 (0, 0)%Z g_add g_conj g_is_zero (fun _ x => Ok x)
                          (Some g_dot) 9 3 1 r [1; 2; 3; 4; 7]) ex_store) d /\
  one_returned d /\ handles_read tr ≡ₚ [1; 1; 1; 1; 1; 1] ++ [1; 2; 3; 4; 7].
Proof.
  assert (Hm : made_with (Some 1%Z) 3 1 9 3) by (split; [lia|]; split; [lia|]; reflexivity).
  destruct (some_run_one 10 eager _ _ _ (C05_example eager) ltac:(simpl; lia)) as (tr & n & d & _ & Hrun & Hd).
  exists tr, d. split; auto. split; auto.
  apply (C45_symmetric _ _ _ _ _ _ _ _ _ _ _ _ _ _ _ _ _ Hm Hrun Hd).
Qed.

Print Assumptions C45_lin_combine.
Print Assumptions C45_sums_available.
Print Assumptions C45_derivs.
Print Assumptions C45_derivs_available.
Print Assumptions C45_inner_products.
Print Assumptions C45_symmetric.
