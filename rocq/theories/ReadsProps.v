(** Property C44: how often the handles are read, and the size of the messages. *)
From stdpp Require Import gmap list.
From Coq Require Import ZArith Lia.
From Verif Require Import Prelude ParallelModel VecSpaceModel Spmd SpmdFacts SpmdLock SpmdWrites SpmdTrace
  ReductionsModel InnerProdModel SymmModel LinCombModel TaskProofs InnerProdProofs LinCombProofs ReadsProofs InnerProdProps
  SymmProps LinCombProps.
Open Scope nat_scope.

(** ** Specifications *)

(** All handles read in a trace, by any rank, in order. *)
Definition handles_read {V K} (tr : list (nat * event (msg V K))) : list loc :=
  flat_map (fun e => match e with Reads h => [h] | _ => [] end) (map snd tr).

(** [n] copies of [l]. *)
Fixpoint copies {A} (n : nat) (l : list A) : list A :=
  match n with 0 => [] | S n => l ++ copies n l end.

Definition returned {V K O} (c : config (msg V K) V O) : Prop :=
  forall i p, procs c !! i = Some p -> exists o, p = Ret o.

(** Every message sent and not yet received carries at most one vector. *)
Definition short_messages {V K O} (c : config (msg V K) V O) : Prop :=
  forall ch q vs idx, chans c !! ch = Some q -> MVecs vs idx ∈ q -> length vs <= 1.

Lemma copies_times {A} n (l : list A) : copies n l = times n l.
Proof. induction n as [|n IH]; simpl; auto. rewrite IH. reflexivity. Qed.

Lemma launch_reads {V K O} tag_ub (eager : msg V K -> bool) P (m : nat -> prog (msg V K) V O O) st
    (l : nat -> list loc) tr d :
  (forall r, r < P -> pemits (watch once never []) one_vector (l r) (fun _ => True) (m r)) ->
  trun tag_ub eager tr (launch P m st) d ->
  short_messages d /\ (returned d -> handles_read tr ≡ₚ flat_map l (seq 0 P)).
Proof.
  intros Hm Hrun. destruct (launch_trace _ _ _ _ _ _ _ _ _ _ Hm Hrun) as [Ht He]. split.
  - intros ch q vs idx Hq Hin. pose proof (Ht _ _ Hq) as F. rewrite Forall_forall in F.
    apply (F _ Hin).
  - intros Hd. rewrite <- (whole_trace tag_ub eager P (watch once never []) m st l tr d Hrun).
    + unfold handles_read. reflexivity.
    + intros r Hr. destruct (He r Hr) as (p & rest & Hp & -> & Hrest).
      destruct (Hd r p Hp) as [o ->]. rewrite (Hrest o eq_refl). apply app_nil_r.
Qed.

(** ** Theorems *)

(** Inner products: besides the reads of the timing test (the first vectors, on
    every rank), each vector of the shorter list is read once and each of the other
    list once per pass over the chunks of the shorter one. The number of passes is
    the one in the warning of vectorspace.py:336-341. *)
Theorem C44_inner_product_reads {V K} tag_ub (eager : msg V K -> bool) P N limit per_node
    per_proc zero add conj store_as ip st rows cols tr d :
  made_with limit P N per_node per_proc ->
  trun tag_ub eager tr
    (launch P (fun r => ip_array P tag_ub zero add conj store_as ip
                          per_node per_proc N r rows cols) st) d ->
  short_messages d /\
  (returned d ->
   let '(short, long) := if length cols <? length rows then (cols, rows) else (rows, cols) in
   handles_read tr ≡ₚ
     copies P [nth 0 short 0; nth 0 long 0; nth 0 short 0] ++ short ++
     copies (ceil_div (ceil_div (length short) P) (per_proc - 1)) long).
Proof.
  intros Hm Hrun.
  destruct (made_with_facts _ _ _ _ _ Hm) as [Hpp Hpn]. destruct Hm as (HP & HN & _).
  destruct (launch_reads tag_ub eager P _ st (fun r => ip_trace P once [] per_proc r rows cols) tr d
    (fun r Hr => emits_ip_array P tag_ub HP once never [] zero add conj store_as ip per_node per_proc N r rows cols Hr Hpp) Hrun) as [Hs Hr].
  split; auto. intros Hd. specialize (Hr Hd).
  rewrite (flat_map_ext_in _ (fun r => ip_reads P per_proc r rows cols) (seq 0 P)) in Hr
    by (intros r Hi; apply elem_of_seq in Hi; apply ip_trace_reads; auto; lia).
  unfold ip_reads in Hr.
  destruct (length cols <? length rows); rewrite !copies_times, Hr; apply all_core_reads; auto.
Qed.

(** Linear combinations: each basis vector is read once per pass over the chunks of
    sums. *)
Theorem C44_lin_combine_reads {V K} tag_ub (eager : msg V K -> bool) P N limit per_node
    per_proc vadd smul st (sums basis : list loc) (a : coeffs K) idx tr d :
  made_with limit P N per_node per_proc ->
  trun tag_ub eager tr
    (launch P (fun r => lin_combine P vadd smul per_node per_proc N r sums basis a idx) st) d ->
  short_messages d /\
  (returned (O := unit) d ->
   handles_read tr ≡ₚ
     copies P [nth 0 basis 0; nth 0 basis 0] ++
     copies (ceil_div (ceil_div (length sums) P) (per_proc - 1)) basis).
Proof.
  intros Hm Hrun.
  destruct (made_with_facts _ _ _ _ _ Hm) as [Hpp Hpn]. destruct Hm as (HP & HN & _).
  destruct (launch_reads tag_ub eager P _ st (fun r => lin_trace P once never [] per_proc r sums basis) tr d
    (fun r Hr => emits_lin_combine P HP once never [] vadd smul per_node per_proc N r sums basis a idx Hr Hpp) Hrun) as [Hs Hr].
  split; auto. intros Hd. rewrite (Hr Hd), !copies_times.
  rewrite (flat_map_ext_in _ (fun r => lin_reads P per_proc r sums basis) (seq 0 P))
    by (intros r Hi; apply elem_of_seq in Hi; apply lin_trace_reads; auto; lia).
  apply all_lin_reads; auto.
Qed.

(** Symmetric inner products: vector [i] is read once for each chunk of
    [(per_proc - 1) * P] vectors up to its own. *)
Theorem C44_symmetric_reads {V K} tag_ub (eager : msg V K -> bool) P N limit per_node
    per_proc zero add conj is_zero store_as ip st vecs tr d :
  made_with limit P N per_node per_proc ->
  trun tag_ub eager tr
    (launch P (fun r => symm_array P tag_ub zero add conj is_zero store_as ip
                          per_node per_proc N r vecs) st) d ->
  short_messages d /\
  (returned d ->
   handles_read tr ≡ₚ
     copies P [nth 0 vecs 0; nth 0 vecs 0] ++
     flat_map (fun i => copies (i / ((per_proc - 1) * P) + 1) [nth i vecs 0])
       (seq 0 (length vecs))).
Proof.
  intros Hm Hrun.
  destruct (made_with_facts _ _ _ _ _ Hm) as [Hpp Hpn]. destruct Hm as (HP & HN & _).
  destruct (launch_reads tag_ub eager P _ st (fun r => symm_trace P once [] per_proc r vecs) tr d
    (fun r Hr => emits_symm P tag_ub HP once never [] zero add conj is_zero store_as ip per_node per_proc N r vecs Hr Hpp) Hrun) as [Hs Hr].
  split; auto. intros Hd. rewrite (Hr Hd), !copies_times.
  rewrite (flat_map_ext_in _ (fun r => symm_reads P per_proc r vecs) (seq 0 P))
    by (intros r _; apply symm_trace_reads).
  rewrite (flat_map_ext_in _ (fun i => replicate (i / ((per_proc - 1) * P) + 1) (nth i vecs 0))
             (seq 0 (length vecs))).
  - apply all_symm_reads; auto.
  - intros i _. rewrite copies_times. unfold times.
    induction (_ + 1) as [|n IH]; simpl; auto. rewrite IH. reflexivity.
Qed.

(** With room for a rank's whole share of the shorter list besides one vector of the
    other, every vector is read once. *)
Theorem C44_enough_memory {V K} tag_ub (eager : msg V K -> bool) P N limit per_node
    per_proc zero add conj store_as ip st rows cols tr d :
  made_with limit P N per_node per_proc ->
  Nat.min (length rows) (length cols) <= (per_proc - 1) * P ->
  rows <> [] -> cols <> [] ->
  trun tag_ub eager tr
    (launch P (fun r => ip_array P tag_ub zero add conj store_as ip
                          per_node per_proc N r rows cols) st) d ->
  returned d ->
  exists burn, length burn = 3 * P /\ handles_read tr ≡ₚ burn ++ rows ++ cols.
Proof.
  intros Hm Hle Nr Nc Hrun Hd.
  destruct (C44_inner_product_reads _ _ _ _ _ _ _ _ _ _ _ _ _ _ _ _ _ Hm Hrun) as [_ H].
  specialize (H Hd). destruct (made_with_facts _ _ _ _ _ Hm) as [Hpp Hpn]. destruct Hm as (HP & HN & _).
  assert (L3 : forall n (x : list loc), length (copies n x) = n * length x).
  { induction n as [|n IH]; intros x; simpl; auto. rewrite app_length, IH. reflexivity. }
  assert (One : forall n, 0 < n -> n <= (per_proc - 1) * P -> ceil_div (ceil_div n P) (per_proc - 1) = 1).
  { intros n H0 Hn. unfold ceil_div. set (c := (n + (P - 1)) / P).
    pose proof (Nat.div_mod (n + (P - 1)) P ltac:(lia)) as D. fold c in D.
    pose proof (Nat.mod_upper_bound (n + (P - 1)) P ltac:(lia)).
    assert (1 <= c <= per_proc - 1) by nia.
    symmetry. apply (Nat.div_unique _ _ _ (c - 1)); lia. }
  assert (Lr : 0 < length rows) by (destruct rows; simpl; [congruence|lia]).
  assert (Lc : 0 < length cols) by (destruct cols; simpl; [congruence|lia]).
  destruct (Nat.ltb_spec (length cols) (length rows)).
  - rewrite One in H by lia. cbn [copies] in H. rewrite app_nil_r in H.
    exists (copies P [nth 0 cols 0; nth 0 rows 0; nth 0 cols 0]). split; [rewrite L3; simpl; lia|].
    rewrite H. apply Permutation_app_head. apply Permutation_app_comm.
  - rewrite One in H by lia. cbn [copies] in H. rewrite app_nil_r in H.
    exists (copies P [nth 0 rows 0; nth 0 cols 0; nth 0 rows 0]). split; [rewrite L3; simpl; lia|].
    exact H.
Qed.

(** ** Instances *)

Lemma some_run {V K O} tag_ub (eager : msg V K -> bool) (c : config (msg V K) V O) (R : nat -> O -> Prop) Q :
  always_ends tag_ub eager c (fun d => all_return R d /\ Q d) ->
  exists tr d, trun tag_ub eager tr c d /\ returned d.
Proof.
  intros [n H]. destruct (H 0 c) as (_ & _ & d & Hs & [Hr _] & _); [constructor|].
  destruct (steps_trun _ _ _ _ _ Hs) as [tr Htr]. exists tr, d. split; auto.
  intros i p Hp. destruct (Hr i p Hp) as (o & -> & _). eauto.
Qed.

(** Two processes holding three vectors each, five rows, six columns: the columns
    are read twice. *)
Example C44_inner_product_example eager : exists tr d,
  trun 10 eager tr
    (launch 2 (fun r => ip_array 2 10 (0, 0)%Z g_add g_conj (fun _ x => Ok x) (Some g_dot)
                          6 3 1 r [1; 2; 3; 4; 7] [7; 4; 3; 2; 1; 2]) ex_store) d /\
  returned d /\
  handles_read tr ≡ₚ [1; 7; 1; 1; 7; 1] ++ [1; 2; 3; 4; 7] ++
    [7; 4; 3; 2; 1; 2; 7; 4; 3; 2; 1; 2].
Proof.
  assert (Hm : made_with (Some 1%Z) 2 1 6 3) by (split; [lia|]; split; [lia|]; reflexivity).
  destruct (some_run 10 eager
    (launch 2 (fun r => ip_array 2 10 (0, 0)%Z g_add g_conj (fun _ x => Ok x) (Some g_dot)
                          6 3 1 r [1; 2; 3; 4; 7] [7; 4; 3; 2; 1; 2]) ex_store) _ _
    (C04_inner_product_array 10 eager 2 1 (Some 1%Z) 6 3 (0, 0)%Z g_add g_conj
           (fun _ x => Ok x) g_dot ex_store [1; 2; 3; 4; 7] [7; 4; 3; 2; 1; 2]
           [[(1, 2); (0, 1)]; [(3, 0); (-1, 1)]; [(0, 0); (2, -5)];
            [(1, 1); (1, 1)]; [(0, -1); (4, 4)]]%Z
           [[(0, -1); (4, 4)]; [(1, 1); (1, 1)]; [(0, 0); (2, -5)]; [(3, 0); (-1, 1)];
            [(1, 2); (0, 1)]; [(3, 0); (-1, 1)]]%Z Hm g_neutral ltac:(lia) ltac:(repeat constructor)
           ltac:(repeat constructor) ltac:(discriminate) ltac:(discriminate) ltac:(auto)
           ltac:(intros _ v w _ _; apply g_dot_conj))) as (tr & d & Hrun & Hd).
  exists tr, d. split; auto. split; auto.
  destruct (C44_inner_product_reads _ _ _ _ _ _ _ _ _ _ _ _ _ _ _ _ _ Hm Hrun) as [_ H].
  apply (H Hd).
Qed.

(** Enough memory: each handle once. *)
Example C44_enough_memory_example eager tr d :
  trun 10 eager tr
    (launch 2 (fun r => ip_array 2 10 (0, 0)%Z g_add g_conj (fun _ x => Ok x) (Some g_dot)
                          6 3 1 r [1; 2; 3; 4; 7] [2; 3]) ex_store) d ->
  returned d ->
  exists burn, length burn = 6 /\ handles_read tr ≡ₚ burn ++ [1; 2; 3; 4; 7; 2; 3].
Proof.
  assert (Hm : made_with (Some 1%Z) 2 1 6 3) by (split; [lia|]; split; [lia|]; reflexivity).
  intros Hrun Hd. apply (C44_enough_memory 10 eager 2 1 (Some 1%Z) 6 3 _ _ _ _ _ _ _ _ _ _ Hm) in Hrun;
    auto; try discriminate; simpl; lia.
Qed.

Lemma symm_run eager : exists tr d,
  trun 10 eager tr
    (launch 2 (fun r => symm_array 2 10 (0, 0)%Z g_add g_conj g_is_zero (fun _ x => Ok x)
                          (Some g_dot) 6 3 1 r [1; 2; 3; 4; 7]) ex_store) d /\
  returned d.
Proof.
  assert (Hm : made_with (Some 1%Z) 2 1 6 3) by (split; [lia|]; split; [lia|]; reflexivity).
  apply (some_run 10 eager _ _ _
    (C05_symmetric_array 10 eager 2 1 (Some 1%Z) 6 3 (0, 0)%Z g_add g_conj g_is_zero
           (fun _ x => Ok x) g_dot ex_store [1; 2; 3; 4; 7]
           [[(1, 2); (0, 1)]; [(3, 0); (-1, 1)]; [(0, 0); (2, -5)];
            [(1, 1); (1, 1)]; [(0, -1); (4, 4)]]%Z Hm g_neutral eq_refl g_tests_zero
           ltac:(simpl; lia) ltac:(repeat constructor) ltac:(discriminate) ltac:(auto)
           ltac:(intros v w _ _; apply g_dot_conj))).
Qed.

(** The second chunk is vector 7 alone, read once more. *)
Example C44_symmetric_example eager : exists tr d,
  trun 10 eager tr
    (launch 2 (fun r => symm_array 2 10 (0, 0)%Z g_add g_conj g_is_zero (fun _ x => Ok x)
                          (Some g_dot) 6 3 1 r [1; 2; 3; 4; 7]) ex_store) d /\
  returned d /\ handles_read tr ≡ₚ [1; 1; 1; 1] ++ [1; 2; 3; 4; 7; 7].
Proof.
  assert (Hm : made_with (Some 1%Z) 2 1 6 3) by (split; [lia|]; split; [lia|]; reflexivity).
  destruct (symm_run eager) as (tr & d & Hrun & Hd). exists tr, d. split; auto. split; auto.
  destruct (C44_symmetric_reads _ _ _ _ _ _ _ _ _ _ _ _ _ _ _ _ _ Hm Hrun) as [_ H].
  apply (H Hd).
Qed.

(** The warning of vectorspace.py:537-542, "the vecs will be retrieved
    num_row_chunks times each", is wrong: there are two chunks, and vectors 2, 3 and
    4 are read once. *)
Theorem C44_symmetric_warning_refuted eager : exists tr d,
  trun 10 eager tr
    (launch 2 (fun r => symm_array 2 10 (0, 0)%Z g_add g_conj g_is_zero (fun _ x => Ok x)
                          (Some g_dot) 6 3 1 r [1; 2; 3; 4; 7]) ex_store) d /\
  returned d /\ ceil_div 5 ((3 - 1) * 2) = 2 /\
  forall h, h ∈ [2; 3; 4] -> length (filter (fun x => x = h) (handles_read tr)) = 1.
Proof.
  destruct (C44_symmetric_example eager) as (tr & d & Hrun & Hd & H). exists tr, d.
  split; auto. split; auto. split; [reflexivity|].
  intros h Hh. rewrite H.
  rewrite !elem_of_cons, elem_of_nil in Hh.
  destruct Hh as [->|[->|[->|[]]]]; reflexivity.
Qed.

(** Four sums on two processes holding three vectors each: one pass. *)
Example C44_lin_combine_one_pass eager : exists tr d,
  trun 10 eager tr
    (launch 2 (fun r => lin_combine 2 v_add v_mul 6 3 1 r [10; 11; 12; 13] [1; 2; 3]
                          lc_coeffs (Some (Cols [1; 0; -1; 1]%Z))) lc_store) d /\
  returned (O := unit) d /\ handles_read tr ≡ₚ [1; 1; 1; 1] ++ [1; 2; 3].
Proof.
  assert (Hm : made_with (Some 1%Z) 2 1 6 3) by (split; [lia|]; split; [lia|]; reflexivity).
  destruct (some_run 10 eager _ _ _ (C06_example eager)) as (tr & d & Hrun & Hd).
  exists tr, d. split; auto. split; auto.
  destruct (C44_lin_combine_reads _ _ _ _ _ _ _ _ _ _ _ _ _ _ _ _ Hm Hrun) as [_ H].
  apply (H Hd).
Qed.

(** Three sums on one process holding three vectors: the basis is read twice. *)
Example C44_lin_combine_example eager tr d :
  trun 10 eager tr
    (launch 1 (fun r => lin_combine 1 Z.add Z.mul 3 3 1 r [4; 5; 6] [1; 2]
        (Arr2 2 3 [[1; 2; 3]; [4; 5; 6]]%Z) None) {[ 1 := 10%Z; 2 := 100%Z ]}) d ->
  returned (O := unit) d ->
  handles_read tr ≡ₚ [1; 1] ++ [1; 2; 1; 2].
Proof.
  assert (Hm : made_with (Some 1%Z) 1 1 3 3) by (split; [lia|]; split; [lia|]; reflexivity).
  intros Hrun Hd. destruct (C44_lin_combine_reads _ _ _ _ _ _ _ _ _ _ _ _ _ _ _ _ Hm Hrun) as [_ H].
  apply (H Hd).
Qed.

Print Assumptions C44_inner_product_reads.
Print Assumptions C44_lin_combine_reads.
Print Assumptions C44_symmetric_reads.
Print Assumptions C44_enough_memory.
Print Assumptions C44_symmetric_warning_refuted.
