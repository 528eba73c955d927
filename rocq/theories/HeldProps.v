(** Property C60: how many vectors a rank holds at once. *)
From stdpp Require Import gmap list.
From Coq Require Import ZArith Lia.
From Verif Require Import Prelude ParallelModel VecSpaceModel Spmd SpmdFacts SpmdLock SpmdWrites SpmdTrace
  ReductionsModel InnerProdModel SymmModel LinCombModel InnerProdProps SymmProps LinCombProps ReadsProps
  HeldModel HeldProofs HeldBounds.
Open Scope nat_scope.

(** ** Specifications *)

(** The notes of a rank: everywhere it can get to, at most [B] vectors are in memory. *)
Definition holds_at_most {V K O} (B : nat) (start : mproc (msg V K) V O) : Prop :=
  forall n k, rtc mstep start (Held n k) -> n <= B.

(** In the configuration [d] every rank is at a point its program with notes can get to. *)
Definition follows {V K O} (start : nat -> mproc (msg V K) V O) (d : config (msg V K) V O) : Prop :=
  forall r p, procs d !! r = Some p -> exists m, rtc mstep (start r) m /\ erases m p.

(** One vector is sent at a time, except that a rank alone sends none. *)
Definition in_transit (P : nat) : nat := if 1 <? P then 1 else 0.

(** ** Lemmas *)

Lemma safe_steps {V K O} B (m m' : mproc (msg V K) V O) : safe B m -> rtc mstep m m' -> safe B m'.
Proof.
  intros Hs H. induction H as [m|m m1 m2 Hst _ IH]; auto. apply IH.
  inversion Hst; subst; inversion Hs; subst; auto; constructor.
Qed.
Lemma safe_holds {V K O} B (m : mproc (msg V K) V O) : safe B m -> holds_at_most B m.
Proof. intros Hs n k Hr. pose proof (safe_steps _ _ _ Hs Hr) as H. inversion H; auto. Qed.

Lemma erases_local {V K O} tag_ub (eager : msg V K -> bool) n i (p p' : proc (msg V K) V O) ch ch' st st' :
  (forall c q x, ch !! c = Some q -> x ∈ q -> vec_count x <= 1) ->
  local_step tag_ub eager n i p ch st = Some (p', ch', st') ->
  forall m, erases m p -> exists m', rtc mstep m m' /\ erases m' p'.
Proof.
  intros Hsh Hst m He. revert p' ch' st' Hst.
  induction He; intros p' ch' st' Hst; simpl in Hst.
  - discriminate.
  - discriminate.
  - case_decide; injection Hst as <- <- <-.
    + exists m. split; auto. apply rtc_once. constructor.
    + exists (MFail MPIError). split; [apply rtc_once|]; constructor.
  - destruct (ch !! (src, i, ctx, tag)) as [[|x q]|] eqn:E; try discriminate. injection Hst as <- <- <-.
    exists (m x). split; auto. apply rtc_once. constructor. apply (Hsh _ _ x E). left.
  - case_decide; [|discriminate]. injection Hst as <- <- <-. exists m. split; auto. apply rtc_once. constructor.
  - discriminate.
  - destruct (st !! h) as [v|]; injection Hst as <- <- <-.
    + exists (m v). split; auto. apply rtc_once. constructor.
    + exists (MFail OSError). split; [apply rtc_once|]; constructor.
  - injection Hst as <- <- <-. exists m. split; auto. apply rtc_once. constructor.
  - destruct (IHHe _ _ _ Hst) as (m' & Hm & He'). exists m'. split; auto.
    eapply rtc_l; [constructor|exact Hm].
Qed.
Lemma erases_barrier {V K O} (m : mproc (msg V K) V O) p : erases m p -> at_barrier p ->
  exists m', rtc mstep m m' /\ erases m' (past_barrier p).
Proof.
  intros He. induction He; simpl; intros Hb; try contradiction.
  - exists m. split; auto. apply rtc_once. constructor.
  - destruct (IHHe Hb) as (m' & Hm & He'). exists m'. split; auto. eapply rtc_l; [constructor|exact Hm].
Qed.

Lemma follows_run {V K O} tag_ub (eager : msg V K -> bool) start tr (c d : config (msg V K) V O) :
  trun tag_ub eager tr c d ->
  (forall tr d, trun tag_ub eager tr c d -> short_messages d) ->
  follows start c -> follows start d.
Proof.
  induction 1 as [c|i p c c' d tr Hp Hst Hrun IH|ps ch st d tr Hne Hall Hrun IH]; intros Hsh Hf; auto.
  - apply IH.
    { intros tr' d' H'. eapply Hsh. eapply trun_rank; eauto. }
    pose proof (Hsh [] c (trun_nil _ _ _)) as Hc. unfold rank_step in Hst. rewrite Hp in Hst.
    destruct (local_step tag_ub eager (length (procs c)) i p (chans c) (store c)) as [[[p' ch'] st']|] eqn:E; [|discriminate].
    injection Hst as <-. intros r q Hq. simpl in Hq.
    destruct (decide (r = i)) as [->|N].
    + rewrite list_lookup_insert in Hq by (eapply lookup_lt_Some; eauto). injection Hq as <-.
      destruct (Hf i p Hp) as (m & Hm & He).
      destruct (erases_local tag_ub eager _ _ _ _ _ _ _ _ (fun c0 q x H1 H2 => ltac:(destruct x as [vs idx| | |]; simpl; [exact (Hc c0 q vs idx H1 H2)|lia..])) E m He) as (m' & Hm' & He').
      exists m'. split; auto. etransitivity; eauto.
    + rewrite list_lookup_insert_ne in Hq by auto. apply Hf. exact Hq.
  - apply IH.
    { intros tr' d' H'. eapply Hsh. eapply trun_barrier; eauto. }
    intros r q Hq. simpl in Hq. rewrite list_lookup_fmap in Hq.
    destruct (ps !! r) as [p|] eqn:Ep; [|discriminate]. injection Hq as <-.
    destruct (Hf r p Ep) as (m & Hm & He).
    destruct (erases_barrier m p He) as (m' & Hm' & He').
    { rewrite Forall_forall in Hall. apply Hall. eapply elem_of_list_lookup_2; eauto. }
    exists m'. split; auto. etransitivity; eauto.
Qed.

Lemma follows_launch {V K O} tag_ub (eager : msg V K -> bool) P (p : nat -> prog (msg V K) V O O)
    (start : nat -> mprog O) st tr d :
  (forall r, noted (start r) (p r)) ->
  (forall tr d, trun tag_ub eager tr (launch P p st) d -> short_messages d) ->
  trun tag_ub eager tr (launch P p st) d ->
  follows (fun r => start r no_vectors (fun o _ => MRet o)) d.
Proof.
  intros Hn Hsh Hrun. eapply follows_run; eauto. intros r q Hq. simpl in Hq.
  rewrite list_lookup_fmap in Hq. destruct (seq 0 P !! r) as [r'|] eqn:E; [|discriminate].
  apply lookup_seq in E. destruct E as [-> E]. injection Hq as <-. simpl.
  eexists. split; [reflexivity|]. apply Hn. intros a s. constructor.
Qed.

Lemma follow_reaches {V K O} (v : V) n (m : mproc (msg V K) V O) : forall ms,
  Forall (fun x => vec_count x <= 1) ms -> n ∈ fst (follow v ms m) ->
  exists k, rtc mstep m (Held n k).
Proof.
  induction m as [o|e|dst ctx tag x m IH|src ctx tag f IH|dst ctx tag x m IH|m IH|h f IH|h w m IH|n' m IH];
    intros ms Hms Hn; simpl in Hn.
  - apply elem_of_nil in Hn. contradiction.
  - apply elem_of_nil in Hn. contradiction.
  - destruct (follow v ms m) as [a b] eqn:E. destruct (IH ms Hms) as [k Hk]; [rewrite E; exact Hn|].
    exists k. eapply rtc_l; [constructor|exact Hk].
  - destruct ms as [|x ms]; [apply elem_of_nil in Hn; contradiction|].
    destruct (proj1 (Forall_cons _ _ _) Hms) as [Hx Hms'].
    destruct (IH x ms Hms' Hn) as [k Hk]. exists k. eapply rtc_l; [apply (ms_recv src ctx tag f x Hx)|exact Hk].
  - destruct (IH ms Hms Hn) as [k Hk]. exists k. eapply rtc_l; [constructor|exact Hk].
  - destruct (IH ms Hms Hn) as [k Hk]. exists k. eapply rtc_l; [constructor|exact Hk].
  - destruct (IH v ms Hms Hn) as [k Hk]. exists k. eapply rtc_l; [constructor|exact Hk].
  - destruct (IH ms Hms Hn) as [k Hk]. exists k. eapply rtc_l; [constructor|exact Hk].
  - destruct (follow v ms m) as [a b] eqn:E. simpl in Hn. apply elem_of_cons in Hn. destruct Hn as [->|Hn].
    + exists m. reflexivity.
    + destruct (IH ms Hms) as [k Hk]; [rewrite E; exact Hn|].
      exists k. eapply rtc_l; [constructor|exact Hk].
Qed.

(** ** Theorems *)

(** compute_inner_product_array: at no point of any run does a rank hold more than
    [max_vecs_per_proc + 1] vectors, [max_vecs_per_proc + 2] with several ranks. *)
Theorem C60_inner_product_memory {V K} tag_ub (eager : msg V K -> bool) P N limit per_node
    per_proc zero add conj store_as ip st rows cols tr d :
  made_with limit P N per_node per_proc ->
  let start := fun r => mip_array P tag_ub zero add conj store_as ip per_node per_proc N r rows cols
                          no_vectors (fun o _ => MRet o) in
  (trun tag_ub eager tr
     (launch P (fun r => ip_array P tag_ub zero add conj store_as ip
                           per_node per_proc N r rows cols) st) d ->
   follows start d) /\
  forall r, holds_at_most (per_proc + 1 + in_transit P) (start r).
Proof.
  intros Hm start. destruct (made_with_facts _ _ _ _ _ Hm) as [Hpp Hpn]. split.
  - intros Hrun. apply (follows_launch tag_ub eager P
      (fun r => ip_array P tag_ub zero add conj store_as ip per_node per_proc N r rows cols)
      (fun r => mip_array P tag_ub zero add conj store_as ip per_node per_proc N r rows cols) st tr d).
    + intros r. apply noted_ip_array.
    + intros tr' d' H'. eapply C44_inner_product_reads; eauto.
    + exact Hrun.
  - intros r. apply safe_holds. unfold start.
    replace (per_proc + 1 + in_transit P) with ((per_proc - 1) + 2 + sent_max P)
      by (change (in_transit P) with (sent_max P); lia).
    replace per_proc with ((per_proc - 1) + 1) at 2 by lia. destruct Hm as (HP & _).
    apply keeps_ip_array; auto; [lia|]. intros a s _. constructor.
Qed.

(** compute_symm_inner_product_array: the same. *)
Theorem C60_symmetric_memory {V K} tag_ub (eager : msg V K -> bool) P N limit per_node
    per_proc zero add conj is_zero store_as ip st vecs tr d :
  made_with limit P N per_node per_proc ->
  let start := fun r => msymm_array P tag_ub zero add conj is_zero store_as ip per_node per_proc N r vecs
                          no_vectors (fun o _ => MRet o) in
  (trun tag_ub eager tr
     (launch P (fun r => symm_array P tag_ub zero add conj is_zero store_as ip
                           per_node per_proc N r vecs) st) d ->
   follows start d) /\
  forall r, r < P -> holds_at_most (per_proc + 1 + in_transit P) (start r).
Proof.
  intros Hm start. destruct (made_with_facts _ _ _ _ _ Hm) as [Hpp Hpn]. split.
  - intros Hrun. apply (follows_launch tag_ub eager P
      (fun r => symm_array P tag_ub zero add conj is_zero store_as ip per_node per_proc N r vecs)
      (fun r => msymm_array P tag_ub zero add conj is_zero store_as ip per_node per_proc N r vecs) st tr d).
    + intros r. apply noted_symm_array.
    + intros tr' d' H'. eapply C44_symmetric_reads; eauto.
    + exact Hrun.
  - intros r Hr. apply safe_holds. unfold start.
    replace (per_proc + 1 + in_transit P) with ((per_proc - 1) + 2 + sent_max P)
      by (change (in_transit P) with (sent_max P); lia).
    replace per_proc with ((per_proc - 1) + 1) at 2 by lia. destruct Hm as (HP & _).
    apply keeps_symm_array; auto; [lia|]. intros a s _. constructor.
Qed.

(** lin_combine: one more, sum_layer; whether or not [+=] works in place. *)
Theorem C60_lin_combine_memory {V K} tag_ub (eager : msg V K -> bool) P N limit per_node
    per_proc vadd smul in_place st (sums basis : list loc) (a : coeffs K) idx tr d :
  made_with limit P N per_node per_proc ->
  let start := fun r => mlin_combine P vadd smul in_place per_node per_proc N r sums basis a idx
                          no_vectors (fun o _ => MRet o) in
  (trun (V := V) tag_ub eager tr
     (launch P (fun r => lin_combine P vadd smul per_node per_proc N r sums basis a idx) st) d ->
   follows start d) /\
  forall r, holds_at_most (per_proc + 2 + in_transit P) (start r).
Proof.
  intros Hm start. destruct (made_with_facts _ _ _ _ _ Hm) as [Hpp Hpn]. split.
  - intros Hrun. apply (follows_launch tag_ub eager P
      (fun r => lin_combine P vadd smul per_node per_proc N r sums basis a idx)
      (fun r => mlin_combine P vadd smul in_place per_node per_proc N r sums basis a idx) st tr d).
    + intros r. apply noted_lin_combine.
    + intros tr' d' H'. eapply C44_lin_combine_reads; eauto.
    + exact Hrun.
  - intros r. apply safe_holds. unfold start.
    replace (per_proc + 2 + in_transit P) with ((per_proc - 1) + 3 + sent_max P)
      by (change (in_transit P) with (sent_max P); lia).
    replace per_proc with ((per_proc - 1) + 1) at 2 by lia. destruct Hm as (HP & _).
    apply keeps_lin_combine; auto; [lia|]. intros u s _. constructor.
Qed.

(** ** Examples *)

(** Vectors and numbers are natural numbers, and every vector read is 1. With three
    vectors allowed to each rank, what the notes are and what is sent, given what is
    received. *)
Definition alone {O} (start : mprog (M := msg nat nat) (V := nat) (O := O) O) (ms : list (msg nat nat)) :=
  follow 1 ms (start no_vectors (fun o _ => MRet o)).
Definition ex_ip P r rows cols : mprog (M := msg nat nat) (V := nat) (O := list (list nat)) (list (list nat)) :=
  mip_array P 10 0 Nat.add id (fun _ x => Ok x) (Some Nat.mul) (3 * P) 3 1 r rows cols.
Definition ex_symm P r vecs : mprog (M := msg nat nat) (V := nat) (O := list (list nat)) (list (list nat)) :=
  msymm_array P 10 0 Nat.add id (fun x => x =? 0) (fun _ x => Ok x) (Some Nat.mul) (3 * P) 3 1 r vecs.
Definition ex_lin P in_place r sums basis a : mprog (M := msg nat nat) (V := nat) (O := unit) unit :=
  mlin_combine P Nat.add Nat.mul in_place (3 * P) 3 1 r sums basis a None.
Definition ones (m n : nat) : coeffs nat := Arr2 m n (repeat (repeat 1 n) m).

Example ex_limit_1 : made_with (Some 3%Z) 1 1 3 3.
Proof. split; [lia|]; split; [lia|]; reflexivity. Qed.
Example ex_limit_2 : made_with (Some 6%Z) 2 1 6 3.
Proof. split; [lia|]; split; [lia|]; reflexivity. Qed.

(** One process, three rows and three columns: two vectors for the timing and one left
    over, then two rows, the column being read and the one before it. *)
Example C60_inner_product_alone :
  alone (ex_ip 1 0 [0; 1; 2] [3; 4; 5]) [] = ([1; 2; 3; 1; 2; 3; 4; 4; 2; 3; 3; 3], []).
Proof. vm_compute. reflexivity. Qed.

(** Two processes: each receives what the other sends, and holds five vectors, namely two
    rows, the column the loop variable is left on, the column it sends and the column it
    receives. *)
Example C60_inner_product_two :
  let to_1 := [MVecs [1] [0]; MVecs [1] [1];
               MArr [[1; 1; 1; 1]; [1; 1; 1; 1]; [1; 1; 1; 1]; [1; 1; 1; 1]]] in
  let to_0 := [MVecs [1] [2]; MVecs [1] [3];
               MArr [[0; 0; 0; 0]; [0; 0; 0; 0]; [1; 1; 1; 1]; [1; 1; 1; 1]]] in
  alone (ex_ip 2 0 [0; 1; 2; 3] [3; 4; 5; 6]) to_0 = ([1; 2; 3; 1; 2; 3; 4; 5; 4], to_1) /\
  alone (ex_ip 2 1 [0; 1; 2; 3] [3; 4; 5; 6]) to_1 = ([1; 2; 3; 1; 2; 3; 4; 5; 4], to_0).
Proof. vm_compute. split; reflexivity. Qed.

Example C60_symmetric_alone :
  alone (ex_symm 1 0 [0; 1; 2; 3; 4]) [] = ([1; 2; 1; 2; 3; 4; 4; 2; 3; 4; 2], []).
Proof. vm_compute. reflexivity. Qed.

Example C60_symmetric_two :
  let to_1 := [MVecs [1] [0]; MVecs [1] [1]; MVecs [1] [4]; MVecs [1] [6]; MVecs [1] [4]; MVecs [1] [5];
               MArr [[1; 1; 1; 1; 1; 1; 1; 1]; [0; 1; 1; 1; 1; 1; 1; 1];
                     [1; 1; 1; 1; 1; 1; 1; 1]; [1; 1; 0; 1; 1; 1; 1; 1];
                     [0; 0; 0; 0; 1; 1; 1; 1]; [0; 0; 0; 0; 0; 1; 1; 1];
                     [0; 0; 0; 0; 1; 1; 1; 1]; [0; 0; 0; 0; 1; 1; 0; 1]]] in
  let to_0 := [MVecs [1] [2]; MVecs [1] [3]; MVecs [1] [5]; MVecs [1] [7]; MVecs [1] [6]; MVecs [1] [7];
               MArr [[0; 0; 0; 0; 0; 0; 0; 0]; [0; 0; 0; 0; 0; 0; 0; 0];
                     [1; 1; 1; 1; 1; 1; 1; 1]; [1; 1; 0; 1; 1; 1; 1; 1];
                     [0; 0; 0; 0; 0; 0; 0; 0]; [0; 0; 0; 0; 0; 0; 0; 0];
                     [0; 0; 0; 0; 1; 1; 1; 1]; [0; 0; 0; 0; 1; 1; 0; 1]]] in
  alone (ex_symm 2 0 [0; 1; 2; 3; 4; 5; 6; 7]) to_0 = ([1; 2; 1; 2; 3; 4; 4; 4; 5; 4; 3; 4; 4; 4], to_1) /\
  alone (ex_symm 2 1 [0; 1; 2; 3; 4; 5; 6; 7]) to_1 = ([1; 2; 1; 2; 3; 4; 4; 4; 5; 4; 3; 4; 4; 4], to_0).
Proof. vm_compute. split; reflexivity. Qed.

(** [+=] in place or not, the largest number is the same. *)
Example C60_lin_combine_alone :
  alone (ex_lin 1 true 0 [10; 11; 12] [0; 1; 2] (ones 3 3)) [] =
    ([1; 2; 3; 1; 2; 3; 1; 2; 3; 4; 4; 5; 5; 5; 5; 3; 3; 3; 3; 4; 4], []) /\
  alone (ex_lin 1 false 0 [10; 11; 12] [0; 1; 2] (ones 3 3)) [] =
    ([1; 2; 3; 1; 2; 3; 1; 2; 3; 4; 4; 5; 5; 5; 5; 5; 5; 5; 5; 3; 3; 3; 3; 4; 4; 4; 4], []).
Proof. vm_compute. split; reflexivity. Qed.

Example C60_lin_combine_two :
  let to_1 := [MVecs [1] [0]; MVecs [1] [1]] in
  let to_0 := [MVecs [1] [2]; MVecs [1] [3]] in
  let start := fun r => ex_lin 2 true r [10; 11; 12; 13] [0; 1; 2; 3] (ones 4 4) in
  alone (start 0) to_0 = ([1; 2; 3; 1; 2; 3; 1; 2; 3; 4; 5; 6; 6; 6; 6; 5; 6; 6], to_1) /\
  alone (start 1) to_1 = ([1; 2; 3; 1; 2; 3; 1; 2; 3; 4; 5; 6; 6; 6; 6; 5; 6; 6], to_0).
Proof. vm_compute. split; reflexivity. Qed.

(** ** What the documentation promises *)

Lemma alone_exceeds {O} B (start : mprog (M := msg nat nat) (V := nat) (O := O) O) :
  existsb (fun n => B <? n) (fst (alone start [])) = true ->
  ~ holds_at_most B (start no_vectors (fun o _ => MRet o)).
Proof.
  intros H Hb. apply existsb_exists in H. destruct H as (n & Hn & Hlt). apply Nat.ltb_lt in Hlt.
  apply elem_of_list_In in Hn.
  destruct (follow_reaches 1 n (start no_vectors (fun o _ => MRet o)) [] (Forall_nil_2 _) Hn) as [k Hk].
  pose proof (Hb n k Hk). lia.
Qed.

(** "Maximum number of vectors that can be stored in memory, per node"
    (vectorspace.py:75-76): a single process told it may hold three vectors holds four
    in the two functions for inner products, and five in lin_combine. *)
Theorem C60_limit_refuted :
  made_with (Some 3%Z) 1 1 3 3 /\
  ~ holds_at_most 3 (ex_ip 1 0 [0; 1; 2] [3; 4; 5] no_vectors (fun o _ => MRet o)) /\
  ~ holds_at_most 3 (ex_symm 1 0 [0; 1; 2; 3; 4] no_vectors (fun o _ => MRet o)) /\
  ~ holds_at_most 4 (ex_lin 1 true 0 [10; 11; 12] [0; 1; 2] (ones 3 3) no_vectors (fun o _ => MRet o)).
Proof.
  split; [exact ex_limit_1|].
  repeat split; apply alone_exceeds; vm_compute; reflexivity.
Qed.

Print Assumptions C60_inner_product_memory.
Print Assumptions C60_symmetric_memory.
Print Assumptions C60_lin_combine_memory.
Print Assumptions C60_limit_refuted.
