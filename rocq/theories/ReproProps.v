(** Property C63: what does and does not depend on the number of processes when numbers
    are rounded. *)
From stdpp Require Import gmap list.
From Coq Require Import ZArith Lia SpecFloat Eqdep_dec.
From Verif Require Import Prelude ParallelModel VecSpaceModel VecSpaceProofs Spmd SpmdFacts
  SpmdLock SpmdEnds SpmdSeq ReductionsModel ReductionsProofs InnerProdModel ArrayProofs RingProofs
  TaskProofs InnerProdProofs InnerProdProps SymmModel SymmProofs SymmProps LinCombModel LinCombProofs LinCombProps
  ObjectsProps DoubleModel.
Open Scope nat_scope.

(** ** Floating-point numbers with zero *)
Lemma double_eq x y : bits x = bits y -> x = y.
Proof.
  destruct x as [x Hx], y as [y Hy]. simpl. intros ->. f_equal. apply UIP_dec, Bool.bool_dec.
Qed.
Lemma d_neutral : neutral d_zero d_add.
Proof.
  split; intros [x Hx]; apply double_eq; simpl; destruct x as [[]|[]| |[]]; simpl in *; congruence.
Qed.
Lemma z_neutral : neutral z_zero z_add.
Proof.
  split; intros [x y]; unfold z_add; simpl; f_equal; apply d_neutral.
Qed.
Lemma z_conj_zero : z_conj z_zero = z_zero.
Proof. unfold z_conj, z_zero. simpl. f_equal. apply double_eq. reflexivity. Qed.
Lemma d_tests_zero : tests_zero d_zero d_is_zero.
Proof.
  intros [x Hx]. unfold d_is_zero. simpl. split; [|intros [= ->]; reflexivity].
  intros E. apply double_eq. destruct x as [[]|[]| |[]]; simpl in *; congruence.
Qed.
Lemma z_tests_zero : tests_zero z_zero z_is_zero.
Proof.
  intros [x y]. unfold z_is_zero. simpl. rewrite andb_true_iff, (d_tests_zero x), (d_tests_zero y). unfold z_zero.
  split; [intros [-> ->]; auto|intros [= -> ->]; auto].
Qed.

(** ** Inner products *)

(** The array is the same, to the last bit, whatever the numbers of processes and nodes
    and the memory limit. *)
Definition same_everywhere {V K} (a : list (list K)) (st : gmap loc V) tag_ub (eager : msg V K -> bool) P
    (p : nat -> prog (msg V K) V (list (list K)) (list (list K))) : Prop :=
  always_ends tag_ub eager (launch P p st)
    (fun c => all_return (fun _ b => b = a) c /\ length (procs c) = P /\ store c = st).

Theorem C63_inner_products {V} (ip : V -> V -> double * double) st rows cols rv cv :
  holds st rows rv -> holds st cols cv -> rows <> [] -> cols <> [] ->
  exists a, forall tag_ub eager P N limit per_node per_proc,
    made_with limit P N per_node per_proc -> P * P - 1 <= tag_ub ->
    same_everywhere a st tag_ub eager P (fun r => ip_array P tag_ub z_zero z_add z_conj (fun _ x => Ok x) (Some ip)
                                                   per_node per_proc N r rows cols).
Proof.
  intros Hr Hc Nr Nc. 
  destruct rv as [|v0 rv]; [inversion Hr; congruence|]. destruct cv as [|w0 cv]; [inversion Hc; congruence|].
  eexists. intros tag_ub eager P N limit per_node per_proc Hm Ht.
  apply (C04_stored_values tag_ub eager P N limit per_node per_proc z_zero z_add z_conj (fun _ x => Ok x) ip ip st rows cols
    (v0 :: rv) (w0 :: cv) v0 w0); auto.
  - apply z_neutral.
  - intros v w _ _. destruct (_ <? _); reflexivity.
Qed.

(** The symmetric array, if the inner product has exact symmetry. *)
Theorem C63_symmetric {V} (ip : V -> V -> double * double) st vecs vs :
  holds st vecs vs -> vecs <> [] -> (forall v w, v ∈ vs -> w ∈ vs -> z_conj (ip w v) = ip v w) ->
  exists a, forall tag_ub eager P N limit per_node per_proc,
    made_with limit P N per_node per_proc -> P * P - 2 + P / 2 <= tag_ub ->
    same_everywhere a st tag_ub eager P (fun r => symm_array P tag_ub z_zero z_add z_conj z_is_zero (fun _ x => Ok x) (Some ip)
                                                   per_node per_proc N r vecs).
Proof.
  intros Hv Nv Hs. eexists. intros tag_ub eager P N limit per_node per_proc Hm Ht.
  apply (C05_symmetric_array tag_ub eager P N limit per_node per_proc z_zero z_add z_conj z_is_zero (fun _ x => Ok x) ip st vecs vs);
    auto using z_neutral, z_conj_zero, z_tests_zero.
Qed.

(** ** Linear combinations *)

(** For a given number of processes the sums do not depend on the schedule, the number of
    nodes or the memory limit, whatever the addition. *)
Theorem C63_lin_combine {V K} P vadd smul st (sums basis : list loc) (bv : list V) (a : coeffs K) idx :
  holds st basis bv -> basis <> [] -> NoDup sums -> (forall h, h ∈ sums -> h ∉ basis) ->
  rectangular a -> valid_columns (length basis) a idx -> fits (length basis) (length sums) a idx ->
  exists st', forall tag_ub (eager : msg V K -> bool) N limit per_node per_proc,
    made_with limit P N per_node per_proc -> P * P - 1 <= tag_ub ->
    always_ends tag_ub eager
      (launch P (fun r => lin_combine P vadd smul per_node per_proc N r sums basis a idx) st)
      (fun c => all_return (fun _ (_ : unit) => True) c /\ length (procs c) = P /\ store c = st').
Proof.
  intros Hst Nb Hnd Hdis Hr Hv Hf.
  pose proof (Forall2_length _ _ _ Hst) as Lb.
  assert (exists d : V, True) as [d _].
  { destruct bv as [|d bv']; [destruct basis; simpl in *; congruence|]. eauto. }
  assert (Hnb : 0 < length basis) by (destruct basis; simpl; [congruence|lia]).
  destruct (lin_coeffs_ok (length basis) (length sums) a idx Hr Hv (proj1 Hf) (proj2 Hf)) as (rows & El & He).
  rewrite Lb in Hv, Hf, He.
  pose proof (term_of_spec smul sums bv a idx d rows Hr Hv Hf He) as Hterm.
  set (vals := map (fun j => val P vadd d basis (term_of smul bv a idx d) (owner P (length sums) j) j) (seq 0 (length sums))).
  exists (list_to_map (zip sums vals) ∪ st).
  intros tag_ub eager N limit per_node per_proc Hm Ht.
  destruct (made_with_facts _ _ _ _ _ Hm) as [Hpp Hpn]. destruct Hm as (HP & HN & _).
  apply (wp_always_ends tag_ub eager P st _ (reads basis) (may_write P sums)
    (fun st' _ => st' = list_to_map (zip sums vals) ∪ st) (fun _ _ => True)
    (fun st' => st' = list_to_map (zip sums vals) ∪ st)); auto.
  - apply footprints_separate; auto.
  - intros i Hi. apply puses_uses. unfold lin_combine. rewrite El.
    apply puses_bind; [apply puses_ret|]. intros x. apply puses_lin_core; auto.
    intros j h Hj Hh. split; eauto.
  - apply wp_ext with (qs := fun r => lin_core P vadd smul per_node per_proc N r sums basis rows).
    { intros r _ k. unfold lin_combine. rewrite El. reflexivity. }
    apply (wp_lin_core P tag_ub eager vadd smul HP per_node per_proc N d sums basis bv rows
             (fun j i => term_of smul bv a idx d j i)); auto.
    + rewrite Lb. intros i j Hi Hj. apply Hterm; auto.
    + intros u.
      destruct (puts_finished P vadd HP per_node per_proc N d sums basis bv (term_of smul bv a idx d)
                  (eq_sym Lb) Hpp Hpn Hnb st Hnd) as [F1 F2].
      assert (Lv : length sums <= length vals) by (unfold vals; rewrite map_length, seq_length; auto).
      apply map_eq. intros h. destruct (decide (h ∈ sums)) as [Hin|Hout].
      * apply elem_of_list_lookup in Hin as [j Hj].
        assert (Hjlt : j < length sums) by (apply lookup_lt_Some in Hj; auto).
        transitivity (Some (val P vadd d basis (term_of smul bv a idx d) (owner P (length sums) j) j)); [exact (F1 j h Hj)|].
        symmetry. apply lookup_union_Some_l. apply elem_of_list_to_map_1.
        -- rewrite fst_zip by auto. auto.
        -- apply elem_of_list_lookup. exists j. apply lookup_zip_with_Some. do 2 eexists.
           split; [reflexivity|]. split; [exact Hj|]. unfold vals.
           rewrite lookup_map, lookup_seq_lt by auto. reflexivity.
      * transitivity (st !! h); [exact (F2 h Hout)|]. symmetry. apply lookup_union_r. apply not_elem_of_list_to_map_1. rewrite fst_zip by auto. auto.
Qed.

(** With another number of processes the terms are added in another order.  Two equal
    columns of coefficients, for the sum of 2^53, 1, 2 and -2^53: on one process both sums are 2,
    on two processes the first is 4 and the second 3. *)
Notation big := (2 ^ 53)%Z.
Definition r_store : gmap loc double := {[1 := d_of_Z big; 2 := d_of_Z 1; 3 := d_of_Z 2; 4 := d_of_Z (- big)]}.
Definition r_coeffs : coeffs double := Arr2 4 2 (replicate 4 [d_of_Z 1; d_of_Z 1]).
Notation r_run P per_node := (launch P (fun r => lin_combine P d_add d_mul per_node 3 1 r [10; 11] [1; 2; 3; 4] r_coeffs None) r_store).

Theorem C63_lin_combine_refuted :
  made_with (Some 1%Z) 1 1 3 3 /\ made_with (Some 1%Z) 2 1 6 3 /\
  (exists k c, steps 10 (fun _ => true) k (r_run 1 3) c /\ procs c = [Ret tt] /\
    bits <$> store c !! 10 = Some (bits (d_of_Z 2)) /\ bits <$> store c !! 11 = Some (bits (d_of_Z 2))) /\
  (exists k c, steps 10 (fun _ => true) k (r_run 2 6) c /\ procs c = [Ret tt; Ret tt] /\
    bits <$> store c !! 10 = Some (bits (d_of_Z 4)) /\ bits <$> store c !! 11 = Some (bits (d_of_Z 3))).
Proof.
  split; [repeat split; lia|]. split; [repeat split; lia|]. split.
  - destruct (some_run_steps 10 (fun _ => true) 100 (r_run 1 3)) as [k Hk].
    exists k. eexists. split; [exact Hk|]. repeat split; vm_compute; reflexivity.
  - destruct (some_run_steps 10 (fun _ => true) 200 (r_run 2 6)) as [k Hk].
    exists k. eexists. split; [exact Hk|]. repeat split; vm_compute; reflexivity.
Qed.

(** The inner product weighted by 2^53 - 1, computed as [v * (weight * w)], is symmetric
    only up to rounding.  The symmetric array of 3, 5, 7 and 11 has one last bit at [0, 1] on
    one process and another on three. *)
Definition r_weight : double := d_of_Z (big - 1).
Definition r_ip (v w : double) : double * double := (d_mul v (d_mul r_weight w), d_zero).
Definition r_vecs : gmap loc double := {[1 := d_of_Z 3; 2 := d_of_Z 5; 3 := d_of_Z 7; 4 := d_of_Z 11]}.
Notation s_run ip P per_node := (launch P (fun r => symm_array P 20 z_zero z_add z_conj z_is_zero (fun _ x => Ok x) (Some ip)
  per_node 3 1 r [1; 2; 3; 4]) r_vecs).
Definition entry_bits {M V K} (i j : nat) (p : proc M V (list (list (double * K)))) : option spec_float :=
  match p with Ret a => row ← a !! i; x ← row !! j; Some (bits (fst x)) | _ => None end.

Theorem C63_symmetric_refuted :
  made_with (Some 1%Z) 1 1 3 3 /\ made_with (Some 1%Z) 3 1 9 3 /\
  (exists k c, steps 20 (fun _ => true) k (s_run r_ip 1 3) c /\
    map (entry_bits 0 1) (procs c) = [Some (S754_finite false 8444249301319678 4)]) /\
  (exists k c, steps 20 (fun _ => true) k (s_run r_ip 3 9) c /\
    map (entry_bits 0 1) (procs c) = replicate 3 (Some (S754_finite false 8444249301319679 4))).
Proof.
  split; [repeat split; lia|]. split; [repeat split; lia|]. split.
  - destruct (some_run_steps 20 (fun _ => true) 200 (s_run r_ip 1 3)) as [k Hk].
    exists k. eexists. split; [exact Hk|]. vm_compute; reflexivity.
  - destruct (some_run_steps 20 (fun _ => true) 400 (s_run r_ip 3 9)) as [k Hk].
    exists k. eexists. split; [exact Hk|]. vm_compute; reflexivity.
Qed.

(** ** Examples *)

(** The same inner product by [ip_array], which computes every entry. *)
Example C63_inner_products_example : exists a, forall tag_ub eager P N limit per_node per_proc,
  made_with limit P N per_node per_proc -> P * P - 1 <= tag_ub ->
  same_everywhere a r_vecs tag_ub eager P (fun r => ip_array P tag_ub z_zero z_add z_conj (fun _ x => Ok x) (Some r_ip)
                                                      per_node per_proc N r [1; 2; 3; 4] [2; 1]).
Proof.
  apply (C63_inner_products r_ip r_vecs [1; 2; 3; 4] [2; 1] (map d_of_Z [3; 5; 7; 11]%Z) (map d_of_Z [5; 3]%Z));
    try discriminate; repeat constructor.
Qed.

(** Computed as [weight * (v * w)] it is symmetric. *)
Definition r_ip' (v w : double) : double * double := (d_mul r_weight (d_mul v w), d_zero).
Example C63_symmetric_example : exists a, forall tag_ub eager P N limit per_node per_proc,
  made_with limit P N per_node per_proc -> P * P - 2 + P / 2 <= tag_ub ->
  same_everywhere a r_vecs tag_ub eager P (fun r => symm_array P tag_ub z_zero z_add z_conj z_is_zero (fun _ x => Ok x) (Some r_ip')
                                                      per_node per_proc N r [1; 2; 3; 4]).
Proof.
  apply (C63_symmetric r_ip' r_vecs [1; 2; 3; 4] (map d_of_Z [3; 5; 7; 11]%Z)); try discriminate; [repeat constructor|].
  intros v w Hv Hw. apply elem_of_list_In in Hv, Hw. simpl in Hv, Hw.
  unfold z_conj, r_ip'. simpl. f_equal; [|apply double_eq; reflexivity].
  apply double_eq.
  destruct Hv as [<-|[<-|[<-|[<-|[]]]]], Hw as [<-|[<-|[<-|[<-|[]]]]]; vm_compute; reflexivity.
Qed.

(** Two processes, any schedule, nodes and memory: sums 4 and 3 as above. *)
Example C63_lin_combine_example : exists st', bits <$> st' !! 10 = Some (bits (d_of_Z 4)) /\ bits <$> st' !! 11 = Some (bits (d_of_Z 3)) /\
  forall tag_ub eager N limit per_node per_proc,
    made_with limit 2 N per_node per_proc -> 3 <= tag_ub ->
    always_ends tag_ub eager
      (launch 2 (fun r => lin_combine 2 d_add d_mul per_node per_proc N r [10; 11] [1; 2; 3; 4] r_coeffs None) r_store)
      (fun c => all_return (fun _ (_ : unit) => True) c /\ length (procs c) = 2 /\ store c = st').
Proof.
  destruct (C63_lin_combine 2 d_add d_mul r_store [10; 11] [1; 2; 3; 4] (map d_of_Z [big; 1; 2; - big]%Z) r_coeffs None)
    as [st' H]; try discriminate.
  - repeat constructor.
  - apply (bool_decide_unpack (NoDup [10; 11])). reflexivity.
  - intros h Hh. apply elem_of_cons in Hh as [->|Hh]; [|apply elem_of_list_singleton in Hh as ->]; (eapply bool_decide_unpack; reflexivity).
  - repeat constructor.
  - repeat constructor; unfold valid_index; simpl; lia.
  - repeat constructor.
  - exists st'. destruct C63_lin_combine_refuted as (_ & Hm & _ & k & c & Hk & Hp & E1 & E2).
    destruct (H 10 (fun _ => true) 1 (Some 1%Z) 6 3 Hm ltac:(lia)) as [n Hn].
    destruct (Hn k c Hk) as (_ & Hq & _). destruct Hq as (_ & _ & <-); [|auto].
    apply stuck_rets; [|rewrite Hp; discriminate]. rewrite Hp.
    intros [|[|i]] p Hi; simpl in Hi; try discriminate; injection Hi as <-; eexists; reflexivity.
Qed.

Print Assumptions C63_inner_products.
Print Assumptions C63_symmetric.
Print Assumptions C63_lin_combine.
Print Assumptions C63_lin_combine_refuted.
Print Assumptions C63_symmetric_refuted.
