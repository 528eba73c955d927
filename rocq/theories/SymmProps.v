(** Property C05: the distributed symmetric inner-product array. *)
From stdpp Require Import gmap list.
From Coq Require Import ZArith Lia.
From Verif Require Import Prelude ParallelModel VecSpaceModel VecSpaceProofs Spmd SpmdFacts
  SpmdLock SpmdEnds ReductionsModel ReductionsProofs InnerProdModel ArrayProofs RingProofs
  TaskProofs InnerProdProofs InnerProdProps SymmModel SymmProofs.
Open Scope nat_scope.

(** [is_zero] is the test [x == 0]. *)
Definition tests_zero {K} (zero : K) (is_zero : K -> bool) : Prop :=
  forall x, is_zero x = true <-> x = zero.

(** Entry (i, j) of an array. *)
Definition entry_is {K} (a : list (list K)) (i j : nat) (x : K) : Prop :=
  exists row, a !! i = Some row /\ row !! j = Some x.

(** An n-by-n array with [g v v] on the diagonal, entry (j, i) the conjugate of
    entry (i, j) for i < j, and entry (i, j) computed in one of the two
    orientations. *)
Definition conj_symmetric_pairs {V K} (conj : K -> K) (g : V -> V -> K) (vs : list V)
    (a : list (list K)) : Prop :=
  length a = length vs /\ Forall (fun row => length row = length vs) a /\
  (forall i v, vs !! i = Some v -> entry_is a i i (g v v)) /\
  (forall i j v w, i < j -> vs !! i = Some v -> vs !! j = Some w ->
     exists x, (x = g v w \/ x = conj (g w v)) /\
       entry_is a i j x /\ entry_is a j i (conj x)).

Lemma entry_is_ent {K} (a : list (list K)) i j x : ent a i j = Some x <-> entry_is a i j x.
Proof.
  unfold ent, entry_is. destruct (a !! i) as [row|]; simpl; split.
  - eauto.
  - intros (? & [= <-] & ?). auto.
  - discriminate.
  - intros (? & ? & _). discriminate.
Qed.

(** For any function passed as inner product, symmetric or not: all ranks return
    the same array, and it is conjugate-symmetric off the diagonal.  [g v w] is
    what assigning [ip v w] to an element of an array typed by the first inner
    product stores. *)
Theorem C05_conj_symmetric {V K} tag_ub (eager : msg V K -> bool) P N limit per_node per_proc
    zero add conj is_zero store_as (ip g : V -> V -> K) st vecs vs v0 :
  made_with limit P N per_node per_proc -> neutral zero add -> conj zero = zero ->
  tests_zero zero is_zero -> P * P - 2 + P / 2 <= tag_ub ->
  holds st vecs vs -> head vs = Some v0 ->
  (forall v w, v ∈ vs -> w ∈ vs -> store_as (ip v0 v0) (ip v w) = Ok (g v w)) ->
  exists a, conj_symmetric_pairs conj g vs a /\
  always_ends tag_ub eager
    (launch P (fun r => symm_array P tag_ub zero add conj is_zero store_as (Some ip)
                          per_node per_proc N r vecs) st)
    (fun c => all_return (fun _ b => b = a) c /\ length (procs c) = P /\ store c = st).
Proof.
  intros Hm [Hz1 Hz2] Hc0 Hz Ht Hv Hv0 Hg.
  destruct (made_with_facts _ _ _ _ _ Hm) as [Hpp Hpn]. destruct Hm as (HP & HN & _).
  pose proof (Forall2_length _ _ _ Hv) as Lv.
  destruct vs as [|v0' vs']; [discriminate|]. injection Hv0 as ->.
  set (vs := v0 :: vs') in *.
  assert (Hin : forall i, i < length vecs -> nth i vs v0 ∈ vs).
  { intros i Hi. apply elem_of_list_In. apply nth_In. lia. }
  assert (Hw : exists a, conj_symmetric_pairs conj g vs a /\
    @wp (msg V K) V (list (list K)) tag_ub eager P (list (list K)) st
      (fun r => symm_array P tag_ub zero add conj is_zero store_as (Some ip)
                          per_node per_proc N r vecs)
      (fun st' b => st' = st /\ forall r, r < P -> b r = a)).
  { assert (W : @wp (msg V K) V (list (list K)) tag_ub eager P (list (list K)) st
      (fun r => symm_array P tag_ub zero add conj is_zero store_as (Some ip)
                          per_node per_proc N r vecs)
      (fun st' b => exists a, conj_symmetric_pairs conj g vs a /\
         st' = st /\ forall r, r < P -> b r = a)).
    { apply (wp_symm_core P tag_ub eager zero add conj is_zero store_as HP ip g per_node
        per_proc N v0 st vecs vs Hv Hpp (ip v0 v0)
        (fun i j Hi Hj => Hg _ _ (Hin i Hi) (Hin j Hj)) Hpn Hz1 Hz2 Hc0 Hz _ Ht); auto.
      - rewrite Lv. simpl. lia.
      - intros b x ((L1 & L2) & D1 & D2) Hb. exists x. split; [|auto].
        split; [rewrite <- Lv; exact L1|].
        split; [rewrite <- Lv; exact L2|]. split.
        + intros i v Hi. apply entry_is_ent. rewrite D1.
          * f_equal. rewrite (nth_lookup_Some _ _ _ _ Hi). reflexivity.
          * rewrite Lv. apply lookup_lt_Some in Hi. exact Hi.
        + intros i j v w Hij Hi Hj. destruct (D2 i j Hij) as (y & Hy & E1 & E2).
          { rewrite Lv. apply lookup_lt_Some in Hj. exact Hj. }
          exists y. rewrite (nth_lookup_Some _ _ _ _ Hi), (nth_lookup_Some _ _ _ _ Hj) in Hy.
          rewrite <- !entry_is_ent. auto. }
    destruct W as (st' & b & L & a & Ha & -> & Hb).
    exists a. split; auto. exists st, b. auto. }
  destruct Hw as (a & Ha & W). exists a. split; auto.
  apply (ends_readonly tag_ub eager P); [exact HP| |].
  - intros i Hi. apply puses_symm_array; auto.
  - exact W.
Qed.

(** A conjugate-symmetric inner product with values of one scalar type: every
    rank returns the array of all inner products. *)
Theorem C05_symmetric_array {V K} tag_ub (eager : msg V K -> bool) P N limit per_node per_proc
    zero add conj is_zero store_as (ip : V -> V -> K) st vecs vs :
  made_with limit P N per_node per_proc -> neutral zero add -> conj zero = zero ->
  tests_zero zero is_zero -> P * P - 2 + P / 2 <= tag_ub ->
  holds st vecs vs -> vecs <> [] ->
  (forall v w u, v ∈ vs -> w ∈ vs -> u ∈ vs -> store_as (ip u u) (ip v w) = Ok (ip v w)) ->
  (forall v w, v ∈ vs -> w ∈ vs -> conj (ip w v) = ip v w) ->
  always_ends tag_ub eager
    (launch P (fun r => symm_array P tag_ub zero add conj is_zero store_as (Some ip)
                          per_node per_proc N r vecs) st)
    (fun c => all_return (fun _ a => a = all_pairs ip vs vs) c /\
              length (procs c) = P /\ store c = st).
Proof.
  intros Hm Hz Hc0 Ht Hub Hv Nv Hst Hsym.
  destruct vs as [|v0 vs'] eqn:Evs; [inversion Hv; congruence|]. rewrite <- Evs in *.
  destruct (C05_conj_symmetric tag_ub eager P N limit per_node per_proc zero add conj is_zero
    store_as ip ip st vecs vs v0) as (a & (L1 & L2 & D1 & D2) & Ha); auto.
  { rewrite Evs. reflexivity. }
  { intros v w Hv1 Hw1. apply Hst; auto. rewrite Evs. left. }
  assert (Ea : a = all_pairs ip vs vs); [|rewrite Ea in Ha; exact Ha].
  change (all_pairs ip vs vs) with (table ip vs vs). rewrite (table_tabulate P (proj1 Hm) ip vs vs v0).
  apply arr_eq_tabulate; [split; auto|].
  intros i j Hi Hj.
  destruct (lookup_lt_is_Some_2 vs i Hi) as [v Ev].
  destruct (lookup_lt_is_Some_2 vs j Hj) as [w Ew].
  rewrite (nth_lookup_Some _ _ _ _ Ev), (nth_lookup_Some _ _ _ _ Ew).
  assert (Iv : v ∈ vs) by (apply elem_of_list_lookup; eauto).
  assert (Iw : w ∈ vs) by (apply elem_of_list_lookup; eauto).
  apply entry_is_ent.
  destruct (Nat.lt_trichotomy i j) as [L|[->|G]].
  - destruct (D2 i j v w L Ev Ew) as (x & Hx & E1 & _).
    replace (ip v w) with x; auto. destruct Hx as [->| ->]; auto.
  - rewrite Ev in Ew. injection Ew as <-. apply D1. auto.
  - destruct (D2 j i w v G Ew Ev) as (x & Hx & _ & E1).
    replace (ip v w) with (conj x); auto. destruct Hx as [->| ->]; auto.
    rewrite (Hsym w v) by auto. auto.
Qed.

(** No inner product given, and no vectors. *)
Theorem C05_no_inner_product {V K} tag_ub (eager : msg V K -> bool) P N per_node per_proc
    zero add conj is_zero store_as st vecs :
  0 < P ->
  always_ends tag_ub eager
    (launch P (fun r => symm_array P tag_ub zero add conj is_zero store_as None
                          per_node per_proc N r vecs) st)
    (fun c => length (procs c) = P /\
       (forall i, i < P -> procs c !! i = Some (Fail RuntimeError)) /\
       chans c = ∅ /\ store c = st).
Proof.
  intros HP. apply (all_fail tag_ub eager P _ st (fun _ _ => True) (fun _ _ => False)); auto.
  - apply separate_readonly.
  - intros i Hi. apply puses_uses. apply puses_symm_array; auto.
  - intros i Hi. apply local_fail_fail.
Qed.
Theorem C05_no_vectors {V K} tag_ub (eager : msg V K -> bool) P N per_node per_proc
    zero add conj is_zero store_as ip st :
  0 < P ->
  always_ends tag_ub eager
    (launch P (fun r => symm_array P tag_ub zero add conj is_zero store_as (Some ip)
                          per_node per_proc N r []) st)
    (fun c => length (procs c) = P /\
       (forall i, i < P -> procs c !! i = Some (Fail IndexError)) /\
       chans c = ∅ /\ store c = st).
Proof.
  intros HP. apply (all_fail tag_ub eager P _ st (fun _ _ => True) (fun _ _ => False)); auto.
  - apply separate_readonly.
  - intros i Hi. apply puses_uses. apply puses_symm_array; auto.
  - intros i Hi. apply symm_no_vecs.
Qed.

(** The tag limit (property C07). *)
Theorem C07_symm_limit_exceeded {V K} tag_ub (eager : msg V K -> bool) P N limit per_node
    per_proc zero add conj is_zero store_as (ip : V -> V -> K) st vecs vs :
  made_with limit P N per_node per_proc -> 1 < P -> tag_ub < P * P - 1 ->
  holds st vecs vs -> P <= length vecs -> (forall x y, store_as x y = Ok y) ->
  always_ends tag_ub eager
    (launch P (fun r => symm_array P tag_ub zero add conj is_zero store_as (Some ip)
                          per_node per_proc N r vecs) st)
    (fun c => procs c !! (P - 1) = Some (Fail MPIError)).
Proof.
  intros Hm H1 Ht Hv Hn Hst.
  destruct (made_with_facts _ _ _ _ _ Hm) as [Hpp Hpn]. destruct Hm as (HP & HN & _).
  destruct vs as [|v0 vs]; [inversion Hv; subst; simpl in *; lia|].
  apply (rank_fails tag_ub eager P _ st (fun _ _ => True) (fun _ _ => False)).
  - lia.
  - apply separate_readonly.
  - intros i Hi. apply puses_uses. apply puses_symm_array; auto.
  - apply (symm_tag_fails P tag_ub eager zero add conj is_zero store_as HP ip ip per_node
             per_proc N v0 st vecs (v0 :: vs) Hv Hpp (ip v0 v0)); auto.
Qed.

(** ** Instances *)

Definition g_is_zero (x : gauss) : bool := (fst x =? 0)%Z && (snd x =? 0)%Z.
Lemma g_tests_zero : tests_zero (0, 0)%Z g_is_zero.
Proof.
  intros [a b]. unfold g_is_zero. simpl. rewrite andb_true_iff, !Z.eqb_eq. split.
  - intros [-> ->]. reflexivity.
  - intros [= -> ->]. auto.
Qed.

(** Five vectors on three processes, one row per process and set. *)
Example C05_example eager :
  always_ends 10 eager
    (launch 3 (fun r => symm_array 3 10 (0, 0)%Z g_add g_conj g_is_zero (fun _ x => Ok x)
                          (Some g_dot) 9 3 1 r [1; 2; 3; 4; 7]) ex_store)
    (fun c => all_return (fun _ a => a =
        [[(6, 0); (4, -5); (-5, -2); (4, -2); (2, -5)];
         [(4, 5); (11, 0); (-7, 3); (3, 1); (0, -11)];
         [(-5, 2); (-7, -3); (29, 0); (-3, 7); (-12, 28)];
         [(4, 2); (3, -1); (-3, -7); (4, 0); (7, -1)];
         [(2, 5); (0, 11); (-12, -28); (7, 1); (33, 0)]]%Z) c /\
      length (procs c) = 3 /\ store c = ex_store).
Proof.
  apply (C05_symmetric_array 10 eager 3 1 (Some 1%Z) 9 3 (0, 0)%Z g_add g_conj g_is_zero
           (fun _ x => Ok x) g_dot ex_store [1; 2; 3; 4; 7]
           [[(1, 2); (0, 1)]; [(3, 0); (-1, 1)]; [(0, 0); (2, -5)];
            [(1, 1); (1, 1)]; [(0, -1); (4, 4)]]%Z).
  - split; [lia|]. split; [lia|]. reflexivity.
  - exact g_neutral.
  - reflexivity.
  - exact g_tests_zero.
  - simpl. lia.
  - repeat constructor.
  - discriminate.
  - auto.
  - intros v w _ _. apply g_dot_conj.
Qed.

(** Without conjugate symmetry the result is not the array of all pairs: on one
    process the lower triangle is a mirror image. *)
Example C05_no_inner_product_example eager :
  always_ends 10 eager
    (launch 3 (fun r => symm_array 3 10 (0, 0)%Z g_add g_conj g_is_zero (fun _ x => Ok x) None 9 3 1 r [1; 2]) ex_store)
    (fun c => procs c !! 2 = Some (Fail RuntimeError) /\ store c = ex_store).
Proof.
  eapply always_ends_mono; [apply (C05_no_inner_product 10 eager 3 1 9 3); lia|].
  intros c (_ & H & _ & Hs). split; [apply H; lia|exact Hs].
Qed.
Example C05_no_vectors_example eager :
  always_ends 10 eager
    (launch 3 (fun r => symm_array 3 10 (0, 0)%Z g_add g_conj g_is_zero (fun _ x => Ok x) (Some g_dot) 9 3 1 r []) ex_store)
    (fun c => procs c !! 2 = Some (Fail IndexError) /\ store c = ex_store).
Proof.
  eapply always_ends_mono; [apply (C05_no_vectors 10 eager 3 1 9 3); lia|].
  intros c (_ & H & _ & Hs). split; [apply H; lia|exact Hs].
Qed.
Example C05_not_all_pairs eager :
  exists a, conj_symmetric_pairs (fun z => z) Z.sub [5%Z; 3%Z] a /\ a <> all_pairs Z.sub [5%Z; 3%Z] [5%Z; 3%Z] /\
  always_ends 0 eager
    (launch 1 (fun r => symm_array 1 0 0%Z Z.add (fun z => z) (Z.eqb 0) (fun _ x => Ok x)
                          (Some Z.sub) 100 100 1 r [1; 2])
       {[ 1 := 5%Z; 2 := 3%Z ]})
    (fun c => all_return (fun _ b => b = a) c /\ length (procs c) = 1 /\
       store c = {[ 1 := 5%Z; 2 := 3%Z ]}).
Proof.
  destruct (C05_conj_symmetric 0 eager 1 1 (Some 100%Z) 100 100 0%Z Z.add (fun z => z)
    (Z.eqb 0) (fun _ x => Ok x) Z.sub Z.sub {[ 1 := 5%Z; 2 := 3%Z ]} [1; 2] [5%Z; 3%Z] 5%Z)
    as (a & Ha & H); auto.
  - split; [lia|]. split; [lia|]. reflexivity.
  - split; intros; lia.
  - intros x. rewrite Z.eqb_eq. split; auto.
  - repeat constructor.
  - exists a. split; auto. split; auto. intros ->.
    destruct Ha as (_ & _ & _ & D).
    destruct (D 0 1 5%Z 3%Z ltac:(lia) eq_refl eq_refl) as (x & _ & E1 & E2).
    destruct E1 as (row & R1 & R2). destruct E2 as (row' & R1' & R2').
    injection R1 as <-. injection R1' as <-. vm_compute in R2, R2'. congruence.
Qed.

Example C07_symm_example eager :
  always_ends 7 eager
    (launch 3 (fun r => symm_array 3 7 (0, 0)%Z g_add g_conj g_is_zero (fun _ x => Ok x)
                          (Some g_dot) 9 3 1 r [1; 2; 3]) ex_store)
    (fun c => procs c !! 2 = Some (Fail MPIError)).
Proof.
  apply (C07_symm_limit_exceeded 7 eager 3 1 (Some 1%Z) 9 3 (0, 0)%Z g_add g_conj g_is_zero
           (fun _ x => Ok x) g_dot ex_store [1; 2; 3]
           [[(1, 2); (0, 1)]; [(3, 0); (-1, 1)]; [(0, 0); (2, -5)]]%Z); auto; try (simpl; lia).
  - split; [lia|]. split; [lia|]. reflexivity.
  - repeat constructor.
Qed.

Print Assumptions C05_conj_symmetric.
Print Assumptions C05_symmetric_array.
Print Assumptions C05_no_inner_product.
Print Assumptions C05_no_vectors.
Print Assumptions C07_symm_limit_exceeded.
