(** Property C07: the tags of all messages of the three distributed routines. *)
From stdpp Require Import gmap list.
From Coq Require Import Lia.
From Verif Require Import Prelude ParallelModel Spmd ReductionsModel InnerProdModel LinCombModel
  SymmModel TagProofs InnerProdProps LinCombProps SymmProps.
Open Scope nat_scope.

(** In configuration [c]: a rank about to send vectors sends them to an existing
    rank with tag [sender * (P + 1) + receiver]; a rank about to send an array
    uses the reduction tag or the collective context; a rank that waits on the
    point-to-point context waits for the tag of the pair or the reduction tag. *)
Definition tags_ok {V K O} (P tag_ub : nat) (c : config (msg V K) V O) : Prop :=
  forall i,
    (forall dst ctx tag vs idx k, procs c !! i = Some (Isend dst ctx tag (MVecs vs idx) k) ->
       dst < P /\ ctx = 0 /\ tag = i * (P + 1) + dst /\ tag <= P * P - 2 + P / 2) /\
    (forall dst ctx tag a k, procs c !! i = Some (Isend dst ctx tag (MArr a) k) ->
       dst < P /\ ((ctx = 0 /\ tag = tag_ub - 1) \/ (ctx = 1 /\ tag = 0))) /\
    (forall src ctx tag k, procs c !! i = Some (Recv src ctx tag k) ->
       (ctx = 0 /\ (tag = src * (P + 1) + i \/ tag = tag_ub - 1)) \/ (ctx = 1 /\ tag = 0)).

Lemma tags_ok_reachable {V K O} P tag_ub eager (ps : nat -> prog (msg V K) V O O) st n c :
  (forall r, r < P -> talks (may_send P tag_ub r) (may_await P tag_ub r) (fun _ => True) (ps r)) ->
  steps tag_ub eager n (launch P ps st) c -> tags_ok P tag_ub c.
Proof.
  intros H Hs.
  assert (G : forall i p, procs c !! i = Some p ->
    comm (may_send P tag_ub i) (may_await P tag_ub i) p).
  { apply (comm_steps tag_ub eager (may_send P tag_ub) (may_await P tag_ub) n _ _ Hs).
    intros i p Hi. simpl in Hi. rewrite list_lookup_fmap in Hi.
    destruct (seq 0 P !! i) as [j|] eqn:E; [|discriminate]. simpl in Hi.
    apply lookup_seq in E. destruct E as [-> E]. injection Hi as <-.
    eapply pcomm_comm. apply H. exact E. }
  intros i. split; [|split].
  - intros dst ctx tag vs idx k Hi. apply G in Hi. destruct Hi as [(H1 & H2 & H3 & H4) _].
    auto.
  - intros dst ctx tag a k Hi. apply G in Hi. destruct Hi as [(H1 & H2) _]. auto.
  - intros src ctx tag k Hi. apply G in Hi. destruct Hi as [Hi _].
    destruct Hi as [[H1 H2]|[[H1 H2]|[H1 H2]]]; auto.
Qed.

Theorem C07_inner_product_tags {V K} P tag_ub eager zero add conj store_as ipo per_node per_proc N
    rows cols (st : gmap loc V) n (c : config (msg V K) V _) :
  steps tag_ub eager n
    (launch P (fun r => ip_array P tag_ub zero add conj store_as ipo per_node per_proc N r
                          rows cols) st) c ->
  tags_ok P tag_ub c.
Proof. apply tags_ok_reachable. intros r Hr. apply pcomm_ip_array. exact Hr. Qed.

Theorem C07_symm_tags {V K} P tag_ub eager zero add conj is_zero store_as ipo per_node per_proc N
    vecs (st : gmap loc V) n (c : config (msg V K) V _) :
  steps tag_ub eager n
    (launch P (fun r => symm_array P tag_ub zero add conj is_zero store_as ipo per_node per_proc
                          N r vecs) st) c ->
  tags_ok P tag_ub c.
Proof. apply tags_ok_reachable. intros r Hr. apply pcomm_symm_array. exact Hr. Qed.

Theorem C07_lin_combine_tags {V K} P tag_ub eager vadd smul per_node per_proc N
    sums basis coeff idx (st : gmap loc V) n (c : config (msg V K) V _) :
  steps tag_ub eager n
    (launch P (fun r => lin_combine P vadd smul per_node per_proc N r sums basis coeff idx) st) c ->
  tags_ok P tag_ub c.
Proof. apply tags_ok_reachable. intros r Hr. apply pcomm_lin_combine. exact Hr. Qed.

(** The bound for the symmetric routine is the exact maximum over its exchanges,
    and below the bound of property C07. *)
Theorem C07_symm_largest_tag P : 1 < P ->
  pair_tag P (P - 1) ((P - 1 + (P / 2 - 1) + 1) mod P) = P * P - 2 + P / 2 /\
  P * P - 2 + P / 2 <= P * P + P - 2.
Proof.
  intros H. assert (1 <= P / 2) by (apply Nat.div_le_lower_bound; lia).
  pose proof (Nat.div_mod_eq P 2) as E.
  assert (Em : (P - 1 + (P / 2 - 1) + 1) mod P = P / 2 - 1).
  { replace (P - 1 + (P / 2 - 1) + 1) with (P / 2 - 1 + 1 * P) by lia.
    rewrite Nat.mod_add by lia. apply Nat.mod_small. lia. }
  rewrite Em. unfold pair_tag. nia.
Qed.

(** A rank of the example C05_example really sends. *)
Example C07_tags_example :
  exists n c vs idx k,
    steps 10 (fun _ => true) n
      (launch 3 (fun r => symm_array 3 10 (0, 0)%Z g_add g_conj g_is_zero (fun _ x => Ok x)
                            (Some g_dot) 9 3 1 r [1; 2; 3; 4; 7]) ex_store) c /\
    procs c !! 2 = Some (Isend 0 0 8 (MVecs vs idx) k) /\ 8 = 2 * (3 + 1) + 0.
Proof.
  eexists 4, _, _, _, _. split.
  - do 4 (eapply steps_S; [apply (step_rank _ _ 2); reflexivity|]). apply steps_O.
  - vm_compute. split; reflexivity.
Qed.

(** Whatever was sent and awaited so far, with room for tags up to 10. *)
Example C07_inner_product_tags_example eager n c :
  steps 10 eager n
    (launch 3 (fun r => ip_array 3 10 (0, 0)%Z g_add g_conj (fun _ x => Ok x) (Some g_dot) 9 3 1 r [1; 2; 3] [4; 7])
       ex_store) c -> tags_ok 3 10 c.
Proof. apply C07_inner_product_tags. Qed.
Example C07_symm_tags_example eager n c :
  steps 10 eager n
    (launch 3 (fun r => symm_array 3 10 (0, 0)%Z g_add g_conj g_is_zero (fun _ x => Ok x) (Some g_dot) 9 3 1 r
                          [1; 2; 3; 4; 7]) ex_store) c -> tags_ok 3 10 c.
Proof. apply C07_symm_tags. Qed.
Example C07_lin_combine_tags_example eager n c :
  steps 10 eager n
    (launch 2 (fun r => lin_combine 2 v_add v_mul 6 3 1 r [10; 11] [1; 2; 3] lc_coeffs None) lc_store) c ->
  tags_ok 2 10 c.
Proof. apply C07_lin_combine_tags. Qed.
Example C07_symm_largest_tag_example : pair_tag 6 5 2 = 37.
Proof. apply (C07_symm_largest_tag 6). lia. Qed.

Print Assumptions C07_inner_product_tags.
Print Assumptions C07_symm_tags.
Print Assumptions C07_lin_combine_tags.
Print Assumptions C07_symm_largest_tag.
