(** The programs of the handle classes, one command after another: no condition
    on what later commands read and write is needed. *)
From stdpp Require Import gmap list.
From Coq Require Import ZArith Lia.
From Verif Require Import Prelude Field Matrix NdArray DecompModel ParallelModel ParallelProofs Spmd SpmdFacts
  SpmdLock SpmdSeq ReductionsModel ReductionsProofs InnerProdModel SymmModel LinCombModel ArrayProofs RingProofs
  TaskProofs InnerProdProofs InnerProdProps SymmProofs LinCombProofs LinCombProps VecSpaceModel VecSpaceProofs
  HandlesModel HandlesProofs.
Open Scope nat_scope.

(** ** The commands do not depend on what comes after them *)

Ltac prel_tac :=
  cbv beta zeta;
  lazymatch goal with
  | |- prel _ (ret _) => apply prel_ret
  | |- prel _ (fail _) => apply prel_fail
  | |- prel _ (lift _) => apply prel_lift
  | |- prel _ (isend _ _ _ _) => apply prel_isend
  | |- prel _ (recv _ _ _) => apply prel_recv
  | |- prel _ (wait _ _ _ _) => apply prel_wait
  | |- prel _ barrier_op => apply prel_barrier
  | |- prel _ (get _) => apply prel_get
  | |- prel _ (put _ _) => apply prel_put
  | |- prel _ (bind _ _) => apply prel_bind; [prel_tac|intros ?; prel_tac]
  | |- prel _ (for_loop _ _ _) => apply prel_for; intros ? ?; prel_tac
  | |- prel _ (map_prog _ _) => apply prel_map; intros ?; prel_tac
  | |- prel _ (match ?x with _ => _ end) => destruct x; prel_tac
  | |- _ => try assumption
  end.

Section Prel.
Context {M V A B : Type} (P tag_ub : nat).

Lemma prel_reduce_loop op fuel : forall mask rank (r : M),
  prel (@reduce_loop M V A P tag_ub op fuel mask rank r) (@reduce_loop M V B P tag_ub op fuel mask rank r).
Proof.
  induction fuel as [|fuel IH]; intros mask rank r; cbn [reduce_loop]; unfold send; prel_tac. apply IH.
Qed.
Lemma prel_bcast root rank (v : M) : prel (@mpi_bcast M V A P root rank v) (@mpi_bcast M V B P root rank v).
Proof. unfold mpi_bcast, send. prel_tac. Qed.
Lemma prel_allreduce op rank (v : M) :
  prel (@allreduce M V A P tag_ub op rank v) (@allreduce M V B P tag_ub op rank v).
Proof.
  unfold allreduce, reduce. apply prel_bind; [|intros; apply prel_bcast].
  apply prel_bind; [apply prel_reduce_loop|intros]. unfold send. prel_tac.
Qed.
Lemma prel_par_barrier : prel (@barrier M V A P) (@barrier M V B P).
Proof. unfold barrier. prel_tac. Qed.
End Prel.

Section Prel2.
Context {V K A B : Type} (P tag_ub : nat).
Notation prog O := (prog (msg V K) V O).

Lemma prel_swap r d s (pl : list V * list nat) :
  prel (@swap V K A P r d s pl) (@swap V K B P r d s pl).
Proof. unfold swap. prel_tac. Qed.
Lemma prel_ring {T} r (f : prog A (list V * list nat)) (f' : prog B (list V * list nat))
    (compute : list V * list nat -> T -> res T) acc :
  prel f f' -> prel (ring P r f compute acc) (ring P r f' compute acc).
Proof.
  intros H. unfold ring. apply prel_bind; [|intros [? ?]; apply prel_ret].
  apply prel_for. intros i s. apply prel_bind; [|intros; prel_tac].
  destruct (i =? 0); auto. apply prel_bind; [apply prel_swap|intros].
  apply prel_bind; [apply prel_par_barrier|intros]. apply prel_ret.
Qed.
Lemma prel_get_slice hs a b : prel (@get_slice V K A hs a b) (@get_slice V K B hs a b).
Proof. unfold get_slice. prel_tac. Qed.
Lemma prel_sum add r (a : list (list K)) :
  prel (@sum_over_procs V K A P tag_ub add r a) (@sum_over_procs V K B P tag_ub add r a).
Proof.
  unfold sum_over_procs. destruct (1 <? P); [|apply prel_ret].
  apply prel_bind; [apply prel_allreduce|intros; apply prel_lift].
Qed.

Context (zero : K) (add : K -> K -> K) (conj : K -> K) (is_zero : K -> bool) (store_as : K -> K -> res K).

Lemma prel_ip_core ip per_node per_proc N r rows cols :
  prel (@ip_array_core V K A P tag_ub zero add store_as ip per_node per_proc N r rows cols)
       (@ip_array_core V K B P tag_ub zero add store_as ip per_node per_proc N r rows cols).
Proof.
  unfold ip_array_core. cbv zeta. apply prel_bind; [unfold burn; prel_tac|intros].
  apply prel_bind; [|intros; apply prel_sum]. apply prel_for. intros g a.
  apply prel_bind; [apply prel_get_slice|intros]. apply prel_for. intros h b.
  apply prel_ring. apply prel_bind; [apply prel_get_slice|intros; apply prel_ret].
Qed.
Lemma prel_ip_body ip per_node per_proc N r (rows cols : list loc) :
  prel (if length cols <? length rows
        then bind (@ip_array_core V K A P tag_ub zero add store_as ip per_node per_proc N r cols rows)
               (fun a => ret (conj_transpose zero conj (length rows) a))
        else ip_array_core P tag_ub zero add store_as ip per_node per_proc N r rows cols)
       (if length cols <? length rows
        then bind (@ip_array_core V K B P tag_ub zero add store_as ip per_node per_proc N r cols rows)
               (fun a => ret (conj_transpose zero conj (length rows) a))
        else ip_array_core P tag_ub zero add store_as ip per_node per_proc N r rows cols).
Proof.
  destruct (_ <? _); [|apply prel_ip_core]. apply prel_bind; [apply prel_ip_core|intros; apply prel_ret].
Qed.
Lemma prel_ip ipo per_node per_proc N r rows cols :
  prel (@ip_array V K A P tag_ub zero add conj store_as ipo per_node per_proc N r rows cols)
       (@ip_array V K B P tag_ub zero add conj store_as ipo per_node per_proc N r rows cols).
Proof.
  unfold ip_array. destruct ipo as [ip|]; [|apply prel_fail].
  apply prel_bind; [apply prel_ip_body|intros]. apply prel_bind; [apply prel_par_barrier|intros]. apply prel_ret.
Qed.

Lemma prel_row_chunk ip like per_proc r vecs s (a : list (list K)) :
  prel (@row_chunk V K A P store_as ip like per_proc r vecs s a)
       (@row_chunk V K B P store_as ip like per_proc r vecs s a).
Proof.
  unfold row_chunk. cbv zeta. apply prel_bind.
  { destruct (0 <? _); [apply prel_get_slice|apply prel_ret]. }
  intros rv. apply prel_bind; [prel_tac|]. intros b. apply prel_bind.
  - unfold square_sets. apply prel_for. intros i c. apply prel_for. intros j c'.
    apply prel_bind.
    + destruct (0 <? _); [|apply prel_ret]. cbv zeta. apply prel_bind; [apply prel_swap|intros; apply prel_lift].
    + intros c''. apply prel_bind; [apply prel_par_barrier|intros; apply prel_ret].
  - intros c. unfold rectangle. apply prel_for. intros i c'. apply prel_ring.
    destruct (0 <? _); [|apply prel_ret]. apply prel_bind; [apply prel_get_slice|intros; apply prel_ret].
Qed.
Lemma prel_symm ipo per_node per_proc N r vecs :
  prel (@symm_array V K A P tag_ub zero add conj is_zero store_as ipo per_node per_proc N r vecs)
       (@symm_array V K B P tag_ub zero add conj is_zero store_as ipo per_node per_proc N r vecs).
Proof.
  unfold symm_array. destruct ipo as [ip|]; [|apply prel_fail]. cbv zeta.
  do 3 (apply prel_bind; [prel_tac|intros ?]). apply prel_bind; [prel_tac|intros ?].
  apply prel_bind; [apply prel_for; intros; apply prel_row_chunk|intros].
  apply prel_bind; [apply prel_sum|intros]. apply prel_bind; [apply prel_par_barrier|intros; apply prel_ret].
Qed.

Context (vadd : V -> V -> V) (smul : V -> K -> V).

Lemma prel_put_sums sums a b layers :
  prel (@put_sums V K A sums a b layers) (@put_sums V K B sums a b layers).
Proof. unfold put_sums. prel_tac. Qed.
Lemma prel_lin_core per_node per_proc N r sums basis coeff :
  prel (@lin_core V K A P vadd smul per_node per_proc N r sums basis coeff)
       (@lin_core V K B P vadd smul per_node per_proc N r sums basis coeff).
Proof.
  unfold lin_core. cbv zeta. do 4 (apply prel_bind; [prel_tac|intros ?]).
  apply prel_bind; [|intros; apply prel_par_barrier]. apply prel_for. intros g u.
  apply prel_bind; [|intros; apply prel_put_sums]. apply prel_for. intros h l. apply prel_ring.
  apply prel_bind; [apply prel_get_slice|intros; apply prel_ret].
Qed.
Lemma prel_lin per_node per_proc N r sums basis coeff idx :
  prel (@lin_combine V K A P vadd smul per_node per_proc N r sums basis coeff idx)
       (@lin_combine V K B P vadd smul per_node per_proc N r sums basis coeff idx).
Proof. unfold lin_combine. apply prel_bind; [apply prel_lift|intros; apply prel_lin_core]. Qed.

Lemma prel_call none r (call : res (msg V K)) :
  prel (@call_and_bcast _ V A P none r (lift call)) (@call_and_bcast _ V B P none r (lift call)).
Proof.
  unfold call_and_bcast. apply prel_bind; [prel_tac|intros]. destruct (1 <? P); [apply prel_bcast|apply prel_ret].
Qed.
End Prel2.

(** ** The commands end with a barrier *)

Section Closed.
Context {V K O : Type} (P tag_ub : nat) (HP : 1 < P).
Context (zero : K) (add : K -> K -> K) (conj : K -> K) (is_zero : K -> bool) (store_as : K -> K -> res K).
Context (vadd : V -> V -> V) (smul : V -> K -> V).

Lemma pclosed_par_barrier {M} : pclosed (@barrier M V O P).
Proof. unfold barrier. rewrite (proj2 (Nat.ltb_lt 1 P)) by auto. apply pclosed_barrier. Qed.
Lemma pclosed_par_barrier_ret {M X} (x : X) : pclosed (bind (@barrier M V O P) (fun _ => ret x)).
Proof. unfold barrier. rewrite (proj2 (Nat.ltb_lt 1 P)) by auto. apply pclosed_barrier_ret. Qed.

Ltac ptail_tac :=
  cbv beta zeta;
  lazymatch goal with
  | |- ptail (ret _) => apply ptail_ret
  | |- ptail (fail _) => apply ptail_fail
  | |- ptail (lift _) => apply ptail_lift
  | |- ptail (get _) => apply ptail_get
  | |- ptail (bind _ _) => apply ptail_bind; [ptail_tac|intros ?; ptail_tac]
  | |- ptail (match ?x with _ => _ end) => destruct x; ptail_tac
  | |- _ => idtac
  end.

Lemma pclosed_ip ipo per_node per_proc N r rows cols :
  pclosed (@ip_array V K O P tag_ub zero add conj store_as ipo per_node per_proc N r rows cols).
Proof.
  unfold ip_array. destruct ipo as [ip|]; [|apply pclosed_fail].
  apply pclosed_bind; [eapply prel_tail; apply prel_ip_body|intros]. apply pclosed_par_barrier_ret.
Qed.
Lemma pclosed_symm ipo per_node per_proc N r vecs :
  pclosed (@symm_array V K O P tag_ub zero add conj is_zero store_as ipo per_node per_proc N r vecs).
Proof.
  unfold symm_array. destruct ipo as [ip|]; [|apply pclosed_fail]. cbv zeta.
  do 3 (apply pclosed_bind; [ptail_tac|intros ?]). apply pclosed_bind; [ptail_tac|intros ?].
  apply pclosed_bind; [eapply prel_tail; apply prel_for; intros; apply prel_row_chunk|intros].
  apply pclosed_bind; [eapply prel_tail; apply prel_sum|intros]. apply pclosed_par_barrier_ret.
Qed.
Lemma pclosed_lin per_node per_proc N r sums basis coeff idx :
  pclosed (@lin_combine V K O P vadd smul per_node per_proc N r sums basis coeff idx).
Proof.
  unfold lin_combine. apply pclosed_bind; [ptail_tac|intros a].
  unfold lin_core. cbv zeta. do 4 (apply pclosed_bind; [ptail_tac|intros ?]).
  apply pclosed_bind; [|intros; apply pclosed_par_barrier]. eapply prel_tail. apply prel_for. intros g u.
  apply prel_bind; [|intros; apply prel_put_sums]. apply prel_for. intros h l. apply prel_ring.
  apply prel_bind; [apply prel_get_slice|intros; apply prel_ret].
Qed.

Lemma pfree_call none r (call : res (msg V K)) : pfree (@call_and_bcast _ V O P none r (lift call)).
Proof.
  unfold call_and_bcast. apply pfree_bind.
  - destruct (r =? 0); [apply pfree_lift|apply pfree_ret].
  - intros m. destruct (1 <? P); [|apply pfree_ret]. unfold mpi_bcast. apply pfree_for. intros j v.
    destruct (j =? 0); [apply pfree_ret|]. destruct (r =? 0).
    + unfold send. apply pfree_bind; [|intros; apply pfree_ret].
      apply pfree_bind; [apply pfree_isend|intros; apply pfree_wait].
    + destruct (r =? j); [apply pfree_recv|apply pfree_ret].
Qed.
End Closed.

(** ** Every program of this kind *)

Section Run.
Context {F : sfield} {V : Type} (S : space F V) (HS : ip_space S).
Context (tag_ub : nat) (eager : msg V F -> bool) (P : nat) (limit : option Z).
Context (Hm : made_with limit P (num_nodes S) (per_node S) (per_proc S)).
Context (Ht : P * P - 2 + P / 2 <= tag_ub).

Lemma stuck_finish {A} (r : res A) ch st :
  stuck tag_ub eager (conf P (fun _ => finish r : proc (msg V F) V A) ch st).
Proof. pose proof (Hprocs S P limit Hm). destruct r; [apply stuck_returned|apply stuck_failed]; auto. Qed.

(** The commands of [exec]. *)
Definition ip_command {O} rank rows cols : prog (msg V F) V O (list (list F)) :=
  ip_array P tag_ub (k0 F) (kadd F) (kconj F) (store_as S) (Some (ip S))
    (per_node S) (per_proc S) (num_nodes S) rank rows cols.
Definition symm_command {O} rank vecs : prog (msg V F) V O (list (list F)) :=
  symm_array P tag_ub (k0 F) (kadd F) (kconj F) test_zero (store_as S) (Some (ip S))
    (per_node S) (per_proc S) (num_nodes S) rank vecs.
Definition call_command {O} rank (call : res (list (item F))) : prog (msg V F) V O (msg V F) :=
  call_and_bcast P MNone rank (lift (rmap MTup call)).
Definition lin_command {O} rank sums basis (coeff : arr F) idx : prog (msg V F) V O unit :=
  lin_combine P (vadd S) (smul S) (per_node S) (per_proc S) (num_nodes S) rank sums basis
    (Arr2 (nr coeff) (nc coeff) (to_lists coeff)) idx.

(** On every schedule a method does as its sequential reading says, whatever it reads
    and writes, and the rest of the program begins with the store as it then is. *)
Theorem leads_exec {O A} (h : hprog F A) : forall st Post (k : nat -> A -> proc (msg V F) V O)
    (Q : config (msg V F) V O -> Prop), ok S st h Post ->
  (forall st' a, Post st' (Ok a) -> exists n f, leads tag_ub eager n (conf P (fun i => k i a) ∅ st') f /\ Q f) ->
  (forall st' e, Post st' (Raise e) -> Q (conf P (fun _ => Fail e) ∅ st')) ->
  exists n f, leads tag_ub eager n (conf P (fun i => exec P tag_ub S i h (k i)) ∅ st) f /\ Q f.
Proof.
  pose proof (Hprocs S P limit Hm) as HP.
  assert (Hfail : forall st e (Q : config (msg V F) V O -> Prop), Q (conf P (fun _ => Fail e) ∅ st) ->
    exists n f, leads tag_ub eager n (conf P (fun _ => Fail e) ∅ st) f /\ Q f).
  { intros st e Q HQ. exists 0, (conf P (fun _ => Fail e) ∅ st). split; auto. apply leads_0.
    apply (stuck_finish (Raise e)). }
  induction h as [a|e|rows cols h IH|vecs h IH|call h IH|sums basis coeff idx h IH];
    intros st Post k Q H HQ He; simpl in H.
  - apply HQ. exact H.
  - apply Hfail. apply He. exact H.
  - destruct H as (rv & cv & Hr & Hc & Nr & Nc & H).
    destruct (wp_ip S HS tag_ub eager P limit Hm Ht (O := list (list F)) st rows cols rv cv Hr Hc Nr Nc)
      as (st1 & b & Hl & -> & Hb).
    destruct (IH _ st Post k Q H HQ He) as (n2 & f & Hrun & Hf).
    assert (G : exists n, leads tag_ub eager n (conf P (fun i => exec P tag_ub S i (HIp rows cols h) (k i)) ∅ st) f).
    { eapply (then_barrier tag_ub eager P HP (fun i => ip_command i rows cols) (fun i => ip_command i rows cols)
        (fun i x => exec P tag_ub S i (h (of_lists (length rows) (length cols) x)) (k i))).
      - intros i Hi. apply prel_ip.
      - intros HP2 i Hi. apply pclosed_ip. exact HP2.
      - apply (separate_readonly (fun _ _ => True)).
      - intros i Hi. apply puses_ip_array; auto.
      - exact Hl.
      - erewrite conf_ext; [exact Hrun|]. intros i Hi. simpl. rewrite Hb by auto. unfold gram.
        rewrite (Forall2_length _ _ _ Hr), (Forall2_length _ _ _ Hc). reflexivity. }
    destruct G as [n Hn]. exists n, f. auto.
  - destruct H as (vs & Hv & Nv & H).
    destruct (wp_symm S HS tag_ub eager P limit Hm Ht (O := list (list F)) st vecs vs Hv Nv)
      as (st1 & b & Hl & -> & Hb).
    destruct (IH _ st Post k Q H HQ He) as (n2 & f & Hrun & Hf).
    assert (G : exists n, leads tag_ub eager n (conf P (fun i => exec P tag_ub S i (HSymm vecs h) (k i)) ∅ st) f).
    { eapply (then_barrier tag_ub eager P HP (fun i => symm_command i vecs) (fun i => symm_command i vecs)
        (fun i x => exec P tag_ub S i (h (of_lists (length vecs) (length vecs) x)) (k i))).
      - intros i Hi. apply prel_symm.
      - intros HP2 i Hi. apply pclosed_symm. exact HP2.
      - apply (separate_readonly (fun _ _ => True)).
      - intros i Hi. apply puses_symm_array; auto.
      - exact Hl.
      - erewrite conf_ext; [exact Hrun|]. intros i Hi. simpl. rewrite Hb by auto. unfold gram.
        rewrite (Forall2_length _ _ _ Hv). reflexivity. }
    destruct G as [n Hn]. exists n, f. auto.
  - destruct H as (l & -> & H).
    destruct (wp_call S tag_ub eager P limit Hm Ht (O := msg V F) st l) as (st1 & b & Hl & -> & Hb).
    destruct (IH _ st Post k Q H HQ He) as (n2 & f & Hrun & Hf).
    assert (G : exists n, leads tag_ub eager n (conf P (fun i => exec P tag_ub S i (HCall (Ok l) h) (k i)) ∅ st) f).
    { eapply (then_free tag_ub eager P HP (fun i => call_command i (Ok l)) (fun i => call_command i (Ok l))
        (fun i m => match m with MTup l => exec P tag_ub S i (h l) | _ => fail TypeError end (k i))).
      - intros i Hi. apply prel_call.
      - intros i Hi. apply pfree_call.
      - exact Hl.
      - erewrite conf_ext; [exact Hrun|]. intros i Hi. simpl. rewrite Hb by auto. reflexivity. }
    destruct G as [n Hn]. exists n, f. auto.
  - destruct (lin_coeffs _ _ _ _) as [rows|e] eqn:El.
    + destruct H as (bv & Hst & Nb & Hnd & Hdis & H).
      destruct (wp_lin S HS tag_ub eager P limit Hm Ht (O := unit) st sums basis bv coeff idx rows El Hst Nb Hnd Hdis)
        as (st1 & b & Hl & Hw).
      destruct (IH st1 Post k Q (H st1 Hw) HQ He) as (n2 & f & Hrun & Hf).
      assert (G : exists n, leads tag_ub eager n (conf P (fun i => exec P tag_ub S i (HLin sums basis coeff idx h) (k i)) ∅ st) f).
      { eapply (then_barrier tag_ub eager P HP (fun i => lin_command i sums basis coeff idx)
          (fun i => lin_command i sums basis coeff idx) (fun i _ => exec P tag_ub S i h (k i))).
        - intros i Hi. apply prel_lin.
        - intros HP2 i Hi. apply pclosed_lin. exact HP2.
        - apply (footprints_separate P sums basis); auto.
        - intros i Hi. unfold lin_command, lin_combine. apply puses_bind; [apply puses_lift|]. intros x.
          apply puses_lin_core; auto. intros j l Hj Hl'. split; eauto.
        - exact Hl.
        - exact Hrun. }
      destruct G as [n Hn]. exists n, f. auto.
    + cbn [exec]. unfold lin_combine, bind. rewrite El. apply Hfail. apply He. exact H.
Qed.

(** The program ends, with the same result on all ranks. *)
Definition ended {A} (Post : gmap loc V -> res A -> Prop) (c : config (msg V F) V A) : Prop :=
  length (procs c) = P /\ exists r, all_end r c /\ Post (store c) r.

Lemma ended_conf {A} (Post : gmap loc V -> res A -> Prop) st r : Post st r ->
  ended Post (conf P (fun _ => finish r) ∅ st).
Proof.
  intros HQ. split; [simpl; rewrite fmap_length, seq_length; auto|].
  exists r. split; auto. intros i p Hp. simpl in Hp. rewrite list_lookup_fmap in Hp.
  destruct (seq 0 P !! i) as [j|]; simpl in Hp; [|discriminate]. injection Hp as <-. reflexivity.
Qed.

Theorem any_method_ends {A} (h : hprog F A) st Post : ok S st h Post ->
  always_ends tag_ub eager (launch P (fun r => exec P tag_ub S r h) st) (ended Post).
Proof.
  intros H. destruct (leads_exec h st Post (fun _ => Ret) (ended Post) H) as (n & f & Hl & HQ).
  - intros st' a Ha. exists 0, (conf P (fun _ => Ret a) ∅ st'). split; [|apply (ended_conf Post st' (Ok a)); auto].
    apply leads_0. apply (stuck_finish (Ok a)).
  - intros st' e He. apply (ended_conf Post st' (Raise e)); auto.
  - eapply leads_ends; eauto.
Qed.

End Run.
