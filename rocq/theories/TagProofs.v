(** Which messages a program can send and wait for. *)
From stdpp Require Import gmap list.
From Coq Require Import Lia.
From Verif Require Import Prelude ParallelModel Spmd SpmdFacts SpmdLock SpmdWrites
  ReductionsModel InnerProdModel TaskProofs RingProofs LinCombModel SymmModel SymmProofs.
Open Scope nat_scope.

Section Comm.
Context {M V O : Type}.
Notation proc := (proc M V O).
Notation prog := (prog M V O).
Notation config := (@config M V O).

(** [comm S R p]: [p] only sends messages with [S destination context tag message]
    and only waits for messages with [R source context tag], whatever it reads
    and receives. *)
Fixpoint comm (S : nat -> nat -> nat -> M -> Prop) (R : nat -> nat -> nat -> Prop) (p : proc)
    : Prop :=
  match p with
  | Ret _ => True
  | Fail _ => True
  | Isend d c t m k => S d c t m /\ comm S R k
  | Recv s c t k => R s c t /\ forall m, comm S R (k m)
  | Wait _ _ _ _ k => comm S R k
  | Barrier k => comm S R k
  | Get _ k => forall v, comm S R (k v)
  | Put _ _ k => comm S R k
  end.

Lemma comm_steps tag_ub eager (S : nat -> nat -> nat -> nat -> M -> Prop)
    (R : nat -> nat -> nat -> nat -> Prop) n (c d : config) :
  steps tag_ub eager n c d ->
  (forall i p, procs c !! i = Some p -> comm (S i) (R i) p) ->
  forall i p, procs d !! i = Some p -> comm (S i) (R i) p.
Proof.
  induction 1 as [c|n c c' d Hs _ IH]; auto. intros Hc. apply IH. clear IH.
  inversion Hs as [i c0 c1 Hr|ps ch st Hne Hall]; subst.
  - destruct (step_ranks _ _ _ _ _ Hr) as (p0 & p' & ch' & st' & Hp0 & Hl & E).
    intros j q Hq. rewrite E in Hq. pose proof (Hc i p0 Hp0) as Hi.
    destruct (decide (i = j)) as [->|Hne].
    + rewrite list_lookup_insert in Hq by (eapply lookup_lt_Some; eauto).
      injection Hq as <-. clear -Hl Hi.
      destruct p0; simpl in Hl, Hi;
        repeat case_decide; repeat case_match; simplify_eq; simpl; intuition auto.
    + rewrite list_lookup_insert_ne in Hq by auto. apply Hc. exact Hq.
  - intros i p Hi. simpl in Hi. rewrite list_lookup_fmap in Hi.
    destruct (ps !! i) as [q|] eqn:E; simplify_eq/=. specialize (Hc i q E).
    destruct q; simpl in *; auto.
Qed.

(** Programs; [F] holds of the result. *)
Definition talks (S : nat -> nat -> nat -> M -> Prop) (R : nat -> nat -> nat -> Prop)
    {A} (F : A -> Prop) (m : prog A) : Prop :=
  forall k, (forall a, F a -> comm S R (k a)) -> comm S R (m k).

Context (S : nat -> nat -> nat -> M -> Prop) (R : nat -> nat -> nat -> Prop).
Notation pcomm := (talks S R).

Lemma pcomm_ret {A} (F : A -> Prop) a : F a -> pcomm F (ret a).
Proof. intros H k Hk. apply Hk. exact H. Qed.
Lemma pcomm_fail {A} (F : A -> Prop) e : pcomm F (@fail M V O A e).
Proof. intros k Hk. exact I. Qed.
Lemma pcomm_lift {A} (r : res A) : pcomm (fun _ => True) (lift r).
Proof. destruct r; [apply pcomm_ret; exact I|apply pcomm_fail]. Qed.
Lemma pcomm_bind {A B} (F : A -> Prop) (G : B -> Prop) (m : prog A) (f : A -> prog B) :
  pcomm F m -> (forall a, F a -> pcomm G (f a)) -> pcomm G (bind m f).
Proof. intros Hm Hf k Hk. apply Hm. intros a Ha. apply Hf; auto. Qed.
Lemma pcomm_mono {A} (F G : A -> Prop) (m : prog A) :
  pcomm F m -> (forall a, F a -> G a) -> pcomm G m.
Proof. intros Hm H k Hk. apply Hm. auto. Qed.
Lemma pcomm_any {A} (F : A -> Prop) (m : prog A) : pcomm F m -> pcomm (fun _ => True) m.
Proof. intros H. eapply pcomm_mono; eauto. Qed.
Lemma pcomm_isend d c t (m : M) : S d c t m -> pcomm (fun _ => True) (isend d c t m).
Proof. intros H k Hk. split; auto. Qed.
Lemma pcomm_recv s c t : R s c t -> pcomm (fun _ => True) (recv s c t).
Proof. intros H k Hk. split; auto. Qed.
Lemma pcomm_wait d c t (m : M) : pcomm (fun _ => True) (wait d c t m).
Proof. intros k Hk. apply Hk. exact I. Qed.
Lemma pcomm_barrier_op : pcomm (fun _ => True) barrier_op.
Proof. intros k Hk. apply Hk. exact I. Qed.
Lemma pcomm_get h : pcomm (fun _ => True) (get h).
Proof. intros k Hk v. apply Hk. exact I. Qed.
Lemma pcomm_put h v : pcomm (fun _ => True) (put h v).
Proof. intros k Hk. apply Hk. exact I. Qed.
Lemma pcomm_for {A B} (F : B -> Prop) (l : list A) (body : A -> B -> prog B) : forall s,
  F s -> (forall x s, x ∈ l -> F s -> pcomm F (body x s)) -> pcomm F (for_loop l s body).
Proof.
  induction l as [|x l IH]; intros s Hs H; simpl.
  - apply pcomm_ret. auto.
  - eapply pcomm_bind; [apply H; [left|exact Hs]|]. intros s' Hs'. apply IH; auto.
    intros y s2 Hy. apply H. right. auto.
Qed.
Lemma pcomm_map {A B} (f : A -> prog B) (l : list A) :
  (forall x, x ∈ l -> pcomm (fun _ => True) (f x)) -> pcomm (fun _ => True) (map_prog f l).
Proof.
  induction l as [|x l IH]; intros H; simpl.
  - apply pcomm_ret. exact I.
  - eapply pcomm_bind; [apply H; left|]. intros y _. eapply pcomm_bind.
    + apply IH. intros z Hz. apply H. right. auto.
    + intros ys _. apply pcomm_ret. exact I.
Qed.
Lemma pcomm_comm (F : O -> Prop) (m : prog O) : pcomm F m -> comm S R (m Ret).
Proof. intros H. apply H. intros; exact I. Qed.
Lemma pcomm_barrier P : pcomm (fun _ => True) (barrier P).
Proof. unfold barrier. destruct (1 <? P); [apply pcomm_barrier_op|apply pcomm_ret; exact I]. Qed.
End Comm.

Section Routines.
Context {V K O : Type}.
Context (P tag_ub : nat).
Notation msg := (msg V K).
Notation prog := (prog msg V O).

(** Messages of rank [r]: vectors travel with the tag of the pair, arrays with
    the tag of the reduction or on the context of collective operations. *)
Definition may_send (r : nat) (dst ctx tag : nat) (m : msg) : Prop :=
  dst < P /\
  match m with
  | MVecs _ _ => ctx = 0 /\ tag = pair_tag P r dst /\ tag <= P * P - 2 + P / 2
  | MArr _ => (ctx = 0 /\ tag = tag_ub - 1) \/ (ctx = 1 /\ tag = 0)
  | _ => False
  end.
Definition may_await (r : nat) (src ctx tag : nat) : Prop :=
  (ctx = 0 /\ tag = pair_tag P src r) \/ (ctx = 0 /\ tag = tag_ub - 1) \/ (ctx = 1 /\ tag = 0).

Context (r : nat) (Hr : r < P).
Notation pcomm := (@talks msg V O (may_send r) (may_await r)).
Notation any := (fun _ => True).

Lemma pcomm_swap dst src (pl : list V * list nat) :
  dst < P -> pair_tag P r dst <= P * P - 2 + P / 2 ->
  pcomm any (swap P r dst src pl).
Proof.
  intros Hd Ht. unfold swap.
  eapply pcomm_bind; [apply pcomm_isend; simpl; repeat split; auto|intros _ _].
  eapply pcomm_bind; [apply pcomm_recv; left; auto|intros x _].
  eapply pcomm_bind; [apply pcomm_wait|intros _ _]. apply pcomm_lift.
Qed.

Lemma pcomm_ring {T} (fetch : prog (list V * list nat)) compute (acc : T) :
  pcomm any fetch -> pcomm any (ring P r fetch compute acc).
Proof.
  intros Hf. unfold ring. eapply pcomm_bind.
  - apply (pcomm_for _ _ any); auto. intros j s Hj _. apply elem_of_seq in Hj.
    eapply pcomm_bind with (F := any).
    + destruct (Nat.eqb_spec j 0) as [E|E]; auto.
      eapply pcomm_bind; [apply pcomm_swap|].
      * apply Nat.mod_upper_bound. lia.
      * pose proof (pair_tag_ring P r Hr). pose proof (ring_tag P). lia.
      * intros x _. eapply pcomm_bind; [apply pcomm_barrier|intros _ _]. apply pcomm_ret. auto.
    + intros pl _. eapply pcomm_bind; [apply pcomm_lift|intros; apply pcomm_ret; auto].
  - intros [x y] _. apply pcomm_ret. auto.
Qed.

Lemma pcomm_get_slice handles a b : pcomm any (get_slice handles a b).
Proof. apply pcomm_map. intros. apply pcomm_get. Qed.

Definition is_arr (m : msg) : Prop := match m with MArr _ => True | _ => False end.

Lemma pcomm_send_arr dst m : dst < P -> is_arr m -> pcomm any (send dst 0 (tag_ub - 1) m).
Proof.
  intros Hd Hm. unfold send. eapply pcomm_bind; [apply pcomm_isend|intros; apply pcomm_wait].
  destruct m; try destruct Hm. split; auto.
Qed.

Lemma pcomm_reduce_loop (op : msg -> msg -> msg) (Hop : forall x y, is_arr x -> is_arr (op x y)) fuel :
  forall mask m, is_arr m -> pcomm is_arr (reduce_loop P tag_ub op fuel mask r m).
Proof.
  induction fuel as [|fuel IH]; intros mask m Hm; simpl; [apply pcomm_ret; auto|].
  destruct (mask <? P); [|apply pcomm_ret; auto].
  eapply pcomm_bind with (F := is_arr); [|intros; apply IH; auto].
  destruct (_ =? 0).
  - destruct (_ <? P); [|apply pcomm_ret; auto].
    eapply pcomm_bind; [apply pcomm_recv; right; left; auto|intros x _].
    apply pcomm_ret. auto.
  - eapply pcomm_bind; [apply pcomm_send_arr; auto; apply Nat.mod_upper_bound; lia|].
    intros _ _. apply pcomm_ret. auto.
Qed.

Lemma pcomm_allreduce (op : msg -> msg -> msg) m :
  (forall x y, is_arr x -> is_arr (op x y)) -> is_arr m ->
  pcomm any (allreduce P tag_ub op r m).
Proof.
  intros Hop Hm. unfold allreduce. eapply pcomm_bind.
  - unfold reduce.
    eapply pcomm_bind; [apply pcomm_reduce_loop; auto|intros x Hx].
    eapply pcomm_bind with (F := is_arr); [simpl; apply pcomm_ret; auto|intros y Hy].
    apply (pcomm_ret _ _ (fun o => r = 0 -> match o with Some z => is_arr z | None => False end)).
    intros ->. simpl. auto.
  - intros o Ho. unfold mpi_bcast.
    apply pcomm_any with (F := fun v => r = 0 -> is_arr v).
    apply pcomm_for.
    + intros E. specialize (Ho E). destruct o; auto.
    + intros j v Hj Hv. apply elem_of_seq in Hj.
      destruct (j =? 0); [apply pcomm_ret; auto|].
      destruct (Nat.eqb_spec r 0) as [E|E].
      * unfold send. eapply pcomm_bind.
        -- eapply pcomm_bind; [apply pcomm_isend|intros; apply pcomm_wait].
           specialize (Hv E). destruct v; try destruct Hv. split; [lia|auto].
        -- intros _ _. apply pcomm_ret. auto.
      * destruct (r =? j); [|apply pcomm_ret; auto].
        eapply pcomm_mono; [apply pcomm_recv; right; right; auto|]. intros a _ E'. congruence.
Qed.

Lemma pcomm_sum_over_procs add a : pcomm any (sum_over_procs P tag_ub add r a).
Proof.
  unfold sum_over_procs. destruct (1 <? P); [|apply pcomm_ret; auto].
  eapply pcomm_bind; [apply pcomm_allreduce|intros; apply pcomm_lift].
  - intros [] []; simpl; auto.
  - exact I.
Qed.

Ltac step := first
  [ apply pcomm_ret; auto | apply pcomm_fail | apply pcomm_lift | apply pcomm_get
  | apply pcomm_put | apply pcomm_barrier | apply pcomm_get_slice
  | apply pcomm_sum_over_procs ].

Lemma pcomm_ip_array zero add conj store_as ipo per_node per_proc N rows cols :
  pcomm any (ip_array P tag_ub zero add conj store_as ipo per_node per_proc N r rows cols).
Proof.
  assert (C : forall ip rows cols,
    pcomm any (ip_array_core P tag_ub zero add store_as ip per_node per_proc N r rows cols)).
  { clear rows cols. intros ip rows cols. unfold ip_array_core. eapply pcomm_bind with (F := any).
    - unfold burn. eapply pcomm_bind; [step|intros h _].
      eapply pcomm_bind; [step|intros _ _]. eapply pcomm_bind; [step|intros h' _].
      eapply pcomm_bind; [step|intros w _]. eapply pcomm_bind; [step|intros v _].
      destruct (_ =? _); step.
    - intros like _. eapply pcomm_bind; [|intros; step].
      apply (pcomm_for _ _ any); auto. intros g a _ _.
      eapply pcomm_bind; [step|intros x _].
      apply (pcomm_for _ _ any); auto. intros h b _ _. apply pcomm_ring.
      eapply pcomm_bind; [step|intros; step]. }
  unfold ip_array. destruct ipo as [ip|]; [|step].
  eapply pcomm_bind with (F := any).
  - destruct (_ <? _); [|apply C]. eapply pcomm_bind; [apply C|intros; step].
  - intros a _. eapply pcomm_bind; [step|intros; step].
Qed.

Lemma pcomm_symm_array zero add conj is_zero store_as ipo per_node per_proc N vecs :
  pcomm any (symm_array P tag_ub zero add conj is_zero store_as ipo per_node per_proc N r vecs).
Proof.
  assert (HP : 0 < P) by lia.
  unfold symm_array. destruct ipo as [ip|]; [|step].
  eapply pcomm_bind; [step|intros h _]. eapply pcomm_bind; [step|intros _ _].
  eapply pcomm_bind; [step|intros v _].
  eapply pcomm_bind with (F := any); [destruct (_ =? _); step|intros _ _].
  eapply pcomm_bind with (F := any).
  2: { intros a _. eapply pcomm_bind; [step|intros b _].
       eapply pcomm_bind; [step|intros; step]. }
  apply (pcomm_for _ _ any); auto. intros s a _ _. unfold row_chunk.
  eapply pcomm_bind with (F := any); [destruct (_ <? _); step|intros rv _].
  eapply pcomm_bind with (F := any).
  { destruct (_ <? _); [destruct (consecutive _)|]; step. }
  intros a1 _. eapply pcomm_bind with (F := any).
  - rewrite active_count by auto. rewrite tasks_nth by auto.
    set (c := Nat.min (length vecs) (s + (per_proc - 1) * P) - s).
    unfold square_sets. apply (pcomm_for _ _ any); auto. intros t a2 Ht _.
    apply elem_of_seq in Ht. rewrite half_sets in Ht.
    apply (pcomm_for _ _ any); auto. intros q a3 _ _.
    eapply pcomm_bind with (F := any).
    + rewrite seq_length. destruct (Nat.ltb_spec 0 (tlen P c r)) as [Hl|Hl]; [|step].
      apply tlen_pos in Hl; auto.
      eapply pcomm_bind; [apply pcomm_swap|intros; step].
      * pose proof (set_dest_lt (Nat.min P c) r t ltac:(lia)). lia.
      * apply set_tag; lia.
    + intros a4 _. eapply pcomm_bind; [step|intros; step].
  - intros a2 _. unfold rectangle. apply (pcomm_for _ _ any); auto. intros g a3 _ _.
    apply pcomm_ring. destruct (_ <? _); [|step].
    eapply pcomm_bind; [step|intros; step].
Qed.

Lemma pcomm_lin_combine vadd smul per_node per_proc N sums basis coeff idx :
  pcomm any (@lin_combine V K O P vadd smul per_node per_proc N r sums basis coeff idx).
Proof.
  unfold lin_combine. eapply pcomm_bind; [step|intros co _]. unfold lin_core.
  eapply pcomm_bind; [step|intros h _]. eapply pcomm_bind; [step|intros _ _].
  eapply pcomm_bind; [step|intros _ _].
  eapply pcomm_bind with (F := any); [destruct (_ =? _); step|intros _ _].
  eapply pcomm_bind; [|intros; step].
  apply (pcomm_for _ _ any); auto. intros g u _ _.
  eapply pcomm_bind with (F := any).
  - apply (pcomm_for _ _ any); auto. intros b l _ _. apply pcomm_ring.
    eapply pcomm_bind; [step|intros; step].
  - intros l _. unfold put_sums. apply (pcomm_for _ _ any); auto. intros i w _ _.
    eapply pcomm_bind; [step|intros h' _]. eapply pcomm_bind; [step|intros [x|] _]; step.
Qed.
End Routines.
