(** Ranks that fail, and the ranks that wait for them. *)
From stdpp Require Import gmap list.
From Coq Require Import Lia.
From Verif Require Import Prelude ParallelModel Spmd SpmdFacts SpmdLock SpmdWrites SpmdTrace
  ReductionsModel InnerProdModel SymmModel LinCombModel DerivsModel.
Open Scope nat_scope.

(** ** Barriers still to pass *)

Section Bars.
Context {M V O : Type}.
Notation proc := (proc M V O).
Notation prog := (prog M V O).
Notation config := (@config M V O).

(** Every way to return passes [n] more barriers, and the last of them is the last
    action: nothing can fail after it. *)
Inductive bars_left : nat -> proc -> Prop :=
| bl_ret o : bars_left 0 (Ret o)
| bl_fail n e : bars_left (S n) (Fail e)
| bl_isend n dst ctx tag m k : bars_left (S n) k -> bars_left (S n) (Isend dst ctx tag m k)
| bl_recv n src ctx tag k : (forall m, bars_left (S n) (k m)) -> bars_left (S n) (Recv src ctx tag k)
| bl_wait n dst ctx tag m k : bars_left (S n) k -> bars_left (S n) (Wait dst ctx tag m k)
| bl_barrier n k : bars_left n k -> bars_left (S n) (Barrier k)
| bl_get n h k : (forall v, bars_left (S n) (k v)) -> bars_left (S n) (Get h k)
| bl_put n h v k : bars_left (S n) k -> bars_left (S n) (Put h v k).

Lemma bars_local tag_ub (eager : M -> bool) P i n p p' ch ch' st st' :
  bars_left n p -> local_step tag_ub eager P i p ch st = Some (p', ch', st') -> bars_left n p'.
Proof.
  intros H. destruct H; simpl; intros Hs; try discriminate.
  - case_decide; injection Hs as <- <- <-; auto; constructor.
  - destruct (ch !! _) as [[|m q]|]; try discriminate. injection Hs as <- <- <-. auto.
  - case_decide; [|discriminate]. injection Hs as <- <- <-. auto.
  - destruct (st !! h); injection Hs as <- <- <-; auto; constructor.
  - injection Hs as <- <- <-. auto.
Qed.

(** All ranks have the same number to pass. *)
Definition level (c : config) : Prop := exists n, forall i p, procs c !! i = Some p -> bars_left n p.

Lemma level_step tag_ub (eager : M -> bool) c d : level c -> step tag_ub eager c d -> level d.
Proof.
  intros [n H] Hs. inversion Hs as [i c0 c1 Hr|ps ch st Hne Hall]; subst.
  - exists n. destruct (step_ranks _ _ _ _ _ Hr) as (p & p' & ch' & st' & Hp & Hl & ->). simpl.
    intros j q Hq. destruct (decide (j = i)) as [->|Hji].
    + rewrite list_lookup_insert in Hq by (eapply lookup_lt_Some; eauto). injection Hq as <-.
      eapply bars_local; eauto.
    + rewrite list_lookup_insert_ne in Hq by auto. eauto.
  - exists (n - 1). intros i q Hq. simpl in Hq. rewrite list_lookup_fmap in Hq.
    destruct (ps !! i) as [p|] eqn:E; [|discriminate]. injection Hq as <-.
    pose proof (H i p E) as Hb. rewrite Forall_forall in Hall.
    pose proof (Hall p (elem_of_list_lookup_2 _ _ _ E)) as Ha.
    destruct p; simpl in Ha; try contradiction. inversion Hb; subst. simpl. rewrite Nat.sub_0_r. auto.
Qed.
Lemma level_steps tag_ub (eager : M -> bool) n c d : level c -> steps tag_ub eager n c d -> level d.
Proof. intros H Hs. induction Hs as [c|n c c' d Hst _ IH]; auto. apply IH. eapply level_step; eauto. Qed.
Lemma level_returned c i o : level c -> procs c !! i = Some (Ret o) ->
  forall j p, procs c !! j = Some p -> exists o', p = Ret o'.
Proof.
  intros [n H] Hi j p Hj. pose proof (H i _ Hi) as H1. inversion H1; subst.
  pose proof (H j p Hj) as H2. inversion H2; subst. eauto.
Qed.

(** Programs that pass [n] barriers and are followed by more. *)
Definition pbars {A} (n : nat) (m : prog A) : Prop :=
  forall k j, (forall a, bars_left (S j) (k a)) -> bars_left (S (n + j)) (m k).

Lemma pbars_ret {A} (a : A) : pbars 0 (ret a).
Proof. intros k j H. apply H. Qed.
Lemma pbars_fail {A} n e : pbars n (@fail M V O A e).
Proof. intros k j H. constructor. Qed.
Lemma pbars_lift {A} (r : res A) : pbars 0 (lift r).
Proof. destruct r; [apply pbars_ret|apply pbars_fail]. Qed.
Lemma pbars_bind {A B} n1 n2 n (m : prog A) (f : A -> prog B) : n = n1 + n2 ->
  pbars n1 m -> (forall a, pbars n2 (f a)) -> pbars n (bind m f).
Proof.
  intros -> Hm Hf k j H. rewrite <- Nat.add_assoc. apply Hm. intros a. apply Hf. exact H.
Qed.
Lemma pbars_bind0 {A B} n (m : prog A) (f : A -> prog B) :
  pbars 0 m -> (forall a, pbars n (f a)) -> pbars n (bind m f).
Proof. intros. apply (pbars_bind 0 n); auto. Qed.
Lemma pbars_bind_end {A B} n (m : prog A) (f : A -> prog B) :
  pbars n m -> (forall a, pbars 0 (f a)) -> pbars n (bind m f).
Proof. intros. apply (pbars_bind n 0); auto. Qed.
Lemma pbars_isend d c t m : pbars 0 (isend d c t m).
Proof. intros k j H. constructor. apply H. Qed.
Lemma pbars_recv s c t : pbars 0 (recv s c t).
Proof. intros k j H. constructor. intros m. apply H. Qed.
Lemma pbars_wait d c t m : pbars 0 (wait d c t m).
Proof. intros k j H. constructor. apply H. Qed.
Lemma pbars_get h : pbars 0 (get h).
Proof. intros k j H. constructor. intros m. apply H. Qed.
Lemma pbars_put h v : pbars 0 (put h v).
Proof. intros k j H. constructor. apply H. Qed.
Lemma pbars_barrier P : 1 < P -> pbars 1 (barrier (M := M) (V := V) (O := O) P).
Proof.
  intros HP. unfold barrier. rewrite (proj2 (Nat.ltb_lt _ _)) by auto.
  intros k j H. constructor. apply H.
Qed.
Lemma pbars_for {A S} n (l : list A) (body : A -> S -> prog S) : forall s,
  (forall x s, x ∈ l -> pbars n (body x s)) -> pbars (length l * n) (for_loop l s body).
Proof.
  induction l as [|x l IH]; intros s H; simpl.
  - apply pbars_ret.
  - apply (pbars_bind n (length l * n)); auto.
    + apply H. left.
    + intros s'. apply IH. intros y s2 Hy. apply H. right. auto.
Qed.
Lemma pbars_for0 {A S} (l : list A) (body : A -> S -> prog S) s :
  (forall x s, x ∈ l -> pbars 0 (body x s)) -> pbars 0 (for_loop l s body).
Proof.
  intros H. pose proof (pbars_for 0 l body s H) as G. rewrite Nat.mul_0_r in G. exact G.
Qed.
(** Loops whose rounds differ. *)
Lemma pbars_for_sum {A S} (f : A -> nat) (l : list A) (body : A -> S -> prog S) : forall s,
  (forall x s, x ∈ l -> pbars (f x) (body x s)) -> pbars (sum_list (map f l)) (for_loop l s body).
Proof.
  induction l as [|x l IH]; intros s H; simpl.
  - apply pbars_ret.
  - apply (pbars_bind (f x) (sum_list (map f l))); auto.
    + apply H. left.
    + intros s'. apply IH. intros y s2 Hy. apply H. right. auto.
Qed.
Lemma pbars_map {A B} (f : A -> prog B) (l : list A) :
  (forall x, x ∈ l -> pbars 0 (f x)) -> pbars 0 (map_prog f l).
Proof.
  induction l as [|x l IH]; intros H; simpl.
  - apply pbars_ret.
  - apply pbars_bind0; [apply H; left|]. intros y. apply pbars_bind0.
    + apply IH. intros z Hz. apply H. right. auto.
    + intros ys. apply pbars_ret.
Qed.

(** Programs that end with a barrier and then only return. *)
Definition closes (n : nat) (m : prog O) : Prop := bars_left (S n) (m Ret).

Lemma closes_fail n e : closes n (fail e).
Proof. constructor. Qed.
Lemma closes_bind {A} n1 n2 n (m : prog A) (f : A -> prog O) : n = n1 + n2 ->
  pbars n1 m -> (forall a, closes n2 (f a)) -> closes n (bind m f).
Proof. intros -> Hm Hf. apply Hm. exact Hf. Qed.
Lemma closes_bind0 {A} n (m : prog A) (f : A -> prog O) :
  pbars 0 m -> (forall a, closes n (f a)) -> closes n (bind m f).
Proof. intros. apply (closes_bind 0 n); auto. Qed.
Lemma closes_barrier P o : 1 < P -> closes 0 (bind (barrier P) (fun _ => ret o)).
Proof.
  intros HP. unfold closes, bind, barrier. rewrite (proj2 (Nat.ltb_lt _ _)) by auto. constructor. constructor.
Qed.

(** All ranks running such programs with the same number of barriers. *)
Lemma level_launch P n (m : nat -> prog O) st : (forall r, closes n (m r)) -> level (launch P m st).
Proof.
  intros H. exists (S n). intros i p Hp. simpl in Hp. rewrite list_lookup_fmap in Hp.
  destruct (seq 0 P !! i) as [r|] eqn:E; [|discriminate]. injection Hp as <-. apply H.
Qed.
End Bars.

(** ** The algorithms *)

Section Algs.
Context {V K O : Type} (P tag_ub : nat).
Notation msg := (msg V K).
Notation prog := (prog msg V O).
Context (zero : K) (add : K -> K -> K) (conj : K -> K) (is_zero : K -> bool).
Context (store_as : K -> K -> res K).
Context (HP : 1 < P).

Lemma pbars_send d c t (m : msg) : pbars 0 (send (V := V) (O := O) d c t m).
Proof. apply pbars_bind0; [apply pbars_isend|]. intros _. apply pbars_wait. Qed.
Lemma pbars_reduce_loop op fuel : forall mask rank (x : msg), pbars 0 (reduce_loop (V := V) (O := O) P tag_ub op fuel mask rank x).
Proof.
  induction fuel as [|fuel IH]; intros mask rank x; simpl; [apply pbars_ret|].
  destruct (_ <? _); [|apply pbars_ret]. apply pbars_bind0.
  - destruct (_ =? _).
    + destruct (_ <? _); [|apply pbars_ret]. apply pbars_bind0; [apply pbars_recv|]. intros y. apply pbars_ret.
    + apply pbars_bind0; [apply pbars_send|]. intros _. apply pbars_ret.
  - intros y. apply IH.
Qed.
Lemma pbars_bcast root rank (v : msg) : pbars 0 (mpi_bcast (V := V) (O := O) P root rank v).
Proof.
  apply pbars_for0. intros j x _. destruct (_ =? _); [apply pbars_ret|]. destruct (_ =? _).
  - apply pbars_bind0; [apply pbars_send|]. intros _. apply pbars_ret.
  - destruct (_ =? _); [apply pbars_recv|apply pbars_ret].
Qed.
Lemma pbars_sum rank a : pbars 0 (sum_over_procs (O := O) P tag_ub add rank a : prog _).
Proof.
  unfold sum_over_procs. destruct (_ <? _); [|apply pbars_ret]. apply pbars_bind0.
  - apply pbars_bind0; [|intros x; apply pbars_bcast]. apply pbars_bind0; [apply pbars_reduce_loop|].
    intros x. apply pbars_bind0; [apply pbars_ret|]. intros y. apply pbars_ret.
  - intros m. apply pbars_lift.
Qed.
Lemma pbars_swap rank dest source payload : pbars 0 (swap (O := O) P rank dest source payload : prog _).
Proof.
  unfold swap. apply pbars_bind0; [apply pbars_isend|]. intros _. apply pbars_bind0; [apply pbars_recv|].
  intros x. apply pbars_bind0; [apply pbars_wait|]. intros _. apply pbars_lift.
Qed.
Lemma pbars_ring {T} rank (fetch : prog (list V * list nat)) compute (acc : T) : pbars 0 fetch ->
  pbars (P - 1) (ring P rank fetch compute acc).
Proof.
  intros Hf. unfold ring. apply pbars_bind_end; [|intros [a b]; apply pbars_ret].
  replace (P - 1) with (sum_list (map (fun i => if i =? 0 then 0 else 1) (seq 0 P))).
  - apply pbars_for_sum. intros i s _. apply pbars_bind_end.
    + destruct (i =? 0); [exact Hf|]. apply pbars_bind0; [apply pbars_swap|]. intros x.
      apply pbars_bind_end; [apply pbars_barrier; auto|]. intros _. apply pbars_ret.
    + intros x. apply pbars_bind0; [apply pbars_lift|]. intros y. apply pbars_ret.
  - replace P with (S (P - 1)) at 1 by lia. simpl.
    assert (G : forall n a, 0 < a -> sum_list (map (fun i => if i =? 0 then 0 else 1) (seq a n)) = n).
    { induction n as [|n IH]; intros a Ha; simpl; auto. destruct a; [lia|]. simpl. rewrite IH by lia. reflexivity. }
    apply G. lia.
Qed.
Lemma pbars_get_slice l a b : pbars 0 (get_slice (K := K) (O := O) l a b : prog (list V)).
Proof. apply pbars_map. intros x _. apply pbars_get. Qed.

Lemma pbars_core ip per_node per_proc N rows cols : exists n, forall rank,
  pbars n (ip_array_core P tag_ub zero add store_as ip per_node per_proc N rank rows cols : prog _).
Proof.
  eexists. intros rank. unfold ip_array_core. cbv zeta. apply pbars_bind0.
  { unfold burn. repeat first [apply pbars_bind0; [first [apply pbars_lift|apply pbars_get]|intros ?]].
    destruct (_ =? _); [apply pbars_fail|apply pbars_ret]. }
  intros like. apply pbars_bind_end; [|intros a; apply pbars_sum].
  apply pbars_for. intros g a _. apply pbars_bind0; [apply pbars_get_slice|]. intros rv.
  apply pbars_for. intros g' a' _. apply pbars_ring. apply pbars_bind0; [apply pbars_get_slice|].
  intros cv. apply pbars_ret.
Qed.
Lemma pbars_ip per_node per_proc N ip rows cols : exists n, forall rank,
  pbars n (if length cols <? length rows then
             bind (ip_array_core P tag_ub zero add store_as ip per_node per_proc N rank cols rows)
               (fun a => ret (conj_transpose zero conj (length rows) a))
           else ip_array_core P tag_ub zero add store_as ip per_node per_proc N rank rows cols : prog _).
Proof.
  destruct (_ <? _).
  - destruct (pbars_core ip per_node per_proc N cols rows) as [n H]. exists n. intros rank.
    apply pbars_bind_end; auto. intros a. apply pbars_ret.
  - destruct (pbars_core ip per_node per_proc N rows cols) as [n H]. exists n. exact H.
Qed.

Lemma pbars_square ip like rank active max_num tasks rv a :
  pbars (ceil_div (active - 1) 2 * (max_num * 1)) (square_sets P store_as ip like rank active max_num tasks rv a : prog _).
Proof.
  unfold square_sets.
  rewrite <- (seq_length (ceil_div (active - 1) 2) 0) at 1. apply pbars_for. intros s b _. cbv zeta.
  rewrite <- (seq_length max_num 0) at 1. apply pbars_for. intros i b' _. apply pbars_bind0.
  - destruct (_ <? _); [|apply pbars_ret]. apply pbars_bind0; [apply pbars_swap|]. intros x. apply pbars_lift.
  - intros x. apply pbars_bind_end; [apply pbars_barrier; auto|]. intros _. apply pbars_ret.
Qed.
Lemma pbars_rectangle ip like rank end_row vecs tasks rv a :
  pbars (length (py_range end_row (length vecs) P) * (P - 1))
    (rectangle P store_as ip like rank end_row vecs tasks rv a : prog _).
Proof.
  unfold rectangle. apply pbars_for. intros s b _. cbv zeta. apply pbars_ring.
  destruct (_ <? _); [|apply pbars_ret]. apply pbars_bind0; [apply pbars_get_slice|]. intros x. apply pbars_ret.
Qed.
Lemma pbars_row_chunk ip per_proc vecs start_row : exists n, forall like rank a,
  pbars n (row_chunk P store_as ip like per_proc rank vecs start_row a : prog _).
Proof.
  eexists. intros like rank a. unfold row_chunk. cbv zeta. apply pbars_bind0.
  { destruct (_ <? _); [apply pbars_get_slice|apply pbars_ret]. }
  intros rv. apply pbars_bind0.
  { destruct (_ <? _); [|apply pbars_ret]. destruct (consecutive _); [apply pbars_lift|apply pbars_fail]. }
  intros b. eapply pbars_bind; [reflexivity|apply pbars_square|]. intros b'. apply pbars_rectangle.
Qed.
Lemma pbars_row_chunks ip per_proc vecs l : exists n, forall like rank a, pbars n
  (for_loop l a (fun start_row a => row_chunk P store_as ip like per_proc rank vecs start_row a) : prog _).
Proof.
  induction l as [|x l [n IH]].
  - exists 0. intros like rank a. apply pbars_ret.
  - destruct (pbars_row_chunk ip per_proc vecs x) as [n' H]. exists (n' + n). intros like rank a.
    apply (pbars_bind n' n); auto.
Qed.
Lemma pbars_put_sums (sums : list loc) a b layers : pbars 0 (put_sums sums a b layers : prog unit).
Proof.
  apply pbars_for0. intros i u _. apply pbars_bind0; [apply pbars_lift|]. intros h.
  apply pbars_bind0; [apply pbars_lift|]. intros [v|]; [apply pbars_put|apply pbars_fail].
Qed.
End Algs.

Lemma closes_ip {V K} P tag_ub zero add conj store_as (ip : option (V -> V -> K)) per_node per_proc N rows cols :
  1 < P -> exists n, forall rank,
  closes n (ip_array P tag_ub zero add conj store_as ip per_node per_proc N rank rows cols).
Proof.
  intros HP. destruct ip as [ip|]; [|exists 0; intros rank; apply closes_fail].
  destruct (pbars_ip (O := list (list K)) P tag_ub zero add conj store_as HP per_node per_proc N ip rows cols) as [n H].
  exists n. intros rank. apply (closes_bind n 0); auto. intros a. apply closes_barrier. auto.
Qed.
Lemma closes_symm {V K} P tag_ub zero add conj is_zero store_as (ip : option (V -> V -> K)) per_node per_proc N vecs :
  1 < P -> exists n, forall rank,
  closes n (symm_array P tag_ub zero add conj is_zero store_as ip per_node per_proc N rank vecs).
Proof.
  intros HP. destruct ip as [ip|]; [|exists 0; intros rank; apply closes_fail].
  destruct (pbars_row_chunks (O := list (list K)) P store_as HP ip per_proc vecs
              (py_range 0 (length vecs) ((per_proc - 1) * P))) as [n H].
  exists n. intros rank. simpl. apply closes_bind0; [apply pbars_lift|]. intros h.
  apply closes_bind0; [apply pbars_get|]. intros _. apply closes_bind0; [apply pbars_get|]. intros v.
  apply closes_bind0. { destruct (_ =? _); [apply pbars_fail|apply pbars_ret]. } intros _.
  apply (closes_bind n 0); auto. intros a. apply closes_bind0; [apply pbars_sum|]. intros b.
  apply closes_barrier. auto.
Qed.
Lemma closes_lin {V K} P vadd smul per_node per_proc N (sums basis : list loc) (coeff : coeffs K) idx :
  1 < P -> exists n, forall rank,
  closes n (lin_combine (V := V) P vadd smul per_node per_proc N rank sums basis coeff idx).
Proof.
  intros HP. eexists. intros rank. unfold lin_combine. apply closes_bind0; [apply pbars_lift|]. intros a.
  unfold lin_core. apply closes_bind0; [apply pbars_lift|]. intros h.
  apply closes_bind0; [apply pbars_get|]. intros _. apply closes_bind0; [apply pbars_get|]. intros _.
  apply closes_bind0. { destruct (_ =? _); [apply pbars_fail|apply pbars_ret]. } intros _. cbv zeta.
  eapply (closes_bind _ 0 _ _ (fun _ => barrier P)); [reflexivity| |].
  - apply pbars_for. intros g u _. apply pbars_bind_end; [|intros l; apply pbars_put_sums].
    apply pbars_for. intros g' l _. apply pbars_ring; auto. apply pbars_bind0; [apply pbars_get_slice|].
    intros vs. apply pbars_ret.
  - intros []. unfold closes, barrier. rewrite (proj2 (Nat.ltb_lt _ _)) by auto. constructor. constructor.
Qed.
Lemma closes_derivs {M V K} P vsub smul (inv_dt : res K) (vecs advs derivs : list loc) :
  1 < P -> forall rank,
  closes 0 (derivs_handles (M := M) (V := V) P vsub smul inv_dt rank vecs advs derivs).
Proof.
  intros HP rank. unfold derivs_handles. destruct (_ || _); [apply closes_fail|].
  apply (closes_bind0 _ _ (fun _ => barrier P)).
  - apply pbars_for0. intros i u _. apply pbars_bind0; [apply pbars_lift|]. intros h.
    apply pbars_bind0; [apply pbars_get|]. intros v. apply pbars_bind0; [apply pbars_lift|]. intros h'.
    apply pbars_bind0; [apply pbars_get|]. intros w. apply pbars_bind0; [apply pbars_lift|]. intros c.
    apply pbars_bind0; [apply pbars_lift|]. intros g. apply pbars_put.
  - intros []. unfold closes, barrier. rewrite (proj2 (Nat.ltb_lt _ _)) by auto. constructor. constructor.
Qed.

(** ** A store with less in it *)

Section Less.
Context {M V O : Type} (tag_ub : nat) (eager : M -> bool).
Notation proc := (proc M V O).
Notation config := (@config M V O).
Notation steps := (steps tag_ub eager).

(** [c] is [c'] except that some ranks have failed where the rank of [c'] is about to
    read. *)
Record less (c c' : config) : Prop := Less {
  less_length : length (procs c) = length (procs c');
  less_chans : chans c = chans c';
  less_store : store c ⊆ store c';
  less_procs : forall i p p', procs c !! i = Some p -> procs c' !! i = Some p' ->
    p = p' \/ (p = Fail OSError /\ exists h k, p' = Get h k)
}.

(** Ranks that have failed so. *)
Definition is_lost (p : proc) : bool := match p with Fail OSError => true | _ => false end.
Definition lost (c : config) : nat := length (filter (fun p => is_lost p = true) (procs c)).

Lemma rank_stepped i (c c' : config) : rank_step tag_ub eager i c = Some c' ->
  exists p p' ch' st', procs c !! i = Some p /\
    local_step tag_ub eager (length (procs c)) i p (chans c) (store c) = Some (p', ch', st') /\
    c' = Config (<[i := p']> (procs c)) ch' st'.
Proof.
  intros H. unfold rank_step in H. destruct (procs c !! i) as [p|] eqn:Ep; [|discriminate].
  destruct (local_step _ _ _ _ _ _ _) as [[[p' ch'] st']|] eqn:El; [|discriminate]. injection H as <-.
  exists p, p', ch', st'. auto.
Qed.

Lemma lost_insert (ps : list proc) i p p' : ps !! i = Some p -> is_lost p = false ->
  length (filter (fun p => is_lost p = true) (<[i := p']> ps)) =
  length (filter (fun p => is_lost p = true) ps) + (if is_lost p' then 1 else 0).
Proof.
  revert i. induction ps as [|q ps IH]; intros i Hi Hp; [discriminate|]. destruct i as [|i]; simpl in *.
  - injection Hi as ->. rewrite !filter_cons. rewrite (decide_False (P := is_lost p = true)) by congruence.
    destruct (is_lost p'); [rewrite decide_True by auto; simpl; lia|rewrite decide_False by auto; lia].
  - rewrite !filter_cons. case_decide; simpl; rewrite (IH i Hi Hp); reflexivity.
Qed.

Lemma less_lookup c c' i p : less c c' -> procs c !! i = Some p -> exists p', procs c' !! i = Some p'.
Proof.
  intros H Hp. apply lookup_lt_is_Some. rewrite <- (less_length _ _ H). eapply lookup_lt_Some; eauto.
Qed.

Lemma local_not_lost n i p ch st r : local_step tag_ub eager n i p ch st = Some r -> is_lost p = false.
Proof. destruct p; simpl; auto. discriminate. Qed.

Lemma less_insert c c' i q ch st st' : less c c' -> st ⊆ st' -> forall ps ps',
  ps = <[i := q]> (procs c) -> ps' = <[i := q]> (procs c') -> less (Config ps ch st) (Config ps' ch st').
Proof.
  intros H Hst ps ps' -> ->. constructor; simpl; auto.
  - rewrite !insert_length. apply less_length; auto.
  - intros j p p' Hp Hp'. destruct (decide (j = i)) as [->|N].
    + rewrite list_lookup_insert in Hp by (apply lookup_lt_Some in Hp; rewrite insert_length in Hp; auto).
      rewrite list_lookup_insert in Hp' by (apply lookup_lt_Some in Hp'; rewrite insert_length in Hp'; auto).
      left. congruence.
    + rewrite list_lookup_insert_ne in Hp, Hp' by auto. eapply less_procs; eauto.
Qed.

Lemma less_step c c' d : less c c' -> step tag_ub eager c d ->
  (less d c' /\ lost d = S (lost c)) \/ exists d', step tag_ub eager c' d' /\ less d d' /\ lost c <= lost d.
Proof.
  intros H Hs. inversion Hs as [i c0 c1 Hr|ps ch st Hne Hall]; subst.
  - destruct (rank_stepped _ _ _ Hr) as (p & q & ch1 & st1 & Hp & Hl & ->).
    destruct (less_lookup _ _ _ _ H Hp) as [p' Hp'].
    pose proof (local_not_lost _ _ _ _ _ _ Hl) as Hnl.
    destruct (less_procs _ _ H i p p' Hp Hp') as [<-|[-> _]]; [|discriminate].
    assert (Hlost : forall q ch st, lost (Config (<[i := q]> (procs c)) ch st) = lost c + if is_lost q then 1 else 0).
    { intros. unfold lost. simpl. eapply lost_insert; eauto. }
    assert (Same : forall st1', local_step tag_ub eager (length (procs c')) i p (chans c') (store c') = Some (q, ch1, st1') ->
      st1 ⊆ st1' -> exists d', step tag_ub eager c' d' /\ less (Config (<[i := q]> (procs c)) ch1 st1) d' /\
        lost c <= lost (Config (<[i := q]> (procs c)) ch1 st1)).
    { intros st1' Hl' Hst. exists (Config (<[i := q]> (procs c')) ch1 st1'). split; [|split].
      - apply (step_rank _ _ i). unfold rank_step. rewrite Hp', Hl'. reflexivity.
      - eapply less_insert; eauto.
      - rewrite Hlost. lia. }
    rewrite <- (less_length _ _ H), <- (less_chans _ _ H) in Same. pose proof (less_store _ _ H) as Hst.
    destruct p; simpl in Hl, Same; try discriminate.
    + right. case_decide; injection Hl as <- <- <-; eapply Same; auto.
    + right. destruct (chans c !! _) as [[|m qu]|]; try discriminate. injection Hl as <- <- <-. eapply Same; auto.
    + right. case_decide; [|discriminate]. injection Hl as <- <- <-. eapply Same; auto.
    + destruct (store c !! h) as [v|] eqn:E.
      * right. injection Hl as <- <- <-. rewrite (lookup_weaken _ _ _ _ E Hst) in Same. eapply Same; auto.
      * left. injection Hl as <- <- <-. split.
        -- constructor; simpl.
           ++ rewrite insert_length. apply less_length; auto.
           ++ apply less_chans; auto.
           ++ auto.
           ++ intros j p p' H1 H2. destruct (decide (j = i)) as [->|N].
              ** rewrite list_lookup_insert in H1 by (eapply lookup_lt_Some; eauto). injection H1 as <-.
                 right. split; auto. rewrite Hp' in H2. injection H2 as <-. eauto.
              ** rewrite list_lookup_insert_ne in H1 by auto. eapply less_procs; eauto.
        -- rewrite Hlost. simpl. lia.
    + right. injection Hl as <- <- <-. eapply Same; [reflexivity|]. apply insert_mono. auto.
  - right. destruct c' as [ps' ch' st']. destruct H as [H1 H2 H3 H4]. simpl in *. subst ch'.
    assert (ps' = ps) as ->.
    { apply list_eq. intros i. destruct (ps !! i) as [p|] eqn:E.
      - destruct (lookup_lt_is_Some_2 ps' i) as [p' E'].
        { rewrite <- H1. eapply lookup_lt_Some; eauto. }
        rewrite E'. destruct (H4 i p p' E E') as [->|[-> _]]; auto.
        rewrite Forall_forall in Hall. destruct (Hall _ (elem_of_list_lookup_2 _ _ _ E)).
      - apply lookup_ge_None. apply lookup_ge_None in E. lia. }
    exists (Config (past_barrier <$> ps) ch st'). split; [apply step_barrier; auto|]. split.
    + constructor; simpl; auto. intros i p p' E E'. left. congruence.
    + unfold lost. simpl. rewrite (Forall_forall at_barrier) in Hall.
      assert (Z : filter (fun p => is_lost p = true) ps = []).
      { assert (Hno : forall p, p ∈ filter (fun p => is_lost p = true) ps -> False).
        { intros p Hp. apply elem_of_list_filter in Hp. destruct Hp as [Hl Hp]. specialize (Hall p Hp).
          destruct p; simpl in *; try contradiction; discriminate. }
        destruct (filter _ ps) as [|p l]; auto. destruct (Hno p). left. }
      rewrite Z. simpl. lia.
Qed.

Lemma less_steps n c d : steps n c d -> forall c', less c c' ->
  exists n' d', steps n' c' d' /\ less d d' /\ n + lost c <= n' + lost d.
Proof.
  induction 1 as [c|n c c1 d Hs Hrun IH]; intros c' H.
  - exists 0, c'. split; [constructor|]. split; auto.
  - destruct (less_step _ _ _ H Hs) as [[H1 Hl]|(d1 & Hd & H1 & Hl)].
    + destruct (IH _ H1) as (n' & d' & A & B & C). exists n', d'. split; auto. split; auto. lia.
    + destruct (IH _ H1) as (n' & d' & A & B & C). exists (S n'), d'. split; [econstructor; eauto|].
      split; auto. lia.
Qed.

(** If nobody is lost in a configuration where nothing moves, the other is the same, and
    nothing moves in it. *)
Lemma less_stuck d d' : less d d' -> stuck tag_ub eager d ->
  (forall i, procs d !! i <> Some (Fail OSError)) -> procs d' = procs d /\ stuck tag_ub eager d'.
Proof.
  intros H Hst Hno.
  assert (E : procs d' = procs d).
  { apply list_eq. intros i. destruct (procs d !! i) as [p|] eqn:E.
    - destruct (less_lookup _ _ _ _ H E) as [p' E']. rewrite E'.
      destruct (less_procs _ _ H i p p' E E') as [->|[-> _]]; auto. destruct (Hno i E).
    - apply lookup_ge_None. apply lookup_ge_None in E. rewrite <- (less_length _ _ H). auto. }
  split; auto. intros e' Hs. destruct d as [ps ch st], d' as [ps' ch' st']. simpl in *. subst ps'.
  destruct H as [_ H2 H3 _]. simpl in *. subst ch'.
  inversion Hs as [i c0 c1 Hr|ps1 ch1 st1 Hne Hall]; subst.
  - destruct (rank_stepped _ _ _ Hr) as (p & q & ch1 & st1 & Hp & Hl & _). simpl in *.
    assert (G : exists r, local_step tag_ub eager (length ps) i p ch st = Some r).
    { destruct p as [o|e|dst ctx tag m k|src ctx tag k|dst ctx tag m k|k|h k|h v k]; simpl in *; try discriminate.
      - case_decide; eauto.
      - destruct (ch !! _) as [[|]|]; try discriminate; eauto.
      - case_decide; [eauto|discriminate].
      - destruct (st !! h); eauto.
      - eauto. }
    destruct G as [[[q' ch2] st2] G]. apply (Hst (Config (<[i := q']> ps) ch2 st2)).
    apply (step_rank _ _ i). unfold rank_step. simpl. rewrite Hp, G. reflexivity.
  - apply (Hst (Config (past_barrier <$> ps) ch st)). apply step_barrier; auto.
Qed.

Lemma lost_le c : lost c <= length (procs c).
Proof. unfold lost. apply filter_length. Qed.

(** What always ends with all ranks returned when some vectors are there, always ends
    without them, with all ranks returned or some rank failed. *)
Lemma less_ends c c' (Q : config -> Prop) : less c c' -> always_ends tag_ub eager c' Q ->
  exists n, forall k d, steps k c d ->
    k <= n /\ (stuck tag_ub eager d ->
      (exists i, procs d !! i = Some (Fail OSError)) \/ exists d', Q d' /\ procs d' = procs d).
Proof.
  intros H [n Hn]. exists (n + length (procs c')). intros k d Hd.
  destruct (less_steps _ _ _ Hd _ H) as (n' & d' & Hd' & Hl & Hle).
  destruct (Hn _ _ Hd') as (Hk & Hq & _). pose proof (lost_le d). rewrite (less_length _ _ Hl) in H0.
  rewrite (steps_procs_length _ _ _ _ _ Hd') in H0. split; [lia|]. intros Hst.
  destruct (decide (Exists (fun p => is_lost p = true) (procs d))) as [Ex|Nx].
  - left. apply Exists_exists in Ex. destruct Ex as (p & Hp & E). apply elem_of_list_lookup in Hp.
    destruct Hp as [i Hi]. exists i. rewrite Hi. destruct p as [|[]| | | | | |]; try discriminate. reflexivity.
  - right. destruct (less_stuck _ _ Hl Hst) as [E Hst'].
    { intros i Hi. apply Nx. apply Exists_exists. exists (Fail OSError). split; auto.
      eapply elem_of_list_lookup_2; eauto. }
    exists d'. split; auto.
Qed.

(** A rank that reads a handle that is not there fails for ever. *)
Lemma failed_stays n (c d : config) i e : steps n c d -> procs c !! i = Some (Fail e) -> procs d !! i = Some (Fail e).
Proof.
  induction 1 as [c|n c c1 d Hs _ IH]; intros Hi; auto. apply IH.
  inversion Hs as [j c0 c2 Hr|ps ch st Hne Hall]; subst.
  - destruct (rank_stepped _ _ _ Hr) as (p & q & ch1 & st1 & Hp & Hl & ->). simpl.
    rewrite list_lookup_insert_ne; auto. intros ->. rewrite Hi in Hp. injection Hp as <-. discriminate.
  - simpl in *. rewrite Forall_forall in Hall. destruct (Hall _ (elem_of_list_lookup_2 _ _ _ Hi)).
Qed.
Lemma missing_read tr (c d : config) h : trun tag_ub eager tr c d -> store c !! h = None ->
  (forall r, (r, Writes h) ∉ tr) -> (exists r, (r, Reads h) ∈ tr) -> exists i, procs d !! i = Some (Fail OSError).
Proof.
  induction 1 as [c|i p c c' d tr Hp Hr Hrun IH|ps ch st d tr Hne Hall Hrun IH]; intros Hn Hw [r Hin].
  - apply elem_of_nil in Hin. contradiction.
  - destruct (rank_stepped _ _ _ Hr) as (p0 & q & ch1 & st1 & Hp0 & Hl & E). rewrite Hp in Hp0. injection Hp0 as <-.
    assert (D : (exists k, p = Get h k) \/ ~ exists k, p = Get h k).
    { destruct p as [o|e|dst ctx tag m k|src ctx tag k|dst ctx tag m k|k|h0 k|h0 v k];
        try (right; intros [k' E']; discriminate).
      destruct (decide (h0 = h)) as [->|N]; [left; eauto|]. right. intros [k' E']. injection E' as E' _. auto. }
    destruct D as [[k ->]|Hnot].
    + simpl in Hl. rewrite Hn in Hl. injection Hl as <- <- <-.
      destruct (trun_steps _ _ _ _ _ Hrun) as [n Hst]. exists i. eapply failed_stays; eauto. subst c'. simpl.
      apply list_lookup_insert. eapply lookup_lt_Some; eauto.
    + apply IH.
      * subst c'. simpl. destruct p as [o|e|dst ctx tag m k|src ctx tag k|dst ctx tag m k|k|h0 k|h0 v k]; simpl in Hl; try discriminate.
        -- case_decide; injection Hl as <- <- <-; auto.
        -- destruct (chans c !! _) as [[|]|]; try discriminate. injection Hl as <- <- <-. auto.
        -- case_decide; [|discriminate]. injection Hl as <- <- <-. auto.
        -- destruct (store c !! h0); injection Hl as <- <- <-; auto.
        -- injection Hl as <- <- <-. rewrite lookup_insert_ne; auto. intros ->.
           apply (Hw i). apply elem_of_app. left. left.
      * intros r' H'. apply (Hw r'). apply elem_of_app. auto.
      * apply elem_of_app in Hin. destruct Hin as [Hin|Hin]; eauto. exfalso. apply Hnot.
        destruct p; simpl in Hin; try (apply elem_of_nil in Hin; contradiction);
          apply elem_of_list_singleton in Hin; try discriminate. injection Hin as _ ->. eauto.
  - apply IH; auto.
    + intros r' H'. apply (Hw r'). apply elem_of_app. auto.
    + apply elem_of_app in Hin. destruct Hin as [Hin|Hin]; eauto.
      apply elem_of_list_fmap in Hin. destruct Hin as (j & E & _). discriminate.
Qed.
End Less.
