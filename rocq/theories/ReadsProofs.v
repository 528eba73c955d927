(** The handles read and written, the barriers passed, and the sizes of the messages,
    in the parallel routines. *)
From stdpp Require Import gmap list.
From Coq Require Import Lia.
From Verif Require Import Prelude ParallelModel ParallelProofs Spmd SpmdFacts SpmdLock SpmdWrites SpmdTrace
  ReductionsModel InnerProdModel SymmModel LinCombModel ArrayProofs RingProofs TaskProofs InnerProdProofs
  SymmProofs LinCombProofs.
Open Scope nat_scope.

(** ** Lists *)

(** [l] repeated [n] times. *)
Definition times {A} (n : nat) (l : list A) : list A := concat (replicate n l).

Lemma flat_map_const {A B} (l : list B) (xs : list A) : flat_map (fun _ => l) xs = times (length xs) l.
Proof. induction xs as [|x xs IH]; simpl; auto. rewrite IH. reflexivity. Qed.

Lemma py_nth_ok {A} (l : list A) i a d : py_nth l i = Ok a -> a = nth i l d.
Proof.
  unfold py_nth. destruct (nth_error l i) as [b|] eqn:E; [|discriminate]. intros [= <-].
  symmetry. apply nth_error_nth. exact E.
Qed.

Lemma times_app {A} n m (l : list A) : times (n + m) l = times n l ++ times m l.
Proof. induction n as [|n IH]; auto. unfold times in *. simpl. rewrite IH. apply app_assoc. Qed.
Lemma times_times {A} n m (l : list A) : times n (times m l) = times (n * m) l.
Proof. induction n as [|n IH]; auto. simpl. rewrite times_app, <- IH. reflexivity. Qed.

Lemma nths_slice (l : list loc) a b : b <= length l ->
  slice a b l = map (fun j => nth j l 0) (seq a (b - a)).
Proof.
  intros H. destruct (decide (a <= b)) as [L|L].
  - replace b with (a + (b - a)) at 1 by lia. apply (slice_nth (0 : loc)). lia.
  - replace (b - a) with 0 by lia. apply slice_empty. lia.
Qed.
Lemma slice_short {A} a b (l : list A) : length (slice a b l) <= b - a.
Proof. unfold slice. apply firstn_le_length. Qed.
Lemma nths_all (l : list loc) : map (fun j => nth j l 0) (seq 0 (length l)) = l.
Proof. apply map_nth_seq. Qed.

(** The largest number of tasks of a rank. *)
Lemma largest_share P n : 0 < P ->
  list_maximum (map length (find_assignments P (seq 0 n) None)) = ceil_div n P.
Proof.
  intros HP.
  assert (U : forall a, In a (find_assignments P (seq 0 n) None) -> length a <= ceil_div n P).
  { intros a Ha. pose proof (find_assignments_sizes P (seq 0 n) a HP Ha) as S. rewrite seq_length in S.
    unfold ceil_div. pose proof (Nat.div_mod n P ltac:(lia)) as D.
    pose proof (Nat.mod_upper_bound n P ltac:(lia)).
    destruct S as [->|[-> S]].
    - apply Nat.div_le_mono; lia.
    - apply Nat.div_le_lower_bound; [lia|]. nia. }
  apply Nat.le_antisymm.
  - clear -U. induction (find_assignments P (seq 0 n) None) as [|a l IH]; simpl; [lia|].
    apply Nat.max_lub; [apply U; left; auto|]. apply IH. intros b Hb. apply U. right. auto.
  - unfold ceil_div. apply Nat.lt_succ_r. apply Nat.div_lt_upper_bound; [lia|].
    enough (n <= P * list_maximum (map length (find_assignments P (seq 0 n) None))) by lia.
    pose proof (find_assignments_concat_default P (seq 0 n) HP) as C.
    pose proof (find_assignments_length P (seq 0 n) None) as L.
    apply (f_equal length) in C. rewrite seq_length in C.
    assert (G : forall l : list (list nat), length (concat l) <= length l * list_maximum (map length l)).
    { clear. induction l as [|a l IH]; simpl; [lia|]. rewrite app_length. nia. }
    specialize (G (find_assignments P (seq 0 n) None)). rewrite C, L in G. exact G.
Qed.

(** Observed: reads, writes and barriers, each in some way. *)
Definition watch {M E} (rd wr : loc -> list E) (bar : list E) (e : event M) : list E :=
  match e with Reads h => rd h | Writes h => wr h | Passes => bar | Sends _ _ => [] end.

Section Reads.
Context {V K O : Type}.
Context (P tag_ub : nat).
Notation msg := (msg V K).
Notation prog := (prog msg V O).
Context (HP : 0 < P).

Context {E : Type} (rd wr : loc -> list E) (bar : list E).
Notation watch := (@watch msg E rd wr bar).
(** A message carries at most one vector. *)
Definition one_vector (m : msg) : Prop := match m with MVecs vs _ => length vs <= 1 | _ => True end.

Notation pemits := (@pemits msg V O E watch one_vector).
Notation any := (fun _ => True).

Lemma emits_send d c t m : one_vector m -> pemits [] any (@send msg V O d c t m).
Proof.
  intros H. apply (pemits_bind_nil _ _ _ any); [apply (pemits_isend watch one_vector d c t m H)|].
  intros _ _. apply pemits_wait.
Qed.

Definition bars : list E := if 1 <? P then bar else [].
Lemma emits_barrier : pemits bars any (@barrier msg V O P).
Proof.
  unfold barrier, bars. destruct (1 <? P); [apply (pemits_barrier watch one_vector)|apply pemits_ret; exact I].
Qed.

Lemma emits_allreduce op r m : (forall x y, one_vector x -> one_vector y -> one_vector (op x y)) ->
  one_vector m -> pemits [] one_vector (@allreduce msg V O P tag_ub op r m).
Proof.
  intros Hop Hm.
  assert (L : forall fuel mask x, one_vector x -> pemits [] one_vector (@reduce_loop msg V O P tag_ub op fuel mask r x)).
  { induction fuel as [|fuel IH]; intros mask x Hx; simpl; [apply pemits_ret; auto|].
    destruct (mask <? P); [|apply pemits_ret; auto].
    apply (pemits_bind_nil _ _ _ one_vector); [|intros; apply IH; auto].
    destruct (_ =? 0).
    - destruct (_ <? P); [|apply pemits_ret; auto].
      apply (pemits_bind_nil _ _ _ one_vector); [apply pemits_recv|intros; apply pemits_ret; auto].
    - apply (pemits_bind_nil _ _ _ any); [apply emits_send; auto|intros; apply pemits_ret; auto]. }
  unfold allreduce, reduce.
  apply (pemits_bind_nil _ _ _ (fun o => match o with Some x => one_vector x | None => True end)).
  - apply (pemits_bind_nil _ _ _ one_vector); [apply L; auto|]. intros x Hx.
    apply (pemits_bind_nil _ _ _ one_vector); [apply pemits_ret; auto|]. intros y Hy.
    apply pemits_ret. destruct (r =? 0); auto.
  - intros o Ho. unfold mpi_bcast. apply pemits_for_nil; [destruct o; auto|].
    intros j s _ Hs. destruct (j =? 0); [apply pemits_ret; auto|].
    destruct (r =? 0).
    { apply (pemits_bind_nil _ _ _ any); [apply emits_send; auto|intros; apply pemits_ret; auto]. }
    destruct (r =? j); [apply pemits_recv|apply pemits_ret; auto].
Qed.

Lemma emits_sum add r a : pemits [] any (@sum_over_procs V K O P tag_ub add r a).
Proof.
  unfold sum_over_procs. destruct (1 <? P); [|apply pemits_ret; exact I].
  apply (pemits_bind_nil _ _ _ one_vector); [|intros; apply pemits_lift; auto].
  apply emits_allreduce; [|exact I]. intros [] [] Hx Hy; exact Hx || exact I.
Qed.

Definition small (pl : list V * list nat) : Prop := length (fst pl) <= 1.

Lemma emits_swap r dst src pl : small pl -> pemits [] small (@swap V K O P r dst src pl).
Proof.
  intros H. unfold swap.
  apply (pemits_bind_nil _ _ _ any); [exact (pemits_isend watch one_vector dst 0 (pair_tag P r dst) (MVecs (fst pl) (snd pl)) H)|].
  intros _ _. apply (pemits_bind_nil _ _ _ one_vector); [apply pemits_recv|]. intros x Hx.
  apply (pemits_bind_nil _ _ _ any); [apply pemits_wait|]. intros _ _. apply pemits_lift.
  intros a Ea. destruct x; try discriminate. injection Ea as <-. exact Hx.
Qed.

Lemma emits_ring {T} l r fetch compute (acc : T) : pemits l small fetch ->
  pemits (l ++ times (P - 1) bars) any (@ring V K O P T r fetch compute acc).
Proof.
  intros Hf. unfold ring. rewrite <- (app_nil_r (l ++ _)).
  apply (pemits_bind _ _ _ _ (fun _ => True)); [|intros [a b] _; apply pemits_ret; exact I].
  apply (pemits_mono _ _ _ (fun s => small (snd s))); [auto|].
  apply (pemits_eq _ _ (flat_map (fun p => if p =? 0 then l else bars) (seq 0 P))).
  { destruct P as [|p]; [lia|]. cbn [seq flat_map]. simpl. rewrite Nat.sub_0_r. f_equal.
    assert (G : forall n a, 0 < a -> flat_map (fun p => if p =? 0 then l else bars) (seq a n) = times n bars).
    { induction n as [|n IH]; intros a Ha; simpl; auto. destruct a; [lia|]. simpl. unfold times. simpl.
      f_equal. apply IH. lia. }
    apply G. lia. }
  apply pemits_for; [apply Nat.le_0_l|]. intros p s Hp Hs.
  rewrite <- (app_nil_r (if p =? 0 then l else bars)).
  apply (pemits_bind _ _ _ _ small).
  - destruct (p =? 0); auto.
    apply (pemits_bind_nil _ _ _ small); [apply emits_swap; exact Hs|]. intros x Hx.
    rewrite <- (app_nil_r bars).
    apply (pemits_bind _ _ _ _ any); [apply emits_barrier|]. intros _ _. apply pemits_ret; auto.
  - intros x Hx. apply (pemits_bind_nil _ _ _ any); [apply pemits_lift; auto|]. intros y _.
    apply pemits_ret. exact Hx.
Qed.

Lemma emits_slice hs a b :
  pemits (flat_map rd (slice a b hs)) (fun vs => length vs = length (slice a b hs)) (@get_slice V K O hs a b).
Proof.
  unfold get_slice. apply (pemits_map watch one_vector rd). intros h _. apply (pemits_get watch one_vector h).
Qed.

(** Reading the first handle of a list, if there is one. *)
Lemma emits_first {A} (hs : list loc) l (Q : A -> Prop) (k : loc -> prog A) :
  (hs <> [] -> pemits l Q (k (nth 0 hs 0))) -> pemits l Q (bind (lift (py_nth hs 0)) k).
Proof.
  intros H. destruct hs as [|h hs]; [apply pemits_fail|]. apply H. discriminate.
Qed.

(** ** Inner products *)

(** The reads of chunk [g] of rank [r]'s share of [hs]. *)
Definition chunk_trace (hs : list loc) (r g c : nat) : list E :=
  let b := chunk_bounds (rank_tasks P (length hs) r) g c in flat_map rd (slice (fst b) (snd b) hs).
(** Reading the vectors of [hs] one at a time and passing them round. *)
Definition pass_trace (hs : list loc) (r : nat) : list E :=
  flat_map (fun h => chunk_trace hs r h 1 ++ times (P - 1) bars) (seq 0 (ceil_div (length hs) P)).

Definition core_trace (per_proc r : nat) (rows cols : list loc) : list E :=
  flat_map rd [nth 0 rows 0; nth 0 cols 0; nth 0 rows 0] ++
  flat_map (fun g => chunk_trace rows r g (per_proc - 1) ++ pass_trace cols r)
    (seq 0 (ceil_div (ceil_div (length rows) P) (per_proc - 1))).

Lemma emits_pass {T} hs r compute (acc : T) : r < P ->
  pemits (pass_trace hs r) any
    (for_loop (seq 0 (ceil_div (list_maximum (map length (find_assignments P (seq 0 (length hs)) None))) 1)) acc
      (fun g acc =>
        let bounds := chunk_bounds (nth r (find_assignments P (seq 0 (length hs)) None) []) g 1 in
        ring P r
          (vs <- @get_slice V K O hs (fst bounds) (snd bounds) ;;
           ret (vs, seq (fst bounds) (snd bounds - fst bounds)))
          compute acc)).
Proof.
  intros Hr. rewrite largest_share by auto. rewrite tasks_nth by auto. cbn [Nat.add].
  fold (rank_tasks P (length hs) r). rewrite ceil_div_1.
  apply pemits_for; [exact I|]. intros h a' _ _. cbv zeta. apply emits_ring.
  unfold chunk_trace. rewrite <- (app_nil_r (flat_map _ _)).
  eapply pemits_bind; [apply emits_slice|]. intros vs Hvs. apply pemits_ret.
  unfold small. cbn [fst]. rewrite Hvs. etransitivity; [apply slice_short|].
  unfold chunk_bounds. destruct (rank_tasks P (length hs) r); cbn [fst snd]; lia.
Qed.

Lemma emits_core zero add store_as ip per_node per_proc N r rows cols : r < P -> 2 <= per_proc ->
  pemits (core_trace per_proc r rows cols) any
    (@ip_array_core V K O P tag_ub zero add store_as ip per_node per_proc N r rows cols).
Proof.
  intros Hr Hpp. unfold ip_array_core, core_trace.
  apply (pemits_bind _ _ _ _ any).
  { unfold burn. apply emits_first. intros Nr. cbn [flat_map].
    apply (pemits_bind _ _ _ _ any); [apply (pemits_get watch)|]. intros _ _.
    apply emits_first. intros Nc.
    apply (pemits_bind _ _ _ _ any); [apply (pemits_get watch)|]. intros w _.
    apply (pemits_bind _ _ _ _ any); [apply (pemits_get watch)|]. intros v _.
    destruct (_ =? _); [apply pemits_fail|apply pemits_ret; exact I]. }
  intros like _. rewrite <- (app_nil_r (flat_map _ (seq _ _))).
  apply (pemits_bind _ _ _ _ any); [|intros a _; apply emits_sum].
  rewrite largest_share by auto.
  apply pemits_for; [exact I|]. intros g a _ _. cbv zeta.
  apply (pemits_bind _ _ _ _ any).
  { rewrite tasks_nth by auto. cbn [Nat.add]. eapply pemits_mono; [|apply emits_slice]. auto. }
  intros row_vecs _. apply emits_pass; auto.
Qed.

Definition ip_trace (per_proc r : nat) (rows cols : list loc) : list E :=
  (if length cols <? length rows then core_trace per_proc r cols rows else core_trace per_proc r rows cols) ++ bars.

Lemma emits_ip_array zero add conj store_as ip per_node per_proc N r rows cols : r < P -> 2 <= per_proc ->
  pemits (ip_trace per_proc r rows cols) any
    (@ip_array V K O P tag_ub zero add conj store_as ip per_node per_proc N r rows cols).
Proof.
  intros Hr Hpp. unfold ip_array, ip_trace. destruct ip as [ip|]; [|apply pemits_fail].
  apply (pemits_bind _ _ _ _ any).
  - destruct (length cols <? length rows).
    + rewrite <- (app_nil_r (core_trace _ _ _ _)).
      apply (pemits_bind _ _ _ _ any); [apply emits_core; auto|]. intros; apply pemits_ret; exact I.
    + apply emits_core; auto.
  - intros a _. rewrite <- (app_nil_r bars).
    apply (pemits_bind _ _ _ _ any); [apply emits_barrier|]. intros; apply pemits_ret; exact I.
Qed.

(** ** Linear combinations *)

Definition put_trace (sums : list loc) (r g c : nat) : list E :=
  let b := chunk_bounds (rank_tasks P (length sums) r) g c in
  flat_map (fun j => wr (nth j sums 0)) (seq (fst b) (snd b - fst b)).

Definition lin_trace (per_proc r : nat) (sums basis : list loc) : list E :=
  flat_map rd [nth 0 basis 0; nth 0 basis 0] ++
  flat_map (fun g => pass_trace basis r ++ put_trace sums r g (per_proc - 1))
    (seq 0 (ceil_div (ceil_div (length sums) P) (per_proc - 1))) ++
  bars.

Lemma emits_put_sums sums a b L :
  pemits (flat_map (fun j => wr (nth j sums 0)) (seq a (b - a))) any (@put_sums V K O sums a b L).
Proof.
  unfold put_sums. apply pemits_for; [exact I|]. intros j [] _ _.
  apply (pemits_bind_nil _ _ _ (fun h => h = nth j sums 0)).
  { apply pemits_lift. intros h Hh. apply (py_nth_ok sums j h 0 Hh). }
  intros h ->.
  apply (pemits_bind_nil _ _ _ any); [apply pemits_lift; auto|]. intros [v|] _; [|apply pemits_fail].
  apply (pemits_put watch one_vector).
Qed.

Lemma emits_lin_combine vadd smul per_node per_proc N r sums basis a idx : r < P -> 2 <= per_proc ->
  pemits (lin_trace per_proc r sums basis) any
    (@lin_combine V K O P vadd smul per_node per_proc N r sums basis a idx).
Proof.
  intros Hr Hpp. unfold lin_combine, lin_core, lin_trace.
  apply (pemits_bind_nil _ _ _ any); [apply pemits_lift; auto|]. intros coeff _.
  apply emits_first. intros Nb. cbn [flat_map]. rewrite app_nil_r, <- app_assoc.
  apply (pemits_bind _ _ _ _ any); [apply (pemits_get watch)|]. intros _ _.
  apply (pemits_bind _ _ _ _ any); [apply (pemits_get watch)|]. intros _ _.
  apply (pemits_bind_nil _ _ _ any); [destruct (_ =? _); [apply pemits_fail|apply pemits_ret; exact I]|]. intros _ _.
  apply (pemits_bind _ _ _ _ any); [|intros; apply emits_barrier].
  rewrite (largest_share P (length sums)) by auto.
  apply pemits_for; [exact I|]. intros g [] _ _. cbv zeta.
  apply (pemits_bind _ _ _ _ any); [apply emits_pass; auto|].
  intros L _. rewrite (tasks_nth P) by auto. cbn [Nat.add]. apply emits_put_sums.
Qed.

(** ** Symmetric inner products *)

(** Handles [s, s+c) belonging to rank [r]. *)
Definition share (hs : list loc) (s c r : nat) : list loc :=
  map (fun j => nth j hs 0) (seq (s + tstart P c r) (tlen P c r)).

(** The barriers of the exchange of the rows [s, e). *)
Definition sets_trace (s e : nat) : list E :=
  let tasks := find_assignments P (seq s (e - s)) None in
  times (ceil_div (length (filter (fun t => busy t = true) tasks) - 1) 2 *
         ceil_div (list_maximum (map length tasks)) 1) bars.

Definition symm_trace (per_proc r : nat) (vecs : list loc) : list E :=
  flat_map rd [nth 0 vecs 0; nth 0 vecs 0] ++
  flat_map (fun s =>
    let e := Nat.min (length vecs) (s + (per_proc - 1) * P) in
    flat_map rd (share vecs s (e - s) r) ++
    sets_trace s e ++
    flat_map (fun q => flat_map rd (share vecs q (Nat.min (q + P) (length vecs) - q) r) ++ times (P - 1) bars)
      (py_range e (length vecs) P))
    (py_range 0 (length vecs) ((per_proc - 1) * P)) ++
  bars.

Lemma emits_share vecs s c r : r < P -> s + c <= length vecs ->
  let t := seq (s + tstart P c r) (tlen P c r) in
  pemits (flat_map rd (share vecs s c r)) (fun vs => length vs = tlen P c r)
    (if 0 <? length t then @get_slice V K O vecs (first_of t) (last_of t + 1) else ret []).
Proof.
  intros Hr Hs. cbv zeta. rewrite seq_length. pose proof (tend_le P c r HP Hr) as T.
  destruct (Nat.ltb_spec 0 (tlen P c r)) as [L|L].
  - rewrite first_of_seq, last_of_seq by auto. unfold share.
    assert (Es : slice (s + tstart P c r) (s + tstart P c r + tlen P c r) vecs =
                map (fun j => nth j vecs 0) (seq (s + tstart P c r) (tlen P c r))).
    { rewrite nths_slice by lia. f_equal. f_equal. lia. }
    rewrite <- Es. eapply pemits_mono; [|apply emits_slice]. cbv beta. intros vs ->.
    rewrite Es, map_length, seq_length. reflexivity.
  - unfold share. assert (tlen P c r = 0) as -> by lia. apply pemits_ret. reflexivity.
Qed.

Lemma emits_sets store_as ip like r active max tasks row_vecs a : length row_vecs = length tasks ->
  pemits (times (ceil_div (active - 1) 2 * max) bars) any
    (@square_sets V K O P store_as ip like r active max tasks row_vecs a).
Proof.
  intros Hl. unfold square_sets.
  apply (pemits_eq _ _ (flat_map (fun _ : nat => flat_map (fun _ : nat => bars) (seq 0 max))
                          (seq 0 (ceil_div (active - 1) 2)))).
  { rewrite !flat_map_const, !seq_length. apply times_times. }
  apply pemits_for; [exact I|]. intros t a1 _ _. cbv zeta.
  apply pemits_for; [exact I|]. intros q a2 _ _.
  apply (pemits_bind_nil _ _ _ any).
  - destruct (0 <? length tasks); [|apply pemits_ret; exact I].
    apply (pemits_bind_nil _ _ _ small); [|intros; apply pemits_lift; auto].
    apply emits_swap. unfold small. cbn [fst]. etransitivity; [apply slice_short|]. lia.
  - intros a3 _. rewrite <- (app_nil_r bars).
    apply (pemits_bind _ _ _ _ any); [apply emits_barrier|]. intros; apply pemits_ret; exact I.
Qed.

Lemma tlen_small c r : r < P -> c <= P -> tlen P c r <= 1.
Proof.
  intros Hr Hc. pose proof (tlen_le_max P 0 c r HP Hr) as M. rewrite largest_share in M by auto.
  assert (ceil_div c P <= 1); [|lia]. unfold ceil_div.
  apply Nat.lt_succ_r. apply Nat.div_lt_upper_bound; lia.
Qed.

Lemma emits_symm zero add conj is_zero store_as ip per_node per_proc N r vecs : r < P -> 2 <= per_proc ->
  pemits (symm_trace per_proc r vecs) any
    (@symm_array V K O P tag_ub zero add conj is_zero store_as ip per_node per_proc N r vecs).
Proof.
  intros Hr Hpp. unfold symm_array, symm_trace. destruct ip as [ip|]; [|apply pemits_fail].
  apply emits_first. intros Nv. cbn [flat_map]. rewrite app_nil_r, <- app_assoc.
  apply (pemits_bind _ _ _ _ any); [apply (pemits_get watch)|]. intros _ _.
  apply (pemits_bind _ _ _ _ any); [apply (pemits_get watch)|]. intros v _.
  apply (pemits_bind_nil _ _ _ any); [destruct (_ =? _); [apply pemits_fail|apply pemits_ret; exact I]|]. intros _ _.
  cbv zeta.
  apply (pemits_bind _ _ _ _ any).
  2:{ intros a _. apply (pemits_bind_nil _ _ _ any); [apply emits_sum|]. intros b _. rewrite <- (app_nil_r bars).
      apply (pemits_bind _ _ _ _ any); [apply emits_barrier|]. intros; apply pemits_ret; exact I. }
  apply pemits_for; [exact I|]. intros s a Hs _. unfold row_chunk. cbv zeta.
  set (e := Nat.min (length vecs) (s + (per_proc - 1) * P)).
  assert (Hsl : s < length vecs).
  { apply elem_of_list_lookup in Hs. destruct Hs as [j Hj]. apply py_range_lookup in Hj.
    destruct Hj as [-> Hj]. apply ceil_div_mul in Hj; nia. }
  rewrite tasks_nth by auto.
  eapply (pemits_bind _ _ _ _ (fun vs => length vs = tlen P (e - s) r)).
  { apply emits_share; auto. unfold e. lia. }
  intros row_vecs Hrv.
  apply (pemits_bind_nil _ _ _ any).
  { destruct (0 <? _); [|apply pemits_ret; exact I]. destruct (consecutive _); [|apply pemits_fail].
    apply pemits_lift. auto. }
  intros a1 _. apply (pemits_bind _ _ _ _ any).
  { apply emits_sets. rewrite seq_length. exact Hrv. }
  intros a2 _. unfold rectangle. apply pemits_for; [exact I|]. intros q a3 Hq _. cbv zeta.
  assert (Hql : q < length vecs).
  { apply elem_of_list_lookup in Hq. destruct Hq as [j Hj]. apply py_range_lookup in Hj.
    destruct Hj as [-> Hj]. apply ceil_div_mul in Hj; nia. }
  rewrite tasks_nth by auto. apply emits_ring.
  set (c := Nat.min (q + P) (length vecs) - q).
  pose proof (emits_share vecs q c r Hr ltac:(unfold c; lia)) as S. cbv zeta in S.
  destruct (0 <? length (seq (q + tstart P c r) (tlen P c r))) eqn:E'.
  - rewrite <- (app_nil_r (flat_map rd _)). eapply pemits_bind; [exact S|]. intros vs Hvs. apply pemits_ret.
    unfold small. cbn [fst]. rewrite Hvs. apply tlen_small; auto. unfold c. lia.
  - intros l' k Hk. apply (S l' (fun _ => k ([], []))). intros vs _. apply Hk. unfold small. simpl. lia.
Qed.
End Reads.

Section Totals.
Context (P : nat) (HP : 0 < P).

Lemma chunks_of_rank (hs : list loc) r c G : r < P -> 0 < c ->
  ceil_div (length hs) P <= G * c ->
  flat_map (fun g => let b := chunk_bounds (rank_tasks P (length hs) r) g c in slice (fst b) (snd b) hs) (seq 0 G) =
  map (fun j => nth j hs 0) (rank_tasks P (length hs) r).
Proof.
  intros Hr Hc HG.
  pose proof (tlen_le_max P 0 (length hs) r HP Hr) as M. rewrite largest_share in M by auto.
  pose proof (tend_le P (length hs) r HP Hr) as T.
  pose proof (chunks_concat (tstart P (length hs) r) (tlen P (length hs) r) c G) as C.
  rewrite Nat.min_r in C by lia. fold (rank_tasks P (length hs) r) in C.
  apply (f_equal (map (fun j => nth j hs 0))) in C. rewrite <- C. clear C.
  rewrite map_flat_map. apply flat_map_ext_in. intros g _. cbv zeta.
  destruct (chunk_bounds_spec (tstart P (length hs) r) (tlen P (length hs) r) g c) as (H1 & H2 & _).
  fold (rank_tasks P (length hs) r) in H1, H2.
  apply nths_slice. lia.
Qed.

(** ** The reads only *)

Definition once (h : loc) : list loc := [h].
Definition never (h : loc) : list loc := [].

Lemma flat_map_once (l : list loc) : flat_map once l = l.
Proof. unfold once. rewrite flat_map_single. apply map_id. Qed.
Lemma times_nil {A} n : times n ([] : list A) = [].
Proof. induction n; auto. Qed.
Lemma no_bars : bars P ([] : list loc) = [].
Proof. unfold bars. destruct (1 <? P); reflexivity. Qed.

Definition core_reads (per_proc r : nat) (rows cols : list loc) : list loc :=
  [nth 0 rows 0; nth 0 cols 0; nth 0 rows 0] ++
  flat_map (fun g =>
    let b := chunk_bounds (rank_tasks P (length rows) r) g (per_proc - 1) in
    slice (fst b) (snd b) rows ++
    map (fun j => nth j cols 0) (rank_tasks P (length cols) r))
    (seq 0 (ceil_div (ceil_div (length rows) P) (per_proc - 1))).
Definition ip_reads (per_proc r : nat) (rows cols : list loc) : list loc :=
  if length cols <? length rows then core_reads per_proc r cols rows else core_reads per_proc r rows cols.
Definition lin_reads (per_proc r : nat) (sums basis : list loc) : list loc :=
  [nth 0 basis 0; nth 0 basis 0] ++
  flat_map (fun _ : nat => map (fun j => nth j basis 0) (rank_tasks P (length basis) r))
    (seq 0 (ceil_div (ceil_div (length sums) P) (per_proc - 1))).
Notation share := (share P).
Definition symm_reads (per_proc r : nat) (vecs : list loc) : list loc :=
  [nth 0 vecs 0; nth 0 vecs 0] ++
  flat_map (fun s =>
    let e := Nat.min (length vecs) (s + (per_proc - 1) * P) in
    share vecs s (e - s) r ++
    flat_map (fun q => share vecs q (Nat.min (q + P) (length vecs) - q) r) (py_range e (length vecs) P))
    (py_range 0 (length vecs) ((per_proc - 1) * P)).

Lemma pass_reads hs r : r < P ->
  pass_trace P once [] hs r = map (fun j => nth j hs 0) (rank_tasks P (length hs) r).
Proof.
  intros Hr. rewrite <- (chunks_of_rank hs r 1 (ceil_div (length hs) P)) by (auto; lia).
  apply flat_map_ext_in. intros g _. rewrite no_bars, times_nil, app_nil_r.
  unfold chunk_trace. cbv zeta. apply flat_map_once.
Qed.
Lemma core_trace_reads per_proc r rows cols : r < P ->
  core_trace P once [] per_proc r rows cols = core_reads per_proc r rows cols.
Proof.
  intros Hr. unfold core_trace, core_reads. rewrite flat_map_once. f_equal.
  apply flat_map_ext_in. intros g _. cbv zeta. rewrite pass_reads by auto. f_equal. apply flat_map_once.
Qed.
Lemma ip_trace_reads per_proc r rows cols : r < P ->
  ip_trace P once [] per_proc r rows cols = ip_reads per_proc r rows cols.
Proof.
  intros Hr. unfold ip_trace, ip_reads. rewrite no_bars, app_nil_r.
  destruct (_ <? _); apply core_trace_reads; auto.
Qed.
Lemma lin_trace_reads per_proc r sums basis : r < P ->
  lin_trace P once never [] per_proc r sums basis = lin_reads per_proc r sums basis.
Proof.
  intros Hr. unfold lin_trace, lin_reads. rewrite flat_map_once, no_bars, app_nil_r. f_equal.
  apply flat_map_ext_in. intros g _. rewrite pass_reads by auto.
  unfold put_trace, never. cbv zeta. rewrite flat_map_const, times_nil. apply app_nil_r.
Qed.
Lemma symm_trace_reads per_proc r vecs :
  symm_trace P once [] per_proc r vecs = symm_reads per_proc r vecs.
Proof.
  unfold symm_trace, symm_reads. rewrite flat_map_once, no_bars, app_nil_r. f_equal.
  apply flat_map_ext_in. intros s _. cbv zeta. rewrite flat_map_once. f_equal.
  unfold sets_trace. cbv zeta. rewrite no_bars, times_nil. simpl.
  apply flat_map_ext_in. intros q _. rewrite times_nil, app_nil_r. apply flat_map_once.
Qed.

(** ** All ranks together *)

Lemma all_ranks_tasks (hs : list loc) :
  flat_map (fun r => map (fun j => nth j hs 0) (rank_tasks P (length hs) r)) (seq 0 P) = hs.
Proof.
  rewrite <- map_flat_map. unfold rank_tasks. rewrite tasks_concat by auto. apply nths_all.
Qed.

Lemma all_ranks_share hs s c : s + c <= length hs ->
  flat_map (fun r => share hs s c r) (seq 0 P) = slice s (s + c) hs.
Proof.
  intros H. unfold share. rewrite <- map_flat_map. rewrite nths_slice by lia.
  replace (s + c - s) with c by lia. f_equal.
  pose proof (tasks_concat P c HP) as T. apply (f_equal (map (Nat.add s))) in T.
  rewrite map_flat_map in T. rewrite <- seq_shift_map in T. rewrite <- T.
  apply flat_map_ext_in. intros r _. rewrite (seq_shift_map (s + _)), (seq_shift_map (tstart P c r)), map_map.
  apply map_ext. intros; lia.
Qed.

Lemma all_core_reads per_proc rows cols : 2 <= per_proc ->
  flat_map (fun r => core_reads per_proc r rows cols) (seq 0 P) ≡ₚ
  times P [nth 0 rows 0; nth 0 cols 0; nth 0 rows 0] ++ rows ++
  times (ceil_div (ceil_div (length rows) P) (per_proc - 1)) cols.
Proof.
  intros Hpp. unfold core_reads. rewrite flat_map_app_fun.
  rewrite flat_map_const, seq_length. apply Permutation_app_head.
  rewrite (flat_map_perm _ (fun r =>
     map (fun j => nth j rows 0) (rank_tasks P (length rows) r) ++
     flat_map (fun _ : nat => map (fun j => nth j cols 0) (rank_tasks P (length cols) r))
       (seq 0 (ceil_div (ceil_div (length rows) P) (per_proc - 1))))).
  - rewrite flat_map_app_fun, all_ranks_tasks. apply Permutation_app_head.
    rewrite flat_map_swap. rewrite (flat_map_ext_in _ (fun _ => cols)).
    + rewrite flat_map_const, seq_length. reflexivity.
    + intros g _. apply all_ranks_tasks.
  - intros r Hr. apply elem_of_seq in Hr. rewrite flat_map_app_fun. apply Permutation_app_tail.
    rewrite chunks_of_rank; auto; [lia..|].
    pose proof (ceil_div_ge (ceil_div (length rows) P) (per_proc - 1) ltac:(lia)). lia.
Qed.

Lemma all_lin_reads per_proc sums basis :
  flat_map (fun r => lin_reads per_proc r sums basis) (seq 0 P) ≡ₚ
  times P [nth 0 basis 0; nth 0 basis 0] ++
  times (ceil_div (ceil_div (length sums) P) (per_proc - 1)) basis.
Proof.
  unfold lin_reads. rewrite flat_map_app_fun.
  rewrite flat_map_const, seq_length. apply Permutation_app_head.
  rewrite flat_map_swap. rewrite (flat_map_ext_in _ (fun _ => basis)).
  - rewrite flat_map_const, seq_length. reflexivity.
  - intros g _. apply all_ranks_tasks.
Qed.

(** Consecutive blocks of [c]. *)
Lemma blocks (hs : list loc) a c m : a <= length hs ->
  flat_map (fun q => slice q (Nat.min (q + c) (length hs)) hs) (map (fun k => a + k * c) (seq 0 m)) =
  slice a (Nat.min (a + m * c) (length hs)) hs.
Proof.
  intros Ha. induction m as [|m IH].
  - cbn [seq map flat_map]. rewrite slice_empty by lia. reflexivity.
  - rewrite seq_S_end, map_app, flat_map_app, IH. cbn [map flat_map Nat.add]. rewrite app_nil_r.
    rewrite !nths_slice by lia. rewrite <- map_app. f_equal.
    destruct (decide (a + m * c <= length hs)) as [L|L].
    + replace (Nat.min (a + S m * c) (length hs) - a)
        with ((Nat.min (a + m * c) (length hs) - a) + (Nat.min (a + m * c + c) (length hs) - (a + m * c))) by nia.
      rewrite seq_app. f_equal. f_equal. lia.
    + replace (Nat.min (a + m * c + c) (length hs) - (a + m * c)) with 0 by lia.
      rewrite app_nil_r. f_equal. nia.
Qed.

Lemma blocks_range (hs : list loc) a c : 0 < c -> a <= length hs ->
  flat_map (fun q => slice q (Nat.min (q + c) (length hs)) hs) (py_range a (length hs) c) = slice a (length hs) hs.
Proof.
  intros Hc Ha. unfold py_range. rewrite blocks by auto.
  pose proof (ceil_div_ge (length hs - a) c Hc). rewrite Nat.min_r by lia. reflexivity.
Qed.

Lemma slice_filter (hs : list loc) a :
  slice a (length hs) hs = flat_map (fun i => if a <=? i then [nth i hs 0] else []) (seq 0 (length hs)).
Proof.
  rewrite nths_slice by lia.
  destruct (decide (a <= length hs)) as [L|L].
  - replace (seq 0 (length hs)) with (seq 0 a ++ seq a (length hs - a))
      by (rewrite <- seq_app; f_equal; lia).
    rewrite flat_map_app.
    rewrite (flat_map_ext_in _ (fun _ => []) (seq 0 a)).
    2:{ intros i Hi. apply elem_of_seq in Hi. rewrite (proj2 (Nat.leb_gt a i)) by lia. reflexivity. }
    rewrite (flat_map_ext_in _ (fun i => [nth i hs 0]) (seq a _)).
    2:{ intros i Hi. apply elem_of_seq in Hi. rewrite (proj2 (Nat.leb_le a i)) by lia. reflexivity. }
    rewrite flat_map_single. rewrite flat_map_const. unfold times.
    assert (Z : concat (replicate (length (seq 0 a)) ([] : list loc)) = []) by (induction (length (seq 0 a)); auto).
    rewrite Z. reflexivity.
  - replace (length hs - a) with 0 by lia. symmetry.
    rewrite (flat_map_ext_in _ (fun _ => [])).
    2:{ intros i Hi. apply elem_of_seq in Hi. rewrite (proj2 (Nat.leb_gt a i)) by lia. reflexivity. }
    rewrite flat_map_const. unfold times. induction (length (seq 0 (length hs))); auto.
Qed.

Lemma prefix_count {A} (x : A) c i m : 0 < c -> i / c < m ->
  flat_map (fun k => if k * c <=? i then [x] else []) (seq 0 m) = replicate (i / c + 1) x.
Proof.
  intros Hc Hm. replace m with ((i / c + 1) + (m - (i / c + 1))) by lia.
  rewrite seq_app, flat_map_app.
  pose proof (Nat.div_mod i c ltac:(lia)). pose proof (Nat.mod_upper_bound i c ltac:(lia)).
  rewrite (flat_map_ext_in _ (fun _ => [x]) (seq 0 _)).
  2:{ intros k Hk. apply elem_of_seq in Hk. rewrite (proj2 (Nat.leb_le _ i)) by nia. reflexivity. }
  rewrite (flat_map_ext_in _ (fun _ => []) (seq (0 + _) _)).
  2:{ intros k Hk. apply elem_of_seq in Hk. rewrite (proj2 (Nat.leb_gt _ i)) by nia. reflexivity. }
  rewrite !flat_map_const, !seq_length. unfold times.
  assert (Z : forall n, concat (replicate n ([] : list A)) = []) by (induction n; auto).
  rewrite Z, app_nil_r. induction (i / c + 1) as [|n IH]; simpl; auto. rewrite IH. reflexivity.
Qed.

Lemma all_symm_reads per_proc vecs : 2 <= per_proc ->
  flat_map (fun r => symm_reads per_proc r vecs) (seq 0 P) ≡ₚ
  times P [nth 0 vecs 0; nth 0 vecs 0] ++
  flat_map (fun i => replicate (i / ((per_proc - 1) * P) + 1) (nth i vecs 0)) (seq 0 (length vecs)).
Proof.
  intros Hpp. unfold symm_reads. rewrite flat_map_app_fun.
  rewrite flat_map_const, seq_length. apply Permutation_app_head.
  set (c := (per_proc - 1) * P). assert (Hc : 0 < c) by (unfold c; nia).
  rewrite flat_map_swap.
  transitivity (flat_map (fun s => slice s (length vecs) vecs) (py_range 0 (length vecs) c)).
  { apply flat_map_perm. intros s Hs. cbv zeta. set (e := Nat.min (length vecs) (s + c)).
    assert (Hsl : s < length vecs).
    { apply elem_of_list_lookup in Hs. destruct Hs as [j Hj]. apply py_range_lookup in Hj.
      destruct Hj as [-> Hj]. apply ceil_div_mul in Hj; nia. }
    rewrite flat_map_app_fun. rewrite all_ranks_share by (unfold e; lia).
    rewrite flat_map_swap.
    rewrite (flat_map_ext_in _ (fun q => slice q (Nat.min (q + P) (length vecs)) vecs)).
    2:{ intros q Hq.
        assert (Hql : q < length vecs).
        { apply elem_of_list_lookup in Hq. destruct Hq as [j Hj]. apply py_range_lookup in Hj.
          destruct Hj as [-> Hj]. apply ceil_div_mul in Hj; nia. }
        rewrite all_ranks_share by lia. f_equal. lia. }
    rewrite blocks_range by (auto; unfold e; lia).
    rewrite !nths_slice by (unfold e; lia). rewrite <- map_app.
    replace (s + (e - s)) with e by (unfold e; lia).
    replace (length vecs - s) with ((e - s) + (length vecs - e)) by (unfold e; lia).
    rewrite seq_app. replace (s + (e - s)) with e by (unfold e; lia). reflexivity. }
  rewrite (flat_map_ext_in _ _ _ (fun s _ => slice_filter vecs s)).
  rewrite flat_map_swap. apply flat_map_perm. intros i Hi. apply elem_of_seq in Hi.
  unfold py_range. rewrite flat_map_map. cbn [Nat.add]. rewrite Nat.sub_0_r.
  rewrite prefix_count; auto.
  pose proof (ceil_div_ge (length vecs) c Hc). apply Nat.div_lt_upper_bound; [lia|]. nia.
Qed.

End Totals.

(** ** From ranks to runs *)

Lemma launch_trace {M V O E} tag_ub eager P (obs : event M -> list E) okm (m : nat -> prog M V O O) st
    (l : nat -> list E) tr d :
  (forall r, r < P -> pemits obs okm (l r) (fun _ => True) (m r)) ->
  trun tag_ub eager tr (launch P m st) d ->
  transit_ok okm (chans d) /\
  forall r, r < P -> exists p rest, procs d !! r = Some p /\
    l r = flat_map obs (of_rank r tr) ++ rest /\ forall o, p = Ret o -> rest = [].
Proof.
  intros Hm Hrun.
  assert (Hlen : length (procs (launch P m st)) = P).
  { simpl. rewrite fmap_length. apply seq_length. }
  destruct (trun_emits tag_ub eager obs okm tr _ d Hrun l) as [Ht He].
  { simpl. intros i p Hp. rewrite list_lookup_fmap in Hp.
    destruct (seq 0 P !! i) as [i'|] eqn:Ei; [|discriminate].
    apply lookup_seq in Ei. destruct Ei as [-> Hi]. simpl in Hp. injection Hp as <-.
    simpl in Hi. eapply pemits_emits. apply Hm. lia. }
  { intros c q Hc. simpl in Hc. rewrite lookup_empty in Hc. discriminate. }
  split; auto. intros r Hr.
  assert (Hl : length (procs d) = P).
  { rewrite <- Hlen. destruct (trun_steps _ _ _ _ _ Hrun) as [n Hn].
    eapply steps_procs_length; eauto. }
  destruct (lookup_lt_is_Some_2 (procs d) r ltac:(lia)) as [p Hp].
  destruct (He r p Hp) as (rest & El & Hrest). exists p, rest. split; auto. split; auto.
  intros o ->. exact Hrest.
Qed.

Lemma flat_map_flat_map {A B C} (f : B -> list C) (g : A -> list B) l :
  flat_map f (flat_map g l) = flat_map (fun x => flat_map f (g x)) l.
Proof. induction l as [|x l IH]; simpl; auto. rewrite flat_map_app, IH. reflexivity. Qed.

(** If every rank has done all of its share, the trace consists of the shares. *)
Lemma whole_trace {M V O E} tag_ub eager P (obs : event M -> list E) (m : nat -> prog M V O O) st
    (l : nat -> list E) tr d :
  trun tag_ub eager tr (launch P m st) d ->
  (forall r, r < P -> l r = flat_map obs (of_rank r tr)) ->
  flat_map obs (map snd tr) ≡ₚ flat_map l (seq 0 P).
Proof.
  intros Hrun Hl.
  assert (Hlen : length (procs (launch P m st)) = P).
  { simpl. rewrite fmap_length. apply seq_length. }
  rewrite (flat_map_list_perm _ _ _ (trace_by_rank P tr
    ltac:(intros x Hx; rewrite <- Hlen; eapply trun_ranks; eauto))).
  rewrite flat_map_flat_map. apply flat_map_perm. intros r Hr. apply elem_of_seq in Hr.
  rewrite Hl by lia. reflexivity.
Qed.
