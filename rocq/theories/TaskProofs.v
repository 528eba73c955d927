(** The default assignment of consecutive indices, as intervals. *)
From stdpp Require Import list.
From Coq Require Import Lia.
From Verif Require Import Prelude ParallelModel ParallelProofs InnerProdModel.

Section Tasks.
Context (P : nat).

(** First task of rank [r] among [n], and number of tasks. *)
Definition tstart (n r : nat) : nat :=
  length (concat (firstn r (find_assignments P (seq 0 n) None))).
Definition tlen (n r : nat) : nat :=
  length (nth r (find_assignments P (seq 0 n) None) []).

Lemma tasks_length s n : length (find_assignments P (seq s n) None) = P.
Proof. apply find_assignments_length. Qed.

Lemma seq_shift_map s n : seq s n = map (Nat.add s) (seq 0 n).
Proof.
  induction s as [|s IH].
  - rewrite map_id. reflexivity.
  - rewrite <- seq_shift, IH, map_map. reflexivity.
Qed.

Lemma tasks_nth s n r : 0 < P -> r < P ->
  nth r (find_assignments P (seq s n) None) [] = seq (s + tstart n r) (tlen n r).
Proof.
  intros HP Hr.
  assert (E : nth r (find_assignments P (seq 0 n) None) [] = seq (tstart n r) (tlen n r)).
  { apply (concat_seq_nth _ 0 n); [apply find_assignments_concat_default; auto|].
    rewrite find_assignments_length. auto. }
  rewrite seq_shift_map, find_assignments_map.
  change ([] : list nat) with (map (Nat.add s) []) at 1.
  rewrite map_nth, E. rewrite (seq_shift_map (s + _)), (seq_shift_map (tstart n r)), map_map.
  apply map_ext. intros; lia.
Qed.

Lemma tasks_all s n : 0 < P ->
  find_assignments P (seq s n) None =
  map (fun r => seq (s + tstart n r) (tlen n r)) (seq 0 P).
Proof.
  intros HP. apply nth_ext with (d := []) (d' := []).
  - rewrite find_assignments_length, map_length, seq_length. reflexivity.
  - intros r Hr. rewrite find_assignments_length in Hr.
    rewrite tasks_nth by auto.
    rewrite (nth_indep _ _ (seq (s + tstart n 0) (tlen n 0)))
      by (rewrite map_length, seq_length; auto).
    rewrite (map_nth (fun r => seq (s + tstart n r) (tlen n r)) (seq 0 P) 0 r).
    rewrite seq_nth by auto. reflexivity.
Qed.

Lemma tstart_0 n : tstart n 0 = 0.
Proof. reflexivity. Qed.

Lemma firstn_S_nth {A} (d : A) r : forall l, r < length l ->
  firstn (S r) l = firstn r l ++ [nth r l d].
Proof.
  induction r as [|r IH]; intros [|x l] Hl; simpl in *; try lia; auto.
  f_equal. apply IH. lia.
Qed.

Lemma tstart_S n r : r < P -> tstart n (S r) = tstart n r + tlen n r.
Proof.
  intros Hr. unfold tstart, tlen.
  rewrite (firstn_S_nth []) by (rewrite find_assignments_length; auto).
  rewrite concat_app, app_length. simpl. rewrite app_nil_r. reflexivity.
Qed.

Lemma tstart_P n : 0 < P -> tstart n P = n.
Proof.
  intros HP. unfold tstart.
  rewrite firstn_all2 by (rewrite find_assignments_length; auto).
  rewrite find_assignments_concat_default by auto. apply seq_length.
Qed.

Lemma tstart_mono n r r' : r <= r' <= P -> tstart n r <= tstart n r'.
Proof.
  intros [Hle HP]. induction Hle as [|r' Hle IH]; auto.
  rewrite tstart_S by lia. specialize (IH ltac:(lia)). lia.
Qed.

Lemma tstart_le n r : 0 < P -> r <= P -> tstart n r <= n.
Proof. intros HP Hr. rewrite <- (tstart_P n) at 2 by auto. apply tstart_mono. lia. Qed.

Lemma tend_le n r : 0 < P -> r < P -> tstart n r + tlen n r <= n.
Proof. intros HP Hr. rewrite <- tstart_S by auto. apply tstart_le; lia. Qed.

(** The rank that has task [i]. *)
Fixpoint owner_below (n k i : nat) : nat :=
  match k with
  | 0 => 0
  | S k => if tstart n k <=? i then k else owner_below n k i
  end.
Definition owner (n i : nat) : nat := owner_below n P i.

Lemma owner_spec n i : 0 < P -> i < n ->
  owner n i < P /\ tstart n (owner n i) <= i < tstart n (owner n i) + tlen n (owner n i).
Proof.
  intros HP Hi.
  assert (G : forall k, 0 < k <= P -> i < tstart n k ->
    owner_below n k i < k /\
    tstart n (owner_below n k i) <= i < tstart n (owner_below n k i) + tlen n (owner_below n k i)).
  { induction k as [|k IH]; [lia|]. intros Hk Hlt. simpl.
    destruct (Nat.leb_spec (tstart n k) i) as [L|L].
    - split; [lia|]. rewrite tstart_S in Hlt by lia. lia.
    - destruct k as [|k]; [rewrite tstart_0 in L; lia|].
      destruct IH as [A B]; [lia|auto|]. split; [lia|auto]. }
  apply G; [lia|]. rewrite tstart_P; auto.
Qed.

Lemma owner_unique n i r : 0 < P -> i < n -> r < P ->
  tstart n r <= i < tstart n r + tlen n r -> owner n i = r.
Proof.
  intros HP Hi Hr H. destruct (owner_spec n i HP Hi) as [Ho Hio].
  rewrite <- tstart_S in H, Hio by auto.
  destruct (Nat.lt_trichotomy (owner n i) r) as [L|[E|G]]; auto.
  - pose proof (tstart_mono n (S (owner n i)) r ltac:(lia)). lia.
  - pose proof (tstart_mono n (S r) (owner n i) ltac:(lia)). lia.
Qed.

Lemma tlen_le_max s n r : 0 < P -> r < P ->
  tlen n r <= list_maximum (map length (find_assignments P (seq s n) None)).
Proof.
  intros HP Hr. rewrite tasks_all by auto. rewrite map_map.
  assert (G : forall l x, In x l -> x <= list_maximum l).
  { induction l as [|y l IH]; simpl; [tauto|]. intros x [->|Hx]; [lia|].
    specialize (IH x Hx). lia. }
  apply G. apply in_map_iff. exists r. split; [apply seq_length|]. apply in_seq. lia.
Qed.

(** Busy ranks come first. *)
Lemma tlen_pos n r : 0 < P -> r < P -> (0 < tlen n r <-> r < n).
Proof.
  intros HP Hr. pose proof (find_assignments_busy P (seq 0 n) r HP Hr) as H.
  rewrite seq_length in H. rewrite <- H. unfold tlen.
  destruct (nth r _ []); simpl; split; intros; [lia|congruence|discriminate|lia].
Qed.
End Tasks.

(** ** Chunks *)

Lemma first_of_seq t l : 0 < l -> first_of (seq t l) = t.
Proof. destruct l; [lia|]. reflexivity. Qed.
Lemma last_of_seq t l : 0 < l -> last_of (seq t l) + 1 = t + l.
Proof.
  intros H. unfold last_of. destruct l as [|l]; [lia|].
  rewrite seq_S, last_last. lia.
Qed.

Lemma chunk_bounds_spec t l g c :
  let b := chunk_bounds (seq t l) g c in
  fst b <= snd b /\ snd b <= t + l /\
  (fst b < snd b -> t <= fst b) /\
  (l = 0 -> b = (0, 0)).
Proof.
  destruct l as [|l]; [simpl; repeat split; lia|].
  assert (E : chunk_bounds (seq t (S l)) g c =
    let start := Nat.min (t + g * c) (t + S l) in (start, Nat.min (t + S l) (start + c))).
  { unfold chunk_bounds. rewrite last_of_seq by lia. reflexivity. }
  rewrite E. simpl. repeat split; lia.
Qed.

Lemma ceil_div_ge a b : 0 < b -> a <= ceil_div a b * b.
Proof.
  intros Hb. unfold ceil_div.
  pose proof (Nat.div_mod (a + (b - 1)) b ltac:(lia)).
  pose proof (Nat.mod_upper_bound (a + (b - 1)) b ltac:(lia)). nia.
Qed.

Lemma chunk_bounds_cover t l c m i :
  0 < c -> l <= m -> t <= i < t + l ->
  exists g, g < ceil_div m c /\
    let b := chunk_bounds (seq t l) g c in fst b <= i < snd b.
Proof.
  intros Hc Hm Hi. exists ((i - t) / c).
  pose proof (Nat.div_mod (i - t) c ltac:(lia)) as D.
  pose proof (Nat.mod_upper_bound (i - t) c ltac:(lia)) as M.
  set (g := (i - t) / c) in *.
  split.
  - pose proof (ceil_div_ge m c Hc). nia.
  - destruct l as [|l]; [lia|]. unfold chunk_bounds.
    rewrite last_of_seq by lia. simpl. nia.
Qed.
