(** Lemmas for C59. *)
From Coq Require Import List Arith Lia Bool Ascii.
Import ListNotations.
From Verif Require Import Prelude TextModel TextProofs MatlabTextModel.
Open Scope nat_scope.

Lemma tabulate_length {X} n (f : nat -> nat -> X) m : length (tabulate m n f) = m * n.
Proof.
  unfold tabulate. induction m as [|m IH]; auto. rewrite seq_S, flat_map_app, app_length, IH. simpl.
  rewrite app_nil_r, map_length, seq_length. lia.
Qed.
Lemma tabulate_nth {X} (x0 : X) n (f : nat -> nat -> X) m r c : r < m -> c < n -> nth (r * n + c) (tabulate m n f) x0 = f r c.
Proof.
  intros Hr Hc. induction m as [|m IH]; [lia|].
  assert (E : tabulate (S m) n f = tabulate m n f ++ map (f m) (seq 0 n)).
  { unfold tabulate. rewrite seq_S, flat_map_app. simpl. rewrite app_nil_r. reflexivity. }
  rewrite E. destruct (Nat.eq_dec r m) as [->|N].
  - rewrite app_nth2; rewrite tabulate_length; [|lia]. replace (m * n + c - m * n) with c by lia.
    rewrite (nth_indep _ x0 (f m 0)) by (rewrite map_length, seq_length; auto). rewrite map_nth, seq_nth by auto. reflexivity.
  - assert ((r + 1) * n <= m * n) by (apply Nat.mul_le_mono_r; lia).
    rewrite app_nth1 by (rewrite tabulate_length; lia). apply IH. lia.
Qed.
Lemma tabulate_eq {X} (x0 : X) m n (f : nat -> nat -> X) l : length l = m * n ->
  (forall r c, r < m -> c < n -> f r c = nth (r * n + c) l x0) -> tabulate m n f = l.
Proof.
  intros Hl H. apply (nth_ext _ _ x0 x0); [rewrite tabulate_length; auto|]. intros k Hk. rewrite tabulate_length in Hk.
  assert (N : n <> 0) by (intros ->; lia).
  pose proof (Nat.div_mod k n N) as D. pose proof (Nat.mod_upper_bound k n N) as U.
  assert (Hr : k / n < m) by (apply Nat.div_lt_upper_bound; lia).
  replace k with ((k / n) * n + k mod n) by lia. rewrite tabulate_nth by auto. apply H; auto.
Qed.

Lemma nth_interleave {T} (z : T) (l : list (T * T)) : forall k, k < length l ->
  nth (2 * k) (interleave l) z = fst (nth k l (z, z)) /\ nth (2 * k + 1) (interleave l) z = snd (nth k l (z, z)).
Proof.
  induction l as [|[a b] l IH]; intros k Hk; [simpl in Hk; lia|]. destruct k as [|k]; [split; reflexivity|].
  destruct (IH k) as [H1 H2]; [simpl in Hk; lia|]. replace (2 * S k) with (S (S (2 * k))) by lia.
  cbn [interleave flat_map fst snd app nth Nat.add]. split; [exact H1|exact H2].
Qed.
(** Real and imaginary parts in alternate columns. *)
Lemma write_interleave {T} (zero : T) m n (l : list (T * T)) : length l = m * n ->
  tabulate m (2 * n) (fun r c => let z := entry (zero, zero) n l r (c / 2) in if Nat.even c then fst z else snd z) = interleave l.
Proof.
  intros Hl. apply (tabulate_eq zero); [rewrite interleave_length, Hl; lia|]. intros r c Hr Hc. unfold entry. cbn zeta.
  destruct (Nat.even c) eqn:E.
  - apply Nat.even_spec in E as [k ->]. rewrite (Nat.mul_comm 2 k), Nat.div_mul by lia.
    replace (r * (2 * n) + k * 2) with (2 * (r * n + k)) by lia. symmetry. apply nth_interleave.
    assert ((r + 1) * n <= m * n) by (apply Nat.mul_le_mono_r; lia). lia.
  - assert (O : Nat.Odd c) by (apply Nat.odd_spec; rewrite <- Nat.negb_even, E; auto). destruct O as [k ->].
    assert (D : (2 * k + 1) / 2 = k) by (symmetry; apply (Nat.div_unique _ 2 k 1); lia). rewrite D.
    replace (r * (2 * n) + (2 * k + 1)) with (2 * (r * n + k) + 1) by lia. symmetry. apply nth_interleave.
    assert ((r + 1) * n <= m * n) by (apply Nat.mul_le_mono_r; lia). lia.
Qed.
Lemma load_pairs {T} (zero : T) m n (l : list (T * T)) : length l = m * n ->
  tabulate m n (fun r c => (entry zero (n * 2) (interleave l) r (2 * c), entry zero (n * 2) (interleave l) r (2 * c + 1))) = l.
Proof.
  intros Hl. apply (tabulate_eq (zero, zero)); auto. intros r c Hr Hc. unfold entry.
  assert (K : r * n + c < length l) by (assert ((r + 1) * n <= m * n) by (apply Nat.mul_le_mono_r; lia); lia).
  destruct (nth_interleave zero l (r * n + c) K) as [E1 E2].
  replace (r * (n * 2) + 2 * c) with (2 * (r * n + c)) by lia.
  replace (r * (n * 2) + (2 * c + 1)) with (2 * (r * n + c) + 1) by lia. rewrite E1, E2. destruct (nth (r * n + c) l (zero, zero)); reflexivity.
Qed.

Lemma chunks_rows {X} (x0 : X) n m : forall l, length l = m * n ->
  chunks m n l = map (fun r => map (entry x0 n l r) (seq 0 n)) (seq 0 m).
Proof.
  induction m as [|m IH]; intros l Hl; auto. simpl chunks. rewrite IH by (rewrite skipn_length; lia).
  simpl seq. rewrite <- seq_shift. cbn [map]. rewrite map_map. f_equal.
  - apply (nth_ext _ _ x0 x0); rewrite ?firstn_length, ?map_length, ?seq_length; [lia|]. intros k Hk.
    assert (k < n) by lia. rewrite (nth_indep (map _ _) x0 (entry x0 n l 0 0)) by (rewrite map_length, seq_length; auto).
    rewrite map_nth, seq_nth by auto. unfold entry. cbn [Nat.mul Nat.add]. rewrite <- (firstn_skipn n l) at 2. rewrite app_nth1; [reflexivity|].
    rewrite firstn_length. lia.
  - apply map_ext_in. intros r Hr. apply in_seq in Hr. apply map_ext_in. intros c Hc. apply in_seq in Hc. unfold entry.
    rewrite <- (firstn_skipn n l) at 2. rewrite app_nth2; rewrite firstn_length; [|simpl; lia].
    f_equal. simpl. lia.
Qed.
Lemma join_snoc {X} (d : X) ws w : join d (ws ++ [w]) = flat_map (fun w => w ++ [d]) ws ++ w.
Proof.
  induction ws as [|a ws IH]; auto. cbn [app flat_map]. destruct (ws ++ [w]) as [|b t] eqn:E; [destruct ws; discriminate|].
  change (join d (a :: b :: t)) with (a ++ d :: join d (b :: t)). rewrite IH, <- !app_assoc. reflexivity.
Qed.
Lemma flat_map_map {X Y Z} (f : X -> Y) (g : Y -> list Z) l : flat_map g (map f l) = flat_map (fun x => g (f x)) l.
Proof. induction l as [|a l IH]; simpl; congruence. Qed.

(** The loops of save_mat_text write what np.savetxt writes. *)
Lemma rows_text {T} (zero : T) (show : T -> text) d m n l : length l = m * n -> 0 < n ->
  flat_map (fun row => flat_map (fun col => show (entry zero n l row col) ++ [d]) (seq 0 (n - 1)) ++
        show (entry zero n l row (n - 1)) ++ [newline]) (seq 0 m) =
  concat (map (fun r => join d (map show r) ++ [newline]) (chunks m n l)).
Proof.
  intros Hl Hn. rewrite (chunks_rows zero) by auto. rewrite flat_map_concat_map, map_map. f_equal. apply map_ext. intros r.
  rewrite map_map. replace (seq 0 n) with (seq 0 (n - 1) ++ [n - 1]).
  - rewrite map_app. cbn [map]. etransitivity; [|apply f_equal2; [symmetry; apply (join_snoc d)|reflexivity]].
    rewrite flat_map_map, <- app_assoc. reflexivity.
  - transitivity (seq 0 (n - 1 + 1)); [rewrite seq_app; reflexivity|f_equal; lia].
Qed.

(** Blank, tab, comma, semicolon. *)
Definition readable (d : ascii) : Prop := In d [" "; Ascii.ascii_of_nat 9; ","; ";"]%char.
Lemma readable_sep d : readable d <-> is_separator d = true.
Proof.
  unfold readable, is_separator. rewrite !orb_true_iff, !Ascii.eqb_eq. unfold space. cbn [In]. split.
  - intros [<-|[<-|[<-|[<-|[]]]]]; auto.
  - intros [[[-> | ->]| ->]| ->]; auto.
Qed.
Lemma sep_chars d : readable d -> ~ In d (newline :: hash :: percent :: number_chars).
Proof.
  intros [<-|[<-|[<-|[<-|[]]]]]; intros G; repeat (destruct G as [G|G]; [discriminate|]); exact G.
Qed.
Lemma sep_number c : In c number_chars -> is_separator c = false.
Proof. unfold number_chars. intros H. repeat (destruct H as [<-|H]; [reflexivity|]). destruct H. Qed.

(** What MATLAB's load makes of rows of numbers. *)
Definition written {T} (show : T -> text) (d : ascii) (rows : list (list T)) : text :=
  concat (map (fun r => join d (map show r) ++ [newline]) rows).
Lemma load_rows {T} (show : T -> text) (read : text -> option T) d (rows : list (list T)) : printing show read ->
  readable d -> (forall r, In r rows -> r <> []) ->
  load_ascii read (written show d rows) =
  match rows with
  | [] => Raise OSError
  | row :: _ => if forallb (fun r => length r =? length row) rows then Ok (length rows, length row, concat rows) else Raise ValueError
  end.
Proof.
  intros P Hd NE. pose proof (sep_chars d Hd) as Nd.
  assert (NB : forall c, In c number_chars -> c <> newline /\ c <> percent).
  { unfold number_chars. intros c H. repeat (destruct H as [<-|H]; [split; discriminate|]). destruct H. }
  assert (BC : forall r c, In c (join d (map show r)) -> c = d \/ In c number_chars).
  { intros r c Hc. apply in_join in Hc. destruct Hc as [->|(w & Hw & Hc)]; auto. right.
    apply in_map_iff in Hw as (x & <- & _). eapply show_chars; eauto. }
  unfold load_ascii, written. rewrite <- (map_map (fun r => join d (map show r)) (fun t => t ++ [newline])).
  rewrite split_lines.
  2:{ apply Ascii.eqb_refl. }
  2:{ apply Forall_forall. intros w Hw c Hc. apply in_map_iff in Hw as (r & <- & _).
      destruct (Ascii.eqb_spec newline c) as [E|]; auto. exfalso. destruct (BC r c Hc) as [->|G]; [apply Nd; left; auto|].
      destruct (NB c G) as [G1 _]. congruence. }
  assert (RM : forall r, is_remark (join d (map show r)) = false).
  { intros r. destruct (join d (map show r)) as [|c t] eqn:E; auto. cbn. destruct (Ascii.eqb_spec c percent) as [->|]; auto.
    exfalso. destruct (BC r percent) as [G|G]; [rewrite E; left; auto|apply Nd; rewrite <- G; do 2 right; left; auto|apply (NB percent G); auto]. }
  rewrite filter_app, (filter_id _ (map (fun r => join d (map show r)) rows)).
  2:{ intros t Ht. apply in_map_iff in Ht as (r & <- & Hr). exact (f_equal negb (RM r)). }
  cbn [filter is_remark negb]. rewrite map_app, map_map, filter_app. cbn [map split filter length Nat.eqb negb]. rewrite app_nil_r.
  assert (FL : map (fun r => filter (fun w => negb (length w =? 0)) (split is_separator (join d (map show r)))) rows = map (map show) rows).
  { apply map_ext_in. intros r Hr. specialize (NE r Hr). rewrite (split_join is_separator d).
    - apply filter_id. intros w Hw. apply in_map_iff in Hw as (x & <- & _).
      destruct (show x) eqn:E; auto. exfalso. apply (show_some show read P x). auto.
    - apply readable_sep. exact Hd.
    - apply Forall_forall. intros w Hw c Hc. apply in_map_iff in Hw as (x & <- & _). apply sep_number. eapply show_chars; eauto.
    - destruct r; [congruence|discriminate]. }
  rewrite FL. rewrite filter_id.
  2:{ intros w Hw. apply in_map_iff in Hw as (r & <- & Hr). rewrite map_length. specialize (NE r Hr). destruct r; [congruence|reflexivity]. }
  assert (RR : all_ok (map (read_row read) (map (map show) rows)) = Ok rows).
  { rewrite map_map, (all_ok_map _ (fun r => r)); [rewrite map_id; auto|]. intros r _. unfold read_row.
    rewrite map_map, (all_ok_map _ (fun x => x)); [rewrite map_id; auto|]. intros x _. rewrite (read_show show read P). reflexivity. }
  rewrite RR, map_length. destruct rows as [|row rows']; [reflexivity|].
  change (map (map show) (row :: rows')) with (map show row :: map (map show) rows'). cbv iota.
  change (map show row :: map (map show) rows') with (map (map show) (row :: rows')).
  rewrite map_length.
  assert (FB : forallb (fun r : list text => length r =? length row) (map (map show) (row :: rows')) = forallb (fun r : list T => length r =? length row) (row :: rows')).
  { clear. induction (row :: rows') as [|a L IH]; auto. cbn [map forallb]. rewrite map_length, IH. reflexivity. }
  exact (f_equal (fun b : bool => if b then Ok (length (row :: rows'), length row, concat (row :: rows')) else Raise ValueError) FB).
Qed.

(** MATLAB's load undoes np.savetxt. *)
Lemma load_ascii_savetxt {T} (show : T -> text) (read : text -> option T) d m n l : printing show read ->
  readable d -> 0 < m -> 0 < n -> length l = m * n ->
  load_ascii read (concat (map (fun r => join d (map show r) ++ [newline]) (chunks m n l))) = Ok (m, n, l).
Proof.
  intros P Hd Hm Hn Hl. fold (written show d (chunks m n l)). rewrite load_rows by (auto; intros r Hr ->;
    pose proof (chunks_row m n l [] Hl Hr) as X; simpl in X; lia).
  destruct (chunks m n l) as [|r rs] eqn:E; [pose proof (chunks_length m n l) as X; rewrite E in X; simpl in X; lia|].
  assert (Lr : length r = n) by (apply (chunks_row m n l); auto; rewrite E; left; auto).
  rewrite <- E, Lr, chunks_length, chunks_concat by auto. rewrite (proj2 (forallb_forall _ _)); [reflexivity|].
  intros x Hx. apply Nat.eqb_eq. apply (chunks_row m n l); auto.
Qed.
