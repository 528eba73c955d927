(** Splitting undoes joining; loading undoes saving. *)
From Coq Require Import List Arith Lia Bool Ascii.
Import ListNotations.
From Verif Require Import Prelude TextModel.
Open Scope nat_scope.

(** Characters of printed numbers: digits, signs, point, exponent, inf and nan. *)
Definition number_chars : text := ["0"; "1"; "2"; "3"; "4"; "5"; "6"; "7"; "8"; "9"; "+"; "-"; "."; "e"; "i"; "n"; "f"; "a"]%char.
(** What is assumed of printing and reading numbers: numbers are read back as they were. *)
Record printing {T} (show : T -> text) (read : text -> option T) : Prop := {
  show_some : forall x, show x <> [];
  show_chars : forall x c, In c (show x) -> In c number_chars;
  read_show : forall x, read (show x) = Some x
}.
(** Delimiters that cannot be mistaken: not in printed numbers, no newline, '#' or '%'. *)
Definition delimiter_ok (d : option ascii) : Prop :=
  match d with None => True | Some d => ~ In d (newline :: hash :: percent :: number_chars) end.

Section Split.
Context {A : Type} (p : A -> bool).
Definition clear_of (w : list A) : Prop := forall c, In c w -> p c = false.

Lemma split_word w : clear_of w -> split p w = [w].
Proof.
  induction w as [|c w IH]; intros H; simpl; auto.
  rewrite (H c (or_introl eq_refl)), IH by (intros x Hx; apply H; right; auto). reflexivity.
Qed.
Lemma split_cons w d t : clear_of w -> p d = true -> split p (w ++ d :: t) = w :: split p t.
Proof.
  intros H Hd. induction w as [|c w IH]; simpl; [rewrite Hd; auto|].
  rewrite (H c (or_introl eq_refl)), IH by (intros x Hx; apply H; right; auto). reflexivity.
Qed.
Lemma split_join d ws : p d = true -> Forall clear_of ws -> ws <> [] -> split p (join d ws) = ws.
Proof.
  intros Hd H Hne. induction H as [|w ws Hw Hws IH]; [congruence|].
  destruct ws as [|w' ws]; [apply split_word; auto|].
  change (join d (w :: w' :: ws)) with (w ++ d :: join d (w' :: ws)).
  rewrite split_cons, IH by (auto; discriminate). reflexivity.
Qed.
Lemma split_lines d rows : p d = true -> Forall clear_of rows ->
  split p (concat (map (fun r => r ++ [d]) rows)) = rows ++ [[]].
Proof.
  intros Hd H. induction H as [|r rows Hr Hrows IH]; simpl; auto.
  rewrite <- app_assoc. simpl. rewrite split_cons, IH; auto.
Qed.
End Split.

Lemma in_join {A} (d : A) ws c : In c (join d ws) -> c = d \/ exists w, In w ws /\ In c w.
Proof.
  induction ws as [|w ws IH]; [intros []|]. destruct ws as [|w' ws].
  - simpl. eauto.
  - change (join d (w :: w' :: ws)) with (w ++ d :: join d (w' :: ws)). intros H.
    apply in_app_or in H. destruct H as [H|[H|H]]; [right; exists w; split; [left|]; auto|left; auto|].
    destruct (IH H) as [G|(x & X1 & X2)]; auto. right. exists x. split; auto. right. auto.
Qed.

Lemma chunks_concat {A} m : forall n (l : list A), length l = m * n -> concat (chunks m n l) = l.
Proof.
  induction m as [|m IH]; intros n l H; simpl in *; [destruct l; [auto|discriminate]|].
  rewrite IH; [apply firstn_skipn|]. rewrite skipn_length. lia.
Qed.
Lemma chunks_length {A} m : forall n (l : list A), length (chunks m n l) = m.
Proof. induction m as [|m IH]; intros; simpl; auto. Qed.
Lemma chunks_row {A} m : forall n (l r : list A), length l = m * n -> In r (chunks m n l) -> length r = n.
Proof.
  induction m as [|m IH]; intros n l r H Hr; simpl in *; [destruct Hr|]. destruct Hr as [<-|Hr].
  - rewrite firstn_length. lia.
  - apply (IH n (skipn n l)); auto. rewrite skipn_length. lia.
Qed.

Lemma all_ok_map {A B} (f : A -> res B) (g : A -> B) l : (forall x, In x l -> f x = Ok (g x)) -> all_ok (map f l) = Ok (map g l).
Proof.
  induction l as [|a l IH]; intros H; simpl; auto. rewrite (H a (or_introl eq_refl)), IH; auto.
  intros x Hx. apply H. right. auto.
Qed.
Lemma filter_id {A} (p : A -> bool) l : (forall x, In x l -> p x = true) -> filter p l = l.
Proof.
  induction l as [|a l IH]; intros H; simpl; auto. rewrite (H a (or_introl eq_refl)), IH; auto.
  intros x Hx. apply H. right. auto.
Qed.
Lemma cut_clean t : ~ In hash t -> cut_comment t = t.
Proof.
  induction t as [|c t IH]; intros H; simpl; auto. destruct (Ascii.eqb_spec c hash) as [->|N]; [exfalso; apply H; left; auto|].
  rewrite IH; auto. intros X. apply H. right. auto.
Qed.

Section RoundTrip.
Context {T I : Type} (show : T -> text) (read : text -> option T) (bits : I -> T).
Hypothesis P : printing show read.

Definition delim_char (d : option ascii) : ascii := match d with Some d => d | None => space end.
Definition body (d : option ascii) (row : list T) : text := join (delim_char d) (map show row).

Lemma not_number c x : ~ In c number_chars -> ~ In c (show x).
Proof. intros H G. apply H. eapply show_chars; eauto. Qed.
Lemma delim_not_number d : delimiter_ok d -> ~ In (delim_char d) (newline :: hash :: percent :: number_chars).
Proof. destruct d as [d|]; simpl; intros H; [exact H|]. intros G. repeat (destruct G as [G|G]; [discriminate|]). exact G. Qed.
Lemma body_chars d row c : delimiter_ok d -> In c (body d row) -> c = delim_char d \/ In c number_chars.
Proof.
  intros Hd Hc. apply in_join in Hc. destruct Hc as [->|(w & Hw & Hc)]; auto.
  right. apply in_map_iff in Hw as (x & <- & _). eapply show_chars; eauto.
Qed.
Lemma number_special : ~ In newline number_chars /\ ~ In hash number_chars /\ Forall (fun c => is_space c = false) number_chars.
Proof.
  split; [|split].
  - intros G. repeat (destruct G as [G|G]; [discriminate|]). exact G.
  - intros G. repeat (destruct G as [G|G]; [discriminate|]). exact G.
  - unfold number_chars. repeat constructor.
Qed.

Lemma body_fields d row : delimiter_ok d -> row <> [] -> fields d (cut_comment (body d row)) = map show row.
Proof.
  intros Hd Hr. destruct number_special as (N1 & N2 & N3). pose proof (delim_not_number d Hd) as Nd.
  rewrite cut_clean.
  2:{ intros H. destruct (body_chars d row _ Hd H) as [E|G]; [|contradiction]. apply Nd. right. left. auto. }
  assert (Hm : map show row <> []) by (destruct row; [congruence|discriminate]).
  destruct d as [d|]; unfold fields.
  - assert (S : split (Ascii.eqb d) (body (Some d) row) = map show row).
    { apply split_join; auto; [apply Ascii.eqb_refl|]. apply Forall_forall. intros w Hw c Hc.
      apply in_map_iff in Hw as (x & <- & _). destruct (Ascii.eqb_spec d c) as [->|]; auto.
      exfalso. apply Nd. do 3 right. eapply show_chars; eauto. }
    destruct (body (Some d) row) as [|c t] eqn:E; [|exact S].
    exfalso. destruct row as [|x row]; [congruence|]. unfold body in E. simpl in E.
    destruct row; simpl in E; [apply (show_some show read P x); auto|].
    apply app_eq_nil in E. destruct E. discriminate.
  - unfold body. cbn [delim_char]. rewrite (split_join is_space space); auto.
    + apply filter_id. intros w Hw. apply in_map_iff in Hw as (x & <- & _).
      destruct (show x) eqn:E; auto. exfalso. apply (show_some show read P x). auto.
    + apply Forall_forall. intros w Hw c Hc. apply in_map_iff in Hw as (x & <- & _).
      rewrite Forall_forall in N3. apply N3. eapply show_chars; eauto.
Qed.

(** np.loadtxt undoes np.savetxt. *)
Lemma loadtxt_savetxt d m n l f : delimiter_ok d -> 0 < m -> 0 < n -> length l = m * n ->
  exists t, savetxt show d (Array (I := I) [m; n] f (Floats l)) = Ok t /\ loadtxt read d t = Ok (m, n, l).
Proof.
  intros Hd Hm Hn Hl. pose proof (delim_not_number d Hd) as Nd. destruct number_special as (N1 & N2 & N3).
  exists (concat (map (fun r => r ++ [newline]) (map (body d) (chunks m n l)))). split.
  - unfold savetxt. cbn [dims elems]. fold (delim_char d).
    rewrite (all_ok_map _ (fun r => body d r ++ [newline])).
    + rewrite map_map. reflexivity.
    + intros r _. unfold save_row. destruct (Ascii.eqb_spec (delim_char d) percent) as [E|]; [|reflexivity].
      exfalso. apply Nd. rewrite E. do 2 right. left. auto.
  - unfold loadtxt. rewrite split_lines.
    2:{ apply Ascii.eqb_refl. }
    2:{ apply Forall_forall. intros w Hw c Hc. apply in_map_iff in Hw as (r & <- & _).
        destruct (Ascii.eqb_spec newline c) as [E|]; auto. exfalso.
        destruct (body_chars d r c Hd Hc) as [->|G]; [apply Nd; left; auto|]. apply N1. rewrite E. auto. }
    assert (NE : forall r, In r (chunks m n l) -> r <> []).
    { intros r Hr ->. pose proof (chunks_row m n l [] Hl Hr) as X. simpl in X. lia. }
    set (rows := filter _ _).
    assert (RW : rows = map (map show) (chunks m n l)).
    { unfold rows. rewrite map_app, filter_app.
      assert (Z : filter (fun ws => negb (length ws =? 0)) (map (fun line => fields d (cut_comment line)) [[]]) = [])
        by (destruct d; reflexivity).
      etransitivity; [apply f_equal2; [reflexivity|exact Z]|].
      rewrite app_nil_r, map_map.
      rewrite (map_ext_in _ (map show)) by (intros r Hr; apply body_fields; auto).
      apply filter_id. intros w Hw. apply in_map_iff in Hw as (r & <- & Hr).
      rewrite map_length. specialize (NE r Hr). destruct r; [congruence|reflexivity]. }
    clearbody rows. subst rows. destruct (chunks m n l) as [|r rs] eqn:E; [pose proof (chunks_length m n l) as X; rewrite E in X; simpl in X; lia|].
    rewrite <- E in *. assert (Lr : length r = n) by (apply (chunks_row m n l); auto; rewrite E; left; auto).
    destruct (map (map show) (chunks m n l)) as [|r0 rs0] eqn:E0; [rewrite E in E0; discriminate|].
    assert (Lr0 : length r0 = n) by (rewrite E in E0; injection E0 as <- _; rewrite map_length; auto).
    rewrite <- E0.
    replace (forallb _ (map (map show) (chunks m n l))) with true.
    2:{ symmetry. apply forallb_forall. intros w Hw. apply in_map_iff in Hw as (r1 & <- & Hr1).
        rewrite map_length, Lr0, (chunks_row m n l r1 Hl Hr1). apply Nat.eqb_refl. }
    rewrite map_map, (all_ok_map _ (fun r => r)).
    + rewrite map_id, map_length, chunks_length, Lr0, chunks_concat by auto. reflexivity.
    + intros r1 Hr1. unfold read_row. rewrite map_map, (all_ok_map _ (fun x => x)); [rewrite map_id; auto|].
      intros x _. rewrite (read_show show read P). reflexivity.
Qed.

(** An array without rows or columns leaves a text without fields. *)
Lemma loadtxt_empty d m n l f : delimiter_ok d -> m = 0 \/ n = 0 ->
  exists t, savetxt show d (Array (I := I) [m; n] f (Floats l)) = Ok t /\ loadtxt read d t = Ok (0, 1, []).
Proof.
  intros Hd Hmn. pose proof (delim_not_number d Hd) as Nd.
  assert (E : exists k, chunks m n l = repeat [] k).
  { destruct Hmn as [-> | ->]; [exists 0; reflexivity|]. exists m. clear. revert l. induction m as [|m IH]; intros l; simpl; auto.
    rewrite IH. reflexivity. }
  destruct E as [k E]. exists (concat (map (fun r => r ++ [newline]) (repeat [] k))). split.
  - unfold savetxt. cbn [dims elems]. fold (delim_char d). rewrite E.
    rewrite (all_ok_map _ (fun _ => [newline])).
    + f_equal. f_equal. clear. induction k; simpl; congruence.
    + intros r Hr. apply repeat_spec in Hr as ->. unfold save_row. simpl. rewrite andb_false_r. reflexivity.
  - unfold loadtxt. rewrite split_lines.
    2:{ apply Ascii.eqb_refl. }
    2:{ apply Forall_forall. intros w Hw. apply repeat_spec in Hw as ->. intros c []. }
    replace (filter _ _) with ([] : list (list text)); [reflexivity|].
    clear. induction k as [|k IH]; simpl; destruct d; auto.
Qed.

Lemma pairs_interleave (l : list (T * T)) : pairs (interleave l) = l.
Proof. induction l as [|[a b] l IH]; simpl; auto. rewrite IH. reflexivity. Qed.
Lemma interleave_length (l : list (T * T)) : length (interleave l) = length l * 2.
Proof. induction l as [|z l IH]; simpl; auto. Qed.
Lemma interleave_pairs : forall k (l : list T), length l = k * 2 -> interleave (pairs l) = l.
Proof.
  induction k as [|k IH]; intros l H; [destruct l; [auto|discriminate]|].
  destruct l as [|a [|b l]]; simpl in H; try discriminate. simpl. rewrite IH by lia. reflexivity.
Qed.

End RoundTrip.
