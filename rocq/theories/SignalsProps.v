(** C40: file listing and signal loading. *)
From Coq Require Import String.
From Coq Require Import List Arith Lia Bool Ascii ZArith.
Import ListNotations.
From Verif Require Import Prelude TextModel TextProofs TextProps SignalsModel.
Open Scope list_scope.
Open Scope nat_scope.

(** ** File lists *)
Lemma text_eqb_eq a : forall b, text_eqb a b = true <-> a = b.
Proof.
  induction a as [|x a IH]; intros [|y b]; simpl; try (split; congruence).
  rewrite andb_true_iff, IH, Ascii.eqb_eq. split; [intros []; congruence|intros [= -> ->]; auto].
Qed.
Lemma from_end_ends ext f : ext <> [] -> from_end (length ext) f = ext <-> exists p, f = p ++ ext.
Proof.
  intros Hne. unfold from_end. destruct (Nat.eqb_spec (length ext) 0) as [E|_].
  { destruct ext; [congruence|discriminate]. }
  split.
  - intros E. exists (firstn (length f - length ext) f). rewrite <- E at 2. symmetry. apply firstn_skipn.
  - intros [p ->]. rewrite app_length. replace (length p + length ext - length ext) with (length p) by lia.
    rewrite skipn_app, skipn_all, Nat.sub_diag. reflexivity.
Qed.

(** The entries ending in the extension, in order. *)
Theorem C40_file_list listdir ext : ext <> [] ->
  exists keep, (forall f, keep f = true <-> exists p, f = p ++ ext) /\
    get_file_list listdir (Some ext) = filter keep listdir.
Proof.
  intros Hne. exists (fun f => text_eqb (from_end (length ext) f) ext). split; [|reflexivity].
  intros f. rewrite text_eqb_eq. apply from_end_ends; auto.
Qed.
(** So membership is as expected. *)
Theorem C40_file_list_in listdir ext f : ext <> [] ->
  In f (get_file_list listdir (Some ext)) <-> In f listdir /\ exists p, f = p ++ ext.
Proof.
  intros Hne. destruct (C40_file_list listdir ext Hne) as (keep & Hk & ->). rewrite filter_In, Hk. reflexivity.
Qed.
Theorem C40_no_extension listdir : get_file_list listdir None = listdir.
Proof. reflexivity. Qed.
(** An empty extension selects nothing (no entry of a directory has an empty name), although
    every name ends in it. *)
Theorem C40_empty_extension_refuted listdir : ~ In [] listdir ->
  get_file_list listdir (Some []) = [] /\ forall f : text, exists p, f = p ++ [].
Proof.
  intros H. split.
  - unfold get_file_list. induction listdir as [|f l IH]; [reflexivity|].
    cbn [filter length from_end Nat.eqb]. unfold from_end. cbn [Nat.eqb].
    destruct f as [|c f]; [destruct H; left; auto|]. simpl. apply IH. intros G. apply H. right. auto.
  - intros f. exists f. symmetry. apply app_nil_r.
Qed.

(** ** Signals *)
Section Signals.
Context {T : Type} (read : text -> option T) (close : T -> T -> bool).
Context {path : Type} (open : path -> res text).

Lemma chunks_length {A} m n (l : list A) : length (chunks m n l) = m.
Proof. revert l. induction m as [|m IH]; intros l; simpl; auto. Qed.
Lemma chunks_nth {A} m n (d : A) : forall l i j, i < m -> j < n -> length l = m * n ->
  nth j (nth i (chunks m n l) []) d = nth (i * n + j) l d.
Proof.
  induction m as [|m IH]; intros l i j Hi Hj Hl; [lia|]. destruct i as [|i]; cbn [chunks nth].
  - rewrite <- (firstn_skipn n l) at 2. rewrite app_nth1; [reflexivity|]. rewrite firstn_length. nia.
  - rewrite IH; [|lia|lia|rewrite skipn_length; lia].
    replace (S i * n + j) with (n + (i * n + j)) by lia.
    rewrite <- (firstn_skipn n l) at 2. rewrite app_nth2; rewrite firstn_length; [|nia].
    f_equal. nia.
Qed.
Lemma chunks_rows {A} m n (l : list A) : length l = m * n -> Forall (fun r => length r = n) (chunks m n l).
Proof.
  revert l. induction m as [|m IH]; intros l Hl; simpl; constructor.
  - rewrite firstn_length. nia.
  - apply IH. rewrite skipn_length. nia.
Qed.

(** The first column are the times, the others the signals. *)
Theorem C40_load_signals d p t m n l (x : T) : open p = Ok t -> loadtxt read d t = Ok (m, n, l) ->
  length l = m * n -> 2 <= n ->
  exists times signals, load_signals read open d p = Ok (times, signals, n - 1) /\
    length times = m /\ length signals = m /\
    (forall i, i < m -> nth i times x = nth (i * n) l x) /\
    (forall i, i < m -> length (nth i signals []) = n - 1) /\
    (forall i j, i < m -> j < n - 1 -> nth j (nth i signals []) x = nth (i * n + 1 + j) l x).
Proof.
  intros Ho El Hl Hn. unfold load_signals. rewrite Ho, El.
  rewrite (proj2 (Nat.eqb_neq (n - 1) 0)) by lia. eexists _, _. split; [reflexivity|].
  unfold rows_of. pose proof (chunks_rows m n l Hl) as HR. pose proof (chunks_length m n l) as HL.
  assert (G : forall i, i < m -> length (nth i (chunks m n l) []) = n).
  { intros i Hi. rewrite Forall_forall in HR. apply HR, nth_In. lia. }
  assert (F : forall rows : list (list T), Forall (fun r => length r = n) rows ->
      length (concat (map (firstn 1) rows)) = length rows /\
      forall i, i < length rows -> nth i (concat (map (firstn 1) rows)) x = nth 0 (nth i rows []) x).
  { intros rows Hr. induction Hr as [|r rows Hr _ [IH1 IH2]]; [split; [auto|simpl; lia]|].
    destruct r as [|y r]; [simpl in Hr; lia|]. cbn [map concat firstn app length nth]. split; [rewrite <- IH1; reflexivity|]. intros [|i] Hi; auto. apply IH2. lia. }
  destruct (F _ HR) as [F1 F2]. split; [lia|]. split; [rewrite map_length; auto|]. split; [|split].
  - intros i Hi. rewrite F2 by lia. rewrite chunks_nth by lia. f_equal. lia.
  - intros i Hi. rewrite (nth_indep _ [] (skipn 1 [])) by (rewrite map_length; lia).
    rewrite (map_nth (skipn 1)), skipn_length, G by auto. reflexivity.
  - intros i j Hi Hj. rewrite (nth_indep _ [] (skipn 1 [])) by (rewrite map_length; lia).
    rewrite (map_nth (skipn 1)).
    replace (i * n + 1 + j) with (i * n + (S j)) by lia. rewrite <- (chunks_nth m n x l i (S j)) by lia.
    destruct (nth i (chunks m n l) []) as [|y r]; [destruct j; reflexivity|reflexivity].
Qed.
Theorem C40_too_few_columns d p t m n l : open p = Ok t -> loadtxt read d t = Ok (m, n, l) -> n < 2 ->
  load_signals read open d p = Raise ValueError.
Proof.
  intros Ho El Hn. unfold load_signals. rewrite Ho, El. replace (n - 1) with 0 by lia. reflexivity.
Qed.

(** Times [b] agree with times [a]. *)
Definition agree (a b : list T) : bool := forallb (fun '(x, y) => close x y) (combine b a).
(** A file with [nt] times and [ns] signals. *)
Definition has_shape (nt ns : nat) (times : list T) (signals : list (list T)) : Prop :=
  length times = nt /\ length signals = nt /\ Forall (fun row => length row = ns) signals.

Lemma allclose_same a b : length a = length b -> allclose close a b = Ok (forallb (fun '(x, y) => close x y) (combine a b)).
Proof.
  intros H. unfold allclose. destruct a as [|x [|x' a]], b as [|y [|y' b]]; try discriminate; try reflexivity.
  rewrite (proj2 (Nat.eqb_eq _ _) H). reflexivity.
Qed.
Lemma assign_same nt ns rows : length rows = nt -> Forall (fun row => length row = ns) rows ->
  assign_rows nt ns rows = Ok (rows : list (list T)).
Proof.
  intros H1 H2. unfold assign_rows.
  assert (E : all_ok (map (stretch ns) rows) = Ok rows).
  { clear H1. induction H2 as [|r rows Hr _ IH]; [reflexivity|]. simpl. unfold stretch at 1.
    rewrite (proj2 (Nat.eqb_eq _ _) Hr), IH. reflexivity. }
  rewrite E. unfold stretch. rewrite (proj2 (Nat.eqb_eq _ _) H1). reflexivity.
Qed.

Lemma load_rest_spec d times ns paths contents :
  Forall2 (fun p c => exists k, load_signals read open d p = Ok (fst c, snd c, k) /\
                      has_shape (length times) ns (fst c) (snd c)) paths contents ->
  load_rest read close open d times ns paths =
    if forallb (fun c => agree times (fst c)) contents then Ok (map snd contents) else Raise ValueError.
Proof.
  induction 1 as [|p [times' signals'] paths contents (k & E & H1 & H2 & H3) _ IH]; [reflexivity|].
  cbn [load_rest forallb map fst snd] in *. rewrite E, allclose_same by auto.
  change (forallb _ (combine times' times)) with (agree times times').
  destruct (agree times times'); [|reflexivity]. rewrite assign_same by auto. rewrite IH.
  cbn [andb]. destruct (forallb _ contents); reflexivity.
Qed.

(** Files of the same shape are stacked if all their times agree with the first file's;
    otherwise ValueError. *)
Theorem C40_load_multiple d p paths times signals contents ns :
  load_signals read open d p = Ok (times, signals, ns) ->
  Forall2 (fun p c => exists k, load_signals read open d p = Ok (fst c, snd c, k) /\
                      has_shape (length times) ns (fst c) (snd c)) (p :: paths) contents ->
  load_multiple_signals read close open d (p :: paths) =
    if forallb (fun c => agree times (fst c)) contents then Ok (times, map snd contents) else Raise ValueError.
Proof.
  intros E H. unfold load_multiple_signals. rewrite E. rewrite (load_rest_spec d times ns (p :: paths) contents H).
  destruct (forallb _ contents); reflexivity.
Qed.
(** Files with another number of times, neither number being one: ValueError. *)
Theorem C40_lengths_differ d p q paths times signals ns times' signals' ns' :
  load_signals read open d p = Ok (times, signals, ns) ->
  agree times times = true -> has_shape (length times) ns times signals ->
  load_signals read open d q = Ok (times', signals', ns') ->
  length times <> length times' -> length times <> 1 -> length times' <> 1 ->
  load_multiple_signals read close open d (p :: q :: paths) = Raise ValueError.
Proof.
  intros E Ha (H1 & H2 & H3) E' Hl Hl1 Hl2. unfold load_multiple_signals. rewrite E. cbn [load_rest].
  rewrite E, allclose_same by auto. change (forallb _ (combine times times)) with (agree times times).
  rewrite Ha, assign_same by auto. rewrite E'.
  replace (allclose close times' times) with (@Raise bool ValueError); [reflexivity|].
  unfold allclose. destruct times' as [|x [|x' a]], times as [|y [|y' b]]; simpl in *; try lia; try reflexivity.
  rewrite (proj2 (Nat.eqb_neq (length a) (length b))) by lia. reflexivity.
Qed.
(** A file with another number of signals, neither number being one: ValueError. *)
Theorem C40_signals_differ d p q paths times signals ns times' signals' ns' :
  load_signals read open d p = Ok (times, signals, ns) ->
  agree times times = true -> has_shape (length times) ns times signals ->
  load_signals read open d q = Ok (times', signals', ns') ->
  agree times times' = true -> has_shape (length times) ns' times' signals' -> times <> [] ->
  ns <> ns' -> ns' <> 1 ->
  load_multiple_signals read close open d (p :: q :: paths) = Raise ValueError.
Proof.
  intros E Ha (H1 & H2 & H3) E' Ha' (H1' & H2' & H3') Hne Hd Hd'. unfold load_multiple_signals. rewrite E. cbn [load_rest].
  rewrite E, allclose_same by auto. change (forallb _ (combine times times)) with (agree times times).
  rewrite Ha, assign_same by auto. rewrite E'. rewrite allclose_same by auto.
  change (forallb _ (combine times' times)) with (agree times times'). rewrite Ha'.
  replace (assign_rows (length times) ns signals') with (@Raise (list (list T)) ValueError); [reflexivity|].
  unfold assign_rows. destruct signals' as [|r rows]; [simpl in H2'; destruct times; [congruence|discriminate]|].
  inversion H3' as [|? ? Hr HF]; subst. cbn [map all_ok]. unfold stretch at 1.
  rewrite (proj2 (Nat.eqb_neq (length r) ns)) by lia. destruct r as [|? [|? ?]]; simpl in *; try lia; reflexivity.
Qed.
(** A file with a single signal among files with several is accepted: its signal is repeated
    in all channels. *)
Theorem C40_broadcast_refuted d p q times signals ns times' signals' :
  load_signals read open d p = Ok (times, signals, ns) ->
  agree times times = true -> has_shape (length times) ns times signals ->
  load_signals read open d q = Ok (times', signals', 1) ->
  agree times times' = true -> has_shape (length times) 1 times' signals' -> ns <> 1 ->
  load_multiple_signals read close open d [p; q] =
    Ok (times, [signals; map (fun row => concat (repeat row ns)) signals']).
Proof.
  intros E Ha (H1 & H2 & H3) E' Ha' (H1' & H2' & H3') Hd. unfold load_multiple_signals. rewrite E. cbn [load_rest].
  rewrite E, allclose_same by auto. change (forallb _ (combine times times)) with (agree times times).
  rewrite Ha, assign_same by auto. rewrite E'. rewrite allclose_same by auto.
  change (forallb _ (combine times' times)) with (agree times times'). rewrite Ha'.
  assert (G : assign_rows (length times) ns signals' = Ok (map (fun row => concat (repeat row ns)) signals')).
  { unfold assign_rows.
    assert (F : all_ok (map (stretch ns) signals') = Ok (map (fun row => concat (repeat row ns)) signals')).
    { clear -H3' Hd. induction H3' as [|r rows Hr _ IH]; [reflexivity|]. cbn [map all_ok]. rewrite IH. unfold stretch at 1.
      destruct r as [|y [|y' r]]; [discriminate| |simpl in Hr; lia]. rewrite (proj2 (Nat.eqb_neq (length [y]) ns)) by (simpl; lia).
      assert (R : repeat y ns = concat (repeat [y] ns)).
      { clear. induction ns as [|n IH]; [reflexivity|]. simpl. rewrite <- IH. reflexivity. }
      rewrite R. reflexivity. }
    rewrite F. unfold stretch. rewrite map_length, H2', Nat.eqb_refl. reflexivity. }
  rewrite G. reflexivity.
Qed.
Theorem C40_no_files d : load_multiple_signals read close open d [] = Raise IndexError.
Proof. reflexivity. Qed.

End Signals.

(** Files written by save_array_text. *)
Theorem C40_saved {T I} show (read : text -> option T) (bits : I -> T) {path} (open : path -> res text) p m n f l d t x :
  printing show read -> delimiter_ok d -> 0 < m -> 2 <= n -> length l = m * n ->
  save_array_text show bits (Array [m; n] f (Floats l)) d = Ok t -> open p = Ok t ->
  exists times signals, load_signals read open d p = Ok (times, signals, n - 1) /\
    (forall i, i < m -> nth i times x = nth (i * n) l x) /\
    (forall i j, i < m -> j < n - 1 -> nth j (nth i signals []) x = nth (i * n + 1 + j) l x).
Proof.
  intros Hp Hd Hm Hn Hl Hs Ho.
  destruct (loadtxt_savetxt (I := I) show read Hp d m n l f Hd Hm ltac:(lia) Hl) as (t' & E1 & E2).
  unfold save_array_text in Hs. cbn [as_2d dims view_float elems] in Hs. rewrite E1 in Hs. injection Hs as <-.
  destruct (C40_load_signals read open d p t' m n l x Ho E2 Hl Hn) as (ts & ss & H0 & _ & _ & H1 & _ & H2).
  exists ts, ss. auto.
Qed.

(** ** Examples *)
Example C40_file_list_example :
  get_file_list (map text_of ["a.txt"; "b.pkl"; "txt"; "c.txt"; ".txt"; "d.TXT"])%string (Some (text_of ".txt")) =
  map text_of ["a.txt"; "c.txt"; ".txt"]%string.
Proof. reflexivity. Qed.
Example C40_file_list_in_example :
  In (text_of "a.txt") (get_file_list (map text_of ["a.txt"; "b.pkl"])%string (Some (text_of ".txt"))).
Proof. apply C40_file_list_in; [discriminate|]. split; [left; reflexivity|]. exists (text_of "a"). reflexivity. Qed.
Example C40_empty_extension_example :
  get_file_list (map text_of ["a.txt"; "b.pkl"])%string (Some []) = [].
Proof. apply C40_empty_extension_refuted. intros [H|[H|[]]]; discriminate. Qed.

Example C40_no_extension_example :
  get_file_list (map text_of ["a.txt"; "b.pkl"])%string None = map text_of ["a.txt"; "b.pkl"]%string.
Proof. apply C40_no_extension. Qed.

(** Four files; numbers differing by at most one are close. *)
Definition ex_file (k : nat) : res text :=
  match k with
  | 0 => Ok (text_of "0 10 20" ++ newline :: text_of "5 11 21")
  | 1 => Ok (text_of "0 30 40" ++ newline :: text_of "6 31 41")
  | 2 => Ok (text_of "0 7" ++ newline :: text_of "5 8")
  | 3 => Ok (text_of "0 1 2" ++ newline :: text_of "9 1 2")
  | 4 => Ok (text_of "0" ++ newline :: text_of "9")
  | 5 => Ok (text_of "0 1 2" ++ newline :: text_of "5 1 2" ++ newline :: text_of "10 1 2")
  | 6 => Ok (text_of "0 1 2 3" ++ newline :: text_of "5 4 5 6")
  | _ => Raise OSError
  end.
Definition ex_close (x y : Z) : bool := (Z.abs (x - y) <=? 1)%Z.
Example C40_load_signals_example :
  load_signals read_Z ex_file None 0 = Ok ([0; 5], [[10; 20]; [11; 21]], 2%nat)%Z /\
  exists times signals, load_signals read_Z ex_file None 0 = Ok (times, signals, 2) /\
    (forall i, i < 2 -> nth i times 0%Z = nth (i * 3) [0; 10; 20; 5; 11; 21]%Z 0%Z).
Proof.
  split; [reflexivity|].
  destruct (C40_load_signals read_Z ex_file None 0 _ 2 3 [0; 10; 20; 5; 11; 21]%Z 0%Z eq_refl eq_refl eq_refl ltac:(lia))
    as (ts & ss & H & _ & _ & H' & _). eauto.
Qed.
Example C40_too_few_columns_example : load_signals read_Z ex_file None 4 = Raise ValueError.
Proof. apply (C40_too_few_columns read_Z ex_file None 4 (text_of "0" ++ newline :: text_of "9") 2 1 [0; 9]%Z); [reflexivity|reflexivity|lia]. Qed.
(** Close times are enough: file 1 has 6 where file 0 has 5. *)
Example C40_load_multiple_example :
  load_multiple_signals read_Z ex_close ex_file None [0; 1] = Ok ([0; 5], [[[10; 20]; [11; 21]]; [[30; 40]; [31; 41]]])%Z.
Proof.
  rewrite (C40_load_multiple read_Z ex_close ex_file None 0 [1] [0; 5]%Z [[10; 20]; [11; 21]]%Z
    [([0; 5], [[10; 20]; [11; 21]]); ([0; 6], [[30; 40]; [31; 41]])]%Z 2); [reflexivity|reflexivity|].
  repeat constructor; (exists 2; split; [reflexivity|]; repeat constructor).
Qed.
Example C40_inconsistent_example : load_multiple_signals read_Z ex_close ex_file None [0; 3] = Raise ValueError.
Proof.
  rewrite (C40_load_multiple read_Z ex_close ex_file None 0 [3] [0; 5]%Z [[10; 20]; [11; 21]]%Z
    [([0; 5], [[10; 20]; [11; 21]]); ([0; 9], [[1; 2]; [1; 2]])]%Z 2); [reflexivity|reflexivity|].
  repeat constructor; (exists 2; split; [reflexivity|]; repeat constructor).
Qed.
Example C40_lengths_example : load_multiple_signals read_Z ex_close ex_file None [0; 5] = Raise ValueError.
Proof.
  apply (C40_lengths_differ read_Z ex_close ex_file None 0 5 [] [0; 5]%Z [[10; 20]; [11; 21]]%Z 2 [0; 5; 10]%Z [[1; 2]; [1; 2]; [1; 2]]%Z 2);
    try reflexivity; try (simpl; lia). repeat constructor.
Qed.

Example C40_no_files_example : load_multiple_signals read_Z ex_close ex_file None [] = Raise IndexError.
Proof. apply C40_no_files. Qed.
Example C40_signals_example : load_multiple_signals read_Z ex_close ex_file None [0; 6] = Raise ValueError.
Proof.
  apply (C40_signals_differ read_Z ex_close ex_file None 0 6 [] [0; 5]%Z [[10; 20]; [11; 21]]%Z 2 [0; 5]%Z [[1; 2; 3]; [4; 5; 6]]%Z 3);
    try reflexivity; try (simpl; lia); try (repeat constructor). discriminate.
Qed.
Example C40_broadcast_example :
  load_multiple_signals read_Z ex_close ex_file None [0; 2] = Ok ([0; 5], [[[10; 20]; [11; 21]]; [[7; 7]; [8; 8]]])%Z.
Proof.
  apply (C40_broadcast_refuted read_Z ex_close ex_file None 0 2 [0; 5]%Z [[10; 20]; [11; 21]]%Z 2 [0; 5]%Z [[7]; [8]]%Z);
    try reflexivity; try (simpl; lia); repeat constructor.
Qed.
Example C40_saved_example : exists times signals,
  load_signals read_Z (fun _ : unit => save_array_text show_Z bits_Z (Array [2; 3] true (Floats [0; 1; 2; 3; 4; 5]%Z)) None) None tt = Ok (times, signals, 2) /\
  nth 1 times 0%Z = 3%Z /\ nth 1 (nth 0 signals []) 0%Z = 2%Z.
Proof.
  destruct (C40_saved show_Z read_Z bits_Z (fun _ : unit => save_array_text show_Z bits_Z (Array [2; 3] true (Floats [0; 1; 2; 3; 4; 5]%Z)) None)
    tt 2 3 true [0; 1; 2; 3; 4; 5]%Z None _ 0%Z printing_Z Logic.I ltac:(lia) ltac:(lia) eq_refl eq_refl eq_refl) as (ts & ss & H1 & H2 & H3).
  exists ts, ss. split; [exact H1|]. split; [apply (H2 1); lia|apply (H3 0 1); lia].
Qed.

Print Assumptions C40_file_list.
Print Assumptions C40_file_list_in.
Print Assumptions C40_no_extension.
Print Assumptions C40_empty_extension_refuted.
Print Assumptions C40_load_signals.
Print Assumptions C40_too_few_columns.
Print Assumptions C40_load_multiple.
Print Assumptions C40_lengths_differ.
Print Assumptions C40_signals_differ.
Print Assumptions C40_broadcast_refuted.
Print Assumptions C40_no_files.
Print Assumptions C40_saved.
