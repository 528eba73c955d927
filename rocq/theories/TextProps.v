(** C12: text files round-trip arrays. *)
From Coq Require Import String DecimalString DecimalZ DecimalPos.
From Coq Require Import List Arith Lia Bool Ascii ZArith.
Import ListNotations.
From Verif Require Import Prelude TextModel TextProofs VecHandleModel VecHandleProps.
Open Scope list_scope.
Open Scope nat_scope.

Section Props.
Context {T I : Type} (show : T -> text) (read : text -> option T) (bits : I -> T).
Hypothesis P : printing show read.
Notation array := (array T I).

(** As many elements as the shape says. *)
Definition well_formed (a : array) : Prop := num_elems (elems a) = fold_right Nat.mul 1 (dims a).
(** Saving, then loading with the same delimiter. *)
Definition round_trip (a : array) (d : option ascii) (is_complex : bool) : res array :=
  match save_array_text show bits a d with
  | Ok t => load_array_text (I := I) read t d is_complex
  | Raise e => Raise e
  end.

(** Real 2-D arrays, in any memory layout. *)
Theorem C12_real m n f l d : 0 < m -> 0 < n -> well_formed (Array [m; n] f (Floats l)) -> delimiter_ok d ->
  round_trip (Array [m; n] f (Floats l)) d false = Ok (Array [m; n] false (Floats l)).
Proof.
  intros Hm Hn W Hd. unfold well_formed in W. simpl in W. rewrite Nat.mul_1_r in W.
  destruct (loadtxt_savetxt (I := I) show read P d m n l f Hd Hm Hn W) as (t & E1 & E2).
  unfold round_trip, save_array_text. simpl. rewrite E1. unfold load_array_text. rewrite E2. reflexivity.
Qed.
(** Complex 2-D arrays: in C order, or with one row or one column. *)
Theorem C12_complex m n f l d : 0 < m -> 0 < n -> well_formed (Array [m; n] f (Complexes l)) -> delimiter_ok d ->
  f = false \/ m = 1 \/ n = 1 ->
  round_trip (Array [m; n] f (Complexes l)) d true = Ok (Array [m; n] false (Complexes l)).
Proof.
  intros Hm Hn W Hd Hf. unfold well_formed in W. simpl in W. rewrite Nat.mul_1_r in W.
  destruct (loadtxt_savetxt (I := I) show read P d m (n * 2) (interleave l) false Hd Hm ltac:(lia)
     ltac:(rewrite interleave_length, W; lia)) as (t & E1 & E2).
  unfold round_trip, save_array_text. cbn [as_2d dims view_float elems fortran].
  replace (f && (1 <? m) && (1 <? n)) with false
    by (destruct Hf as [-> |[-> | ->]]; simpl; auto; rewrite ?andb_false_r; auto).
  rewrite E1. unfold load_array_text. rewrite E2.
  rewrite Nat.mod_mul, Nat.div_mul, pairs_interleave by lia. reflexivity.
Qed.
(** 1-D arrays come back as one column. *)
Theorem C12_vector n f l d : 0 < n -> delimiter_ok d ->
  (length l = n -> round_trip (Array [n] f (Floats l)) d false = Ok (Array [n; 1] false (Floats l))) /\
  (forall z, length z = n -> round_trip (Array [n] f (Complexes z)) d true = Ok (Array [n; 1] false (Complexes z))).
Proof.
  intros Hn Hd. split.
  - intros Hl. apply (C12_real n 1 f l d); auto. unfold well_formed. simpl. lia.
  - intros z Hz. apply (C12_complex n 1 f z d); auto. unfold well_formed. simpl. lia.
Qed.
(** Integers come back as the floats with the same bits. *)
Theorem C12_ints m n f l d : 0 < m -> 0 < n -> well_formed (Array [m; n] f (Ints l)) -> delimiter_ok d ->
  round_trip (Array [m; n] f (Ints l)) d false = Ok (Array [m; n] false (Floats (map bits l))).
Proof.
  intros Hm Hn W Hd. unfold well_formed in W. simpl in W. rewrite Nat.mul_1_r in W.
  destruct (loadtxt_savetxt (I := I) show read P d m n (map bits l) f Hd Hm Hn ltac:(rewrite map_length; auto)) as (t & E1 & E2).
  unfold round_trip, save_array_text. simpl. rewrite E1. unfold load_array_text. rewrite E2. reflexivity.
Qed.
(** So an integer whose bits are those of another number is not restored. *)
Theorem C12_ints_lost (number : I -> T) m n f l i d : 0 < m -> 0 < n -> well_formed (Array [m; n] f (Ints l)) -> delimiter_ok d ->
  In i l -> bits i <> number i -> round_trip (Array [m; n] f (Ints l)) d false <> Ok (Array [m; n] false (Floats (map number l))).
Proof.
  intros Hm Hn W Hd Hi Hb E. rewrite C12_ints in E by auto. injection E as E. apply Hb. clear -E Hi.
  induction l as [|j l IH]; [destruct Hi|]. simpl in E. injection E as E1 E2. destruct Hi as [->|Hi]; auto.
Qed.

(** Errors: dimensions, Fortran-ordered complex arrays, a percent sign as delimiter. *)
Theorem C12_dims (a : array) d : 2 < length (dims a) -> save_array_text show bits a d = Raise RuntimeError.
Proof.
  intros H. unfold save_array_text, as_2d. destruct (dims a) as [|? [|? [|? ?]]]; simpl in H; try lia. reflexivity.
Qed.
Theorem C12_scalar (a : array) d : dims a = [] -> save_array_text show bits a d = Raise ValueError.
Proof.
  intros H. unfold save_array_text, as_2d. rewrite H. unfold view_float, savetxt. rewrite H.
  destruct (elems a) as [l|l|l]; cbn [dims elems]; rewrite ?H; reflexivity.
Qed.
Theorem C12_fortran m n l d : 1 < m -> 1 < n ->
  save_array_text show bits (Array [m; n] true (Complexes l)) d = Raise ValueError.
Proof.
  intros Hm Hn. unfold save_array_text, as_2d, view_float. cbn [dims elems fortran].
  rewrite (proj2 (Nat.ltb_lt _ _) Hm), (proj2 (Nat.ltb_lt _ _) Hn). reflexivity.
Qed.
Theorem C12_percent m n f l : 0 < m -> 1 < n -> well_formed (Array [m; n] f (Floats l)) ->
  save_array_text show bits (Array [m; n] f (Floats l)) (Some percent) = Raise TypeError.
Proof.
  intros Hm Hn W. unfold well_formed in W. simpl in W. rewrite Nat.mul_1_r in W.
  unfold save_array_text. simpl. unfold savetxt. cbn [dims elems].
  destruct m as [|m]; [lia|]. simpl. unfold save_row at 1. simpl.
  rewrite firstn_length, (proj2 (Nat.ltb_lt 1 (Nat.min n (length l)))) by (simpl in W; lia). reflexivity.
Qed.
(** Any text with an odd number of columns loaded as complex. *)
Theorem C12_odd t d m n l : loadtxt read d t = Ok (m, n, l) -> Nat.Odd n ->
  load_array_text (I := I) read t d true = Raise ValueError.
Proof.
  intros E [k Hk]. unfold load_array_text. rewrite E.
  replace (n mod 2 =? 0) with false; [reflexivity|]. symmetry. apply Nat.eqb_neq. subst n.
  rewrite Nat.add_comm, Nat.mul_comm, Nat.mod_add by lia. discriminate.
Qed.

(** The wrong element type.  A complex array read as real has real and imaginary parts in
    alternate columns; a real array with an even number of columns read as complex has half
    as many; with an odd number, ValueError. *)
Theorem C12_complex_as_real m n l d : 0 < m -> 0 < n -> well_formed (Array [m; n] false (Complexes l)) -> delimiter_ok d ->
  round_trip (Array [m; n] false (Complexes l)) d false = Ok (Array [m; n * 2] false (Floats (interleave l))).
Proof.
  intros Hm Hn W Hd. unfold well_formed in W. simpl in W. rewrite Nat.mul_1_r in W.
  destruct (loadtxt_savetxt (I := I) show read P d m (n * 2) (interleave l) false Hd Hm ltac:(lia)
     ltac:(rewrite interleave_length, W; lia)) as (t & E1 & E2).
  unfold round_trip, save_array_text. simpl. rewrite E1. unfold load_array_text. rewrite E2. reflexivity.
Qed.
Theorem C12_real_as_complex m n f l d : 0 < m -> 0 < n -> well_formed (Array [m; n] f (Floats l)) -> delimiter_ok d ->
  (forall k, n = 2 * k -> round_trip (Array [m; n] f (Floats l)) d true = Ok (Array [m; k] false (Complexes (pairs l)))) /\
  (Nat.Odd n -> round_trip (Array [m; n] f (Floats l)) d true = Raise ValueError).
Proof.
  intros Hm Hn W Hd. unfold well_formed in W. simpl in W. rewrite Nat.mul_1_r in W.
  destruct (loadtxt_savetxt (I := I) show read P d m n l f Hd Hm Hn W) as (t & E1 & E2).
  unfold round_trip, save_array_text. simpl. rewrite E1. split.
  - intros k Hk. unfold load_array_text. rewrite E2. replace n with (k * 2) by lia. rewrite Nat.mod_mul, Nat.div_mul by lia. reflexivity.
  - intros Ho. eapply C12_odd; eauto.
Qed.
(** Without rows or without columns, shape (0, 1) comes back; as complex, ValueError. *)
Theorem C12_empty m n f l d : m = 0 \/ n = 0 -> delimiter_ok d ->
  round_trip (Array [m; n] f (Floats l)) d false = Ok (Array [0; 1] false (Floats [])) /\
  round_trip (Array [m; n] f (Floats l)) d true = Raise ValueError.
Proof.
  intros H Hd. destruct (loadtxt_empty (I := I) show read d m n l f Hd H) as (t & E1 & E2).
  unfold round_trip, save_array_text. simpl. rewrite E1. unfold load_array_text. rewrite E2. auto.
Qed.

(** VecHandleArrayText (vectors.py:89-111) with these files, for arrays as vectors. *)
Definition text_env {K D'} (sub : array -> array -> res array) (scale : array -> K -> res array)
    (eq : array -> array -> bool) (dump : array -> res (text + D')) (load : text + D' -> res array) :
    env array K (text + D') :=
  Env sub scale eq (fun a => match save_array_text show bits a None with Ok t => Ok (inl t) | Raise e => Raise e end)
    (fun c d => match d with inl t => load_array_text read t None c | inr _ => Raise ValueError end) dump load.
Theorem C12_handle {K D'} sub scale eq dump load (w : world array K (text + D')) p m n l :
  0 < m -> 0 < n -> well_formed (Array [m; n] false (Floats l)) ->
  let E := text_env sub scale eq dump load in
  let h := ArrayText p None None false in
  snd (get E h (fst (put E h (Array [m; n] false (Floats l)) w))) = Ok (Array [m; n] false (Floats l)).
Proof.
  intros Hm Hn W E h. pose proof (C12_real m n false l None Hm Hn W Logic.I) as R. unfold round_trip in R.
  unfold get, put, E, h, text_env. cbn [text_save text_load raw_get].
  destruct (save_array_text show bits (Array [m; n] false (Floats l)) None) as [t|e]; [|discriminate].
  cbn [fst file mem]. unfold read_file. cbn [file]. unfold upd. rewrite Nat.eqb_refl. simpl. rewrite R. reflexivity.
Qed.
End Props.

(** ** Examples: decimal integers as numbers *)
Definition show_Z (z : Z) : text := list_ascii_of_string (NilZero.string_of_int (Z.to_int z)).
Definition read_Z (t : text) : option Z := option_map Z.of_int (NilZero.int_of_string (string_of_list_ascii t)).
Lemma uint_chars d c : In c (list_ascii_of_string (NilEmpty.string_of_uint d)) -> In c number_chars.
Proof. induction d; simpl; [intros []| | | | | | | | | |]; intros [<-|H]; auto; simpl; tauto. Qed.
Lemma uint0_chars d c : In c (list_ascii_of_string (NilZero.string_of_uint d)) -> In c number_chars.
Proof. destruct d; [simpl; tauto| | | | | | | | | |]; apply uint_chars. Qed.
Lemma printing_Z : printing show_Z read_Z.
Proof.
  split.
  - intros z. unfold show_Z. destruct (Z.to_int z) as [d|d]; destruct d; discriminate.
  - intros z c. unfold show_Z. destruct (Z.to_int z) as [d|d]; simpl.
    + apply uint0_chars.
    + intros [<-|H]; [simpl; tauto|apply (uint0_chars d); auto].
  - intros z. unfold show_Z, read_Z. rewrite string_of_list_ascii_of_string, NilZero.isi.
    + simpl. f_equal. apply DecimalZ.of_to.
    + destruct z; simpl; try discriminate. intros [= E]. apply (Unsigned.to_uint_nonnil p E).
    + destruct z; simpl; try discriminate. intros [= E]. apply (Unsigned.to_uint_nonnil p E).
Qed.
Definition bits_Z (i : Z) : Z := (i * 5)%Z.

Definition text_of (s : string) : text := list_ascii_of_string s.
Example C12_save_example : save_array_text show_Z bits_Z (Array [2; 3] true (Floats [1; -20; 3; 4; 5; 6]%Z)) None =
  Ok (text_of "1 -20 3" ++ [newline] ++ text_of "4 5 6" ++ [newline]).
Proof. vm_compute. reflexivity. Qed.
Example C12_load_example : load_array_text (I := Z) read_Z (text_of "# time value" ++ [newline] ++ text_of "  1,-20  # first" ++ [newline; newline] ++ text_of "4,5") (Some ","%char) false =
  Raise ValueError /\
  load_array_text (I := Z) read_Z (text_of "# time value" ++ [newline] ++ text_of "  1   -20  # first" ++ [newline; newline] ++ text_of "4 5") None false =
  Ok (Array [2; 2] false (Floats [1; -20; 4; 5]%Z)).
Proof. vm_compute. auto. Qed.
Example C12_real_example : round_trip show_Z read_Z bits_Z (Array [2; 3] true (Floats [1; -20; 3; 4; 5; 6]%Z)) (Some ","%char) false =
  Ok (Array [2; 3] false (Floats [1; -20; 3; 4; 5; 6]%Z)).
Proof. apply C12_real; [apply printing_Z|lia|lia|reflexivity|]. intros H. repeat (destruct H as [H|H]; [discriminate|]). exact H. Qed.
Example C12_complex_example : round_trip show_Z read_Z bits_Z (Array [2; 2] false (Complexes [(1, 2); (3, -4); (0, 6); (7, 0)]%Z)) None true =
  Ok (Array [2; 2] false (Complexes [(1, 2); (3, -4); (0, 6); (7, 0)]%Z)).
Proof. apply C12_complex; [apply printing_Z|lia|lia|reflexivity|exact I|auto]. Qed.
Example C12_vector_example : round_trip show_Z read_Z bits_Z (Array [3] false (Complexes [(1, 2); (3, -4); (0, 6)]%Z)) None true =
  Ok (Array [3; 1] false (Complexes [(1, 2); (3, -4); (0, 6)]%Z)).
Proof. apply (C12_vector show_Z read_Z bits_Z printing_Z 3 false [] None); [lia|exact I|reflexivity]. Qed.
Example C12_ints_example : round_trip show_Z read_Z bits_Z (Array [1; 2] false (Ints [1; 2]%Z)) None false <>
  Ok (Array [1; 2] false (Floats [1; 2]%Z)).
Proof. apply (C12_ints_lost show_Z read_Z bits_Z printing_Z (fun z => z) 1 2 false [1; 2]%Z 1%Z); [lia|lia|reflexivity|exact I|left; auto|discriminate]. Qed.
Example C12_dims_example : save_array_text show_Z bits_Z (Array [1; 1; 2] false (Ints [1; 2]%Z)) None = Raise RuntimeError /\
  save_array_text show_Z bits_Z (Array [] false (Floats [1]%Z)) None = Raise ValueError.
Proof. split; [apply C12_dims; simpl; lia|apply C12_scalar; reflexivity]. Qed.
Example C12_fortran_example : save_array_text show_Z bits_Z (Array [2; 2] true (Complexes [(1, 2); (3, -4); (0, 6); (7, 0)]%Z)) None = Raise ValueError.
Proof. apply C12_fortran; lia. Qed.
Example C12_percent_example : save_array_text show_Z bits_Z (Array [1; 2] false (Floats [1; 2]%Z)) (Some percent) = Raise TypeError.
Proof. apply C12_percent; [lia|lia|reflexivity]. Qed.
Example C12_mixed_example :
  round_trip show_Z read_Z bits_Z (Array [1; 2] false (Complexes [(1, 2); (3, 4)]%Z)) None false = Ok (Array [1; 4] false (Floats [1; 2; 3; 4]%Z)) /\
  round_trip show_Z read_Z bits_Z (Array [1; 4] false (Floats [1; 2; 3; 4]%Z)) None true = Ok (Array [1; 2] false (Complexes [(1, 2); (3, 4)]%Z)) /\
  round_trip show_Z read_Z bits_Z (Array [1; 3] false (Floats [1; 2; 3]%Z)) None true = Raise ValueError.
Proof.
  split; [|split].
  - apply (C12_complex_as_real show_Z read_Z bits_Z printing_Z 1 2 [(1, 2); (3, 4)]%Z None); [lia|lia|reflexivity|exact I].
  - apply (C12_real_as_complex show_Z read_Z bits_Z printing_Z 1 4 false [1; 2; 3; 4]%Z None); [lia|lia|reflexivity|exact I|reflexivity].
  - apply C12_real_as_complex; [apply printing_Z|lia|lia|reflexivity|exact I|exists 1; reflexivity].
Qed.
Example C12_odd_example : load_array_text (I := Z) read_Z (text_of "1 2 3") None true = Raise ValueError.
Proof. apply (C12_odd read_Z _ _ 1 3 [1; 2; 3]%Z); [reflexivity|exists 1; reflexivity]. Qed.
Example C12_empty_example : round_trip show_Z read_Z bits_Z (Array [0; 4] false (Floats [])) None false = Ok (Array [0; 1] false (Floats [])).
Proof. apply (C12_empty show_Z read_Z bits_Z 0 4); [auto|exact I]. Qed.
Example C12_handle_example : let E := text_env (D' := unit) (K := Z) show_Z read_Z bits_Z (fun a _ => Ok a) (fun a _ => Ok a) (fun _ _ => false) (fun a => Raise OSError) (fun a => Raise OSError) in
  let h := ArrayText 4 None None false in
  snd (get E h (fst (put E h (Array [1; 2] false (Floats [8; 9]%Z)) (World (fun _ => Array [] false (Floats [])) (fun _ => None) None)))) =
    Ok (Array [1; 2] false (Floats [8; 9]%Z)).
Proof. apply C12_handle; [apply printing_Z|lia|lia|reflexivity]. Qed.

(** ** Files written by others *)
Section Files.
Context {T I : Type} (read : text -> option T).

(** The lines of a file with comments: [Some body] is a line of numbers, [None] a line without. *)
Definition file_line := (option text * option text)%type.
Definition bodies (f : list file_line) : list text := flat_map (fun l => match fst l with Some b => [b] | None => [] end) f.
Definition with_comment (l : file_line) : text :=
  (match fst l with Some b => b | None => [] end) ++ (match snd l with Some c => hash :: c | None => [] end).
Definition one_line (l : file_line) : Prop :=
  (forall b, fst l = Some b -> ~ In newline b) /\ (forall c, snd l = Some c -> ~ In newline c).

Definition rows_of (d : option ascii) (lines : list text) : list (list text) :=
  filter (fun ws => negb (length ws =? 0)) (map (fun line => fields d (cut_comment line)) lines).
Lemma cut_at b c : cut_comment (b ++ hash :: c) = cut_comment b.
Proof. induction b as [|x b IH]; simpl; [reflexivity|]. destruct (Ascii.eqb x hash); [reflexivity|]. rewrite IH. reflexivity. Qed.
Lemma rows_split d lines : (forall l, In l lines -> ~ In newline l) ->
  rows_of d (split (Ascii.eqb newline) (join newline lines)) = rows_of d lines.
Proof.
  intros H. destruct lines as [|l0 ls] eqn:E; [destruct d; reflexivity|]. rewrite <- E in *.
  rewrite split_join; [reflexivity|apply Ascii.eqb_refl| |congruence].
  apply Forall_forall. intros w Hw c Hc. destruct (Ascii.eqb_spec newline c) as [<-|]; [|reflexivity].
  destruct (H w Hw Hc).
Qed.
Lemma rows_comments d (f : list file_line) : rows_of d (map with_comment f) = rows_of d (bodies f).
Proof.
  unfold rows_of. induction f as [|[b c] f IH]; [reflexivity|].
  assert (C : cut_comment (with_comment (b, c)) = cut_comment (match b with Some b => b | None => [] end)).
  { unfold with_comment. cbn [fst snd]. destruct c as [c|]; [apply cut_at|rewrite app_nil_r; reflexivity]. }
  cbn [map filter bodies flat_map fst]. rewrite C. destruct b as [b|].
  - cbn [app map filter]. fold (bodies f). rewrite IH. reflexivity.
  - cbn [app]. fold (bodies f). rewrite IH. destruct d; reflexivity.
Qed.
Lemma loadtxt_rows d t u : rows_of d (split (Ascii.eqb newline) t) = rows_of d (split (Ascii.eqb newline) u) ->
  loadtxt read d t = loadtxt read d u.
Proof. intros H. unfold loadtxt. fold (rows_of d (split (Ascii.eqb newline) t)). rewrite H. reflexivity. Qed.

(** Comments at the ends of lines, lines of comments and empty lines change nothing. *)
Theorem C12_comments (f : list file_line) d is_complex : (forall l, In l f -> one_line l) ->
  load_array_text (I := I) read (join newline (map with_comment f)) d is_complex =
  load_array_text read (join newline (bodies f)) d is_complex.
Proof.
  intros H. unfold load_array_text.
  rewrite (loadtxt_rows d (join newline (map with_comment f)) (join newline (bodies f))); [reflexivity|].
  rewrite !rows_split; [apply rows_comments| |].
  - intros l Hl. apply in_flat_map in Hl as ([b c] & Hl & Hb). destruct (H _ Hl) as [H1 _]. cbn [fst] in *.
    destruct b as [b|]; [|destruct Hb]. destruct Hb as [<-|[]]. auto.
  - intros l Hl. apply in_map_iff in Hl as ([b c] & <- & Hl). destruct (H _ Hl) as [H1 H2]. unfold with_comment. cbn [fst snd] in *.
    intros Hn. apply in_app_or in Hn. destruct Hn as [Hn|Hn].
    + destruct b as [b|]; [exact (H1 b eq_refl Hn)|destruct Hn].
    + destruct c as [c|]; [|destruct Hn]. destruct Hn as [Hn|Hn]; [discriminate|exact (H2 c eq_refl Hn)].
Qed.

(** Lines of numbers with different numbers of fields, or a field that is no number: ValueError. *)
Theorem C12_ragged lines l1 l2 d is_complex : (forall l, In l lines -> ~ In newline l) -> In l1 lines -> In l2 lines ->
  0 < length (fields d (cut_comment l1)) < length (fields d (cut_comment l2)) ->
  load_array_text (I := I) read (join newline lines) d is_complex = Raise ValueError.
Proof.
  intros H H1 H2 [L1 L2]. unfold load_array_text.
  replace (loadtxt read d (join newline lines)) with (Raise (A := nat * nat * list T) ValueError); [reflexivity|].
  unfold loadtxt. fold (rows_of d (split (Ascii.eqb newline) (join newline lines))). rewrite rows_split by auto.
  assert (I1 : forall l, In l lines -> 0 < length (fields d (cut_comment l)) -> In (fields d (cut_comment l)) (rows_of d lines)).
  { intros l Hl Hp. apply filter_In. split; [apply (in_map (fun line => fields d (cut_comment line))); auto|].
    destruct (fields d (cut_comment l)); [simpl in Hp; lia|reflexivity]. }
  pose proof (I1 l1 H1 L1) as J1. pose proof (I1 l2 H2 ltac:(lia)) as J2.
  destruct (rows_of d lines) as [|r rs]; [destruct J1|].
  destruct (forallb (fun r' => length r' =? length r) (r :: rs)) eqn:E; [|reflexivity].
  rewrite forallb_forall in E. pose proof (E _ J1) as E1. pose proof (E _ J2) as E2. apply Nat.eqb_eq in E1, E2. lia.
Qed.
Lemma all_ok_raise {A} (l : list (res A)) : (forall e, In (Raise e) l -> e = ValueError) -> In (Raise ValueError) l ->
  all_ok l = Raise ValueError.
Proof.
  induction l as [|[a|e] l IH]; intros H Hin; [destruct Hin| |].
  - simpl. rewrite IH; auto; [intros e He; apply H; right; auto|]. destruct Hin as [Hin|Hin]; [discriminate|auto].
  - simpl. rewrite (H e); auto. left. reflexivity.
Qed.
Theorem C12_unreadable lines l1 w d is_complex : (forall l, In l lines -> ~ In newline l) -> In l1 lines ->
  In w (fields d (cut_comment l1)) -> read w = None ->
  load_array_text (I := I) read (join newline lines) d is_complex = Raise ValueError.
Proof.
  intros H H1 Hw Hr. unfold load_array_text.
  replace (loadtxt read d (join newline lines)) with (Raise (A := nat * nat * list T) ValueError); [reflexivity|].
  unfold loadtxt. fold (rows_of d (split (Ascii.eqb newline) (join newline lines))). rewrite rows_split by auto.
  assert (J1 : In (fields d (cut_comment l1)) (rows_of d lines)).
  { apply filter_In. split; [apply (in_map (fun line => fields d (cut_comment line))); auto|].
    destruct (fields d (cut_comment l1)); [destruct Hw|reflexivity]. }
  destruct (rows_of d lines) as [|r rs] eqn:ER; [destruct J1|]. rewrite <- ER in *.
  destruct (forallb _ (rows_of d lines)); [|reflexivity].
  assert (V : forall ws e, read_row read ws = Raise e -> e = ValueError).
  { intros ws. unfold read_row. induction ws as [|x ws IH]; intros e He; simpl in He; [discriminate|].
    destruct (read x); [|congruence]. destruct (all_ok _) eqn:E; [discriminate|]. apply IH. congruence. }
  rewrite all_ok_raise; [reflexivity| |].
  - intros e He. apply in_map_iff in He as (ws & He & _). eauto.
  - apply in_map_iff. exists (fields d (cut_comment l1)). split; [|exact J1].
    unfold read_row. apply all_ok_raise.
    + intros e He. apply in_map_iff in He as (x & He & _). destruct (read x); congruence.
    + apply in_map_iff. exists w. rewrite Hr. auto.
Qed.
End Files.

Definition tx_file : list file_line :=
  [(None, Some (text_of " time, value")); (Some (text_of "1,-20"), Some (text_of " first")); (None, None); (Some (text_of "4,5"), None)].
Example C12_comments_example : load_array_text (I := Z) read_Z (join newline (map with_comment tx_file)) (Some ","%char) false =
  Ok (Array [2; 2] false (Floats [1; -20; 4; 5]%Z)).
Proof.
  rewrite C12_comments; [vm_compute; reflexivity|].
  intros l Hl. repeat (destruct Hl as [<-|Hl]; [split; intros b [= <-] Hb; repeat (destruct Hb as [Hb|Hb]; [discriminate|]); exact Hb|]).
  destruct Hl.
Qed.
Example C12_ragged_example : load_array_text (I := Z) read_Z (join newline [text_of "1 2 3"; text_of "# 7"; text_of "4 5"]) None false = Raise ValueError.
Proof.
  apply (C12_ragged read_Z _ (text_of "4 5") (text_of "1 2 3")); [|right; right; left; reflexivity|left; reflexivity|vm_compute; lia].
  intros l Hl. repeat (destruct Hl as [<-|Hl]; [intros Hb; repeat (destruct Hb as [Hb|Hb]; [discriminate|]); exact Hb|]). destruct Hl.
Qed.
Example C12_unreadable_example : load_array_text (I := Z) read_Z (join newline [text_of "1 2 3"; text_of "4 5 six"]) None true = Raise ValueError.
Proof.
  apply (C12_unreadable read_Z _ (text_of "4 5 six") (text_of "six")); [|right; left; reflexivity|vm_compute; auto|vm_compute; reflexivity].
  intros l Hl. repeat (destruct Hl as [<-|Hl]; [intros Hb; repeat (destruct Hb as [Hb|Hb]; [discriminate|]); exact Hb|]). destruct Hl.
Qed.

Print Assumptions C12_real.
Print Assumptions C12_complex.
Print Assumptions C12_vector.
Print Assumptions C12_ints.
Print Assumptions C12_ints_lost.
Print Assumptions C12_dims.
Print Assumptions C12_scalar.
Print Assumptions C12_fortran.
Print Assumptions C12_percent.
Print Assumptions C12_odd.
Print Assumptions C12_complex_as_real.
Print Assumptions C12_real_as_complex.
Print Assumptions C12_empty.
Print Assumptions C12_handle.
Print Assumptions C12_comments.
Print Assumptions C12_ragged.
Print Assumptions C12_unreadable.
