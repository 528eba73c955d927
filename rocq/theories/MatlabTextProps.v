(** C59: text files go between Python and MATLAB. *)
From Coq Require Import String.
From Coq Require Import List Arith Lia Bool Ascii ZArith.
Import ListNotations.
From Verif Require Import Prelude TextModel TextProofs TextProps MatlabTextModel MatlabTextProofs.
Open Scope list_scope.
Open Scope nat_scope.

(** The array that is the same matrix. *)
Definition python_of {T I} (a : matrix T) : array T I :=
  match a with
  | RealMat m n l => Array [m; n] false (Floats l)
  | ComplexMat m n l => Array [m; n] false (Complexes l)
  end.
Definition is_complex {T} (a : matrix T) : bool := match a with RealMat _ _ _ => false | ComplexMat _ _ _ => true end.
Definition rows {T} (a : matrix T) : nat := match a with RealMat m _ _ => m | ComplexMat m _ _ => m end.
Definition cols {T} (a : matrix T) : nat := match a with RealMat _ n _ => n | ComplexMat _ n _ => n end.
Definition has_entries {T} (a : matrix T) : Prop :=
  match a with RealMat m n l => length l = m * n | ComplexMat m n l => length l = m * n end.
(** Not special in a format of MATLAB's. *)
Definition plain (d : ascii) : Prop := d <> percent /\ d <> "\"%char.

Section Props.
Context {T I : Type} (zero : T) (is_zero : T -> bool) (bits : I -> T).

Lemma savetxt_ok (show : T -> text) d m n f l : delim_char d <> percent ->
  savetxt show d (Array (I := I) [m; n] f (Floats l)) =
  Ok (concat (map (fun r => join (delim_char d) (map show r) ++ [newline]) (chunks m n l))).
Proof.
  intros Hd. unfold savetxt. cbn [dims elems]. fold (delim_char d).
  rewrite (all_ok_map _ (fun r => join (delim_char d) (map show r) ++ [newline])); [reflexivity|].
  intros r _. unfold save_row. destruct (Ascii.eqb_spec (delim_char d) percent) as [E|]; [congruence|reflexivity].
Qed.

(** Apart from the digits of numbers, save_mat_text writes what save_array_text writes. *)
Theorem C59_same_text (show : T -> text) a d : has_entries a -> 0 < cols a -> plain d ->
  save_mat_text zero show a d = save_array_text show bits (python_of a) (Some d).
Proof.
  intros W Hn [Hd _]. destruct a as [m n l|m n l]; cbn [has_entries cols] in *;
    unfold save_mat_text, mat_write, save_array_text, python_of; cbn [as_2d dims view_float elems fortran andb].
  - rewrite (proj2 (Nat.eqb_neq n 0)) by lia. rewrite andb_false_r. rewrite rows_text by auto.
    symmetry. apply (savetxt_ok show (Some d) m n false l Hd).
  - rewrite (proj2 (Nat.eqb_neq (2 * n) 0)) by lia. rewrite andb_false_r.
    rewrite write_interleave by auto. rewrite rows_text by (rewrite ?interleave_length; lia).
    symmetry. rewrite (Nat.mul_comm 2 n). apply (savetxt_ok show (Some d) m (n * 2) false (interleave l) Hd).
Qed.

(** Written by MATLAB, read in Python with the same delimiter. *)
Theorem C59_to_python (show : T -> text) read a d : printing show read -> has_entries a -> 0 < rows a -> 0 < cols a ->
  delimiter_ok (Some d) -> plain d ->
  exists t, save_mat_text zero show a d = Ok t /\
    load_array_text read t (Some d) (is_complex a) = Ok (python_of (I := I) a) /\
    (d = space -> load_array_text read t None (is_complex a) = Ok (python_of (I := I) a)).
Proof.
  intros P W Hm Hn Hd Hp. pose proof (C59_same_text show a d W Hn Hp) as E.
  assert (R : forall dl, delimiter_ok dl -> round_trip show read bits (python_of a) dl (is_complex a) = Ok (python_of a)).
  { intros dl Hdl. destruct a as [m n l|m n l]; cbn [has_entries rows cols] in *.
    - apply C12_real; auto. unfold well_formed. simpl. lia.
    - apply C12_complex; auto. unfold well_formed. simpl. lia. }
  pose proof (R (Some d) Hd) as R1. pose proof (R None Logic.I) as R2. unfold round_trip in R1, R2.
  rewrite <- E in R1. destruct (save_mat_text zero show a d) as [t|e] eqn:Et; [|discriminate].
  exists t. repeat split; auto. intros ->.
  replace (save_array_text show bits (python_of a) None) with (save_array_text show bits (python_of a) (Some space)) in R2 by reflexivity.
  rewrite <- E in R2. exact R2.
Qed.

Lemma ascii_pairs read t m n l : 0 < n -> length l = m * n ->
  load_ascii read t = Ok (m, n * 2, interleave l) -> load_mat_text zero is_zero read t true = Ok (narrow is_zero m n l).
Proof.
  intros Hn Hl E. unfold load_mat_text. rewrite E, Nat.mod_mul, Nat.div_mul, load_pairs by (auto; lia). reflexivity.
Qed.
(** Written in Python, read by MATLAB, delimited by a blank, tab, comma or semicolon.  Complex
    arrays whose imaginary parts are all zero come out real. *)
Theorem C59_to_matlab (show : T -> text) read m n d : printing show read -> 0 < m -> 0 < n -> readable (delim_char d) ->
  (forall f l, length l = m * n -> exists t, save_array_text show bits (Array [m; n] f (Floats l)) d = Ok t /\
     load_mat_text zero is_zero read t false = Ok (RealMat m n l)) /\
  (forall l, length l = m * n -> exists t, save_array_text show bits (Array [m; n] false (Complexes l)) d = Ok t /\
     (Exists (fun z => is_zero (snd z) = false) l -> load_mat_text zero is_zero read t true = Ok (ComplexMat m n l)) /\
     (Forall (fun z => is_zero (snd z) = true) l -> load_mat_text zero is_zero read t true = Ok (RealMat m n (map fst l)))).
Proof.
  intros P Hm Hn Hd. pose proof (sep_chars _ Hd) as Nd.
  assert (Np : delim_char d <> percent) by (intros E; apply Nd; rewrite E; do 2 right; left; auto). split.
  - intros f l Hl. eexists. split.
    + unfold save_array_text. cbn [as_2d dims view_float elems]. apply savetxt_ok; auto.
    + unfold load_mat_text. rewrite load_ascii_savetxt by auto. reflexivity.
  - intros l Hl. eexists. split.
    + unfold save_array_text. cbn [as_2d dims view_float elems fortran andb]. apply savetxt_ok; auto.
    + assert (E := ascii_pairs read _ m n l Hn Hl
        (load_ascii_savetxt show read (delim_char d) m (n * 2) (interleave l) P Hd Hm ltac:(lia) ltac:(rewrite interleave_length, Hl; lia))).
      split; intros H; rewrite E; unfold narrow.
      * destruct (forallb (fun z => is_zero (snd z)) l) eqn:F; auto. exfalso.
        apply Exists_exists in H as (z & Hz & H). rewrite forallb_forall in F. specialize (F z Hz). cbn in F. congruence.
      * rewrite (proj2 (forallb_forall _ l)); auto. rewrite Forall_forall in H. exact H.
Qed.
(** 1-D arrays are columns for MATLAB. *)
Theorem C59_vector (show : T -> text) read n d f l : printing show read -> 0 < n -> readable (delim_char d) -> length l = n ->
  exists t, save_array_text show bits (Array [n] f (Floats l)) d = Ok t /\
    load_mat_text zero is_zero read t false = Ok (RealMat n 1 l).
Proof.
  intros P Hn Hd Hl. destruct (C59_to_matlab show read n 1 d P Hn ltac:(lia) Hd) as [H _].
  apply (H f l). lia.
Qed.

(** From Python to MATLAB and back, each with its own printing and reading of numbers. *)
Theorem C59_there_and_back show_p read_p show_m read_m m n d d' :
  printing show_p read_m -> printing show_m read_p -> 0 < m -> 0 < n ->
  readable (delim_char d) -> delimiter_ok (Some d') -> plain d' ->
  (forall f l, length l = m * n -> exists t a t', save_array_text show_p bits (Array [m; n] f (Floats l)) d = Ok t /\
     load_mat_text zero is_zero read_m t false = Ok a /\ save_mat_text zero show_m a d' = Ok t' /\
     load_array_text read_p t' (Some d') false = Ok (Array (I := I) [m; n] false (Floats l))) /\
  (forall l, length l = m * n -> Exists (fun z => is_zero (snd z) = false) l ->
     exists t a t', save_array_text show_p bits (Array [m; n] false (Complexes l)) d = Ok t /\
     load_mat_text zero is_zero read_m t true = Ok a /\ save_mat_text zero show_m a d' = Ok t' /\
     load_array_text read_p t' (Some d') true = Ok (Array (I := I) [m; n] false (Complexes l))).
Proof.
  intros P1 P2 Hm Hn Hd Hd' Hp. destruct (C59_to_matlab show_p read_m m n d P1 Hm Hn Hd) as [H1 H2]. split.
  - intros f l Hl. destruct (H1 f l Hl) as (t & E1 & E2).
    destruct (C59_to_python show_m read_p (RealMat m n l) d' P2 Hl Hm Hn Hd' Hp) as (t' & E3 & E4 & _).
    exists t, (RealMat m n l), t'. auto.
  - intros l Hl Hx. destruct (H2 l Hl) as (t & E1 & E2 & _).
    destruct (C59_to_python show_m read_p (ComplexMat m n l) d' P2 Hl Hm Hn Hd' Hp) as (t' & E3 & E4 & _).
    exists t, (ComplexMat m n l), t'. auto.
Qed.
(** A complex array without imaginary parts does not survive that: MATLAB writes it as
    real, and then it is not complex data, or data with half as many columns. *)
Theorem C59_no_imaginary_refuted show_p read_p show_m read_m m n d d' l :
  printing show_p read_m -> printing show_m read_p -> 0 < m -> 0 < n ->
  readable (delim_char d) -> delimiter_ok (Some d') -> plain d' ->
  length l = m * n -> Forall (fun z => is_zero (snd z) = true) l ->
  exists t a t', save_array_text show_p bits (Array [m; n] false (Complexes l)) d = Ok t /\
    load_mat_text zero is_zero read_m t true = Ok a /\ save_mat_text zero show_m a d' = Ok t' /\
    (Nat.Odd n -> load_array_text (I := I) read_p t' (Some d') true = Raise ValueError) /\
    (forall k, n = 2 * k -> load_array_text (I := I) read_p t' (Some d') true = Ok (Array [m; k] false (Complexes (pairs (map fst l))))).
Proof.
  intros P1 P2 Hm Hn Hd Hd' Hp Hl Hz. destruct (C59_to_matlab show_p read_m m n d P1 Hm Hn Hd) as [_ H2].
  destruct (H2 l Hl) as (t & E1 & _ & E2). specialize (E2 Hz).
  assert (Hl' : length (map fst l) = m * n) by (rewrite map_length; auto).
  pose proof (C59_same_text show_m (RealMat m n (map fst l)) d' Hl' Hn Hp) as E3.
  assert (W : well_formed (Array (T := T) (I := I) [m; n] false (Floats (map fst l)))) by (unfold well_formed; simpl; lia).
  destruct (C12_real_as_complex (I := I) show_m read_p bits P2 m n false (map fst l) (Some d') Hm Hn W Hd') as [R1 R2].
  unfold round_trip in R1, R2. cbn [python_of] in E3.
  destruct (C59_to_python show_m read_p (RealMat m n (map fst l)) d' P2 Hl' Hm Hn Hd' Hp) as (t' & E4 & _).
  rewrite E4 in E3. rewrite <- E3 in R1, R2.
  exists t, (RealMat m n (map fst l)), t'. auto.
Qed.

(** Other delimiters, which Python reads back, MATLAB does not. *)
Theorem C59_unreadable (show : T -> text) read m n d f l : printing show read ->
  (forall w x, read w = Some x -> incl w number_chars) -> 0 < m -> 1 < n -> length l = m * n ->
  delimiter_ok (Some d) -> ~ readable d ->
  exists t, save_array_text show bits (Array [m; n] f (Floats l)) (Some d) = Ok t /\
    forall c, load_mat_text zero is_zero read t c = Raise ValueError.
Proof.
  intros P R Hm Hn Hl Hd Hr. assert (Np : d <> percent) by (intros E; apply Hd; rewrite E; do 2 right; left; auto).
  eexists. split.
  { unfold save_array_text. cbn [as_2d dims view_float elems]. apply (savetxt_ok show (Some d)); auto. }
  intros c. unfold load_mat_text.
  assert (L : load_ascii read (concat (map (fun r => join d (map show r) ++ [newline]) (chunks m n l))) = Raise ValueError).
  2:{ cbn [delim_char]. rewrite L. reflexivity. }
  assert (BC : forall r x, In x (join d (map show r)) -> x = d \/ In x number_chars).
  { intros r x Hx. apply in_join in Hx. destruct Hx as [->|(w & Hw & Hx)]; auto. right.
    apply in_map_iff in Hw as (y & <- & _). eapply show_chars; eauto. }
  assert (Sd : is_separator d = false) by (destruct (is_separator d) eqn:E; auto; exfalso; apply Hr; apply readable_sep; exact E).
  assert (Nn : ~ In newline number_chars) by apply number_special.
  assert (Npn : ~ In percent number_chars) by (intros G; repeat (destruct G as [G|G]; [discriminate|]); exact G).
  unfold load_ascii. rewrite <- (map_map (fun r => join d (map show r)) (fun t => t ++ [newline])).
  rewrite split_lines.
  2:{ apply Ascii.eqb_refl. }
  2:{ apply Forall_forall. intros w Hw x Hx. apply in_map_iff in Hw as (r & <- & _).
      destruct (Ascii.eqb_spec newline x) as [E|]; auto. exfalso. destruct (BC r x Hx) as [->|G]; [apply Hd; left; auto|congruence]. }
  assert (RM : forall r, is_remark (join d (map show r)) = false).
  { intros r. destruct (join d (map show r)) as [|x t] eqn:E; auto. cbn. destruct (Ascii.eqb_spec x percent) as [->|]; auto.
    exfalso. destruct (BC r percent) as [G|G]; [rewrite E; left; auto|congruence|congruence]. }
  assert (JD : forall r, length r = n -> In d (join d (map show r)) /\ join d (map show r) <> []).
  { intros r Lr. destruct r as [|x [|y r]]; simpl in Lr; try lia. cbn [map join]. split; [apply in_or_app; right; left; auto|].
    destruct (show x); discriminate. }
  rewrite filter_app, (filter_id _ (map (fun r => join d (map show r)) (chunks m n l))).
  2:{ intros t Ht. apply in_map_iff in Ht as (r & <- & _). exact (f_equal negb (RM r)). }
  cbn [filter is_remark negb]. rewrite map_app, map_map, filter_app. cbn [map split filter length Nat.eqb negb]. rewrite app_nil_r.
  assert (FL : map (fun r => filter (fun w => negb (length w =? 0)) (split is_separator (join d (map show r)))) (chunks m n l) = map (fun r => [join d (map show r)]) (chunks m n l)).
  { apply map_ext_in. intros r Hr'. destruct (JD r (chunks_row m n l r Hl Hr')) as [_ J].
    rewrite split_word.
    - cbn [filter]. destruct (join d (map show r)); [congruence|reflexivity].
    - intros x Hx. destruct (BC r x Hx) as [->|G]; auto. apply sep_number; auto. }
  rewrite FL. rewrite filter_id.
  2:{ intros w Hw. apply in_map_iff in Hw as (r & <- & _). reflexivity. }
  destruct (chunks m n l) as [|r rs] eqn:E; [pose proof (chunks_length m n l) as X; rewrite E in X; simpl in X; lia|].
  assert (Lr : length r = n) by (apply (chunks_row m n l); auto; rewrite E; left; auto).
  cbn [map]. replace (forallb _ _) with true.
  2:{ symmetry. apply forallb_forall. intros w [<-|Hw]; [reflexivity|]. apply in_map_iff in Hw as (r1 & <- & _). reflexivity. }
  cbn [map]. unfold read_row at 1. cbn [map all_ok].
  destruct (read (join d (map show r))) as [x|] eqn:Ex; [|reflexivity]. exfalso.
  apply Hd. do 3 right. apply (R _ _ Ex). apply JD. auto.
Qed.

(** Errors: rows without columns cannot be written (np.savetxt writes them as empty lines);
    an odd number of columns is not complex data. *)
Theorem C59_no_columns (show : T -> text) m d : 0 < m ->
  save_mat_text zero show (RealMat m 0 []) d = Raise IndexError /\
  save_mat_text zero show (ComplexMat m 0 []) d = Raise IndexError.
Proof.
  intros Hm. unfold save_mat_text, mat_write. rewrite (proj2 (Nat.ltb_lt 0 m)) by auto. split; reflexivity.
Qed.
(** Lines with different numbers of entries, and files without lines. *)
Theorem C59_ragged (show : T -> text) read d (lines : list (list T)) r1 r2 c : printing show read -> readable d ->
  (forall r, In r lines -> r <> []) -> In r1 lines -> In r2 lines -> length r1 <> length r2 ->
  load_mat_text zero is_zero read (concat (map (fun r => join d (map show r) ++ [newline]) lines)) c = Raise ValueError.
Proof.
  intros P Hd NE H1 H2 N. unfold load_mat_text. pose proof (load_rows show read d lines P Hd NE) as E. unfold written in E. rewrite E.
  destruct lines as [|row lines]; [destruct H1|]. destruct (forallb _ _) eqn:F; [|reflexivity]. exfalso.
  rewrite forallb_forall in F. pose proof (F r1 H1) as F1. pose proof (F r2 H2) as F2. apply Nat.eqb_eq in F1, F2. congruence.
Qed.
Theorem C59_odd read t m n l : load_ascii (T := T) read t = Ok (m, n, l) -> Nat.Odd n ->
  load_mat_text zero is_zero read t true = Raise ValueError.
Proof.
  intros E [k Hk]. unfold load_mat_text. rewrite E.
  replace (n mod 2 =? 0) with false; [reflexivity|]. symmetry. apply Nat.eqb_neq. subst n.
  rewrite Nat.add_comm, Nat.mul_comm, Nat.mod_add by lia. discriminate.
Qed.
End Props.

(** ** Examples: decimal integers as numbers *)
Lemma comma_ok : delimiter_ok (Some ","%char).
Proof. intros H. repeat (destruct H as [H|H]; [discriminate|]). exact H. Qed.
Lemma blank_ok : delimiter_ok (Some space).
Proof. intros H. repeat (destruct H as [H|H]; [discriminate|]). exact H. Qed.
Lemma colon_ok : delimiter_ok (Some ":"%char).
Proof. intros H. repeat (destruct H as [H|H]; [discriminate|]). exact H. Qed.
Lemma blank_plain : plain space.
Proof. split; discriminate. Qed.
(** MATLAB's printing, with a sign in front of every number that is not negative. *)
Definition show_plus (z : Z) : text := if (z <? 0)%Z then show_Z z else "+"%char :: show_Z z.
Definition read_plus (t : text) : option Z := match t with "+"%char :: t => read_Z t | _ => read_Z t end.
Lemma number_plus z : exists c t, show_Z z = c :: t /\ c <> "+"%char.
Proof.
  unfold show_Z. destruct (Z.to_int z) as [u|u]; [destruct u|]; simpl; eexists; eexists; (split; [reflexivity|discriminate]).
Qed.
Lemma printing_plus : printing show_plus read_plus.
Proof.
  destruct printing_Z as [H1 H2 H3]. split.
  - intros x. unfold show_plus. destruct (x <? 0)%Z; [apply H1|discriminate].
  - intros x c. unfold show_plus. destruct (x <? 0)%Z; [apply H2|]. intros [<-|H]; [simpl; tauto|eapply H2; eauto].
  - intros x. unfold show_plus. destruct (x <? 0)%Z; [|exact (H3 x)].
    destruct (number_plus x) as (c & t & E & N). unfold read_plus. rewrite E, <- (H3 x), E.
    destruct c as [[] [] [] [] [] [] [] []]; try reflexivity. congruence.
Qed.
Lemma printing_both : printing show_Z read_plus.
Proof.
  destruct printing_Z as [H1 H2 H3]. split; auto. intros x. destruct (number_plus x) as (c & t & E & N).
  unfold read_plus. rewrite E, <- (H3 x), E. destruct c as [[] [] [] [] [] [] [] []]; try reflexivity. congruence.
Qed.
Definition zero_Z (z : Z) : bool := (z =? 0)%Z.

Definition M := ComplexMat 2 2 [(1, 2); (3, -4); (0, 6); (7, 0)]%Z.
Example C59_same_text_example :
  save_mat_text 0%Z show_Z M space = save_array_text show_Z bits_Z (python_of M) (Some space) /\
  save_mat_text 0%Z show_Z M space = Ok (text_of "1 2 3 -4" ++ [newline] ++ text_of "0 6 7 0" ++ [newline]).
Proof. split; [apply C59_same_text; [reflexivity|simpl; lia|apply blank_plain]|reflexivity]. Qed.
Example C59_to_python_example : exists t, save_mat_text 0%Z show_plus M space = Ok t /\
  t = text_of "+1 +2 +3 -4" ++ [newline] ++ text_of "+0 +6 +7 +0" ++ [newline] /\
  load_array_text (I := Z) read_plus t (Some space) true = Ok (Array [2; 2] false (Complexes [(1, 2); (3, -4); (0, 6); (7, 0)]%Z)) /\
  load_array_text (I := Z) read_plus t None true = Ok (Array [2; 2] false (Complexes [(1, 2); (3, -4); (0, 6); (7, 0)]%Z)).
Proof.
  destruct (C59_to_python (I := Z) 0%Z bits_Z show_plus read_plus M space printing_plus eq_refl ltac:(simpl; lia) ltac:(simpl; lia) blank_ok blank_plain)
    as (t & E1 & E2 & E3).
  exists t. repeat split; auto. vm_compute in E1. injection E1 as <-. reflexivity.
Qed.
Example C59_to_matlab_example : exists t, save_array_text show_Z bits_Z (Array [2; 1] false (Complexes [(1, 2); (3, -4)]%Z)) (Some ","%char) = Ok t /\
  load_mat_text 0%Z zero_Z read_plus t true = Ok (ComplexMat 2 1 [(1, 2); (3, -4)]%Z).
Proof.
  destruct (C59_to_matlab 0%Z zero_Z bits_Z show_Z read_plus 2 1 (Some ","%char) printing_both ltac:(lia) ltac:(lia) ltac:(cbn; auto)) as [_ H].
  destruct (H [(1, 2); (3, -4)]%Z eq_refl) as (t & E1 & E2 & _). exists t. split; [exact E1|]. apply E2. left. reflexivity.
Qed.
Example C59_vector_example : exists t, save_array_text show_Z bits_Z (Array [3] false (Floats [1; 2; -3]%Z)) None = Ok t /\
  load_mat_text 0%Z zero_Z read_plus t false = Ok (RealMat 3 1 [1; 2; -3]%Z).
Proof. apply C59_vector; [apply printing_both|lia|left; reflexivity|reflexivity]. Qed.
Example C59_there_and_back_example : exists t a t',
  save_array_text show_Z bits_Z (Array [1; 2] false (Complexes [(1, 0); (3, -4)]%Z)) (Some ","%char) = Ok t /\
  load_mat_text 0%Z zero_Z read_plus t true = Ok a /\ save_mat_text 0%Z show_plus a space = Ok t' /\
  load_array_text read_plus t' (Some space) true = Ok (Array (I := Z) [1; 2] false (Complexes [(1, 0); (3, -4)]%Z)).
Proof.
  destruct (C59_there_and_back (I := Z) 0%Z zero_Z bits_Z show_Z read_plus show_plus read_plus 1 2 (Some ","%char) space printing_both printing_plus
    ltac:(lia) ltac:(lia) ltac:(cbn; auto) blank_ok blank_plain) as [_ H].
  apply H; [reflexivity|]. right. left. reflexivity.
Qed.
Example C59_no_imaginary_example : exists t a t',
  save_array_text show_Z bits_Z (Array [1; 2] false (Complexes [(1, 0); (3, 0)]%Z)) None = Ok t /\
  load_mat_text 0%Z zero_Z read_plus t true = Ok a /\ save_mat_text 0%Z show_plus a space = Ok t' /\
  load_array_text (I := Z) read_plus t' (Some space) true = Ok (Array [1; 1] false (Complexes [(1, 3)]%Z)).
Proof.
  destruct (C59_no_imaginary_refuted (I := Z) 0%Z zero_Z bits_Z show_Z read_plus show_plus read_plus 1 2 None space [(1, 0); (3, 0)]%Z
    printing_both printing_plus ltac:(lia) ltac:(lia) ltac:(cbn; auto) blank_ok blank_plain eq_refl ltac:(repeat constructor)) as (t & a & t' & E1 & E2 & E3 & _ & E4).
  exists t, a, t'. split; [exact E1|]. split; [exact E2|]. split; [exact E3|]. exact (E4 1 eq_refl).
Qed.
(** Reads only what is made of the characters of numbers. *)
Definition read_strict (t : text) : option Z :=
  if forallb (fun c => existsb (Ascii.eqb c) number_chars) t then read_plus t else None.
Lemma strict_incl w x : read_strict w = Some x -> incl w number_chars.
Proof.
  unfold read_strict. destruct (forallb _ w) eqn:F; [|discriminate]. intros _ c Hc. rewrite forallb_forall in F.
  specialize (F c Hc). apply existsb_exists in F as (c' & H & E). apply Ascii.eqb_eq in E. subst. exact H.
Qed.
Lemma printing_strict : printing show_Z read_strict.
Proof.
  destruct printing_both as [H1 H2 H3]. split; auto. intros x. unfold read_strict.
  replace (forallb _ _) with true; auto. symmetry. apply forallb_forall. intros c Hc. apply existsb_exists. exists c. split; [eapply H2; eauto|apply Ascii.eqb_refl].
Qed.
Example C59_unreadable_example :
  round_trip show_Z read_Z bits_Z (Array [1; 2] false (Floats [1; 2]%Z)) (Some ":"%char) false = Ok (Array [1; 2] false (Floats [1; 2]%Z)) /\
  exists t, save_array_text show_Z bits_Z (Array [1; 2] false (Floats [1; 2]%Z)) (Some ":"%char) = Ok t /\
    forall c, load_mat_text 0%Z zero_Z read_strict t c = Raise ValueError.
Proof.
  split; [apply C12_real; [apply printing_Z|lia|lia|reflexivity|apply colon_ok]|].
  apply C59_unreadable; [apply printing_strict|apply strict_incl|lia|lia|reflexivity|apply colon_ok|].
  intros [H|[H|[H|[H|[]]]]]; discriminate.
Qed.
Example C59_no_columns_example : save_mat_text 0%Z show_Z (RealMat 2 0 []) space = Raise IndexError /\
  save_array_text show_Z bits_Z (Array [2; 0] false (Floats [])) None = Ok [newline; newline].
Proof. split; [apply (C59_no_columns 0%Z show_Z 2 space); lia|reflexivity]. Qed.
Example C59_ragged_example : load_mat_text 0%Z zero_Z read_plus (text_of "1;2" ++ [newline] ++ text_of "3" ++ [newline]) false = Raise ValueError.
Proof.
  apply (C59_ragged 0%Z zero_Z show_Z read_plus ";"%char [[1; 2]; [3]]%Z [1; 2]%Z [3]%Z); [apply printing_both|do 3 right; left; reflexivity| | | |discriminate].
  - intros r [<-|[<-|[]]]; discriminate.
  - left. reflexivity.
  - right. left. reflexivity.
Qed.
Example C59_odd_example : load_mat_text 0%Z zero_Z read_plus (text_of "% remark" ++ [newline] ++ text_of " 1,2;  3") true = Raise ValueError.
Proof. apply (C59_odd 0%Z zero_Z read_plus _ 1 3 [1; 2; 3]%Z); [reflexivity|exists 1; reflexivity]. Qed.

Print Assumptions C59_same_text.
Print Assumptions C59_to_python.
Print Assumptions C59_to_matlab.
Print Assumptions C59_vector.
Print Assumptions C59_there_and_back.
Print Assumptions C59_no_imaginary_refuted.
Print Assumptions C59_unreadable.
Print Assumptions C59_no_columns.
Print Assumptions C59_ragged.
Print Assumptions C59_odd.
