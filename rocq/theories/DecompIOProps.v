(** C38: saved decompositions can be loaded. *)
From stdpp Require Import gmap list.
From Coq Require Import Lia ZArith.
From Verif Require Import Prelude Spmd SpmdFacts SpmdLock SpmdEnds ReductionsModel ReductionsProofs.
From Verif Require Import TextModel TextProofs TextProps DecompIOModel DecompIOProofs.
Open Scope nat_scope.

(** [n] real values; a real array with at least one row and one column. *)
Definition real_values {T I} (n : nat) (a : array T I) : Prop :=
  dims a = [n] /\ exists l, elems a = Floats l /\ length l = n.
Definition real_array {T I} (a : array T I) : Prop :=
  exists m n l, dims a = [m; n] /\ 0 < m /\ 0 < n /\ elems a = Floats l /\ length l = m * n.
(** The same with complex numbers, stored by rows. *)
Definition complex_values {T I} (z : list (T * T)) (a : array T I) : Prop :=
  dims a = [length z] /\ elems a = Complexes z.
Definition complex_array {T I} m n (z : list (T * T)) (a : array T I) : Prop :=
  dims a = [m; n] /\ 0 < m /\ 0 < n /\ fortran a = false /\ elems a = Complexes z /\ length z = m * n.
(** The same shape and elements, stored by rows. *)
Definition by_rows {T I} (a : array T I) : array T I := Array (dims a) false (elems a).
(** Real and imaginary parts in turn. *)
Definition parts {T} (z : list (T * T)) : list T := concat (map (fun x => [x.1; x.2]) z).

(** [put] then [get], by [P] ranks: every rank ends with [results], whatever the schedule,
    and the files other than [files] are as before. *)
Definition saved_and_loaded {T I} (show : T -> text) (read : text -> option T) (bits : I -> T)
    (P : nat) (put : nat -> prog (option (array T I)) text (list (option (array T I))) unit)
    (get : nat -> prog (option (array T I)) text (list (option (array T I))) (list (option (array T I))))
    (files : list loc) (results : list (array T I)) : Prop :=
  forall tag_ub eager st,
  always_ends tag_ub eager (launch P (fun i => bind (put i) (fun _ => get i)) st)
    (fun c => all_return (fun _ r => r = map Some results) c /\ length (procs c) = P /\
              forall h, h ∉ files -> store c !! h = st !! h).

Section Props.
Context {T I : Type} (show : T -> text) (read : text -> option T) (bits : I -> T).
Hypothesis Pr : printing show read.
Notation array := (array T I).
Notation loads_as := (loads_as show read bits).
Notation trip := (saved_and_loaded show read bits).

Lemma round_trip_loads a b : round_trip show read bits a None false = Ok b -> loads_as a b.
Proof.
  unfold round_trip. destruct (save_array_text show bits a None) as [t|] eqn:E; [|discriminate].
  intros H. exists t. auto.
Qed.
Lemma values_load n (a : array) : 0 < n -> real_values n a -> loads_as a (Array [n; 1] false (elems a)).
Proof.
  intros Hn (Hd & l & He & Hl). destruct a as [d f e]. simpl in *. subst d e. apply round_trip_loads.
  apply (C12_vector show read bits Pr n f l None Hn Logic.I). auto.
Qed.
Lemma array_loads (a : array) : real_array a -> loads_as a (by_rows a).
Proof.
  intros (m & n & l & Hd & Hm & Hn & He & Hl). destruct a as [d f e]. simpl in *. subst d e. apply round_trip_loads.
  apply C12_real; auto; [|exact Logic.I]. unfold well_formed. simpl. lia.
Qed.
Lemma complex_values_load z (a : array) : z <> [] -> complex_values z a ->
  loads_as a (Array [length z; 2] false (Floats (parts z))).
Proof.
  intros Hz (Hd & He). destruct a as [d f e]. simpl in *. subst d e. apply round_trip_loads.
  assert (0 < length z) by (destruct z; [congruence|simpl; lia]).
  assert (E : parts z = interleave z).
  { clear. unfold parts, interleave. rewrite flat_map_concat_map. reflexivity. }
  rewrite E.
  transitivity (round_trip show read bits (Array [length z; 1] f (Complexes z)) None false); [reflexivity|].
  unfold round_trip, save_array_text. cbn [as_2d dims view_float elems TextModel.fortran].
  replace (f && (1 <? length z) && (1 <? 1))%bool with false by (rewrite !andb_false_r; reflexivity).
  destruct (loadtxt_savetxt (I := I) show read Pr None (length z) 2 (interleave z) false Logic.I H ltac:(lia)
    ltac:(rewrite interleave_length; lia)) as (t & E1 & E2).
  change (1 * 2) with 2. rewrite E1. unfold load_array_text. rewrite E2. reflexivity.
Qed.
Lemma complex_array_loads m n z (a : array) : complex_array m n z a ->
  loads_as a (Array [m; n * 2] false (Floats (parts z))).
Proof.
  intros (Hd & Hm & Hn & Hf & He & Hl). destruct a as [d f e]. simpl in *. subst d e f. apply round_trip_loads.
  assert (E : parts z = interleave z).
  { clear. unfold parts, interleave. rewrite flat_map_concat_map. reflexivity. }
  rewrite E. apply C12_complex_as_real; auto; [|exact Logic.I]. unfold well_formed. simpl. lia.
Qed.

Lemma squeeze_values n (a : array) : 2 <= n -> real_values n a ->
  squeeze (Array [n; 1] false (elems a)) = by_rows a.
Proof.
  intros Hn (Hd & _). unfold squeeze, by_rows. simpl. rewrite Hd.
  destruct n as [|[|n]]; try lia. reflexivity.
Qed.


(** Tactics for the classes: the files are all different, every file read was written. *)
Ltac membership := first [apply elem_of_list_here | apply elem_of_list_further; membership].
Ltac restored :=
  match goal with
  | |- exists a, (a, _) ∈ _ /\ _ => eexists; split; [membership|eassumption]
  end.
Ltac class the_arrays :=
  intros tag_ub eager st;
  eapply (put_get_each show read bits tag_ub eager) with (bs := the_arrays); [assumption| | | | |];
  [ (* all different *) simpl; assumption
  | intros h Hh Hin; apply Hh; clear Hh; simpl in *;
    repeat (apply elem_of_cons in Hin as [->|Hin]; [membership|]); inversion Hin
  | repeat (apply Forall_cons; split; [eexists; eassumption|]); apply Forall_nil; exact Logic.I
  | repeat (apply Forall2_cons; split; [restored|]); apply Forall2_nil; exact Logic.I
  | ].

(** Real decompositions of at least two values come back. *)
Theorem C38_pod P n eigvals eigvecs f_vals f_vecs : 0 < P -> 2 <= n ->
  real_values n eigvals -> real_array eigvecs -> f_vals <> f_vecs ->
  trip P (fun i => pod_put_decomp show bits P i eigvals eigvecs f_vals f_vecs)
         (fun i => pod_get_decomp read P i f_vals f_vecs)
    [f_vals; f_vecs] [by_rows eigvals; by_rows eigvecs].
Proof.
  intros HP Hn H1 H2 Hf.
  assert (G1 := values_load n eigvals ltac:(lia) H1). assert (G2 := array_loads _ H2).
  assert (Hnd : NoDup [f_vecs; f_vals]) by (apply NoDup_cons; split; [set_solver|apply NoDup_singleton]).
  class [Array [n; 1] false (elems eigvals); by_rows eigvecs].
  simpl. rewrite (squeeze_values n) by auto. reflexivity.
Qed.
Theorem C38_bpod P n sing_vals L R f_vals f_L f_R : 0 < P -> 2 <= n ->
  real_values n sing_vals -> real_array L -> real_array R -> NoDup [f_vals; f_L; f_R] ->
  trip P (fun i => bpod_put_decomp show bits P i sing_vals L R f_vals f_L f_R)
         (fun i => bpod_get_decomp read P i f_vals f_L f_R)
    [f_vals; f_L; f_R] [by_rows sing_vals; by_rows L; by_rows R].
Proof.
  intros HP Hn H1 H2 H3 Hnd.
  assert (G1 := values_load n sing_vals ltac:(lia) H1).
  assert (G2 := array_loads _ H2). assert (G3 := array_loads _ H3).
  class [Array [n; 1] false (elems sing_vals); by_rows L; by_rows R].
  simpl. rewrite (squeeze_values n) by auto. reflexivity.
Qed.
Theorem C38_dmd P n n' eigvals R L corr_eigvals corr_eigvecs f1 f2 f3 f4 f5 : 0 < P -> 2 <= n -> 2 <= n' ->
  real_values n eigvals -> real_array R -> real_array L ->
  real_values n' corr_eigvals -> real_array corr_eigvecs -> NoDup [f1; f2; f3; f4; f5] ->
  trip P (fun i => dmd_put_decomp show bits P i eigvals R L corr_eigvals corr_eigvecs f1 f2 f3 f4 f5)
         (fun i => dmd_get_decomp read P i f1 f2 f3 f4 f5)
    [f1; f2; f3; f4; f5] (map by_rows [eigvals; R; L; corr_eigvals; corr_eigvecs]).
Proof.
  intros HP Hn Hn' H1 H2 H3 H4 H5 Hnd.
  assert (G1 := values_load n eigvals ltac:(lia) H1). assert (G2 := array_loads _ H2).
  assert (G3 := array_loads _ H3). assert (G4 := values_load n' corr_eigvals ltac:(lia) H4).
  assert (G5 := array_loads _ H5).
  class [Array [n; 1] false (elems eigvals); by_rows R; by_rows L; Array [n'; 1] false (elems corr_eigvals);
    by_rows corr_eigvecs].
  simpl. rewrite (squeeze_values n), (squeeze_values n') by auto. reflexivity.
Qed.
Theorem C38_tls P n n2 n3 eigvals R L sum_vals sum_vecs proj_vals proj_vecs f1 f2 f3 f4 f5 f6 f7 :
  0 < P -> 2 <= n -> 2 <= n2 -> 2 <= n3 ->
  real_values n eigvals -> real_array R -> real_array L ->
  real_values n2 sum_vals -> real_array sum_vecs -> real_values n3 proj_vals -> real_array proj_vecs ->
  NoDup [f1; f2; f3; f4; f5; f6; f7] ->
  trip P (fun i => tls_put_decomp show bits P i eigvals R L sum_vals sum_vecs proj_vals proj_vecs f1 f2 f3 f4 f5 f6 f7)
         (fun i => tls_get_decomp read P i f1 f2 f3 f4 f5 f6 f7)
    [f1; f2; f3; f4; f5; f6; f7] (map by_rows [eigvals; R; L; sum_vals; sum_vecs; proj_vals; proj_vecs]).
Proof.
  intros HP Hn Hn2 Hn3 H1 H2 H3 H4 H5 H6 H7 Hnd.
  assert (G1 := values_load n eigvals ltac:(lia) H1). assert (G2 := array_loads _ H2).
  assert (G3 := array_loads _ H3). assert (G4 := values_load n2 sum_vals ltac:(lia) H4).
  assert (G5 := array_loads _ H5). assert (G6 := values_load n3 proj_vals ltac:(lia) H6).
  assert (G7 := array_loads _ H7).
  class [Array [n; 1] false (elems eigvals); by_rows R; by_rows L; Array [n2; 1] false (elems sum_vals);
    by_rows sum_vecs; Array [n3; 1] false (elems proj_vals); by_rows proj_vecs].
  simpl. rewrite (squeeze_values n), (squeeze_values n2), (squeeze_values n3) by auto. reflexivity.
Qed.

(** A single value comes back without dimensions: len() and indexing of it fail. *)
Theorem C38_pod_single_refuted P eigvals eigvecs f_vals f_vecs : 0 < P ->
  real_values 1 eigvals -> real_array eigvecs -> f_vals <> f_vecs ->
  trip P (fun i => pod_put_decomp show bits P i eigvals eigvecs f_vals f_vecs)
         (fun i => pod_get_decomp read P i f_vals f_vecs)
    [f_vals; f_vecs] [Array [] false (elems eigvals); by_rows eigvecs] /\
  Array [] false (elems eigvals) <> by_rows eigvals.
Proof.
  intros HP H1 H2 Hf. split.
  - assert (G1 := values_load 1 eigvals ltac:(lia) H1). assert (G2 := array_loads _ H2).
    assert (Hnd : NoDup [f_vecs; f_vals]) by (apply NoDup_cons; split; [set_solver|apply NoDup_singleton]).
    class [Array [1; 1] false (elems eigvals); by_rows eigvecs]. reflexivity.
  - destruct H1 as (Hd & _). unfold by_rows. rewrite Hd. discriminate.
Qed.
Theorem C38_bpod_single_refuted P sing_vals L R f_vals f_L f_R : 0 < P ->
  real_values 1 sing_vals -> real_array L -> real_array R -> NoDup [f_vals; f_L; f_R] ->
  trip P (fun i => bpod_put_decomp show bits P i sing_vals L R f_vals f_L f_R)
         (fun i => bpod_get_decomp read P i f_vals f_L f_R)
    [f_vals; f_L; f_R] [Array [] false (elems sing_vals); by_rows L; by_rows R] /\
  Array [] false (elems sing_vals) <> by_rows sing_vals.
Proof.
  intros HP H1 H2 H3 Hnd. split.
  - assert (G1 := values_load 1 sing_vals ltac:(lia) H1).
    assert (G2 := array_loads _ H2). assert (G3 := array_loads _ H3).
    class [Array [1; 1] false (elems sing_vals); by_rows L; by_rows R]. reflexivity.
  - destruct H1 as (Hd & _). unfold by_rows. rewrite Hd. discriminate.
Qed.

(** Complex DMD eigenvalues and eigenvectors come back as real arrays with real and
    imaginary parts in alternate columns: the eigenvalues as an array of two columns (or, if
    there is one eigenvalue, as two values). *)
Theorem C38_dmd_complex_refuted P n' z m k zR m' k' zL eigvals R L corr_eigvals corr_eigvecs f1 f2 f3 f4 f5 :
  0 < P -> z <> [] -> 2 <= n' ->
  complex_values z eigvals -> complex_array m k zR R -> complex_array m' k' zL L ->
  real_values n' corr_eigvals -> real_array corr_eigvecs -> NoDup [f1; f2; f3; f4; f5] ->
  trip P (fun i => dmd_put_decomp show bits P i eigvals R L corr_eigvals corr_eigvecs f1 f2 f3 f4 f5)
         (fun i => dmd_get_decomp read P i f1 f2 f3 f4 f5)
    [f1; f2; f3; f4; f5]
    [Array (if decide (length z = 1) then [2] else [length z; 2]) false (Floats (parts z));
     Array [m; k * 2] false (Floats (parts zR)); Array [m'; k' * 2] false (Floats (parts zL));
     by_rows corr_eigvals; by_rows corr_eigvecs].
Proof.
  intros HP Hz Hn' H1 H2 H3 H4 H5 Hnd.
  assert (G1 := complex_values_load z eigvals Hz H1). assert (G2 := complex_array_loads _ _ _ _ H2).
  assert (G3 := complex_array_loads _ _ _ _ H3). assert (G4 := values_load n' corr_eigvals ltac:(lia) H4).
  assert (G5 := array_loads _ H5).
  class [Array [length z; 2] false (Floats (parts z)) : array; Array [m; k * 2] false (Floats (parts zR));
    Array [m'; k' * 2] false (Floats (parts zL)); Array [n'; 1] false (elems corr_eigvals); by_rows corr_eigvecs].
  cbn [zip_with map fst snd]. rewrite (squeeze_values n') by auto. do 2 f_equal. unfold squeeze. cbn [dims].
  destruct (decide (length z = 1)) as [->|Hne]; [reflexivity|]. cbn [List.filter].
  rewrite (proj2 (Nat.eqb_neq _ _) Hne). reflexivity.
Qed.

(** An array that cannot be written: rank zero gets the exception, the others wait for
    ever at the barrier. *)
Theorem C38_put_raises P a e dest tag_ub (eager : option array -> bool) st : 1 < P ->
  save_array_text show bits a None = Raise e ->
  always_ends (O := unit) tag_ub eager (launch P (fun i => put_method show bits P i a dest) st)
    (fun c => procs c !! 0 = Some (Fail e) /\ store c = st /\
       forall i, 0 < i < P -> exists k, procs c !! i = Some (Barrier k)).
Proof.
  intros HP E.
  set (fin := fun i => if i =? 0 then Fail e else Barrier (Ret tt) : proc (option array) text unit).
  assert (L : launch P (fun i => put_method show bits P i a dest) st = conf P fin ∅ st).
  { unfold launch, conf. f_equal. apply list_fmap_ext. intros i x Hx. apply lookup_seq in Hx as [-> Hx].
    unfold put_method, put_array, bind, fin, barrier. rewrite E, (proj2 (Nat.ltb_lt 1 P)) by auto.
    simpl. destruct i; reflexivity. }
  rewrite L.
  eapply (one_schedule_suffices tag_ub eager (fun _ _ => False) (fun _ _ => False) _ _ 0); [|constructor| |].
  - split; [intros i j h _ []|]. intros i p Hp. simpl in Hp. rewrite list_lookup_fmap in Hp.
    destruct (seq 0 P !! i) as [x|]; simplify_eq/=. unfold fin. destruct (x =? 0); simpl; auto.
  - intros c' Hs. inversion Hs as [i c0 c1 Hr|ps' ch' st2 Hne Hall]; subst.
    + unfold rank_step in Hr. simpl in Hr. rewrite list_lookup_fmap in Hr.
      destruct (seq 0 P !! i) as [x|]; simpl in Hr; [|discriminate]. unfold fin in Hr.
      destruct (x =? 0); discriminate.
    + destruct P as [|n0]; [lia|]. simpl in Hall. inversion Hall as [|? ? Hb]; subst. exact Hb.
  - repeat split.
    + rewrite conf_lookup by lia. reflexivity.
    + intros i Hi. rewrite conf_lookup by lia. unfold fin. rewrite (proj2 (Nat.eqb_neq i 0)) by lia. eauto.
Qed.
(** A missing file: rank zero gets OSError, the others wait for ever for its message. *)
Theorem C38_get_missing P src tag_ub (eager : option array -> bool) st : 1 < P -> st !! src = None ->
  always_ends tag_ub eager (launch P (fun i => get_method read P i src false) st)
    (fun c => procs c !! 0 = Some (Fail OSError) /\ store c = st /\
       forall i, 0 < i < P -> exists k, procs c !! i = Some (Recv 0 1 0 k)).
Proof.
  intros HP Hs. apply (call_and_bcast_blocks tag_ub eager P None (fun _ => get_array read src)); auto.
  intros k. unfold get_array, bind. apply alone_get_missing. auto.
Qed.
End Props.

(** ** Examples: three ranks, decimal integers as numbers *)
Definition ex_vals : array Z Z := Array [2] false (Floats [5; -3]%Z).
Definition ex_vecs : array Z Z := Array [3; 2] true (Floats [1; 2; 3; 4; 5; 6]%Z).
Lemma ex_vals_ok : real_values 2 ex_vals.
Proof. split; [reflexivity|]. eexists. split; reflexivity. Qed.
Lemma ex_vecs_ok : real_array ex_vecs.
Proof. exists 3, 2. eexists. split; [reflexivity|]. split; [lia|]. split; [lia|]. split; reflexivity. Qed.
Definition ex_one : array Z Z := Array [1] false (Floats [5]%Z).
Lemma ex_one_ok : real_values 1 ex_one.
Proof. split; [reflexivity|]. eexists. split; reflexivity. Qed.
Definition ex_zs : array Z Z := Array [2] false (Complexes [(1, 2); (1, -2)]%Z).
Definition ex_zR : array Z Z := Array [2; 2] false (Complexes [(1, 2); (1, -2); (0, 1); (0, -1)]%Z).
Lemma ex_zR_ok : complex_array 2 2 [(1, 2); (1, -2); (0, 1); (0, -1)]%Z ex_zR.
Proof. repeat split; lia. Qed.

Ltac distinct := repeat (apply NoDup_cons; split; [intros Hin; repeat (apply elem_of_cons in Hin as [Hin|Hin]; [discriminate|]); inversion Hin|]); apply NoDup_nil; exact Logic.I.

Example C38_pod_example : saved_and_loaded show_Z read_Z bits_Z 3
  (fun i => pod_put_decomp show_Z bits_Z 3 i ex_vals ex_vecs 10 11) (fun i => pod_get_decomp read_Z 3 i 10 11)
  [10; 11] [ex_vals; Array [3; 2] false (Floats [1; 2; 3; 4; 5; 6]%Z)].
Proof. apply (C38_pod show_Z read_Z bits_Z printing_Z 3 2 ex_vals ex_vecs); [lia|lia|apply ex_vals_ok|apply ex_vecs_ok|discriminate]. Qed.
Example C38_bpod_example : saved_and_loaded show_Z read_Z bits_Z 3
  (fun i => bpod_put_decomp show_Z bits_Z 3 i ex_vals ex_vecs ex_vecs 10 11 12) (fun i => bpod_get_decomp read_Z 3 i 10 11 12)
  [10; 11; 12] [by_rows ex_vals; by_rows ex_vecs; by_rows ex_vecs].
Proof. apply (C38_bpod show_Z read_Z bits_Z printing_Z 3 2); [lia|lia|apply ex_vals_ok|apply ex_vecs_ok|apply ex_vecs_ok|distinct]. Qed.
Example C38_dmd_example : saved_and_loaded show_Z read_Z bits_Z 3
  (fun i => dmd_put_decomp show_Z bits_Z 3 i ex_vals ex_vecs ex_vecs ex_vals ex_vecs 10 11 12 13 14)
  (fun i => dmd_get_decomp read_Z 3 i 10 11 12 13 14)
  [10; 11; 12; 13; 14] (map by_rows [ex_vals; ex_vecs; ex_vecs; ex_vals; ex_vecs]).
Proof.
  apply (C38_dmd show_Z read_Z bits_Z printing_Z 3 2 2); first [lia|apply ex_vals_ok|apply ex_vecs_ok|distinct].
Qed.
Example C38_tls_example : saved_and_loaded show_Z read_Z bits_Z 3
  (fun i => tls_put_decomp show_Z bits_Z 3 i ex_vals ex_vecs ex_vecs ex_vals ex_vecs ex_vals ex_vecs 10 11 12 13 14 15 16)
  (fun i => tls_get_decomp read_Z 3 i 10 11 12 13 14 15 16)
  [10; 11; 12; 13; 14; 15; 16] (map by_rows [ex_vals; ex_vecs; ex_vecs; ex_vals; ex_vecs; ex_vals; ex_vecs]).
Proof.
  apply (C38_tls show_Z read_Z bits_Z printing_Z 3 2 2 2); first [lia|apply ex_vals_ok|apply ex_vecs_ok|distinct].
Qed.
Example C38_single_example : saved_and_loaded show_Z read_Z bits_Z 3
  (fun i => pod_put_decomp show_Z bits_Z 3 i ex_one ex_vecs 10 11) (fun i => pod_get_decomp read_Z 3 i 10 11)
  [10; 11] [Array [] false (Floats [5]%Z); by_rows ex_vecs].
Proof. apply (C38_pod_single_refuted show_Z read_Z bits_Z printing_Z 3 ex_one ex_vecs); [lia|apply ex_one_ok|apply ex_vecs_ok|discriminate]. Qed.
Example C38_bpod_single_example : saved_and_loaded show_Z read_Z bits_Z 3
  (fun i => bpod_put_decomp show_Z bits_Z 3 i ex_one ex_vecs ex_vecs 10 11 12) (fun i => bpod_get_decomp read_Z 3 i 10 11 12)
  [10; 11; 12] [Array [] false (Floats [5]%Z); by_rows ex_vecs; by_rows ex_vecs].
Proof. apply (C38_bpod_single_refuted show_Z read_Z bits_Z printing_Z 3 ex_one ex_vecs ex_vecs); [lia|apply ex_one_ok|apply ex_vecs_ok|apply ex_vecs_ok|distinct]. Qed.
Example C38_complex_example : saved_and_loaded show_Z read_Z bits_Z 3
  (fun i => dmd_put_decomp show_Z bits_Z 3 i ex_zs ex_zR ex_zR ex_vals ex_vecs 10 11 12 13 14)
  (fun i => dmd_get_decomp read_Z 3 i 10 11 12 13 14)
  [10; 11; 12; 13; 14] [Array [2; 2] false (Floats [1; 2; 1; -2]%Z); Array [2; 4] false (Floats [1; 2; 1; -2; 0; 1; 0; -1]%Z);
    Array [2; 4] false (Floats [1; 2; 1; -2; 0; 1; 0; -1]%Z); by_rows ex_vals; by_rows ex_vecs].
Proof.
  apply (C38_dmd_complex_refuted show_Z read_Z bits_Z printing_Z 3 2 [(1, 2); (1, -2)]%Z 2 2
    [(1, 2); (1, -2); (0, 1); (0, -1)]%Z 2 2 [(1, 2); (1, -2); (0, 1); (0, -1)]%Z ex_zs);
    first [lia|discriminate|apply ex_vals_ok|apply ex_vecs_ok|apply ex_zR_ok|distinct|split; reflexivity].
Qed.
Example C38_put_raises_example :
  always_ends (O := unit) 10 (fun _ : option (array Z Z) => true)
    (launch 3 (fun i => put_method show_Z bits_Z 3 i (Array [2; 2] true (Complexes [(1, 2); (1, -2); (0, 1); (0, -1)]%Z)) 10) ∅)
    (fun c => procs c !! 0 = Some (Fail ValueError) /\ store c = ∅ /\
       forall i, 0 < i < 3 -> exists k, procs c !! i = Some (Barrier k)).
Proof. apply C38_put_raises; [lia|]. apply C12_fortran; lia. Qed.
Example C38_get_missing_example :
  always_ends 10 (fun _ : option (array Z Z) => true) (launch 3 (fun i => get_method read_Z 3 i 10 false) {[11 := []]})
    (fun c => procs c !! 0 = Some (Fail OSError) /\ store c = {[11 := []]} /\
       forall i, 0 < i < 3 -> exists k, procs c !! i = Some (Recv 0 1 0 k)).
Proof. apply C38_get_missing; [lia|]. reflexivity. Qed.

Print Assumptions C38_pod.
Print Assumptions C38_bpod.
Print Assumptions C38_dmd.
Print Assumptions C38_tls.
Print Assumptions C38_pod_single_refuted.
Print Assumptions C38_bpod_single_refuted.
Print Assumptions C38_dmd_complex_refuted.
Print Assumptions C38_put_raises.
Print Assumptions C38_get_missing.
