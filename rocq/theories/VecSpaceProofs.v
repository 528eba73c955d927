(** Lemmas about the memory settings, and the node count. *)
From Coq Require Import List ZArith NArith Lia.
From Verif Require Import Prelude ParallelModel ParallelProofs VecSpaceModel.
Import ListNotations.
Open Scope Z_scope.

Lemma z_ceil_div_spec a b : 0 < b ->
  a <= z_ceil_div a b * b /\ (forall q, a <= q * b -> z_ceil_div a b <= q).
Proof.
  intros Hb. unfold z_ceil_div.
  pose proof (Z.div_mod (- a) b ltac:(lia)).
  pose proof (Z.mod_pos_bound (- a) b Hb).
  split; [nia|]. intros q Hq.
  enough (- q <= - a / b) by lia. apply Z.div_le_lower_bound; nia.
Qed.

Lemma init_kept m P N :
  1 <= P -> 1 <= N -> 3 * P <= m * N ->
  fst (handles_init (Some m) P N) = m /\
  (forall procs_on_node, 0 <= procs_on_node -> procs_on_node * N <= P ->
     procs_on_node * snd (handles_init (Some m) P N) <= m) /\
  (forall per_proc, per_proc * P <= m * N -> per_proc <= snd (handles_init (Some m) P N)).
Proof.
  intros HP HN H. unfold handles_init.
  destruct (Z.ltb_spec (m * N) (3 * P)); [lia|]. cbn [fst snd].
  pose proof (Z.div_mod (m * N) P ltac:(lia)).
  pose proof (Z.mod_pos_bound (m * N) P ltac:(lia)).
  split; auto. split.
  - intros k Hk HkN. set (q := m * N / P) in *.
    assert (0 <= q) by nia.
    assert (k * N * q <= P * q) by nia.
    assert (P * q <= m * N) by lia. nia.
  - intros k Hk. apply Z.div_le_lower_bound; lia.
Qed.

Lemma init_raised m P N :
  1 <= P -> 1 <= N -> m * N < 3 * P ->
  snd (handles_init (Some m) P N) = 3 /\
  m < fst (handles_init (Some m) P N) /\
  3 * P <= fst (handles_init (Some m) P N) * N /\
  (forall m', 3 * P <= m' * N -> fst (handles_init (Some m) P N) <= m').
Proof.
  intros HP HN H. unfold handles_init.
  destruct (Z.ltb_spec (m * N) (3 * P)); [|lia]. cbn [fst snd].
  destruct (z_ceil_div_spec (3 * P) N ltac:(lia)) as [A B].
  repeat split; auto. apply Z.mul_lt_mono_pos_r with N; lia.
Qed.

Lemma init_three m P N :
  1 <= P -> 1 <= N ->
  let '(per_node, per_proc) := handles_init m P N in
  3 <= per_proc /\ 3 * P <= per_node * N /\ per_proc * P <= per_node * N.
Proof.
  intros HP HN. unfold handles_init.
  set (k := match m with None => 10000 | Some m => m end).
  destruct (Z.ltb_spec (k * N) (3 * P)).
  - destruct (z_ceil_div_spec (3 * P) N ltac:(lia)) as [A B]. lia.
  - pose proof (Z.div_mod (k * N) P ltac:(lia)).
    pose proof (Z.mod_pos_bound (k * N) P ltac:(lia)).
    split; [apply Z.div_le_lower_bound; lia|]. lia.
Qed.

Lemma init_estimates m P N :
  1 <= P -> 1 <= N ->
  0 < fst (handles_init m P N) * N - 2 * P /\ 2 <= snd (handles_init m P N) - 1.
Proof.
  intros HP HN. pose proof (init_three m P N HP HN) as H.
  destruct (handles_init m P N) as [a b]. cbn [fst snd] in *. lia.
Qed.

Lemma num_nodes_hosts (hosts : list (list N)) (ids : list N) :
  Forall (fun h => Forall (fun b => b < 256)%N h /\ hd 0%N h <> 0%N) hosts ->
  Forall2 (fun h i => node_ID h = Ok i) hosts ids ->
  num_nodes ids = length (nodup (list_eq_dec N.eq_dec) hosts).
Proof.
  intros Hok H2.
  set (f := fun h => match node_ID h with Ok i => i | Raise _ => 0%N end).
  assert (E : ids = map f hosts).
  { induction H2 as [|h i hs is Hi _ IH]; simpl; auto.
    inversion Hok; subst. f_equal; auto. unfold f. rewrite Hi. reflexivity. }
  subst ids. unfold num_nodes. apply nodup_map_inj.
  intros x y Hx Hy Hf. rewrite Forall_forall in Hok.
  destruct (Hok x Hx) as [A B]. destruct (Hok y Hy) as [C D].
  unfold f in Hf.
  assert (Ex : exists i, node_ID x = Ok i) by (destruct x; [simpl in B; congruence|eexists; reflexivity]).
  assert (Ey : exists i, node_ID y = Ok i) by (destruct y; [simpl in D; congruence|eexists; reflexivity]).
  destruct Ex as [i Ei], Ey as [j Ej]. rewrite Ei, Ej in Hf. subst j.
  eapply node_ID_inj; eauto.
Qed.
