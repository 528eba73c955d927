(** Properties C01, C02, C03 and C39. *)
From Coq Require Import List Arith QArith ZArith Lia.
From Verif Require Import Prelude ParallelModel ParallelProofs VecSpaceModel VecSpaceProofs.
Import ListNotations.
Open Scope nat_scope.

(** * C01  Task assignment is an ordered partition *)

Theorem C01_one_list_per_worker {A} P (tasks : list A) w :
  length (find_assignments P tasks w) = P.
Proof. exact (find_assignments_length P tasks w). Qed.

Theorem C01_default_weights {A} P (tasks : list A) :
  0 < P -> concat (find_assignments P tasks None) = tasks.
Proof. exact (find_assignments_concat_default P tasks). Qed.

Theorem C01_positive_weights {A} P (tasks : list A) (w : list Q) :
  0 < P -> length w = length tasks -> Forall (fun x => 0 < x)%Q w ->
  concat (find_assignments P tasks (Some w)) = tasks.
Proof. exact (find_assignments_concat P tasks (Some w)). Qed.

(** Non-negative weights: a prefix is assigned, what is dropped weighs nothing. *)
Theorem C01_nonnegative_weights {A} P (tasks : list A) (w : list Q) :
  0 < P -> length w = length tasks -> Forall (fun x => 0 <= x)%Q w ->
  exists m, m <= length tasks /\
    concat (find_assignments P tasks (Some w)) = firstn m tasks /\
    Forall (fun x => x == 0)%Q (skipn m w).
Proof. exact (find_assignments_dropped_zero P tasks (Some w)). Qed.

(** Without positivity tasks can be lost. *)
Theorem C01_zero_weights_refuted :
  exists P (tasks : list nat) (w : list Q),
    0 < P /\ length w = length tasks /\ Forall (fun x => 0 <= x)%Q w /\
    concat (find_assignments P tasks (Some w)) <> tasks.
Proof.
  exists 1, [7; 8], [1%Q; 0%Q]. repeat split; auto.
  - repeat constructor; discriminate.
  - vm_compute. discriminate.
Qed.

Example C01_example :
  find_assignments 3 [10; 11; 12; 13; 14] (Some [1; 1; 4; 1; 2]%Q) =
    [[10; 11]; [12]; [13; 14]].
Proof. vm_compute. reflexivity. Qed.
Example C01_one_list_per_worker_example : length (find_assignments 3 [10; 11] (Some [1; 0]%Q)) = 3.
Proof. apply C01_one_list_per_worker. Qed.
Example C01_default_weights_example : concat (find_assignments 3 [10; 11; 12; 13; 14] None) = [10; 11; 12; 13; 14].
Proof. apply C01_default_weights. lia. Qed.
Example C01_positive_weights_example :
  concat (find_assignments 3 [10; 11; 12; 13; 14] (Some [1; 1; 4; 1; 2]%Q)) = [10; 11; 12; 13; 14].
Proof. apply C01_positive_weights; [lia|reflexivity|repeat constructor]. Qed.
(** The last task is dropped. *)
Example C01_nonnegative_weights_example : exists m, m <= 4 /\
  concat (find_assignments 2 [10; 11; 12; 13] (Some [3; 0; 2; 0]%Q)) = firstn m [10; 11; 12; 13] /\
  Forall (fun x => x == 0)%Q (skipn m [3; 0; 2; 0]%Q).
Proof. apply (C01_nonnegative_weights 2 [10; 11; 12; 13] [3; 0; 2; 0]%Q); [lia|reflexivity|]. repeat constructor; discriminate. Qed.

(** * C02  Default assignment is balanced *)

Theorem C02_sizes {A} P (tasks : list A) a :
  0 < P -> In a (find_assignments P tasks None) ->
  length a = length tasks / P \/
  length a = S (length tasks / P) /\ length tasks mod P <> 0.
Proof. exact (find_assignments_sizes P tasks a). Qed.

(** Worker [r] has something to do exactly if there are more than [r] tasks; so
    the first min(n, P) workers are the busy ones. *)
Theorem C02_busy {A} P (tasks : list A) r :
  0 < P -> r < P ->
  (nth r (find_assignments P tasks None) [] <> [] <-> r < length tasks).
Proof. exact (find_assignments_busy P tasks r). Qed.

Theorem C02_check_for_empty_tasks {A} P (tasks : list A) :
  0 < P ->
  check_for_empty_tasks (find_assignments P tasks None) = (length tasks <? P).
Proof. exact (check_for_empty_default P tasks). Qed.

Example C02_example :
  find_assignments 4 (seq 0 10) None = [[0; 1]; [2; 3; 4]; [5; 6]; [7; 8; 9]] /\
  find_assignments 4 (seq 0 2) None = [[0]; [1]; []; []] /\
  check_for_empty_tasks (find_assignments 4 (seq 0 2) None) = true.
Proof. vm_compute. auto. Qed.
Example C02_sizes_example a : In a (find_assignments 4 (seq 0 10) None) -> length a = 2 \/ length a = 3.
Proof. intros H. destruct (C02_sizes 4 (seq 0 10) a ltac:(lia) H) as [E|[E _]]; [left|right]; exact E. Qed.
Example C02_busy_example : nth 1 (find_assignments 4 [7; 8] None) [] <> [] /\ ~ nth 2 (find_assignments 4 [7; 8] None) [] <> [].
Proof.
  split; [apply (C02_busy 4 [7; 8] 1); simpl; lia|]. intros H. apply (C02_busy 4 [7; 8] 2) in H; simpl in *; lia.
Qed.
Example C02_check_for_empty_tasks_example : check_for_empty_tasks (find_assignments 4 [7; 8; 9] None) = true.
Proof. rewrite C02_check_for_empty_tasks by lia. reflexivity. Qed.

(** * C03  Memory limit *)
Open Scope Z_scope.

Theorem C03_three_per_process m P N :
  1 <= P -> 1 <= N ->
  let '(per_node, per_proc) := handles_init m P N in
  3 <= per_proc /\ 3 * P <= per_node * N /\ per_proc * P <= per_node * N.
Proof. exact (init_three m P N). Qed.

(** A sufficient limit is kept, and a node running its share of the processes
    stays within it. *)
Theorem C03_limit_kept m P N :
  1 <= P -> 1 <= N -> 3 * P <= m * N ->
  fst (handles_init (Some m) P N) = m /\
  (forall procs_on_node, 0 <= procs_on_node -> procs_on_node * N <= P ->
     procs_on_node * snd (handles_init (Some m) P N) <= m) /\
  (forall per_proc, per_proc * P <= m * N -> per_proc <= snd (handles_init (Some m) P N)).
Proof. exact (init_kept m P N). Qed.

(** An insufficient limit is raised to the least sufficient one. *)
Theorem C03_limit_raised m P N :
  1 <= P -> 1 <= N -> m * N < 3 * P ->
  snd (handles_init (Some m) P N) = 3 /\
  m < fst (handles_init (Some m) P N) /\
  3 * P <= fst (handles_init (Some m) P N) * N /\
  (forall m', 3 * P <= m' * N -> fst (handles_init (Some m) P N) <= m').
Proof. exact (init_raised m P N). Qed.

(** The printed estimates divide by positive numbers (max_vecs_per_node * num_nodes /
    num_procs - 2, vectorspace.py:363-369, 922-928, here times P) and chunks hold two vectors
    (max_vecs_per_proc - 1, vectorspace.py:312-314, 938-940). *)
Theorem C03_estimates_defined m P N :
  1 <= P -> 1 <= N ->
  0 < fst (handles_init m P N) * N - 2 * P /\ 2 <= snd (handles_init m P N) - 1.
Proof. exact (init_estimates m P N). Qed.

(** With processes spread unevenly a node can exceed its limit. *)
Theorem C03_uneven_nodes_refuted :
  exists m P N procs_on_node, 1 <= N /\ N <= P /\ 3 * P <= m * N /\
    procs_on_node <= P - (N - 1) /\
    m < procs_on_node * snd (handles_init (Some m) P N).
Proof. exists 8, 5, 2, 4. vm_compute. intuition discriminate. Qed.

Example C03_example :
  handles_init (Some 10) 8 2 = (12, 3) /\ handles_init (Some 20) 8 2 = (20, 5) /\
  handles_init (Some (-4)) 8 3 = (8, 3) /\ handles_init None 8 2 = (10000, 2500).
Proof. vm_compute. auto. Qed.
Example C03_three_per_process_example :
  let '(per_node, per_proc) := handles_init (Some 10) 8 2 in
  3 <= per_proc /\ 24 <= per_node * 2 /\ per_proc * 8 <= per_node * 2.
Proof. apply (C03_three_per_process (Some 10) 8 2); lia. Qed.
(** Four processes on each of two nodes. *)
Example C03_limit_kept_example : fst (handles_init (Some 20) 8 2) = 20 /\ 4 * snd (handles_init (Some 20) 8 2) <= 20.
Proof.
  destruct (C03_limit_kept 20 8 2) as (H1 & H2 & _); [lia..|]. split; [exact H1|]. apply H2; lia.
Qed.
Example C03_limit_raised_example : snd (handles_init (Some 10) 8 2) = 3 /\ 10 < fst (handles_init (Some 10) 8 2) <= 12.
Proof.
  destruct (C03_limit_raised 10 8 2) as (H1 & H2 & H3 & H4); [lia..|]. split; [exact H1|]. split; [exact H2|]. apply H4. lia.
Qed.
Example C03_estimates_defined_example : 0 < fst (handles_init (Some 10) 8 2) * 2 - 16.
Proof. apply (C03_estimates_defined (Some 10) 8 2); lia. Qed.

(** * C39  Node identifiers *)
Close Scope Z_scope.

(** Host names: non-empty byte strings without leading zero byte. *)
Definition valid_host (h : list N) : Prop :=
  Forall (fun b => b < 256)%N h /\ hd 0%N h <> 0%N.

Theorem C39_node_ID_injective h1 h2 i :
  valid_host h1 -> valid_host h2 ->
  node_ID h1 = Ok i -> node_ID h2 = Ok i -> h1 = h2.
Proof.
  exact (fun '(conj a b) '(conj c d) e f => node_ID_inj h1 h2 i a c b d e f).
Qed.

Theorem C39_num_nodes (hosts : list (list N)) (ids : list N) :
  Forall valid_host hosts -> Forall2 (fun h i => node_ID h = Ok i) hosts ids ->
  num_nodes ids = length (nodup (list_eq_dec N.eq_dec) hosts).
Proof. exact (num_nodes_hosts hosts ids). Qed.

Example C39_example :
  valid_host [110; 49]%N /\ node_ID [110; 49]%N = Ok 28209%N /\
  num_nodes [28209; 28210; 28209]%N = 2.
Proof. repeat split; [repeat constructor|discriminate]. Qed.
Example C39_node_ID_injective_example : node_ID [110; 49]%N <> node_ID [110; 50]%N.
Proof.
  intros H. assert (E : [110; 49]%N = [110; 50]%N); [|discriminate].
  apply (C39_node_ID_injective _ _ 28209%N); [split; [repeat constructor|discriminate]..|reflexivity|rewrite <- H; reflexivity].
Qed.
Example C39_num_nodes_example : num_nodes [28209; 28210; 28209]%N = 2.
Proof.
  rewrite (C39_num_nodes [[110; 49]; [110; 50]; [110; 49]]%N); [reflexivity| |repeat constructor].
  repeat (constructor; [split; [repeat constructor|discriminate]|]). constructor.
Qed.

Print Assumptions C01_one_list_per_worker.
Print Assumptions C01_default_weights.
Print Assumptions C01_positive_weights.
Print Assumptions C01_nonnegative_weights.
Print Assumptions C01_zero_weights_refuted.
Print Assumptions C02_sizes.
Print Assumptions C02_busy.
Print Assumptions C02_check_for_empty_tasks.
Print Assumptions C03_three_per_process.
Print Assumptions C03_limit_kept.
Print Assumptions C03_limit_raised.
Print Assumptions C03_estimates_defined.
Print Assumptions C03_uneven_nodes_refuted.
Print Assumptions C39_node_ID_injective.
Print Assumptions C39_num_nodes.
