(** Property C43: rounding does not change how work is split. *)
From Coq Require Import List Arith QArith Qabs ZArith Lia.
From Verif Require Import Prelude ParallelModel ParallelProofs VecSpaceModel FloatModel FloatProofs.
Import ListNotations.
Open Scope nat_scope.

(** * C43 *)

(** The sum of the weights. *)
Definition total (ns : list nat) : nat := fold_right Nat.add 0 ns.

(** With weights that are natural numbers, whose sum times the number of workers is at
    most 2^50, the assignment made with rounded arithmetic is the exact one ... *)
Theorem C43_assignments {A} rnd P (tasks : list A) (ns : list nat) :
  rounding rnd -> (Z.of_nat (total ns) * Z.of_nat P <= 2 ^ 50)%Z ->
  fl_find_assignments rnd P tasks (Some (map q_of ns)) =
  find_assignments P tasks (Some (map q_of ns)).
Proof. intros R. exact (fl_find_weights rnd R P tasks ns). Qed.

(** ... and so it is without weights. *)
Theorem C43_default_assignments {A} rnd P (tasks : list A) :
  rounding rnd -> (Z.of_nat (length tasks) * Z.of_nat P <= 2 ^ 50)%Z ->
  fl_find_assignments rnd P tasks None = find_assignments P tasks None.
Proof. intros R. exact (fl_find_default rnd R P tasks). Qed.

(** The numbers of loops and of vectors are the exact ones. *)
Theorem C43_ceil_div rnd a b :
  rounding rnd -> (0 <= a < 2 ^ 52)%Z -> (0 < b)%Z ->
  fl_ceil_div rnd a b = z_ceil_div a b.
Proof. intros R. exact (fl_ceil_exact rnd R a b). Qed.

Theorem C43_memory rnd m P N :
  rounding rnd -> (1 <= P)%Z -> (1 <= N)%Z -> (3 * P < 2 ^ 52)%Z ->
  fl_handles_init rnd m P N = handles_init m P N.
Proof. intros R. exact (fl_init_exact rnd R m P N). Qed.

(** Time estimates divide by positive numbers. *)
Theorem C43_estimates rnd m P N :
  rounding rnd -> (1 <= P)%Z -> (1 <= N)%Z -> (3 * P <= m * N)%Z -> (m * N < 2 ^ 52)%Z ->
  (0 < fl_estimate_divisor rnd m P N)%Q.
Proof. intros R. exact (fl_estimate_pos rnd R m P N). Qed.

(** Rounding to nearest, with 53 binary digits, is such a rounding. *)
Theorem C43_binary64 : rounding binary64.
Proof. exact binary64_rounding. Qed.

(** Any weights, any rounding: one list per worker, and together they are a prefix of the
    tasks in order. *)
Theorem C43_any_weights {A} rnd P (tasks : list A) w :
  length (fl_find_assignments rnd P tasks w) = P /\
  exists m, concat (fl_find_assignments rnd P tasks w) = firstn m tasks.
Proof.
  split.
  - apply fl_assign_length.
  - destruct (fl_assign_prefix rnd tasks
      (match w with None => repeat 1%Q (length tasks) | Some w => w end) P 0) as (m & _ & H).
    exists m. exact H.
Qed.

(** Exact arithmetic assigns all tasks with positive weights (C01); with rounding the
    bound on the sum is needed: a task whose weight is lost in the sum is not assigned. *)
Theorem C43_absorbed_weight_refuted :
  exists P (tasks : list nat) (w : list Z),
    0 < P /\ length w = length tasks /\ Forall (fun z => 0 < z)%Z w /\
    concat (find_assignments P tasks (Some (map inject_Z w))) = tasks /\
    concat (fl_find_assignments binary64 P tasks (Some (map inject_Z w))) <> tasks.
Proof.
  exists 1, [7; 8], [2 ^ 60; 1]%Z.
  split; [auto|]. split; [reflexivity|]. split; [repeat constructor|].
  split; vm_compute; [reflexivity|discriminate].
Qed.

Example C43_example :
  fl_find_assignments binary64 3 [10; 11; 12; 13; 14] (Some (map q_of [1; 1; 4; 1; 2])) =
    [[10; 11]; [12]; [13; 14]].
Proof. vm_compute. reflexivity. Qed.
(** Rounding does occur: 10 / 3 has no finite binary expansion. *)
Example C43_example_rounds : Qeq_bool (binary64 (10 / 3)) (10 / 3) = false /\
  fl_ceil_div binary64 10 3 = 4%Z /\ fl_ceil_div binary64 9 3 = 3%Z.
Proof. vm_compute. auto. Qed.
Example C43_example_memory :
  fl_handles_init binary64 (Some 10%Z) 8 2 = (12, 3)%Z /\
  fl_handles_init binary64 (Some 7%Z) 7 3 = (7, 3)%Z /\
  Qeq_bool (fl_estimate_divisor binary64 7 7 3) 1 = true.
Proof. vm_compute. auto. Qed.
Example C43_example_bound : (Z.of_nat (total [1; 1; 4; 1; 2]%nat) * 3 <= 2 ^ 50)%Z.
Proof. vm_compute. discriminate. Qed.
(** The nearest numbers and the tie rule: 2^53 + 1 is a tie, rounded to even. *)
Example C43_example_ties :
  Qeq_bool (binary64 (inject_Z (2 ^ 53 + 1))) (inject_Z (2 ^ 53)) = true /\
  Qeq_bool (binary64 (inject_Z (2 ^ 53 + 3))) (inject_Z (2 ^ 53 + 4)) = true /\
  Qeq_bool (binary64 (1 # 10)) (3602879701896397 # 36028797018963968) = true.
Proof. vm_compute. auto. Qed.

Example C43_binary64_example : (Qabs (binary64 (10 / 3) - 10 / 3) <= Qabs (10 / 3) * (1 # 2 ^ 53))%Q.
Proof. vm_compute. discriminate. Qed.
Example C43_assignments_example : fl_find_assignments binary64 3 [10; 11; 12; 13; 14] (Some (map q_of [1; 1; 4; 1; 2])) =
  find_assignments 3 [10; 11; 12; 13; 14] (Some (map q_of [1; 1; 4; 1; 2])).
Proof. apply (C43_assignments binary64 3 [10; 11; 12; 13; 14] [1; 1; 4; 1; 2] C43_binary64). vm_compute. discriminate. Qed.
Example C43_default_assignments_example :
  fl_find_assignments binary64 3 [10; 11; 12; 13; 14] None = [[10; 11]; [12]; [13; 14]].
Proof. rewrite C43_default_assignments; [reflexivity|exact C43_binary64|vm_compute; discriminate]. Qed.
(* a third of 2^51 + 1 *)
Example C43_ceil_div_example : fl_ceil_div binary64 (2 ^ 51 + 1) 3 = 750599937895083%Z.
Proof. rewrite C43_ceil_div; [reflexivity|exact C43_binary64|lia|lia]. Qed.
Example C43_memory_example : fl_handles_init binary64 (Some 10%Z) 8 2 = handles_init (Some 10%Z) 8 2.
Proof. apply C43_memory; [exact C43_binary64|lia..]. Qed.
Example C43_estimates_example : (0 < fl_estimate_divisor binary64 7 7 3)%Q.
Proof. apply C43_estimates; [exact C43_binary64|lia..]. Qed.
(* weights of one tenth, whose sum is rounded at every step *)
Example C43_any_weights_example : exists m,
  concat (fl_find_assignments binary64 3 [10; 11; 12; 13] (Some (repeat (1 # 10)%Q 4))) = firstn m [10; 11; 12; 13].
Proof. apply (C43_any_weights binary64 3 [10; 11; 12; 13]). Qed.

Print Assumptions C43_assignments.
Print Assumptions C43_default_assignments.
Print Assumptions C43_ceil_div.
Print Assumptions C43_memory.
Print Assumptions C43_estimates.
Print Assumptions C43_binary64.
Print Assumptions C43_any_weights.
Print Assumptions C43_absorbed_weight_refuted.
