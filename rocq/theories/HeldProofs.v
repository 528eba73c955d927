(** The programs with notes are the programs of the model; how many vectors they note. *)
From stdpp Require Import gmap list.
From Coq Require Import Lia.
From Verif Require Import Prelude ParallelModel Spmd SpmdFacts ReductionsModel InnerProdModel SymmModel
  LinCombModel HeldModel.
Open Scope nat_scope.

(** ** Leaving out the notes *)
Section Erase.
Context {M V O : Type}.
Notation proc := (proc M V O).
Notation mproc := (mproc M V O).

Definition noted {A} (m : mprog A) (p : prog M V O A) : Prop :=
  forall s k k', (forall a s', erases (k a s') (k' a)) -> erases (m s k) (p k').

Lemma noted_ret {A} (a : A) : noted (mret a) (ret a).
Proof. intros s k k' H. apply H. Qed.
Lemma noted_bind {A B} (m : mprog A) (f : A -> mprog B) p g :
  noted m p -> (forall a, noted (f a) (g a)) -> noted (mbind m f) (bind p g).
Proof. intros Hm Hf s k k' H. apply Hm. intros a s'. apply Hf, H. Qed.
Lemma noted_make {B} x n (f : unit -> mprog B) p :
  noted (f tt) p -> noted (mbind (make x n) f) p.
Proof. intros Hf s k k' H. apply er_held. apply Hf, H. Qed.
Lemma noted_assign {B} x y (f : unit -> mprog B) p :
  noted (f tt) p -> noted (mbind (assign x y) f) p.
Proof. intros Hf s k k' H. apply Hf, H. Qed.
Lemma noted_assign_slice {B} x y a b (f : unit -> mprog B) p :
  noted (f tt) p -> noted (mbind (assign_slice x y a b) f) p.
Proof. intros Hf s k k' H. apply Hf, H. Qed.
Lemma noted_assign_new {B} x (f : unit -> mprog B) p :
  noted (f tt) p -> noted (mbind (assign_new x) f) p.
Proof. intros Hf s k k' H. apply Hf, H. Qed.
Lemma noted_del {B} x (f : unit -> mprog B) p :
  noted (f tt) p -> noted (mbind (del x) f) p.
Proof. intros Hf s k k' H. apply Hf, H. Qed.
Lemma noted_init {B} n (f : unit -> mprog B) p :
  noted (f tt) p -> noted (mbind (init_layers n) f) p.
Proof. intros Hf s k k' H. apply Hf, H. Qed.
Lemma noted_assign_layer {B} i x (f : unit -> mprog B) p :
  noted (f tt) p -> noted (mbind (assign_layer i x) f) p.
Proof. intros Hf s k k' H. apply Hf, H. Qed.
(** A last statement that only changes the memory. *)
Lemma noted_tail {A} (m : mprog A) (f : A -> mprog A) p :
  noted m p -> (forall a, noted (f a) (ret a)) -> noted (mbind m f) p.
Proof. intros Hm Hf s k k' H. apply Hm. intros a s'. apply (Hf a s' k k'), H. Qed.
Lemma noted_for {A T} (l : list A) (t : T) body body' :
  (forall x t, noted (body x t) (body' x t)) -> noted (mfor l t body) (for_loop l t body').
Proof.
  intros H. revert t. induction l as [|x l IH]; intros t; [apply noted_ret|].
  apply noted_bind; auto.
Qed.
Lemma noted_get h : noted (mget h) (get h).
Proof. intros s k k' H. constructor. intros v. apply er_held. apply H. Qed.
Lemma noted_get_list l : noted (mget_list l) (map_prog get l).
Proof.
  induction l as [|h l IH]; [apply noted_ret|].
  apply noted_bind; [apply noted_get|]. intros v. apply noted_bind; auto. intros vs. apply noted_ret.
Qed.

(** ** Programs that make nothing: the same whatever follows *)
Section Same.
Context {A : Type} (k' : A -> proc).
Inductive same_until : Spmd.proc M V A -> proc -> Prop :=
| su_ret a : same_until (Ret a) (k' a)
| su_fail e : same_until (Fail e) (Fail e)
| su_isend dst ctx tag x m p : same_until m p -> same_until (Isend dst ctx tag x m) (Isend dst ctx tag x p)
| su_recv src ctx tag m p : (forall x, same_until (m x) (p x)) -> same_until (Recv src ctx tag m) (Recv src ctx tag p)
| su_wait dst ctx tag x m p : same_until m p -> same_until (Wait dst ctx tag x m) (Wait dst ctx tag x p)
| su_barrier m p : same_until m p -> same_until (Barrier m) (Barrier p)
| su_get h m p : (forall v, same_until (m v) (p v)) -> same_until (Get h m) (Get h p)
| su_put h v m p : same_until m p -> same_until (Put h v m) (Put h v p).

Lemma same_erases p q (k : A -> mproc) :
  same_until p q -> (forall a, erases (k a) (k' a)) -> erases (graft p k) q.
Proof. intros H Hk. induction H; simpl; try constructor; auto. Qed.

(** The same program with different types of final results. *)
Definition same {B} (p : Spmd.prog M V A B) (q : prog M V O B) : Prop :=
  forall k1 k2, (forall b, same_until (k1 b) (k2 b)) -> same_until (p k1) (q k2).
Lemma same_ret {B} (b : B) : same (ret b) (ret b).
Proof. intros k1 k2 H. apply H. Qed.
Lemma same_fail {B} e : same (B := B) (fail e) (fail e).
Proof. intros k1 k2 H. constructor. Qed.
Lemma same_lift {B} (r : res B) : same (lift r) (lift r).
Proof. destruct r; [apply same_ret|apply same_fail]. Qed.
Lemma same_bind {B C} p q (f : B -> Spmd.prog M V A C) g :
  same p q -> (forall b, same (f b) (g b)) -> same (bind p f) (bind q g).
Proof. intros Hp Hf k1 k2 H. apply Hp. intros b. apply Hf, H. Qed.
Lemma same_isend dst ctx tag x : same (isend dst ctx tag x) (isend dst ctx tag x).
Proof. intros k1 k2 H. constructor. apply H. Qed.
Lemma same_wait dst ctx tag x : same (wait dst ctx tag x) (wait dst ctx tag x).
Proof. intros k1 k2 H. constructor. apply H. Qed.
Lemma same_recv dst ctx tag : same (recv dst ctx tag) (recv dst ctx tag).
Proof. intros k1 k2 H. constructor. intros x. apply H. Qed.
Lemma same_put h v : same (put h v) (put h v).
Proof. intros k1 k2 H. constructor. apply H. Qed.
Lemma same_barrier P : same (barrier P) (barrier P).
Proof. unfold barrier. destruct (1 <? P); [|apply same_ret]. intros k1 k2 H. constructor. apply H. Qed.
Lemma same_for {B C} (l : list B) (c : C) f g :
  (forall x c, same (f x c) (g x c)) -> same (for_loop l c f) (for_loop l c g).
Proof.
  intros H. revert c. induction l as [|x l IH]; intros c; [apply same_ret|].
  apply same_bind; auto.
Qed.
Lemma same_send dst ctx tag x : same (send dst ctx tag x) (send dst ctx tag x).
Proof. apply same_bind; [apply same_isend|]. intros _. apply same_wait. Qed.

Lemma same_reduce_loop P tag_ub op fuel mask rank x :
  same (reduce_loop P tag_ub op fuel mask rank x) (reduce_loop P tag_ub op fuel mask rank x).
Proof.
  revert mask x. induction fuel as [|fuel IH]; intros mask x; simpl; [apply same_ret|].
  destruct (mask <? P); [|apply same_ret]. apply same_bind; auto.
  destruct (_ =? 0).
  - destruct (_ <? P); [|apply same_ret]. apply same_bind; [apply same_recv|]. intros b. apply same_ret.
  - apply same_bind; [apply same_send|]. intros b. apply same_ret.
Qed.
Lemma same_allreduce P tag_ub op rank x :
  same (allreduce P tag_ub op rank x) (allreduce P tag_ub op rank x).
Proof.
  apply same_bind.
  - apply same_bind; [apply same_reduce_loop|]. intros b. apply same_bind; [apply same_ret|].
    intros c. apply same_ret.
  - intros b. apply same_for. intros j c. destruct (j =? 0); [apply same_ret|].
    destruct (rank =? 0).
    + apply same_bind; [apply same_send|]. intros ?. apply same_ret.
    + destruct (rank =? j); [apply same_recv|apply same_ret].
Qed.
End Same.

Lemma noted_plain {A} (p : Spmd.prog M V A A) (q : prog M V O A) :
  (forall k', same k' p q) -> noted (plain p) q.
Proof.
  intros H s k k' Hk. unfold plain. apply (same_erases k').
  - apply H. intros b. constructor.
  - intros a. apply Hk.
Qed.
Lemma noted_lift {A} (r : res A) : noted (mlift r) (lift r).
Proof. apply noted_plain. intros k'. apply same_lift. Qed.
Lemma noted_fail {A} e : noted (plain (fail e)) (fail (A := A) e).
Proof. apply noted_plain. intros k'. apply same_fail. Qed.
Lemma noted_barrier P : noted (plain (barrier P)) (barrier P).
Proof. apply noted_plain. intros k'. apply same_barrier. Qed.
Lemma noted_isend dst ctx tag x : noted (plain (isend dst ctx tag x)) (isend dst ctx tag x).
Proof. apply noted_plain. intros k'. apply same_isend. Qed.
Lemma noted_wait dst ctx tag x : noted (plain (wait dst ctx tag x)) (wait dst ctx tag x).
Proof. apply noted_plain. intros k'. apply same_wait. Qed.

(** A loop with notes against a fold that may raise. *)
Lemma noted_fold {A T} (l : list A) (t : T) body f :
  (forall x t, noted (body x t) (lift (f x t))) -> noted (mfor l t body) (lift (res_fold f l t)).
Proof.
  intros H. revert t. induction l as [|x l IH]; intros t; [apply noted_ret|]. simpl.
  intros s k k' Hk.
  pose proof (H x t s (fun a s' => mfor l a body s' k) (fun a => lift (res_fold f l a) k')
    (fun a s' => IH a s' k k' Hk)) as E.
  change (mbind (body x t) (fun t' => mfor l t' body) s k)
    with (body x t s (fun a s' => mfor l a body s' k)).
  destruct (f x t) as [t'|e]; exact E.
Qed.
Lemma noted_res {A B} (r : res A) (f : A -> mprog B) (g : A -> res B) :
  (forall a, noted (f a) (lift (g a))) ->
  noted (mbind (mlift r) f) (lift (match r with Ok a => g a | Raise e => Raise e end)).
Proof.
  intros H. destruct r as [a|e].
  - intros s k k' Hk. apply H, Hk.
  - intros s k k' Hk. apply er_fail.
Qed.
End Erase.

(** ** The three functions *)
Section Routines.
Context {V K O : Type}.
Context (P tag_ub : nat).
Notation msg := (msg V K).
Context (zero : K) (add : K -> K -> K) (conj : K -> K) (is_zero : K -> bool).
Context (store_as : K -> K -> res K).
Notation noted := (@noted msg V O).

Lemma noted_recv src ctx tag : noted (mrecv src ctx tag) (recv src ctx tag).
Proof. intros s k k' H. constructor. intros v. apply er_held. apply H. Qed.
Lemma noted_swap rank dest source payload :
  noted (mswap P rank dest source payload) (swap P rank dest source payload).
Proof.
  apply noted_bind; [apply noted_isend|]. intros _. apply noted_bind; [apply noted_recv|]. intros x.
  apply noted_assign_new. apply noted_bind; [apply noted_wait|]. intros _. apply noted_lift.
Qed.
Lemma noted_sum rank a :
  noted (plain (sum_over_procs P tag_ub add rank a)) (sum_over_procs P tag_ub add rank a).
Proof.
  apply noted_plain. intros k'. unfold sum_over_procs. destruct (1 <? P); [|apply same_ret].
  apply same_bind; [apply same_allreduce|]. intros b. apply same_lift.
Qed.
Lemma noted_ring {T} rank fetch fetch' compute compute' (acc : T) :
  noted fetch fetch' -> (forall p t, noted (compute p t) (lift (compute' p t))) ->
  noted (mring P rank fetch compute acc) (ring P rank fetch' compute' acc).
Proof.
  intros Hf Hc. apply noted_del. apply noted_bind.
  - apply noted_for. intros pass [t payload]. apply noted_bind.
    + destruct (pass =? 0).
      * apply noted_tail; auto. intros a. apply noted_assign_new, noted_ret.
      * apply noted_assign. apply noted_bind; [apply noted_swap|]. intros p.
        apply noted_bind; [apply noted_barrier|]. intros _. apply noted_assign, noted_ret.
    + intros p. apply noted_bind; [apply Hc|]. intros t'. apply noted_ret.
  - intros [t payload]. apply noted_ret.
Qed.
Lemma noted_get_slice l a b : noted (mget_slice l a b) (get_slice l a b).
Proof. apply noted_get_list. Qed.
Lemma noted_ip_block ip like a b row_vecs cols x :
  noted (mip_block store_as ip like a b row_vecs cols x)
        (lift (ip_block store_as ip like a b row_vecs cols x)).
Proof.
  apply noted_tail; [apply noted_lift|]. intros y s k k' H. apply H.
Qed.
Lemma noted_burn ip per_node N rows cols :
  noted (mburn P ip per_node N rows cols) (burn P ip per_node N rows cols).
Proof.
  apply noted_bind; [apply noted_lift|]. intros h. apply noted_bind; [apply noted_get|]. intros _.
  apply noted_assign_new. apply noted_bind; [apply noted_lift|]. intros h'.
  apply noted_bind; [apply noted_get|]. intros w. apply noted_assign_new.
  apply noted_bind; [apply noted_get|]. intros v. apply noted_assign_new.
  apply noted_tail.
  - destruct (_ =? _); [apply noted_fail|apply noted_ret].
  - intros x. apply noted_del, noted_del, noted_ret.
Qed.
Lemma noted_core ip per_node per_proc N rank rows cols :
  noted (mip_array_core P tag_ub zero add store_as ip per_node per_proc N rank rows cols)
        (ip_array_core P tag_ub zero add store_as ip per_node per_proc N rank rows cols).
Proof.
  apply noted_bind; [apply noted_burn|]. intros like. apply noted_bind; [|intros a; apply noted_sum].
  apply noted_for. intros g a. apply noted_bind; [apply noted_get_slice|]. intros row_vecs.
  apply noted_assign_new. apply noted_tail; [|intros x; apply noted_del, noted_ret].
  apply noted_for. intros c x. apply noted_tail; [|intros y; apply noted_del, noted_ret].
  apply noted_ring.
  - apply noted_bind; [apply noted_get_slice|]. intros vs. apply noted_ret.
  - intros p t. destruct (0 <? _); [apply noted_ip_block|]. intros s k k' H. apply H.
Qed.
Lemma noted_ip_array ip per_node per_proc N rank rows cols :
  noted (mip_array P tag_ub zero add conj store_as ip per_node per_proc N rank rows cols)
        (ip_array P tag_ub zero add conj store_as ip per_node per_proc N rank rows cols).
Proof.
  destruct ip as [ip|]; [|apply noted_fail]. apply noted_bind.
  - destruct (_ <? _); [|apply noted_core]. apply noted_bind; [apply noted_core|].
    intros a. apply noted_ret.
  - intros a. apply noted_bind; [apply noted_barrier|]. intros _. apply noted_ret.
Qed.

Lemma noted_square ip like rank active mx tasks row_vecs a :
  noted (msquare_sets P store_as ip like rank active mx tasks row_vecs a)
        (square_sets P store_as ip like rank active mx tasks row_vecs a).
Proof.
  apply noted_for. intros i x. apply noted_for. intros j y. apply noted_bind.
  - destruct (0 <? length tasks); [|apply noted_ret]. apply noted_assign_slice.
    apply noted_bind; [apply noted_swap|]. intros p. apply noted_assign. apply noted_ip_block.
  - intros z. apply noted_bind; [apply noted_barrier|]. intros _. apply noted_ret.
Qed.
Lemma noted_rectangle ip like rank er vecs tasks row_vecs a :
  noted (mrectangle P store_as ip like rank er vecs tasks row_vecs a)
        (rectangle P store_as ip like rank er vecs tasks row_vecs a).
Proof.
  apply noted_for. intros i x. apply noted_ring.
  - destruct (0 <? _); [|apply noted_ret]. apply noted_bind; [apply noted_get_slice|].
    intros vs. apply noted_ret.
  - intros p t. destruct (0 <? _); [apply noted_ip_block|]. intros s k k' H. apply H.
Qed.
Lemma noted_row_chunk ip like per_proc rank vecs sr a :
  noted (mrow_chunk P store_as ip like per_proc rank vecs sr a)
        (row_chunk P store_as ip like per_proc rank vecs sr a).
Proof.
  apply noted_bind.
  { destruct (0 <? _); [apply noted_get_slice|apply noted_ret]. }
  intros row_vecs. apply noted_assign_new. apply noted_bind.
  { destruct (0 <? _); [|apply noted_ret]. destruct (consecutive _); [apply noted_lift|apply noted_fail]. }
  intros x. apply noted_bind; [apply noted_square|]. intros y.
  apply noted_tail; [apply noted_rectangle|]. intros z. apply noted_del, noted_ret.
Qed.
Lemma noted_symm_array ip per_node per_proc N rank vecs :
  noted (msymm_array P tag_ub zero add conj is_zero store_as ip per_node per_proc N rank vecs)
        (symm_array P tag_ub zero add conj is_zero store_as ip per_node per_proc N rank vecs).
Proof.
  destruct ip as [ip|]; [|apply noted_fail]. apply noted_bind; [apply noted_lift|]. intros h.
  apply noted_bind; [apply noted_get|]. intros _. apply noted_assign_new.
  apply noted_bind; [apply noted_get|]. intros v. apply noted_assign_new. apply noted_bind.
  { destruct (_ =? _); [apply noted_fail|apply noted_ret]. }
  intros _. apply noted_del. apply noted_bind.
  { apply noted_for. intros sr x. apply noted_row_chunk. }
  intros x. apply noted_bind; [apply noted_sum|]. intros y.
  apply noted_bind; [apply noted_barrier|]. intros _. apply noted_ret.
Qed.

Context (vadd : V -> V -> V) (smul : V -> K -> V) (in_place : bool).
Lemma noted_add_layers coeff a b basis layers :
  noted (madd_layers vadd smul in_place coeff a b basis layers)
        (lift (add_layers vadd smul coeff a b basis layers)).
Proof.
  apply noted_fold. intros si l. apply noted_fold. intros [bi bv] l'. apply noted_assign_slice.
  apply noted_res. intros i. apply noted_res. intros c. apply noted_make. apply noted_assign_new.
  apply noted_res. intros [old|]; [destruct in_place|].
  - intros s k k' H. exact (H _ _).
  - intros s k k' H. cbv zeta. apply er_held. exact (H _ _).
  - intros s k k' H. exact (H _ _).
Qed.
Lemma noted_test h : noted (mtest h) (get h).
Proof. intros s k k' H. constructor. intros v. do 3 apply er_held. apply H. Qed.
Lemma noted_lin_core per_node per_proc N rank sums basis coeff :
  noted (mlin_core P vadd smul in_place per_node per_proc N rank sums basis coeff)
        (lin_core P vadd smul per_node per_proc N rank sums basis coeff).
Proof.
  apply noted_bind; [apply noted_lift|]. intros h. apply noted_bind; [apply noted_test|]. intros _.
  apply noted_bind; [apply noted_test|]. intros _. apply noted_bind.
  { destruct (_ =? _); [apply noted_fail|apply noted_ret]. }
  intros _. apply noted_bind; [|intros _; apply noted_barrier].
  apply noted_for. intros g _. apply noted_init. apply noted_bind.
  - apply noted_for. intros c l. apply noted_ring.
    + apply noted_bind; [apply noted_get_slice|]. intros vs. apply noted_ret.
    + intros p t. apply noted_add_layers.
  - intros l. apply noted_tail.
    + apply noted_plain. intros k'. apply same_for. intros i c.
      apply same_bind; [apply same_lift|]. intros h'. apply same_bind; [apply same_lift|].
      intros [v|]; [apply same_put|apply same_fail].
    + intros [] s k k' H. apply H.
Qed.
Lemma noted_lin_combine per_node per_proc N rank sums basis coeff idx :
  noted (mlin_combine P vadd smul in_place per_node per_proc N rank sums basis coeff idx)
        (lin_combine P vadd smul per_node per_proc N rank sums basis coeff idx).
Proof. apply noted_bind; [apply noted_lift|]. intros a. apply noted_lin_core. Qed.
End Routines.
