(** Algebra for C54: reduced-order models of the Crank-Nicolson scheme. *)
From Coq Require Import List Arith Lia Bool ZArith Field Ring Setoid Morphisms.
Import ListNotations.
From Verif Require Import Prelude Field Matrix NdArray VSArraysModel VSArraysProofs EraProofs.
Open Scope nat_scope.
Open Scope k_scope.

Section Krylov.
Context {F : sfield}.
Add Field Ff_krylov : (k_field F).
Implicit Types A B C f v S T X M L Q : mat F.

(** Products with p rows and m columns by their entries. *)
Lemma entrywise n p m C M v : meq p m (mmul n C (mmul n M v)) mzero <->
  forall a b, a < p -> b < m -> mmul n (fun _ => C a) (mmul n M (fun l _ => v l b)) 0%nat 0%nat = 0.
Proof.
  split.
  - intros H a b Ha Hb. apply (meq_at _ _ _ _ H a b Ha Hb).
  - intros H. split. intros a b Ha Hb. exact (H a b Ha Hb).
Qed.

(** The index of the last non-zero coefficient, and of the first. *)
Lemma last_nonzero (c : nat -> F) n : (exists j, j <= n /\ c j <> 0) ->
  exists d, d <= n /\ c d <> 0 /\ forall j, d < j <= n -> c j = 0.
Proof.
  induction n as [|n IH]; intros (j & Hj & E).
  - assert (j = O) as -> by lia. exists O. split; [lia|]. split; [auto|]. intros; lia.
  - destruct (k_dec F (c (S n)) 0) as [E0|E0].
    + destruct IH as (d & Hd & Ed & H); [exists j; split; auto; destruct (Nat.eq_dec j (S n)) as [->|]; [contradiction|lia]|].
      exists d. split; [lia|]. split; [auto|]. intros i Hi. destruct (Nat.eq_dec i (S n)) as [->|]; auto. apply H. lia.
    + exists (S n). split; [lia|]. split; [auto|]. intros; lia.
Qed.
Lemma first_nonzero (c : nat -> F) n : (exists j, j <= n /\ c j <> 0) ->
  exists d, d <= n /\ c d <> 0 /\ forall j, j < d -> c j = 0.
Proof.
  intros (j & Hj & E). revert n Hj. induction j as [j IH] using (well_founded_induction lt_wf). intros n Hj.
  assert (D : (exists i, i < j /\ c i <> 0) \/ forall i, i < j -> c i = 0).
  { clear. induction j as [|j [(i & Hi & E)|H]]; [right; intros; lia|left; exists i; split; auto; lia|].
    destruct (k_dec F (c j) 0) as [E0|E0]; [right|left; exists j; split; auto].
    intros i Hi. destruct (Nat.eq_dec i j) as [->|]; auto. apply H. lia. }
  destruct D as [(i & Hi & Ei)|H]; [apply (IH i Hi Ei); lia|]. exists j. auto.
Qed.

(** If f S^k v vanishes for k < n it vanishes for all k. *)
Lemma krylov n p m C S v : (forall k, k < n -> meq p m (mmul n C (mmul n (mpow n S k) v)) mzero) ->
  forall k, meq p m (mmul n C (mmul n (mpow n S k) v)) mzero.
Proof.
  intros H k. apply entrywise. intros a b Ha Hb. set (f := (fun _ => C a) : mat F). set (w := (fun l _ => v l b) : mat F).
  assert (H' : forall i, i < n -> mmul n f (mmul n (mpow n S i) w) 0%nat 0%nat = 0).
  { intros i Hi. apply (proj1 (entrywise n p m C (mpow n S i) v) (H i Hi) a b Ha Hb). }
  clearbody f w. clear H.
  destruct (dependent n (fun l j => mmul n f (mpow n S j) 0%nat l)) as (c & Hc & Hd).
  destruct (last_nonzero c n Hc) as (d & Ld & Ed & Hz). clear Hc.
  set (r := (fun j => mmul n f (mpow n S j)) : nat -> mat F).
  assert (R : forall l, l < n -> sum d (fun j => r j 0%nat l * c j) + r d 0%nat l * c d = 0).
  { intros l Hl. rewrite <- (Hd l Hl). replace (Datatypes.S n) with (Datatypes.S d + (n - d))%nat by lia.
    rewrite sum_split. simpl sum at 2.
    rewrite (sum_0 (n - d)); [|intros i Hi; rewrite (Hz (Datatypes.S d + i)%nat) by lia; ring]. unfold r. simpl. ring. }
  induction k as [k IH] using (well_founded_induction lt_wf).
  destruct (Nat.ltb_spec k d) as [Hk|Hk]; [apply H'; lia|].
  assert (E : forall i, mmul n f (mmul n (mpow n S (i + (k - d))) w) 0%nat 0%nat =
                        mmul n (r i) (mmul n (mpow n S (k - d)) w) 0%nat 0%nat).
  { intros i. assert (Q : meq 1 1 (mmul n f (mmul n (mpow n S (i + (k - d))) w)) (mmul n (r i) (mmul n (mpow n S (k - d)) w))).
    { unfold r. rewrite mpow_add, !mmul_assoc. reflexivity. }
    apply (meq_at _ _ _ _ Q); lia. }
  replace k with (d + (k - d))%nat by lia. rewrite E. set (u := mmul n (mpow n S (k - d)) w) in *.
  assert (Z : c d * mmul n (r d) u 0%nat 0%nat = 0).
  { transitivity (sum d (fun j => mmul n (r j) u 0%nat 0%nat * c j) + mmul n (r d) u 0%nat 0%nat * c d).
    - rewrite (sum_0 d); [ring|]. intros j Hj. rewrite <- E, IH by lia. ring.
    - unfold mmul at 1 2. rewrite (sum_ext d _ (fun j => sum n (fun l => r j 0%nat l * c j * u l 0%nat))).
      2:{ intros j _. rewrite <- sum_mul_r. apply sum_ext. intros; ring. }
      rewrite sum_swap, <- sum_mul_r, <- sum_add. apply sum_0. intros l Hl.
      rewrite sum_mul_r. transitivity ((sum d (fun j => r j 0%nat l * c j) + r d 0%nat l * c d) * u l 0%nat); [ring|].
      rewrite R by auto. ring. }
  apply mul_eq_0 in Z as [Z|Z]; [contradiction|exact Z].
Qed.

(** Linear combinations of matrices. *)
Definition comb k (e : nat -> F) (V : nat -> mat F) : mat F := fun i j => sum k (fun l => e l * V l i j).
Lemma mmul_comb p n m k M e V : meq p m (mmul n M (comb k e V)) (comb k e (fun l => mmul n M (V l))).
Proof.
  split. intros i j _ _. unfold mmul, comb.
  rewrite (sum_ext n _ (fun a => sum k (fun l => e l * (M i a * V l a j)))).
  - rewrite sum_swap. apply sum_ext. intros. rewrite sum_mul_l. reflexivity.
  - intros a _. rewrite <- sum_mul_l. apply sum_ext. intros; ring.
Qed.
Lemma comb_ext p m k e V V' : (forall l, l < k -> meq p m (V l) (V' l)) -> meq p m (comb k e V) (comb k e V').
Proof. intros H. split. intros i j Hi Hj. unfold comb. apply sum_ext. intros l Hl. rewrite (meq_at _ _ _ _ (H l Hl)) by auto. reflexivity. Qed.
Lemma comb_0 p m k e V : (forall l, l < k -> meq p m (V l) mzero) -> meq p m (comb k e V) mzero.
Proof. intros H. split. intros i j Hi Hj. unfold comb. apply sum_0. intros l Hl. rewrite (meq_at _ _ _ _ (H l Hl)) by auto. unfold mzero. ring. Qed.
Lemma comb_S_l p m k e V : meq p m (comb (S k) e V) (madd (mscale (e 0%nat) (V 0%nat)) (comb k (fun l => e (S l)) (fun l => V (S l)))).
Proof. split. intros i j _ _. unfold comb, madd, mscale. rewrite sum_S_l. reflexivity. Qed.
Lemma mscale_0 p m c M : c <> 0 -> meq p m (mscale c M) mzero -> meq p m M mzero.
Proof.
  intros Hc H. split. intros i j Hi Hj. pose proof (meq_at _ _ _ _ H i j Hi Hj) as E. unfold mscale, mzero in E.
  apply mul_eq_0 in E as [E|E]; [contradiction|exact E].
Qed.
Lemma madd_zero_r p m M : meq p m (madd M mzero) M.
Proof. split. intros. unfold madd, mzero. ring. Qed.

(** If Q has an inverse up to a factor and f Q^k v vanishes for all k, so does f Q^-1 v. *)
Lemma krylov_inv n p m C Q L c v : c <> 0 -> meq n n (mmul n L Q) (mscale c mid) ->
  (forall k, meq p m (mmul n C (mmul n (mpow n Q k) v)) mzero) -> meq p m (mmul n C (mmul n L v)) mzero.
Proof.
  intros Hc HL H. apply entrywise. intros a b Ha Hb. set (f := (fun _ => C a) : mat F). set (w := (fun l _ => v l b) : mat F).
  assert (H' : forall k, meq 1 1 (mmul n f (mmul n (mpow n Q k) w)) mzero).
  { intros k. split. intros i j Hi Hj. replace i with O by lia. replace j with O by lia.
    apply (proj1 (entrywise n p m C (mpow n Q k) v) (H k) a b Ha Hb). }
  clearbody f w. clear H.
  destruct (dependent n (fun l j => mmul n (mpow n Q j) w l 0%nat)) as (e & He & Hd).
  destruct (first_nonzero e n He) as (d & Ld & Ed & Hz). clear He.
  set (e' := fun j => e (d + j)%nat). set (V := fun j => mmul n (mpow n Q j) w). set (u := comb (S (n - d)) e' V).
  assert (inj : forall k z, meq n 1 (mmul n (mpow n Q k) z) mzero -> meq n 1 z mzero).
  { induction k as [|k IH]; intros z E; simpl in E; [rewrite mmul_id_l in E; exact E|].
    apply IH. apply (mscale_0 n 1 c); auto. rewrite mmul_assoc in E.
    transitivity (mmul n L (mmul n Q (mmul n (mpow n Q k) z))).
    - rewrite <- (mmul_assoc n 1 n n L), HL, mmul_scale_l, mmul_id_l. reflexivity.
    - rewrite E. apply mmul_zero_r. }
  assert (U0 : meq n 1 u mzero).
  { apply (inj d). unfold u. rewrite mmul_comb. split. intros i j Hi Hj. replace j with O by lia. unfold mzero.
    rewrite <- (Hd i Hi). replace (S n) with (d + S (n - d))%nat by lia. rewrite sum_split.
    rewrite (sum_0 d); [|intros l Hl; rewrite (Hz l Hl); ring]. unfold comb.
    rewrite (sum_ext (S (n - d)) _ (fun i0 => mmul n (mpow n Q (d + i0)) w i 0%nat * e (d + i0)%nat)); [ring|].
    intros l Hl. unfold e'.
    assert (E : meq n 1 (mmul n (mpow n Q d) (V l)) (mmul n (mpow n Q (d + l)) w)) by (unfold V; rewrite mpow_add, mmul_assoc; reflexivity).
    rewrite (meq_at _ _ _ _ E i 0%nat) by auto. ring. }
  assert (E : meq 1 1 (mmul n f (mmul n L u)) (mscale (e d) (mmul n f (mmul n L w)))).
  { unfold u. rewrite comb_S_l, !mmul_add_r, !mmul_scale_r.
    assert (E1 : meq 1 1 (mmul n f (mmul n L (comb (n - d) (fun l => e' (S l)) (fun l => V (S l))))) mzero).
    { rewrite (mmul_comb n n 1), mmul_comb. apply comb_0. intros l Hl.
      assert (E2 : meq n 1 (mmul n L (V (S l))) (mscale c (mmul n (mpow n Q l) w))).
      { unfold V. simpl. rewrite mmul_assoc, <- (mmul_assoc n 1 n n L), HL, mmul_scale_l, mmul_id_l. reflexivity. }
      rewrite E2, mmul_scale_r, H'. split. intros. unfold mscale, mzero. ring. }
    rewrite E1, madd_zero_r. unfold e', V. rewrite Nat.add_0_r. simpl mpow. rewrite mmul_id_l. reflexivity. }
  assert (Z : meq 1 1 (mmul n f (mmul n L w)) mzero).
  { apply (mscale_0 1 1 (e d)); auto. rewrite <- E, U0, !mmul_zero_r. reflexivity. }
  apply (meq_at _ _ _ _ Z); lia.
Qed.
End Krylov.

Section CrankNicolson.
Context {F : sfield}.
Add Field Ff_cn : (k_field F).
Variables (n k p m N : nat) (h : F) (A S B C Phi G : mat F).
Let LH := msub mid (mscale h A).
Let RH := madd mid (mscale h A).
Hypothesis HS : meq n n (mmul n LH S) RH.
Let Q := madd S mid.

Lemma cn_LQ : meq n n (mmul n LH Q) (mscale (1 + 1) mid).
Proof.
  unfold Q. rewrite mmul_add_r, HS, mmul_id_r. unfold LH, RH. split. intros. unfold madd, msub, mscale. ring.
Qed.
Lemma cn_QL : meq n n (mmul n Q LH) (mscale (1 + 1) mid).
Proof.
  pose proof (two_neq_0 (F := F)) as T2.
  assert (E : meq n n (mmul n (mscale (1 / (1 + 1)) Q) LH) mid).
  { apply left_inverse_right. rewrite mmul_scale_r, cn_LQ. split. intros. unfold mscale. field. auto. }
  rewrite mmul_scale_l in E. split. intros i j Hi Hj. pose proof (meq_at _ _ _ _ E i j Hi Hj) as E'. unfold mscale in *.
  rewrite <- E'. field. auto.
Qed.

(** A is recovered from S and commutes with it. *)
Lemma cn_hA l (v : mat F) : meq n l (mmul n (mscale h A) v) (msub v (mmul n LH v)).
Proof. unfold LH. rewrite mmul_sub_l, mmul_id_l. split. intros. unfold msub. ring. Qed.

Lemma madd_00 a b (X Y : mat F) : meq a b X mzero -> meq a b Y mzero -> meq a b (madd X Y) mzero.
Proof. intros -> ->. split. intros. unfold madd, mzero. ring. Qed.

Lemma cn_Q_powers a b (f v : mat F) : (forall j, meq a b (mmul n f (mmul n (mpow n S j) v)) mzero) ->
  forall i j, meq a b (mmul n f (mmul n (mpow n Q i) (mmul n (mpow n S j) v))) mzero.
Proof.
  intros H. induction i as [|i IH]; intros j.
  - simpl. rewrite (mmul_id_l n b). apply H.
  - rewrite (mpow_S_r n n) by lia. rewrite (mmul_assoc n b). unfold Q at 2. rewrite (mmul_add_l n b), mmul_id_l.
    rewrite !mmul_add_r. apply madd_00; [|apply IH]. rewrite <- (IH (Datatypes.S j)). simpl mpow.
    rewrite (mmul_assoc n b n n S). reflexivity.
Qed.

(** What cannot be seen in the output. *)
Definition unseen l (v : mat F) : Prop := forall i, meq p l (mmul n C (mmul n (mpow n S i) v)) mzero.
Lemma unseen_proper l v v' : meq n l v v' -> unseen l v -> unseen l v'.
Proof. intros E H i. rewrite <- E. apply H. Qed.
Lemma unseen_add l v v' : unseen l v -> unseen l v' -> unseen l (madd v v').
Proof. intros H H' i. rewrite !mmul_add_r. apply madd_00; auto. Qed.
Lemma unseen_mul l l' v (z : mat F) : unseen l v -> unseen l' (mmul l v z).
Proof.
  intros H i. rewrite <- (mmul_assoc n l' n l), <- (mmul_assoc p l' n l), H. apply mmul_zero_l.
Qed.
Lemma unseen_step l v : unseen l v -> unseen l (mmul n S v).
Proof. intros H i. rewrite <- (H (Datatypes.S i)), (mpow_S_r n n) by lia. rewrite (mmul_assoc n l). reflexivity. Qed.
Lemma unseen_solve l v : unseen l (mmul n LH v) -> unseen l v.
Proof.
  pose proof (two_neq_0 (F := F)) as T2. intros H.
  assert (U : unseen l (mmul n Q (mmul n LH v))).
  { eapply unseen_proper; [|apply unseen_add; [apply unseen_step; exact H|exact H]].
    unfold Q. rewrite mmul_add_l, mmul_id_l. reflexivity. }
  intros i. apply (mscale_0 p l (1 + 1)); auto. rewrite <- (U i).
  rewrite <- (mmul_assoc n l n n Q), cn_QL, mmul_scale_l, mmul_id_l, !mmul_scale_r. reflexivity.
Qed.

(** Reduction by [Phi] and [G], as G Phi = I. *)
Hypothesis HG : meq k k (mmul n G Phi) mid.
(** The columns of Phi are combinations of the first N states. *)
Hypothesis Hspan : forall a (f : mat F), (forall j, j < N -> meq a m (mmul n f (mmul n (mpow n S j) B)) mzero) ->
  meq a k (mmul n f Phi) mzero.
Let E := msub mid (mmul k Phi G).
(** The projection error of the first N states is not seen in the first N outputs. *)
Hypothesis Hker : forall i j, i < N -> j < N -> meq p m (mmul n C (mmul n (mpow n S i) (mmul n E (mmul n (mpow n S j) B)))) mzero.
Hypothesis HN : n <= N.

Lemma cn_states j : unseen m (mmul n E (mmul n (mpow n S j) B)).
Proof.
  intros i. revert j.
  assert (H : forall j, j < N -> meq p m (mmul n C (mmul n (mpow n S i) (mmul n E (mmul n (mpow n S j) B)))) mzero).
  { intros j Hj. apply (krylov n p m C S). intros i' Hi'. apply Hker; lia. }
  assert (H' : forall j, meq p m (mmul n (mmul n C (mmul n (mpow n S i) E)) (mmul n (mpow n S j) B)) mzero).
  { apply krylov. intros j Hj. rewrite (mmul_assoc p m), (mmul_assoc n m). apply H. lia. }
  intros j. rewrite <- (H' j), (mmul_assoc p m), (mmul_assoc n m n n (mpow n S i) E). reflexivity.
Qed.

Lemma cn_A_states j : unseen m (mmul n E (mmul n (mscale h A) (mmul n (mpow n S j) B))).
Proof.
  pose proof (two_neq_0 (F := F)) as T2. intros i. set (f := mmul n C (mmul n (mpow n S i) E)).
  assert (H : forall l (v : mat F), meq p l (mmul n C (mmul n (mpow n S i) (mmul n E v))) (mmul n f v)).
  { intros l v. unfold f. rewrite (mmul_assoc p l), (mmul_assoc n l n n (mpow n S i) E). reflexivity. }
  assert (H' : forall j, meq p m (mmul n f (mmul n (mpow n S j) B)) mzero) by (intros j'; rewrite <- H; apply cn_states).
  rewrite H, cn_hA, mmul_sub_r, H'.
  rewrite (krylov_inv n p m f Q LH (1 + 1) (mmul n (mpow n S j) B) T2 cn_LQ).
  - split. intros. unfold msub, mzero. ring.
  - intros i'. apply cn_Q_powers. exact H'.
Qed.

Lemma cn_A_Phi l (z : mat F) : unseen l (mmul n E (mmul n (mscale h A) (mmul k Phi z))).
Proof.
  assert (H : unseen k (mmul n E (mmul n (mscale h A) Phi))).
  { intros i. transitivity (mmul n (mmul n C (mmul n (mpow n S i) (mmul n E (mscale h A)))) Phi).
    { rewrite !(mmul_assoc p k), !(mmul_assoc n k). reflexivity. }
    apply Hspan. intros j _. transitivity (mmul n C (mmul n (mpow n S i) (mmul n E (mmul n (mscale h A) (mmul n (mpow n S j) B))))).
    { rewrite !(mmul_assoc p m), !(mmul_assoc n m). reflexivity. }
    apply cn_A_states. }
  eapply unseen_proper; [|apply (unseen_mul k l _ z H)]. rewrite !(mmul_assoc n l). reflexivity.
Qed.

Let Ar := mmul n G (mmul n A Phi).
Let Br := mmul n G B.
Let LHr := msub mid (mscale h Ar).
Let RHr := madd mid (mscale h Ar).

Lemma cn_Phi_Ar l (z : mat F) : meq n l (mmul k Phi (mmul k (mscale h Ar) z))
  (msub (mmul n (mscale h A) (mmul k Phi z)) (mmul n E (mmul n (mscale h A) (mmul k Phi z)))).
Proof.
  assert (E1 : meq n l (mmul k Phi (mmul k Ar z)) (mmul n (mmul k Phi G) (mmul n A (mmul k Phi z)))).
  { unfold Ar. rewrite (mmul_assoc n l k n Phi G), (mmul_assoc k l n k G), (mmul_assoc n l n k A). reflexivity. }
  unfold E. rewrite mmul_sub_l, mmul_id_l, !mmul_scale_l, !mmul_scale_r, E1.
  split. intros. unfold msub, mscale. ring.
Qed.

(** The reduced scheme can be solved if the modes are seen in the output. *)
Hypothesis Hobs : forall z : mat F, unseen 1 (mmul k Phi z) -> meq k 1 z mzero.
Lemma cn_reduced_inj (z : mat F) : meq k 1 (mmul k LHr z) mzero -> meq k 1 z mzero.
Proof.
  intros H. apply Hobs, unseen_solve. unfold LHr in H. rewrite mmul_sub_l, mmul_id_l in H. apply (proj1 (msub_zero _ _ _ _)) in H.
  assert (HP : meq n 1 (mmul k Phi z) (mmul k Phi (mmul k (mscale h Ar) z))) by (rewrite <- H; reflexivity).
  eapply unseen_proper; [|exact (unseen_mul 1 1 _ (mscale (-(1)) mid) (cn_A_Phi 1 z))].
  rewrite mmul_scale_r, mmul_id_r. unfold LH. rewrite mmul_sub_l, mmul_id_l. rewrite cn_Phi_Ar in HP.
  split. intros i j Hi Hj. pose proof (meq_at _ _ _ _ HP i j Hi Hj) as E'. unfold msub in *. unfold mscale at 1.
  rewrite E'. ring.
Qed.

(** One step of both schemes. *)
Lemma cn_step l (z w : mat F) : meq k l (mmul k LHr w) (mmul k RHr z) ->
  unseen l (msub (mmul n S (mmul k Phi z)) (mmul k Phi w)).
Proof.
  intros H. apply unseen_solve. unfold LHr, RHr in H. rewrite mmul_sub_l, mmul_add_l, !mmul_id_l in H.
  assert (H' : meq k l (msub w z) (mmul k (mscale h Ar) (madd z w))).
  { rewrite mmul_add_r. split. intros i j Hi Hj. pose proof (meq_at _ _ _ _ H i j Hi Hj) as E'. unfold msub, madd in *.
    transitivity (w i j - mmul k (mscale h Ar) w i j + mmul k (mscale h Ar) w i j - z i j); [ring|]. rewrite E'. ring. }
  assert (HP : meq n l (msub (mmul k Phi w) (mmul k Phi z)) (mmul k Phi (mmul k (mscale h Ar) (madd z w)))).
  { rewrite <- H', mmul_sub_r. reflexivity. }
  rewrite cn_Phi_Ar in HP.
  eapply unseen_proper; [|apply (cn_A_Phi l (madd z w))].
  rewrite mmul_sub_r, <- (mmul_assoc n l n n LH), HS. unfold RH, LH. rewrite mmul_sub_l, mmul_add_l, !mmul_id_l.
  rewrite (mmul_add_r n l k Phi) in HP at 1. rewrite !mmul_add_r in HP. rewrite !mmul_add_r.
  split. intros i j Hi Hj. pose proof (meq_at _ _ _ _ HP i j Hi Hj) as E'. unfold msub, madd in *.
  match type of E' with ?a - ?b = ?c + ?d - ?e => transitivity (c + d - (a - b)); [rewrite E'; ring|ring] end.
Qed.

(** The reduced states, and the outputs of both. *)
Theorem cn_response (q : nat -> mat F) :
  meq k m (q O) Br -> (forall j, meq k m (mmul k LHr (q (Datatypes.S j))) (mmul k RHr (q j))) ->
  forall j, meq p m (mmul n C (mmul n (mpow n S j) B)) (mmul k (mmul n C Phi) (q j)).
Proof.
  intros H0 Hs.
  assert (U : forall j, unseen m (msub (mmul n (mpow n S j) B) (mmul k Phi (q j)))).
  { induction j as [|j IH].
    - eapply unseen_proper; [|apply (cn_states 0)]. simpl. rewrite H0. unfold E. rewrite mmul_sub_l, !mmul_id_l.
      unfold Br. rewrite (mmul_assoc n m). reflexivity.
    - eapply unseen_proper; [|apply unseen_add; [apply unseen_step, IH|apply (cn_step m (q j) (q (Datatypes.S j)) (Hs j))]].
      simpl. rewrite mmul_sub_r, (mmul_assoc n m). split. intros. unfold madd, msub. ring. }
  intros j. apply msub_zero. rewrite <- (U j O). simpl. rewrite mmul_id_l, mmul_sub_r, (mmul_assoc p m). reflexivity.
Qed.
End CrankNicolson.

(** A square matrix without kernel has an inverse. *)
Section Inverse.
Context {F : sfield}.
Add Field Ff_inj : (k_field F).
Lemma injective_inverse k (M : mat F) : (forall z : mat F, meq k 1 (mmul k M z) mzero -> meq k 1 z mzero) ->
  exists T, meq k k (mmul k T M) mid.
Proof.
  intros H.
  assert (R : forall y : nat -> F, exists x : nat -> F, forall i, i < k -> sum k (fun l => M i l * x l) = y i).
  { intros y. destruct (dependent k (fun i j => if j =? k then y i else M i j)) as (c & (j0 & Hj0 & Ec) & Hc).
    assert (Hc' : forall i, i < k -> sum k (fun j => M i j * c j) + y i * c k = 0).
    { intros i Hi. specialize (Hc i Hi). simpl in Hc. rewrite Nat.eqb_refl in Hc.
      rewrite (sum_ext k _ (fun j => M i j * c j)) in Hc; auto.
      intros j Hj. rewrite (proj2 (Nat.eqb_neq j k)) by lia. reflexivity. }
    destruct (k_dec F (c k) 0) as [E0|E0].
    - exfalso. assert (Z : meq k 1 (fun i _ => c i) mzero).
      { apply H. split. intros i j Hi Hj. unfold mmul, mzero. rewrite <- (Hc' i Hi), E0. ring. }
      apply Ec. destruct (Nat.eq_dec j0 k) as [->|]; auto. apply (meq_at _ _ _ _ Z j0 O); lia.
    - exists (fun l => - c l / c k). intros i Hi.
      rewrite (sum_ext k _ (fun l => M i l * c l * (- (1) / c k))) by (intros; field; auto).
      rewrite sum_mul_r. transitivity (y i + (sum k (fun j => M i j * c j) + y i * c k) * (- (1) / c k)); [field; auto|].
      rewrite Hc' by auto. ring. }
  assert (T : forall c, exists T : mat F, forall i j, i < k -> j < c -> mmul k M T i j = mid i j).
  { induction c as [|c (T & HT)]; [exists mzero; intros; lia|].
    destruct (R (fun i => mid i c)) as (x & Hx). exists (fun i j => if j =? c then x i else T i j).
    intros i j Hi Hj. unfold mmul. destruct (Nat.eqb_spec j c) as [->|Hn]; [apply Hx; auto|].
    apply HT; auto. lia. }
  destruct (T k) as (T' & HT). exists T'. apply left_inverse_right. split. exact HT.
Qed.
End Inverse.
