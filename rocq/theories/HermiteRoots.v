(** Proofs for C55: the weights exp(-x^2/2) of herdif, and the nodes. *)
From Coq Require Import List Arith Lia Bool ZArith Field Ring Permutation Sorted.
Import ListNotations.
From Verif Require Import Prelude Field Matrix NdArray DecompModel PodModel HermiteModel Poly.
Open Scope nat_scope.
Open Scope k_scope.

Section Herm.
Context {F : sfield}.
Add Field Ff_herm : (k_field F).
Implicit Types p q : list F.

(** Pascal's rule: the derivative of a product. *)
Lemma leibniz_S (f g : nat -> F) l : leibniz f g (S l) = leibniz (fun i => f (S i)) g l + leibniz f (fun i => g (S i)) l.
Proof.
  unfold leibniz. rewrite sum_S_l.
  transitivity (num (binom (S l) 0) * f O * g (S l) + (sum (S l) (fun i => num (binom l i) * f (S i) * g (l - i)%nat) +
    sum (S l) (fun i => num (binom l (S i)) * f (S i) * g (l - i)%nat))).
  - f_equal. rewrite <- sum_add. apply sum_ext. intros i Hi. change (binom (S l) (S i)) with (binom l i + binom l (S i))%nat.
    rewrite num_add. change (S l - S i)%nat with (l - i)%nat. ring.
  - assert (E : sum (S (S l)) (fun i => num (binom l i) * f i * g (S l - i)%nat) = sum (S l) (fun i => num (binom l i) * f i * g (S (l - i)))).
    { change (sum (S (S l)) ?h) with (sum (S l) h + h (S l)). cbv beta. rewrite (binom_gt l (S l)) by lia.
      transitivity (sum (S l) (fun i => num (binom l i) * f i * g (S l - i)%nat)); [simpl (num 0); ring|].
      apply sum_ext. intros i Hi. replace (S l - i)%nat with (S (l - i)) by lia. reflexivity. }
    rewrite <- E, (sum_S_l (S l) (fun i => num (binom l i) * f i * g (S l - i)%nat)), !binom_0. change (S l - 0)%nat with (S l).
    change (fun i => num (binom l (S i)) * f (S i) * g (S l - S i)%nat) with (fun i => num (binom l (S i)) * f (S i) * g (l - i)%nat).
    ring.
Qed.
Lemma leibniz_add_l (f f' g : nat -> F) l : leibniz (fun i => f i + f' i) g l = leibniz f g l + leibniz f' g l.
Proof. unfold leibniz. rewrite <- sum_add. apply sum_ext. intros; ring. Qed.
Lemma leibniz_scale_l c (f g : nat -> F) l : leibniz (fun i => c * f i) g l = c * leibniz f g l.
Proof. unfold leibniz. rewrite <- sum_mul_l. apply sum_ext. intros; ring. Qed.
Lemma leibniz_shift_l (f g : nat -> F) l : leibniz (fun i => num i * f (i - 1)%nat) g l = num l * leibniz f g (l - 1).
Proof.
  unfold leibniz. rewrite sum_S_l. simpl (num 0).
  destruct l as [|l]; [simpl; ring|]. replace (S l - 1)%nat with l by lia. rewrite <- sum_mul_l.
  transitivity (sum (S l) (fun i => num (binom (S l) (S i)) * (num (S i) * f (S i - 1)%nat) * g (S l - S i)%nat)); [ring|].
  apply sum_ext. intros i Hi. replace (S i - 1)%nat with i by lia. change (S l - S i)%nat with (l - i)%nat.
  transitivity (num (S i * binom (S l) (S i)) * f i * g (l - i)%nat); [rewrite num_mul; ring|].
  rewrite binom_absorb, num_mul. ring.
Qed.

(** Multiplied by exp(-c x^2/2), p has the derivative p' - c x p, multiplied by it. *)
Definition wderiv (c : F) p : list F := padd (deriv p) (pscale (- c) (0 :: p)).

Lemma beta_S (x : F) i : beta x (S i) = (- x) * beta x i + - (num i * beta x (i - 1)).
Proof. destruct i as [|i]; [simpl; ring|]. replace (S i - 1)%nat with i by lia. simpl. ring. Qed.
Lemma beta_ok (x : F) l : forall p, leibniz (beta x) (fun i => dv i p x) l = ev (Nat.iter l (wderiv 1) p) x.
Proof.
  induction l as [|l IH]; intros p; [unfold leibniz, dv; simpl; ring|].
  change (Nat.iter (S l) (wderiv 1) p) with (wderiv 1 (Nat.iter l (wderiv 1) p)).
  rewrite <- iter_shift, <- IH, leibniz_S.
  rewrite (leibniz_ext (fun i => beta x (S i)) _ (fun i => - x * beta x i + - (1) * (num i * beta x (i - 1))) (fun i => dv i p x)); auto;
    [|intros i _; rewrite beta_S; ring].
  rewrite leibniz_add_l, !leibniz_scale_l, leibniz_shift_l.
  unfold wderiv. rewrite (leibniz_ext (beta x) (fun i => dv i (padd (deriv p) (pscale (- (1)) (0 :: p))) x) (beta x)
    (fun i => dv i (deriv p) x + - (1) * (x * dv i p x + num i * dv (i - 1) p x))); auto;
    [|intros i _; rewrite dv_padd, dv_pscale, dv_shift; reflexivity].
  rewrite leibniz_add, leibniz_scale, leibniz_add, leibniz_scale.
  rewrite (leibniz_shift (beta x) (fun i => dv i p x) l).
  rewrite (leibniz_ext (beta x) (fun i => dv (S i) p x) (beta x) (fun i => dv i (deriv p) x)); auto; [|intros i _; apply dv_S].
  ring.
Qed.

(** Substitution c X. *)
Fixpoint psub (c : F) p : list F := match p with [] => [] | a :: q => a :: pscale c (psub c q) end.
Lemma psub_length c p : length (psub c p) = length p.
Proof. induction p; simpl; auto. rewrite pscale_length, IHp. reflexivity. Qed.
Lemma psub_ev c p x : ev (psub c p) x = ev p (c * x).
Proof. induction p as [|a p IH]; simpl; auto. rewrite ev_pscale, IH. ring. Qed.
Lemma psub_padd c p : forall q, psub c (padd p q) = padd (psub c p) (psub c q).
Proof. induction p as [|a p IH]; intros [|b q]; simpl; auto. rewrite IH, pscale_padd. reflexivity. Qed.
Lemma psub_pscale c d p : psub c (pscale d p) = pscale d (psub c p).
Proof.
  induction p as [|a p IH]; simpl; auto. fold (pscale d p). rewrite IH. fold (pscale d (pscale c (psub c p))).
  rewrite !pscale_pscale. f_equal. f_equal. ring.
Qed.
Lemma psub_deriv c p : deriv (psub c p) = pscale c (psub c (deriv p)).
Proof.
  induction p as [|a p IH]; simpl; auto. rewrite deriv_pscale, IH, psub_padd, pscale_padd. simpl.
  rewrite !pscale_pscale. f_equal. f_equal; ring.
Qed.
Lemma psub_wderiv b P : b <> 0 -> wderiv 1 (psub (1 / b) P) = pscale (1 / b) (psub (1 / b) (wderiv (b * b) P)).
Proof.
  intros Hb. unfold wderiv. rewrite psub_deriv, psub_padd, pscale_padd. f_equal.
  rewrite psub_pscale, pscale_pscale. cbn [psub pscale map]. f_equal; [ring|].
  change (pscale (- (1)) (psub (1 / b) P) = pscale (1 / b * - (b * b)) (pscale (1 / b) (psub (1 / b) P))).
  rewrite pscale_pscale. f_equal. field. auto.
Qed.
Lemma wderiv_pscale c d p : wderiv c (pscale d p) = pscale d (wderiv c p).
Proof.
  unfold wderiv. rewrite deriv_pscale, pscale_padd. f_equal.
  rewrite pscale_pscale. cbn [pscale map]. f_equal; [ring|].
  change (pscale (- c) (pscale d p) = pscale (d * - c) p). rewrite pscale_pscale. f_equal. ring.
Qed.
Lemma wderiv_scaled b P x l : b <> 0 ->
  kpow b l * ev (Nat.iter l (wderiv 1) (psub (1 / b) P)) x = ev (Nat.iter l (wderiv (b * b)) P) (x / b).
Proof.
  intros Hb. revert P. induction l as [|l IH]; intros P.
  - simpl. rewrite psub_ev. replace (1 / b * x) with (x / b) by (field; auto). ring.
  - change (Nat.iter (S l) ?f ?r) with (f (Nat.iter l f r)). rewrite <- !iter_shift, <- IH, psub_wderiv by auto.
    assert (E : forall d q, Nat.iter l (wderiv 1) (pscale d q) = pscale d (Nat.iter l (wderiv 1) q)).
    { clear. intros d q. induction l as [|l IH]; simpl; auto. rewrite IH, wderiv_pscale. reflexivity. }
    rewrite E, ev_pscale. simpl. field. auto.
Qed.

(** Sorting. *)
Lemma insert_perm (a : F) l : Permutation (a :: l) (insert_sorted a l).
Proof.
  induction l as [|b l IH]; simpl; auto. destruct (klt F b a); auto.
  transitivity (b :: a :: l); [constructor|]. constructor. auto.
Qed.
Lemma sort_perm (l : list F) : Permutation l (np_sort l).
Proof. induction l as [|a l IH]; simpl; auto. rewrite <- insert_perm. constructor. auto. Qed.
Lemma insert_sorted_ok (a : F) l : real a -> Forall (fun b => real b) l -> StronglySorted kle l -> StronglySorted kle (insert_sorted a l).
Proof.
  intros Ha Hl. induction 1 as [|b l S IH H]; simpl; [repeat constructor|]. inversion Hl as [|? ? Hb Hl']; subst.
  destruct (klt F b a) eqn:E.
  - constructor; [apply IH; auto|]. apply (Permutation_Forall (insert_perm a l)). constructor; [left; auto|auto].
  - apply (not_lt b a Hb Ha) in E. constructor; [constructor; auto|]. constructor; auto.
    rewrite Forall_forall in *. intros c Hc. apply (le_trans a b c); auto.
Qed.
Lemma sort_sorted (l : list F) : Forall (fun b => real b) l -> StronglySorted kle (np_sort l).
Proof.
  induction 1 as [|a l Ha Hl IH]; simpl; [constructor|]. apply insert_sorted_ok; auto.
  apply (Permutation_Forall (sort_perm l)). auto.
Qed.
Lemma sorted_strict (l : list F) : StronglySorted kle l -> NoDup l -> forall i j, i < j -> j < length l -> klt_p (at1 l i) (at1 l j).
Proof.
  induction 1 as [|a l S IH H]; intros N i j Hi Hj; [simpl in Hj; lia|]. inversion N as [|? ? Na Nl]; subst.
  destruct j as [|j]; [lia|]. simpl in Hj. destruct i as [|i].
  - unfold at1. simpl. assert (I : In (nth j l 0) l) by (apply nth_In; lia). rewrite Forall_forall in H.
    destruct (H _ I) as [L|E]; auto. exfalso. apply Na. rewrite E. auto.
  - unfold at1. simpl. apply IH; auto; lia.
Qed.

(** Hermite polynomials. *)
Fixpoint hermite (n : nat) : list F :=
  match n with
  | O => [1]
  | S n' => match n' with
            | O => [0; 1 + 1]
            | S n'' => padd (0 :: pscale (1 + 1) (hermite n')) (pscale (- ((1 + 1) * num n')) (hermite n''))
            end
  end.

(** Probabilists' polynomials at a point. *)
Fixpoint he (v : F) (i : nat) : F :=
  match i with O => 1 | S i' => match i' with O => v | S i'' => v * he v i' - num i' * he v i'' end end.
Lemma he_S v i : he v (S i) = v * he v i - num i * he v (i - 1).
Proof. destruct i as [|i]; [simpl; ring|]. replace (S i - 1)%nat with i by lia. reflexivity. Qed.

Section Jacobi.
Variables (sqrt : F -> F) (n : nat) (w : list F) (V : arr F).
Hypothesis n_pos : 0 < n.
Hypothesis sq : forall i, sqrt_ok sqrt (num i).
Hypothesis eig : eigh_contract (jacobi sqrt n) w V.

Let s (i : nat) : F := sqrt (num i).
Lemma s_sq i : s i * s i = num i. Proof. apply sq. Qed.
Lemma s_neq i : i <> O -> s i <> 0.
Proof. intros Hi E. apply (@num_neq_0 F i Hi). rewrite <- s_sq, E. ring. Qed.

Lemma sum_at (f : nat -> F) j : sum n (fun l => if (l =? j)%nat then f l else 0) = if (j <? n)%nat then f j else 0.
Proof.
  destruct (Nat.ltb_spec j n) as [H|H].
  - rewrite (sum_delta n j); auto; [rewrite Nat.eqb_refl; reflexivity|].
    intros i Hi Hn. destruct (Nat.eqb_spec i j); [contradiction|reflexivity].
  - apply sum_0. intros i Hi. destruct (Nat.eqb_spec i j); [lia|reflexivity].
Qed.
Lemma j_size : S (n - 1) = n. Proof. lia. Qed.
Lemma row c i : c < n -> i < n -> at1 w c * ent V i c =
  (if (S i <? n)%nat then s (S i) * ent V (S i) c else 0) + (if (i =? 0)%nat then 0 else s i * ent V (i - 1)%nat c).
Proof.
  intros Hc Hi. pose proof (meq_at _ _ _ _ (eigh_eq _ _ _ eig) i c) as E. simpl nr in E. rewrite j_size in E.
  specialize (E Hi Hc). transitivity (mmul n (ent V) (mdiag (at1 w)) i c).
  - rewrite (meq_at _ _ _ _ (mmul_diag_r n n (at1 w) (ent V)) i c Hi Hc). ring.
  - rewrite <- E. unfold mmul. rewrite <- (sum_at (fun l => s (S i) * ent V l c) (S i)).
    assert (E2 : (if (i =? 0)%nat then 0 else s i * ent V (i - 1)%nat c) = sum n (fun l => if (i =? S l)%nat then s i * ent V l c else 0)).
    { destruct i as [|i]; [simpl Nat.eqb; symmetry; apply sum_0; auto|]. replace (S i - 1)%nat with i by lia.
      rewrite <- (sum_ext n (fun l => if (l =? i)%nat then s (S i) * ent V l c else 0)); [rewrite sum_at; destruct (Nat.ltb_spec i n); [reflexivity|lia]|].
      intros l Hl. simpl. rewrite Nat.eqb_sym. reflexivity. }
    rewrite E2, <- sum_add. apply sum_ext. intros l Hl. cbn [ent jacobi]. unfold s.
    destruct (Nat.eqb_spec l (S i)) as [->|N1].
    + destruct (Nat.eqb_spec i (S (S i))); [lia|]. ring.
    + destruct (Nat.eqb_spec i (S l)) as [->|N2]; ring.
Qed.

Let P (i : nat) : F := prod i (fun t => s (S t)).
Lemma P_neq i : P i <> 0. Proof. apply prod_neq_0. intros j _. apply s_neq. lia. Qed.
Lemma P_S i : P (S i) = P i * s (S i). Proof. reflexivity. Qed.

Lemma comps c i : c < n -> i < n -> P i * ent V i c = he (at1 w c) i * ent V 0%nat c.
Proof.
  intros Hc. induction i as [i IH] using (well_founded_induction lt_wf). intros Hi. destruct i as [|i]; [unfold P; simpl; ring|].
  pose proof (row c i Hc ltac:(lia)) as E. destruct (Nat.ltb_spec (S i) n); [|lia].
  rewrite P_S, he_S. 
  assert (E1 : s (S i) * ent V (S i) c = at1 w c * ent V i c - (if (i =? 0)%nat then 0 else s i * ent V (i - 1)%nat c)) by (rewrite E; ring).
  transitivity (P i * (s (S i) * ent V (S i) c)); [ring|]. rewrite E1. pose proof (IH i ltac:(lia) ltac:(lia)) as E2.
  destruct i as [|i].
  - simpl Nat.eqb. cbv iota. transitivity (at1 w c * (P 0 * ent V 0%nat c)); [ring|]. rewrite E2. simpl. ring.
  - simpl Nat.eqb. cbv iota. replace (S i - 1)%nat with i by lia. pose proof (IH i ltac:(lia) ltac:(lia)) as E3.
    transitivity (at1 w c * (P (S i) * ent V (S i) c) - s (S i) * s (S i) * (P i * ent V i c)); [rewrite P_S; ring|].
    rewrite E2, E3, s_sq. ring.
Qed.
Lemma unit_col c : c < n -> sum n (fun i => (ent V i c)^* * ent V i c) = 1.
Proof.
  intros Hc. pose proof (eigh_V _ _ _ eig) as O. unfold orthonormal in O. simpl nr in O. rewrite j_size in O.
  pose proof (meq_at _ _ _ _ O c c Hc Hc) as E. unfold mmul, madj, mid in E. rewrite Nat.eqb_refl in E. exact E.
Qed.
Lemma first_neq c : c < n -> ent V 0%nat c <> 0.
Proof.
  intros Hc E. apply (@one_neq_zero F). rewrite <- (unit_col c Hc). apply sum_0. intros i Hi.
  pose proof (comps c i Hc Hi) as E1. rewrite E in E1.
  destruct (mul_eq_0 (P i) (ent V i c)) as [Z|Z]; [rewrite E1; ring|destruct (P_neq i); auto|rewrite Z; ring].
Qed.
Lemma he_root c : c < n -> he (at1 w c) n = 0.
Proof.
  intros Hc. replace n with (S (n - 1)) by lia. rewrite he_S.
  pose proof (row c (n - 1) Hc ltac:(lia)) as E. destruct (Nat.ltb_spec (S (n - 1)) n); [lia|].
  pose proof (comps c (n - 1) Hc ltac:(lia)) as E1.
  assert (Z : (at1 w c * he (at1 w c) (n - 1) - num (n - 1) * he (at1 w c) (n - 1 - 1)) * ent V 0%nat c = 0).
  { destruct (Nat.eqb_spec (n - 1) 0) as [E0|N0].
    - rewrite E0 in *. simpl. transitivity (at1 w c * ent V 0%nat c); [ring|]. rewrite E. ring.
    - pose proof (comps c (n - 1 - 1) Hc ltac:(lia)) as E2.
      transitivity (at1 w c * (he (at1 w c) (n - 1) * ent V 0%nat c) - num (n - 1) * (he (at1 w c) (n - 1 - 1) * ent V 0%nat c)); [ring|].
      rewrite <- E1, <- E2, <- s_sq. 
      assert (EP : P (n - 1) = P (n - 1 - 1) * s (n - 1)) by (replace (n - 1)%nat with (S (n - 1 - 1)) at 1 3 by lia; apply P_S).
      rewrite EP. transitivity (P (n - 1 - 1) * s (n - 1) * (at1 w c * ent V (n - 1)%nat c - s (n - 1) * ent V (n - 1 - 1)%nat c)); [ring|].
      rewrite E. ring. }
  destruct (mul_eq_0 _ _ Z) as [Z0|Z0]; auto. exfalso. apply (first_neq c); auto.
Qed.
Lemma eig_distinct c d : c < n -> d < n -> c <> d -> at1 w c <> at1 w d.
Proof.
  intros Hc Hd Hn E. apply (first_neq d Hd).
  assert (K : forall i, i < n -> ent V i d * ent V 0%nat c = ent V i c * ent V 0%nat d).
  { intros i Hi. pose proof (comps c i Hc Hi) as Ec. pose proof (comps d i Hd Hi) as Ed. rewrite <- E in Ed.
    pose proof (P_neq i) as Np.
    transitivity (P i * ent V i d * ent V 0%nat c / P i); [field; auto|]. rewrite Ed.
    transitivity (P i * ent V i c * ent V 0%nat d / P i); [rewrite Ec; field; auto|field; auto]. }
  pose proof (eigh_V _ _ _ eig) as O. unfold orthonormal in O. simpl nr in O. rewrite j_size in O.
  pose proof (meq_at _ _ _ _ O c d Hc Hd) as E1. unfold mmul, madj, mid in E1.
  destruct (Nat.eqb_spec c d); [contradiction|].
  transitivity (sum n (fun i => (ent V i c)^* * ent V i c) * ent V 0%nat d); [rewrite unit_col by auto; ring|].
  transitivity (sum n (fun l => (ent V l c)^* * ent V l d) * ent V 0%nat c); [|rewrite E1; ring].
  rewrite <- !sum_mul_r. apply sum_ext. intros i Hi.
  transitivity ((ent V i c)^* * (ent V i c * ent V 0%nat d)); [ring|]. rewrite <- K by auto. ring.
Qed.
End Jacobi.

(** Roots of the physicists' polynomials are those of [he] over sqrt 2. *)
Lemma hermite_S i : 0 < i -> hermite (S i) = padd (0 :: pscale (1 + 1) (hermite i)) (pscale (- ((1 + 1) * num i)) (hermite (i - 1))).
Proof. destruct i as [|i]; [lia|]. intros _. replace (S i - 1)%nat with i by lia. reflexivity. Qed.
Lemma hermite_he (r v : F) i : r * r = 1 + 1 -> ev (hermite i) (v / r) = kpow r i * he v i.
Proof.
  intros Er. assert (Nr : r <> 0) by (intros ->; apply (@two_neq_0 F); rewrite <- Er; ring).
  induction i as [i IH] using (well_founded_induction lt_wf). destruct i as [|i]; [simpl; ring|].
  destruct i as [|i].
  - simpl. rewrite <- Er. field. auto.
  - rewrite hermite_S, he_S by lia. replace (S i - 1)%nat with i by lia. rewrite ev_padd, ev_pscale. cbn [ev].
    rewrite ev_pscale, !IH by lia. simpl kpow. rewrite <- Er. field. auto.
Qed.
Lemma hermite_length i : length (hermite i) = S i.
Proof.
  induction i as [i IH] using (well_founded_induction lt_wf). destruct i as [|i]; [reflexivity|]. destruct i as [|i]; [reflexivity|].
  rewrite hermite_S by lia. rewrite padd_length. replace (S i - 1)%nat with i by lia.
  rewrite pscale_length. cbn [length]. rewrite pscale_length, !IH by lia. apply Nat.max_l. lia.
Qed.
Lemma nth_padd p : forall q i, nth i (padd p q) 0 = nth i p 0 + nth i q 0.
Proof.
  induction p as [|a p IH]; intros [|b q] [|i]; simpl; try ring. apply IH.
Qed.
Lemma nth_pscale c p i : nth i (pscale c p) 0 = c * nth i p 0.
Proof. revert i. induction p as [|a p IH]; intros [|i]; simpl; try ring. apply IH. Qed.
Lemma hermite_lead i : nth i (hermite i) 0 = kpow (1 + 1) i.
Proof.
  induction i as [i IH] using (well_founded_induction lt_wf). destruct i as [|i]; [reflexivity|]. destruct i as [|i]; [simpl; ring|].
  rewrite hermite_S by lia. rewrite nth_padd, nth_pscale. cbn [nth]. rewrite nth_pscale, IH by lia.
  rewrite (nth_overflow (hermite (S i - 1))) by (rewrite hermite_length; lia). simpl. ring.
Qed.
Lemma kpow_neq_0 (b : F) i : b <> 0 -> kpow b i <> 0.
Proof. intros H. induction i; simpl; [apply one_neq_zero|]. apply mul_neq_0; auto. Qed.

Lemma at1_map (f : F -> F) l i : i < length l -> at1 (map f l) i = f (at1 l i).
Proof. intros H. unfold at1. rewrite (nth_indep (map f l) 0 (f 0)) by (rewrite map_length; auto). apply map_nth. Qed.

Lemma herroots_ok sqrt eigvalsh n w V : 0 < n -> (forall i, sqrt_ok sqrt (num i)) ->
  eigvalsh (jacobi sqrt n) = Ok w -> eigh_contract (jacobi sqrt n) w V ->
  exists x, herroots sqrt eigvalsh n = Ok x /\ length x = n /\ NoDup x /\ Forall (fun v => real v) x /\
    (forall i j, i < j -> j < n -> klt_p (at1 x i) (at1 x j)) /\
    forall t, In t x <-> ev (hermite n) t = 0.
Proof.
  intros Hn sq Ew eig. unfold herroots. rewrite Ew.
  assert (E2 : sqrt_ok sqrt (1 + 1)).
  { pose proof (sq 2) as H. simpl in H. replace (1 + 1) with (0 + 1 + 1 : F) by ring. exact H. }
  destruct E2 as (R2 & P2 & S2). set (r := sqrt (1 + 1)) in *.
  assert (Nr : r <> 0) by (intros E; apply (@two_neq_0 F); rewrite <- S2, E; ring).
  assert (Pr : klt_p 0 r) by (destruct P2 as [P2|P2]; [auto|congruence]).
  assert (Lw : length w = n) by (rewrite (eigh_len _ _ _ eig); simpl; lia).
  assert (Nw : NoDup w).
  { apply (NoDup_nth w 0). intros i j Hi Hj E. destruct (Nat.eq_dec i j) as [|Hij]; auto. exfalso.
    apply (eig_distinct sqrt n w V Hn sq eig i j); auto; lia. }
  pose proof (eigh_real _ _ _ eig) as Rw. pose proof (sort_perm w) as Pm.
  assert (Ls : length (np_sort w) = n) by (rewrite <- (Permutation_length Pm); auto).
  assert (Rs : Forall (fun v => real v) (np_sort w)) by (apply (Permutation_Forall Pm); auto).
  assert (Ns : NoDup (np_sort w)) by (apply (Permutation_NoDup Pm); auto).
  set (x := map (fun v => v / r) (np_sort w)). exists x. split; [reflexivity|].
  assert (Lx : length x = n) by (unfold x; rewrite map_length; auto). split; [auto|].
  assert (Nx : NoDup x).
  { unfold x. apply (FinFun.Injective_map_NoDup); auto. intros u v E.
    transitivity (u / r * r); [field; auto|]. rewrite E. field. auto. }
  split; [auto|]. split.
  { unfold x. apply Forall_map. eapply Forall_impl; [|exact Rs]. intros v Hv. cbv beta. apply real_div; auto. }
  split.
  { intros i j Hi Hj. unfold x. rewrite !at1_map by lia.
    assert (Rk : forall k, k < n -> real (at1 (np_sort w) k)).
    { intros k Hk. rewrite Forall_forall in Rs. apply Rs. apply nth_In. lia. }
    apply lt_div; [apply real_div; auto; apply Rk; lia|apply Rk; lia|auto|auto|].
    replace (at1 (np_sort w) i / r * r) with (at1 (np_sort w) i) by (field; auto).
    apply sorted_strict; auto; [|lia]. apply sort_sorted. auto. }
  assert (Root : forall t, In t x -> ev (hermite n) t = 0).
  { intros t Ht. apply in_map_iff in Ht. destruct Ht as (v & <- & Hv). rewrite hermite_he by auto.
    apply (Permutation_in _ (Permutation_sym Pm)) in Hv. apply (In_nth _ _ 0) in Hv. destruct Hv as (c & Hc & <-).
    fold (at1 w c). rewrite (he_root sqrt n w V Hn sq eig) by lia. ring. }
  intros t. split; [apply Root|]. intros Et. destruct (in_dec (k_dec F) t x) as [|Nt]; auto. exfalso.
  assert (Z : Forall (fun c => c = 0) (hermite n)).
  { apply (roots_zero (S n) (at1 (t :: x))).
    - intros i j Hi Hj E. assert (ND : NoDup (t :: x)) by (constructor; auto).
      rewrite (NoDup_nth (t :: x) 0) in ND. simpl length in ND. specialize (ND i j ltac:(lia) ltac:(lia) E). lia.
    - rewrite hermite_length. lia.
    - intros i Hi. destruct i as [|i]; [exact Et|]. apply Root. change (at1 (t :: x) (S i)) with (nth i x 0). apply nth_In. lia. }
  apply (kpow_neq_0 (1 + 1) n (@two_neq_0 F)). rewrite <- hermite_lead.
  rewrite Forall_forall in Z. apply Z. apply nth_In. rewrite hermite_length. lia.
Qed.
End Herm.
