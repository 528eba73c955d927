(** Truncated decompositions. *)
From Coq Require Import List Arith Lia Bool Field Ring Setoid Morphisms ZArith Permutation.
Import ListNotations.
From Verif Require Import Prelude Field Matrix NdArray DecompModel.
Open Scope nat_scope.

(** A monotone predicate holds exactly on a prefix. *)
Lemma filter_none {A} (p : A -> bool) l : (forall x, In x l -> p x = false) -> filter p l = [].
Proof.
  induction l as [|x l IH]; intros H; simpl; auto.
  rewrite (H x) by (left; auto). apply IH. intros y Hy. apply H. right. auto.
Qed.
Lemma filter_length_le {A} (p : A -> bool) l : length (filter p l) <= length l.
Proof. induction l as [|x l IH]; simpl; auto. destruct (p x); simpl; lia. Qed.
Lemma count_prefix {A} (d : A) (p : A -> bool) l :
  (forall i j, i <= j -> j < length l -> p (nth j l d) = true -> p (nth i l d) = true) ->
  forall i, i < length l -> (i < length (filter p l) <-> p (nth i l d) = true).
Proof.
  induction l as [|x l IH]; intros H i Hi; simpl in *; [lia|].
  destruct (p x) eqn:E; simpl.
  - destruct i as [|i]; [split; auto; lia|].
    rewrite <- IH; [lia| |lia]. intros a b Hab Hb. apply (H (S a) (S b)); lia.
  - rewrite filter_none.
    + simpl. split; [lia|]. intros G.
      pose proof (H O i ltac:(lia) Hi G) as G0. simpl in G0. congruence.
    + intros y Hy. destruct (p y) eqn:Ey; auto.
      apply (In_nth _ _ d) in Hy. destruct Hy as (j & Hj & <-).
      pose proof (H O (S j) ltac:(lia) ltac:(lia) Ey) as G. simpl in G. congruence.
Qed.

Section Proofs.
Context {F : sfield}.
Open Scope k_scope.
Add Field Ffield3 : (k_field F).

Lemma at1_map (f : F -> F) l i : i < length l -> at1 (map f l) i = f (at1 l i).
Proof.
  intros H. unfold at1. rewrite (nth_indep _ 0 (f 0)) by (rewrite map_length; auto).
  apply map_nth.
Qed.
Lemma at1_firstn k (l : list F) i : i < k -> at1 (firstn k l) i = at1 l i.
Proof.
  unfold at1. revert k i. induction l as [|x l IH]; intros k i H.
  - rewrite firstn_nil. reflexivity.
  - destruct k; [lia|]. simpl. destruct i; auto. apply IH. lia.
Qed.
Lemma all_real_at (l : list F) i : all_real l -> real (at1 l i).
Proof.
  intros H. unfold at1. destruct (Nat.lt_ge_cases i (length l)) as [G|G].
  - pose proof (proj1 (Forall_forall _ _) H (nth i l 0) (nth_In _ _ G)). auto.
  - rewrite nth_overflow by auto. apply real_0.
Qed.
Lemma Forall_at (P : F -> Prop) (l : list F) i : Forall P l -> i < length l -> P (at1 l i).
Proof. intros H G. apply (proj1 (Forall_forall _ _) H). apply nth_In. auto. Qed.

(** Which entries the tolerances keep. *)
Definition tol_real (t : option F) : Prop := match t with None => True | Some x => kconj F x = x end.
Definition above (atol rtol : option F) (l : list F) (i : nat) : Prop :=
  match atol with None => True | Some t => klt_p t (kabs (at1 l i)) end /\
  match rtol with
  | None => True
  | Some r => kabs (at1 l 0) <> 0 /\ klt_p r (kabs (at1 l i) / kabs (at1 l 0))
  end.

Definition abs_decreasing (l : list F) : Prop :=
  forall i j, i <= j -> j < length l -> kle (kabs (at1 l j)) (kabs (at1 l i)).

Lemma ratio_above_spec (r x0 x : F) : real x0 -> real x -> real r -> kle 0 x -> kle x x0 ->
  (ratio_above r x0 x = true <-> x0 <> 0 /\ klt_p r (x / x0)).
Proof.
  intros H0 H Hr Hx Hle. unfold ratio_above. destruct (k_dec F x0 0) as [E|E].
  - split; [|tauto]. intros G. exfalso. destruct (k_dec F x 0) as [Ex|Ex]; [discriminate|].
    subst x0. apply Ex. apply le_antisym; auto using real_0.
  - unfold klt_p. tauto.
Qed.

Lemma num_kept_spec atol rtol (l : list F) :
  all_real l -> abs_decreasing l -> tol_real atol -> tol_real rtol ->
  rtol = None \/ l <> [] ->
  exists k, num_kept atol rtol l = Ok k /\ k <= length l /\
    forall i, i < length l -> (i < k <-> above atol rtol l i).
Proof.
  intros Hr Hd Ha Hrt Hne.
  set (na := match atol with Some t => count_above t l | None => length l end).
  assert (Na : na <= length l /\ forall i, i < length l ->
    (i < na <-> match atol with None => True | Some t => klt_p t (kabs (at1 l i)) end)).
  { unfold na. destruct atol as [t|].
    - split; [apply filter_length_le|]. intros i Hi. unfold count_above.
      rewrite (count_prefix 0 (fun x => klt F t (kabs x)) l); [reflexivity| |auto].
      intros a b Hab Hb G. simpl in Ha. fold (at1 l a). fold (at1 l b) in G.
      apply (lt_le_trans t (kabs (at1 l b))); auto using kabs_real, all_real_at.
    - split; auto. tauto. }
  destruct Na as [Na1 Na2]. unfold num_kept. fold na. destruct rtol as [r|].
  - destruct Hne as [|Hne]; [discriminate|].
    assert (E0 : py_nth l 0 = Ok (at1 l 0)) by (clear -Hne; destruct l; [congruence|reflexivity]).
    rewrite E0. cbn [rbind].
    set (q := fun x => ratio_above r (kabs (at1 l 0)) (kabs x)).
    eexists. split; [reflexivity|].
    assert (Lf : length (firstn na l) = na) by (rewrite firstn_length; lia).
    pose proof (filter_length_le q (firstn na l)) as Lq. rewrite Lf in Lq.
    split; [lia|]. intros i Hi. unfold above.
    assert (Q : forall i, i < length l -> (q (at1 l i) = true <->
      kabs (at1 l 0) <> 0 /\ klt_p r (kabs (at1 l i) / kabs (at1 l 0)))).
    { intros j Hj. apply ratio_above_spec; auto using kabs_real, all_real_at, kabs_nonneg.
      apply Hd; auto; lia. }
    assert (C : i < na -> (i < length (filter q (firstn na l)) <-> q (at1 l i) = true)).
    { intros Hina. rewrite (count_prefix 0 q).
      - fold (at1 (firstn na l) i). rewrite at1_firstn by auto. reflexivity.
      - intros a b Hab Hb. rewrite Lf in Hb.
        change (q (at1 (firstn na l) b) = true -> q (at1 (firstn na l) a) = true).
        rewrite !at1_firstn by lia. rewrite !Q by lia. intros [G0 G]. split; auto.
        assert (P0 : klt_p 0 (kabs (at1 l 0))).
        { destruct (kabs_nonneg (at1 l 0)) as [G1|G1]; auto using all_real_at. congruence. }
        assert (Rr := Hrt). simpl in Rr.
        rewrite lt_div in G |- * by auto using kabs_real, all_real_at.
        apply (lt_le_trans _ (kabs (at1 l b))); auto using kabs_real, all_real_at, real_mul.
        apply Hd; lia.
      - rewrite Lf. auto. }
    rewrite <- Na2 by auto. rewrite <- Q by auto. split.
    + intros H. split; [lia|]. apply C; lia.
    + intros [H G]. apply C in G; auto. lia.
  - exists na. split; auto. split; auto. intros i Hi. unfold above. rewrite <- Na2 by auto. tauto.
Qed.

Lemma num_kept_empty atol r : @num_kept F atol (Some r) [] = Raise IndexError.
Proof. reflexivity. Qed.

(** ** Matrices with orthonormal columns *)

Lemma orthonormal_sub m k q (U : mat F) : k <= q -> orthonormal m q U -> orthonormal m k U.
Proof. intros H. apply meq_sub; auto. Qed.

Lemma svd_abs_decreasing (S : list F) : all_real S -> Forall (kle 0) S -> decreasing S ->
  abs_decreasing S.
Proof.
  intros Hr Hn Hd i j Hij Hj.
  rewrite !kabs_pos by (auto using all_real_at; apply Forall_at; auto; lia).
  apply Hd; auto.
Qed.

Lemma mmul_diag_trunc m k q (U : mat F) d : k <= q ->
  meq m k (mmul q U (mdiag d)) (mmul k U (mdiag d)).
Proof.
  intros Hk. split. intros i j Hi Hj.
  rewrite (meq_at _ _ _ _ (mmul_diag_r (Datatypes.S i) q d U) i j) by lia.
  rewrite (meq_at _ _ _ _ (mmul_diag_r (Datatypes.S i) k d U) i j) by lia. reflexivity.
Qed.

Section Svd.
Context (A U Vh : arr F) (S : list F) (HC : svd_contract A U S Vh).
Notation m := (nr A). Notation n := (nc A). Notation q := (length S).
Notation V := (madj (ent Vh)).

Lemma svd_right k : k <= q ->
  meq m k (mmul n (ent A) V) (mmul k (ent U) (mdiag (at1 S))).
Proof.
  intros Hk.
  assert (E : meq m q (mmul n (ent A) V) (mmul q (ent U) (mdiag (at1 S)))).
  { rewrite (svd_eq _ _ _ _ HC). rewrite !mmul_assoc.
    assert (E : meq q q (mmul n (ent Vh) V) mid).
    { pose proof (svd_V _ _ _ _ HC) as G. unfold orthonormal in G.
      rewrite madj_madj in G. exact G. }
    rewrite E, mmul_id_r. reflexivity. }
  rewrite (meq_sub _ _ m k _ _ (le_n m) Hk E).
  apply mmul_diag_trunc. auto.
Qed.

Lemma svd_left k : k <= q ->
  meq n k (mmul m (madj (ent A)) (ent U)) (mmul k V (mdiag (at1 S))).
Proof.
  intros Hk.
  assert (E : meq n q (mmul m (madj (ent A)) (ent U)) (mmul q V (mdiag (at1 S)))).
  { rewrite (svd_eq _ _ _ _ HC). rewrite !madj_mmul, !mmul_assoc.
    rewrite (svd_U _ _ _ _ HC), mmul_id_r, madj_diag_real.
    - reflexivity.
    - intros i Hi. apply all_real_at, (svd_real _ _ _ _ HC). }
  rewrite (meq_sub _ _ n k _ _ (le_n n) Hk E).
  apply mmul_diag_trunc. auto.
Qed.

(** Dropping zero singular values keeps the product. *)
Lemma svd_exact k : k <= q -> (forall i, k <= i < q -> at1 S i = 0) ->
  meq m n (ent A) (mmul k (ent U) (mmul k (mdiag (at1 S)) (ent Vh))).
Proof.
  intros Hk Hz. rewrite (svd_eq _ _ _ _ HC). split. intros i j Hi Hj. unfold mmul at 1 3.
  rewrite (sum_pad k q); auto.
  - apply sum_ext. intros l Hl. f_equal.
    rewrite (meq_at _ _ _ _ (mmul_diag_l q n (at1 S) (ent Vh)) l j) by lia.
    rewrite (meq_at _ _ _ _ (mmul_diag_l k n (at1 S) (ent Vh)) l j) by lia. reflexivity.
  - intros l Hl. rewrite (meq_at _ _ _ _ (mmul_diag_l q n (at1 S) (ent Vh)) l j) by lia.
    rewrite Hz by lia. ring.
Qed.
End Svd.

(** ** Sorting *)
Lemma nth_rev_lookup (p : list nat) j : j < length p ->
  nth j (rev p) O = nth (length p - Datatypes.S j) p O.
Proof. intros H. apply rev_nth. auto. Qed.

Lemma sorted_decreasing (w : list F) p : argsort_contract (map kabs w) p ->
  abs_decreasing (map (at1 w) (rev p)).
Proof.
  intros [Hl Hn Hr Hs] i j Hij Hj. rewrite map_length, rev_length in Hj. rewrite map_length in *.
  assert (E : forall i, i < length p -> at1 (map (at1 w) (rev p)) i
     = at1 w (nth (length p - Datatypes.S i) p O)).
  { intros a Ha. unfold at1 at 1.
    rewrite (nth_indep _ 0 (at1 w O)) by (rewrite map_length, rev_length; auto).
    rewrite map_nth. f_equal. apply nth_rev_lookup. auto. }
  rewrite !E by lia.
  assert (R : forall a, a < length p -> nth a p O < length w).
  { intros a Ha. apply (proj1 (Forall_forall _ _) Hr). apply nth_In. auto. }
  pose proof (Hs (length p - Datatypes.S j)%nat (length p - Datatypes.S i)%nat ltac:(lia) ltac:(lia)) as G.
  rewrite !at1_map in G by (apply R; lia). exact G.
Qed.

Lemma sorted_perm (w : list F) p : argsort_contract (map kabs w) p ->
  Permutation (map (at1 w) (rev p)) w.
Proof.
  intros [Hl Hn Hr Hs]. rewrite map_length in *.
  assert (P : Permutation (rev p) (seq 0 (length w))).
  { apply NoDup_Permutation_bis.
    - apply NoDup_rev. auto.
    - rewrite seq_length, rev_length. lia.
    - intros x Hx. apply in_rev in Hx. apply in_seq.
      pose proof (proj1 (Forall_forall _ _) Hr x Hx). simpl in *. lia. }
  rewrite P. clear. replace (map (at1 w) (seq 0 (length w))) with w; [reflexivity|].
  induction w as [|x w IH]; simpl; auto. f_equal. rewrite <- seq_shift, map_map.
  rewrite IH at 1. apply map_ext_in. intros a Ha. reflexivity.
Qed.

(** ** Smallest entry *)
Lemma min_from_spec (l : list F) : forall m, real m -> all_real l ->
  real (min_from m l) /\ (min_from m l = m \/ In (min_from m l) l) /\
  kle (min_from m l) m /\ forall x, In x l -> kle (min_from m l) x.
Proof.
  induction l as [|x l IH]; intros m Hm Hl; simpl.
  - split; auto. split; auto. split; [apply le_refl|]. intros x [].
  - inversion Hl as [|? ? Hx Hl']; subst.
    destruct (klt F x m) eqn:E.
    + destruct (IH x Hx Hl') as (R & M & L & A). split; auto. split; [|split].
      * right. destruct M as [M|M]; [left; auto|right; auto].
      * apply (le_trans _ x m); auto. left; auto.
      * intros y [<- |Hy]; auto.
    + destruct (IH m Hm Hl') as (R & M & L & A). split; auto. split; [|split]; auto.
      * destruct M as [M|M]; auto.
      * intros y [<- |Hy]; auto. apply (le_trans _ m x); auto. apply not_lt; auto.
Qed.
Lemma min1_spec (l : list F) m : all_real l -> min1 l = Ok m ->
  real m /\ In m l /\ forall x, In x l -> kle m x.
Proof.
  destruct l as [|x l]; [discriminate|]. simpl. intros Hl E. injection E as <-.
  inversion Hl as [|? ? Hx Hl']; subst.
  destruct (min_from_spec l x Hx Hl') as (R & M & L & A). split; auto. split.
  - destruct M as [M|M]; auto.
  - intros y [<- |Hy]; auto.
Qed.

(** ** Left and right eigenvectors *)
Section Eig.
Context (A L R : arr F) (w : list F) (HC : eig_contract A w L R).
Notation n := (nr A).
Notation X := (mmul n (madj (ent L)) (ent R)).

Lemma eig_off i j : i < n -> j < n -> at1 w i <> at1 w j -> X i j = 0.
Proof.
  intros Hi Hj Hne.
  assert (E : meq n n (mmul n (mdiag (at1 w)) X) (mmul n X (mdiag (at1 w)))).
  { rewrite <- (mmul_assoc n n n n (mdiag (at1 w)) (madj (ent L)) (ent R)).
    rewrite <- (eig_L _ _ _ _ HC). rewrite mmul_assoc, (eig_R _ _ _ _ HC), <- mmul_assoc.
    reflexivity. }
  rewrite mmul_diag_l, mmul_diag_r in E. pose proof (meq_at _ _ _ _ E i j Hi Hj) as G.
  cbv beta in G.
  assert (Z : (at1 w i - at1 w j) * X i j = 0).
  { transitivity (at1 w i * X i j - X i j * at1 w j); [ring|]. rewrite G. ring. }
  destruct (mul_eq_0 _ _ Z) as [Q|Q]; auto. exfalso. apply Hne.
  transitivity (at1 w i - at1 w j + at1 w j); [ring|]. rewrite Q. ring.
Qed.

Definition distinct : Prop := forall i j, i < n -> j < n -> i <> j -> at1 w i <> at1 w j.

Lemma eig_column j i : i < n -> j < n ->
  sum n (fun l => ent A i l * ent R l j) = ent R i j * at1 w j.
Proof.
  intros Hi Hj. pose proof (eig_R _ _ _ _ HC) as E. rewrite mmul_diag_r in E.
  apply (meq_at _ _ _ _ E i j Hi Hj).
Qed.

Lemma eig_independent : distinct -> forall k (c : nat -> F), k <= n ->
  (forall i, i < n -> sum k (fun j => ent R i j * c j) = 0) -> forall j, j < k -> c j = 0.
Proof.
  intros Hd. induction k as [|k IH]; intros c Hk H; [lia|].
  assert (Z : forall j, j < k -> c j * (at1 w j - at1 w k) = 0).
  { apply (IH (fun j => c j * (at1 w j - at1 w k))); [lia|]. intros i Hi.
    (* (A - w_k) applied to the combination *)
    assert (E : sum n (fun l => ent A i l * sum (Datatypes.S k) (fun j => ent R l j * c j)) = 0).
    { apply sum_0. intros l Hl. rewrite H by auto. ring. }
    rewrite (sum_ext n _ (fun l => sum (Datatypes.S k) (fun j => ent A i l * (ent R l j * c j)))) in E
      by (intros; symmetry; apply sum_mul_l).
    rewrite sum_swap in E.
    rewrite (sum_ext (Datatypes.S k) _ (fun j => ent R i j * at1 w j * c j)) in E.
    2:{ intros j Hj. rewrite <- eig_column by lia. rewrite <- sum_mul_r. apply sum_ext.
        intros; ring. }
    simpl in E. pose proof (H i Hi) as H'. simpl in H'.
    rewrite (sum_ext k _ (fun j => ent R i j * at1 w j * c j - at1 w k * (ent R i j * c j)))
      by (intros; ring).
    rewrite sum_sub, sum_mul_l.
    transitivity (sum k (fun j => ent R i j * at1 w j * c j) + ent R i k * at1 w k * c k
      - at1 w k * (sum k (fun j => ent R i j * c j) + ent R i k * c k)); [ring|].
    rewrite E, H'. ring. }
  assert (Zj : forall j, j < k -> c j = 0).
  { intros j Hj. destruct (mul_eq_0 _ _ (Z j Hj)) as [Q|Q]; auto. exfalso.
    apply (Hd j k); try lia. transitivity (at1 w j - at1 w k + at1 w k); [ring|]. rewrite Q. ring. }
  intros j Hj. destruct (Nat.eq_dec j k) as [-> |Hne]; [|apply Zj; lia].
  destruct (eig_Rn _ _ _ _ HC k ltac:(lia)) as (i & Hi & Ei).
  pose proof (H i Hi) as H'. simpl in H'.
  rewrite sum_0 in H' by (intros a Ha; rewrite Zj by auto; ring).
  assert (Q : ent R i k * c k = 0) by (rewrite <- H'; ring).
  destruct (mul_eq_0 _ _ Q); [contradiction|auto].
Qed.

Lemma eig_scale_nonzero : distinct -> forall i, i < n -> X i i <> 0.
Proof.
  intros Hd i Hi Z.
  assert (Zr : forall j, j < n -> X i j = 0).
  { intros j Hj. destruct (Nat.eq_dec i j) as [<- |Hne]; auto. apply eig_off; auto. }
  destruct (dependent n (fun a j => if j =? n then ent L a i else ent R a j))
    as (c & (j0 & Hj0 & Ec) & Hc).
  assert (Hc' : forall a, a < n -> sum n (fun j => ent R a j * c j) + ent L a i * c n = 0).
  { intros a Ha. specialize (Hc a Ha). simpl in Hc. rewrite Nat.eqb_refl in Hc.
    rewrite (sum_ext n _ (fun j => ent R a j * c j)) in Hc; auto.
    intros j Hj. rewrite (proj2 (Nat.eqb_neq j n)) by lia. reflexivity. }
  destruct (k_dec F (c n) 0) as [E|E].
  - apply Ec. destruct (Nat.eq_dec j0 n) as [-> |Hne]; auto.
    apply (eig_independent Hd n c (le_n n)); [|lia]. intros a Ha. rewrite <- (Hc' a Ha), E. ring.
  - (* the i-th left vector is a combination of right vectors, hence orthogonal to itself *)
    assert (N : sum n (fun a => (ent L a i)^* * ent L a i) = 0).
    { assert (T : sum n (fun a => (ent L a i)^* * (sum n (fun j => ent R a j * c j) + ent L a i * c n)) = 0).
      { apply sum_0. intros a Ha. rewrite Hc' by auto. ring. }
      rewrite (sum_ext n _ (fun a => sum n (fun j => (ent L a i)^* * ent R a j * c j)
        + (ent L a i)^* * ent L a i * c n)) in T.
      2:{ intros a Ha.
          rewrite (sum_ext n (fun j => (ent L a i)^* * ent R a j * c j)
            (fun j => (ent L a i)^* * (ent R a j * c j))) by (intros; ring).
          rewrite sum_mul_l. ring. }
      rewrite sum_add, sum_swap, sum_mul_r in T.
      rewrite (sum_0 n (fun j => sum n (fun a => (ent L a i)^* * ent R a j * c j))) in T.
      2:{ intros j Hj. rewrite sum_mul_r. change (sum n (fun a => (ent L a i)^* * ent R a j)) with (X i j).
          rewrite Zr by auto. ring. }
      assert (Q : sum n (fun a => (ent L a i)^* * ent L a i) * c n = 0) by (rewrite <- T; ring).
      destruct (mul_eq_0 _ _ Q); [auto|contradiction]. }
    destruct (eig_Ln _ _ _ _ HC i Hi) as (a & Ha & Ea). apply Ea.
    apply (sum_norm_0 n (fun a => ent L a i) N a Ha).
Qed.
End Eig.

End Proofs.
