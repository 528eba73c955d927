(** Property C54: the array examples main_CGL.py and tutorial_ex2.py. *)
From Coq Require Import List Arith Lia Bool ZArith Field Ring Setoid Morphisms.
Import ListNotations.
From Verif Require Import Prelude Field FieldInst Matrix NdArray DecompModel DecompProofs DecompProps
  VSArraysModel VSArraysProofs VSArraysProps PodModel PodProofs PodProps BpodModel BpodProofs BpodProps
  GalerkinModel GalerkinProps MainProps TrapzModel TrapzProps CglModel CglProofs.
Open Scope nat_scope.
Open Scope k_scope.

Section Weights.
Context {F : sfield}.
Add Field Ff_cgl : (k_field F).

Lemma at1_app_l (l l' : list F) i : (i < length l)%nat -> at1 (l ++ l') i = at1 l i.
Proof. intros H. apply app_nth1. auto. Qed.
Lemma at1_app_r (l l' : list F) i : (length l <= i)%nat -> at1 (l ++ l') i = at1 l' (i - length l).
Proof. intros H. apply app_nth2. auto. Qed.
Lemma at1_ext (l l' : list F) : length l = length l' -> (forall i, (i < length l)%nat -> at1 l i = at1 l' i) -> l = l'.
Proof. intros E H. apply (nth_ext _ _ 0 0); auto. Qed.
Lemma at1_diff (x : list F) i : (i + 1 < length x)%nat -> at1 (diff x) i = at1 x (i + 1) - at1 x i.
Proof. intros H. unfold diff. apply (at1_seq (fun i => at1 x (i + 1) - at1 x i)). lia. Qed.
Lemma at1_combine (l l' : list F) i : length l = length l' -> (i < length l)%nat ->
  at1 (map (fun ab => fst ab + snd ab) (combine l l')) i = at1 l i + at1 l' i.
Proof.
  intros E H. rewrite (at1_map _ _ _ (0, 0)) by (rewrite combine_length; lia). rewrite combine_nth by auto. reflexivity.
Qed.
Lemma at1_removelast (l : list F) i : (i + 1 < length l)%nat -> at1 (removelast l) i = at1 l i.
Proof.
  revert i. induction l as [|a l IH]; intros i Hi; [simpl in Hi; lia|].
  destruct l as [|b l]; [simpl in Hi; lia|]. destruct i as [|i]; [reflexivity|].
  change (at1 (removelast (b :: l)) i = at1 (b :: l) i). apply IH. simpl in *. lia.
Qed.
Lemma removelast_length (l : list F) : length (removelast l) = (length l - 1)%nat.
Proof.
  induction l as [|a [|b l] IH]; auto. change (S (length (removelast (b :: l))) = length (b :: l)). rewrite IH. simpl. lia.
Qed.

(** Both programs compute the weights of the trapezoidal rule, or raise when there is no
    interval. *)
Theorem C54_weights (x : list F) :
  (length x < 2 -> cgl_weights x = Raise IndexError /\ ex2_weights x = Raise IndexError)%nat /\
  ((2 <= length x)%nat -> exists w, cgl_weights x = Ok w /\ ex2_weights x = Ok w /\ length w = length x /\
    forall i, (i < length x)%nat -> at1 w i = weight x i).
Proof.
  pose proof (TrapzProps.two_neq_0 (F := F)) as T2. split; intros Hn.
  - unfold cgl_weights. rewrite (proj2 (Nat.ltb_lt _ _)) by auto. split; auto. unfold ex2_weights, diff.
    replace (length x - 1)%nat with 0%nat by lia. reflexivity.
  - unfold cgl_weights. rewrite (proj2 (Nat.ltb_ge _ _)) by auto. eexists. split; [reflexivity|].
    rewrite map_length, seq_length. split; [|split; auto].
    + unfold ex2_weights. assert (L : length (diff x) = (length x - 1)%nat) by (unfold diff; rewrite map_length, seq_length; auto).
      destruct (diff x) as [|d0 d] eqn:Ed; [simpl in L; lia|]. f_equal.
      assert (D : forall i, (i + 1 < length x)%nat -> at1 (d0 :: d) i = at1 x (i + 1) - at1 x i) by (intros; rewrite <- Ed; apply at1_diff; auto).
      set (l := d0 :: d) in *.
      set (mid_ := map (fun ab => fst ab + snd ab) (combine (removelast l) (tl l))).
      assert (Lt : length (tl l) = (length l - 1)%nat) by (simpl; lia).
      assert (Lm : length mid_ = (length x - 2)%nat) by (unfold mid_; rewrite map_length, combine_length, removelast_length, Lt; lia).
      apply at1_ext.
      { rewrite !map_length, !app_length, seq_length, Lm. simpl. lia. }
      intros i Hi. rewrite map_length, !app_length, Lm in Hi. simpl in Hi.
      rewrite (at1_map _ _ _ 0) by (rewrite !app_length, Lm; simpl; lia). rewrite at1_seq by lia.
      change (nth i (([d0] ++ mid_) ++ [last l 0]) 0) with (at1 (([d0] ++ mid_) ++ [last l 0]) i).
      destruct (Nat.eqb_spec i 0) as [->|N0].
      { pose proof (D 0%nat ltac:(lia)) as D0. simpl in D0. simpl. rewrite <- D0. reflexivity. }
      destruct (Nat.eqb_spec i (length x - 1)) as [->|N1].
      { rewrite at1_app_r by (rewrite app_length, Lm; simpl; lia). rewrite app_length, Lm.
        replace (length x - 1 - (length [d0] + (length x - 2)))%nat with 0%nat by (simpl; lia).
        change (at1 [last l 0] 0) with (last l 0).
        assert (EL : last l 0 = at1 l (length l - 1)).
        { rewrite (app_removelast_last 0 (l := l)) at 2 by discriminate. rewrite at1_app_r; rewrite removelast_length; [|lia].
          replace (length l - 1 - (length l - 1))%nat with 0%nat by lia. reflexivity. }
        rewrite EL, D by lia. do 3 f_equal; lia. }
      rewrite at1_app_l by (rewrite app_length, Lm; simpl; lia). rewrite at1_app_r by (simpl; lia). simpl length.
      unfold mid_. rewrite at1_combine by (rewrite removelast_length, ?Lt; lia).
      assert (Et : at1 (tl l) (i - 1) = at1 l i).
      { unfold l. simpl tl. destruct i as [|i]; [lia|]. replace (S i - 1)%nat with i by lia. reflexivity. }
      rewrite Et, at1_removelast by lia. rewrite !D by lia. f_equal. replace (i - 1 + 1)%nat with i by lia. ring.
    + intros i Hi. rewrite at1_seq by auto. unfold weight, half.
      destruct (Nat.eqb_spec i 0) as [->|N0].
      { rewrite (proj2 (Nat.ltb_lt _ _)) by lia. simpl. field. auto. }
      destruct (Nat.eqb_spec i (length x - 1)) as [->|N1].
      { rewrite (proj2 (Nat.ltb_ge _ _)) by lia. replace (length x - 1 - 1)%nat with (length x - 2)%nat by lia. field. auto. }
      rewrite (proj2 (Nat.ltb_lt _ _)) by lia. field. auto.
Qed.

Lemma set_weights_1 (w : list F) : (2 <= length w)%nat -> set_weights (Some (Nd [length w] w)) = Ok (W1 w).
Proof. intros H. unfold set_weights, squeeze. simpl. rewrite (proj2 (Nat.eqb_neq _ _)) by lia. reflexivity. Qed.

(** Column [j] as a one-dimensional array. *)
Definition column (X : arr F) (j : nat) : nd F := Nd [nr X] (map (fun i => ent X i j) (seq 0 (nr X))).

(** With these weights the inner products of arrays are those of InnerProductTrapz. *)
Theorem C54_inner_products (x : list F) (X Y : arr F) : (2 <= length x)%nat -> nr X = length x -> nr Y = length x ->
  exists w G, ex2_weights x = Ok w /\ set_weights (Some (Nd [length w] w)) = Ok (W1 w) /\
    inner_product_array (W1 w) X Y = Ok G /\ nr G = nc X /\ nc G = nc Y /\
    forall i j, (i < nc X)%nat -> (j < nc Y)%nat -> inner_product [x] (column X i) (column Y j) = Ok (ent G i j).
Proof.
  intros Hn HX HY. destruct (proj2 (C54_weights x) Hn) as (w & _ & E & Lw & Hw). exists w.
  destruct (ip_ok (W1 w) X Y) as (G & EG & Gr & Gc & HG); [congruence|simpl; congruence|].
  exists G. split; [auto|]. split; [apply set_weights_1; lia|]. do 3 (split; [auto|]). intros i j Hi Hj.
  rewrite C34_quadrature by (unfold column, grid_shape; simpl; congruence). f_equal.
  rewrite (meq_at _ _ _ _ HG i j Hi Hj). rewrite HX. unfold quadrature. simpl.
  unfold wip, mmul at 1. apply sum_ext. intros l Hl. unfold madj.
  rewrite (meq_at _ _ _ _ (mmul_diag_l (length x) (nc Y) (at1 w) (ent Y)) l j Hl Hj), Hw by auto.
  unfold entry, column. simpl. rewrite HX, HY. rewrite Nat.mul_1_r, Nat.add_0_r, !at1_seq by auto. ring.
Qed.

Lemma direct_ok_ext sqrt (X : arr F) W W' S0 atol rtol idx r : meq (nr X) (nr X) W W' ->
  direct_ok sqrt X W S0 atol rtol idx r -> direct_ok sqrt X W' S0 atol rtol idx r.
Proof.
  intros E (Phi & S & coeffs & vecs & H1 & H2 & H3 & H4 & H5). exists Phi, S, coeffs, vecs. do 3 (split; [auto|]). split; [|auto].
  destruct H4. unfold wip in *. split; auto; unfold wip; rewrite <- E; auto.
Qed.

(** tutorial_ex2: POD in the trapezoid inner product. *)
Theorem C54_tutorial_ex2 lapack chol inv sqrt (vecs : arr F) x num_modes atol rtol :
  nr vecs = length x -> (forall i, real (at1 x i)) -> strictly_increasing x ->
  (forall i, (i < length x)%nat -> sqrt_ok sqrt (weight x i)) -> tol_real atol -> tol_real rtol ->
  exists Xw, nr Xw = nr vecs /\ nc Xw = nc vecs /\
    meq (nr vecs) (nc vecs) (ent Xw) (fun i j => sqrt (weight x i) * ent vecs i j) /\
    forall U0 S0 V0, lapack Xw = Ok (U0, S0, V0) -> svd_contract Xw U0 S0 V0 ->
    rtol = None \/ S0 <> [] -> (forall s, In s S0 -> sqrt_ok sqrt (s * s)) ->
    direct_ok sqrt vecs (mdiag (weight x)) S0 atol rtol (Some (map Z.of_nat (seq 0 num_modes)))
      (tutorial_ex2 lapack chol inv sqrt vecs x num_modes atol rtol).
Proof.
  intros Hr Rx Hx Hsq Ha Hrt.
  destruct (proj2 (C54_weights x) (proj1 Hx)) as (w & _ & E & Lw & Hw).
  exists (Arr (nr vecs) (nc vecs) (mmul (nr vecs) (mdiag (at1 (map sqrt w))) (ent vecs))). do 2 (split; [reflexivity|]). split.
  { cbn [ent]. rewrite mmul_diag_l. split. intros i j Hi Hj. rewrite (at1_map _ _ _ 0) by lia.
    rewrite <- Hw by lia. reflexivity. }
  intros U0 S0 V0 HL HC Hne HS. unfold tutorial_ex2. rewrite E. cbn [rbind].
  apply (direct_ok_ext _ _ (mdiag (at1 w))).
  { apply mdiag_ext. intros i Hi. apply Hw. lia. }
  eapply C20_POD_direct_1D; eauto; [lia| |].
  - intros z Hz. apply (In_nth _ _ 0) in Hz. destruct Hz as (i & Hi & Ez). change (nth i w 0) with (at1 w i) in Ez.
    rewrite Hw in Ez by lia. subst z. rewrite Lw in Hi. split; [auto|]. apply weight_pos; auto.
  - unfold dot, diag. cbn [nr nc ent]. rewrite map_length, Lw, Hr, Nat.eqb_refl. reflexivity.
Qed.
End Weights.

(** * The simulations *)
Section Simulation.
Context {F : sfield}.
Add Field Ff_cgl_sim : (k_field F).

(** [I - dt/2 A] and [I + dt/2 A]. *)
Definition implicit (dt : F) (A : mat F) : mat F := msub mid (mscale (dt / (1 + 1)) A).
Definition explicit (dt : F) (A : mat F) : mat F := madd mid (mscale (dt / (1 + 1)) A).
(** [S] is a step of the Crank-Nicolson scheme: the next state [S q] has
    [(I - dt/2 A) (S q) = (I + dt/2 A) q]. *)
Definition cn_step_of (n : nat) (dt : F) (A S : mat F) : Prop :=
  meq n n (mmul n (implicit dt A) S) (explicit dt A).
Definition regular (n : nat) (M : mat F) : Prop := exists T, meq n n (mmul n T M) mid.

Lemma step_regular n dt A S : cn_step_of n dt A S -> regular n (implicit dt A).
Proof.
  intros H. pose proof (EraProofs.two_neq_0 (F := F)) as T2. exists (mscale (1 / (1 + 1)) (madd S mid)).
  rewrite mmul_scale_l, (cn_QL n (dt / (1 + 1)) A S H). split. intros. unfold mscale. field. auto.
Qed.
Lemma step_commutes n dt A S : cn_step_of n dt A S -> meq n n (mmul n S (implicit dt A)) (explicit dt A).
Proof.
  intros H. pose proof (cn_QL n (dt / (1 + 1)) A S H) as E. change (msub mid (mscale (dt / (1 + 1)) A)) with (implicit dt A) in E.
  rewrite mmul_add_l, mmul_id_l in E. split. intros i j Hi Hj. pose proof (meq_at _ _ _ _ E i j Hi Hj) as E'.
  unfold madd, mscale, implicit at 2 in E'. unfold explicit. unfold madd, msub, mscale in *.
  match type of E' with ?a + _ = _ => set (z := a) in * end.
  match type of E' with _ + ?b = ?c => transitivity (z + b - b); [ring|rewrite E'; ring] end.
Qed.
Lemma regular_step n dt A : regular n (implicit dt A) -> exists S, cn_step_of n dt A S.
Proof.
  intros (T & HT). exists (mmul n T (explicit dt A)). unfold cn_step_of.
  rewrite <- mmul_assoc, (left_inverse_right n _ _ HT), mmul_id_l. reflexivity.
Qed.

Context (solve : arr F -> arr F -> res (arr F)).
Lemma march_ok n dt (A : arr F) S : nr A = n -> cn_step_of n dt (ent A) S -> solve_contract solve (cn_LHS dt A) ->
  forall steps q d, nr q = n -> nc q = 1%nat ->
  exists qs, march solve (cn_LHS dt A) (cn_RHS dt A) q steps = Ok qs /\
    forall j, (j <= steps)%nat -> meq n 1 (ent (nth j (q :: qs) d)) (mmul n (mpow n S j) (ent q)).
Proof.
  intros An HS HC. destruct (step_regular _ _ _ _ HS) as (T & HT). unfold implicit in HT.
  assert (HC' := HC). unfold solve_contract in HC'. cbn [nr nc ent cn_LHS] in HC'. rewrite An in HC'.
  specialize (HC' (ex_intro _ T HT)).
  induction steps as [|steps IH]; intros q d Hq Hc.
  - exists []. split; [reflexivity|]. intros j Hj. replace j with 0%nat by lia. simpl. rewrite mmul_id_l. reflexivity.
  - simpl. unfold dot at 1. cbn [nr nc ent cn_RHS]. rewrite An, Hq, Nat.eqb_refl. cbn [rbind].
    destruct (HC' (Arr n (nc q) (mmul n (madd mid (mscale (dt / (1 + 1)) (ent A))) (ent q))) eq_refl) as (z & Ez & Zr & Zc & Hz).
    cbn [nr nc ent] in *. rewrite Ez. cbn [rbind].
    destruct (IH z d Zr ltac:(congruence)) as (qs & Eq & Hqs). rewrite Eq. cbn [rbind]. exists (z :: qs). split; [reflexivity|].
    assert (ZS : meq n 1 (ent z) (mmul n S (ent q))).
    { rewrite Hc in Hz. rewrite <- (mmul_id_l n 1 (ent z)), <- HT, mmul_assoc, Hz.
      assert (HS' := HS). unfold cn_step_of, implicit, explicit in HS'. rewrite <- HS', (mmul_assoc n 1), <- (mmul_assoc n 1), HT, mmul_id_l. reflexivity. }
    intros [|j] Hj; [simpl; rewrite mmul_id_l; reflexivity|].
    change (nth (Datatypes.S j) (q :: z :: qs) d) with (nth j (z :: qs) d). rewrite Hqs by lia.
    rewrite ZS, mpow_S_r, mmul_assoc by lia. reflexivity.
Qed.
Lemma simulate_ok n dt (A q0 : arr F) S nt : (0 < nt)%nat -> nr A = n -> nr q0 = n -> nc q0 = 1%nat ->
  cn_step_of n dt (ent A) S -> solve_contract solve (cn_LHS dt A) ->
  exists q, simulate solve dt A q0 nt = Ok q /\ nr q = n /\ nc q = nt /\
    forall i j, (i < n)%nat -> (j < nt)%nat -> ent q i j = mmul n (mpow n S j) (ent q0) i 0%nat.
Proof.
  intros Hnt An Hq Hc HS HC. unfold simulate. rewrite (proj2 (Nat.eqb_neq _ _)) by lia.
  destruct (march_ok n dt A S An HS HC (nt - 1) q0 q0 Hq Hc) as (qs & E & H). rewrite E. cbn [rbind].
  eexists. split; [reflexivity|]. cbn [nr nc ent]. split; [auto|]. split; [auto|].
  intros i j Hi Hj. apply (meq_at _ _ _ _ (H j ltac:(lia))); auto.
Qed.
End Simulation.

(** * main_CGL *)
Section Main.
Context {F : sfield}.
Add Field Ff_cgl_main : (k_field F).

Lemma wrap_short n k : (k < n)%nat -> wrap_all k (map Z.of_nat (seq 0 n)) = Raise IndexError.
Proof.
  intros Hn. assert (G : forall m i, (i <= k)%nat -> (k < i + m)%nat -> wrap_all k (map Z.of_nat (seq i m)) = Raise IndexError).
  { induction m as [|m IH]; intros i Hi Hm; [lia|]. cbn [seq map wrap_all]. unfold wrap_index.
    destruct (Nat.eq_dec i k) as [->|N].
    - rewrite (proj2 (Z.leb_le 0 _)), (proj2 (Z.ltb_ge _ _)) by lia. cbn [andb].
      rewrite (proj2 (Z.ltb_ge _ 0)), andb_false_r by lia. reflexivity.
    - rewrite (proj2 (Z.leb_le 0 _)), (proj2 (Z.ltb_lt _ _)) by lia. cbn [andb]. rewrite IH by lia. reflexivity. }
  apply G; lia.
Qed.
Lemma pick_first (X : arr F) r : (r <= nc X)%nat ->
  exists Z, pick_opt X (Some (map Z.of_nat (seq 0 r))) = Ok Z /\ nr Z = nr X /\ nc Z = r /\ meq (nr X) r (ent Z) (ent X).
Proof.
  intros Hr. cbn [pick_opt]. unfold pick_cols. rewrite MainProps.wrap_seq by auto. eexists. split; [reflexivity|]. cbn [nr nc ent].
  rewrite seq_length. do 2 (split; [auto|]). split. intros i j Hi Hj. unfold mcols. rewrite seq_nth by auto. reflexivity.
Qed.

Lemma diag_cancel_r a k (s : nat -> F) (P Q : mat F) : (forall i, (i < k)%nat -> s i <> 0) ->
  meq a k (mmul k P (mdiag s)) (mmul k Q (mdiag s)) -> meq a k P Q.
Proof.
  intros Ns H. rewrite !mmul_diag_r in H. split. intros i j Hi Hj. pose proof (meq_at _ _ _ _ H i j Hi Hj) as E. cbn beta in E.
  transitivity (P i j * s j / s j); [field; auto|]. rewrite E. field. auto.
Qed.
Lemma diag_cancel_l k b (s : nat -> F) (P Q : mat F) : (forall i, (i < k)%nat -> s i <> 0) ->
  meq k b (mmul k (mdiag s) P) (mmul k (mdiag s) Q) -> meq k b P Q.
Proof.
  intros Ns H. rewrite !mmul_diag_l in H. split. intros i j Hi Hj. pose proof (meq_at _ _ _ _ H i j Hi Hj) as E. cbn beta in E.
  transitivity (s i * P i j / s i); [field; auto|]. rewrite E. field. auto.
Qed.

(** The adjoint of a step is a step of the adjoint system. *)
Lemma adjoint_step n dt (A S M T : mat F) : real dt -> meq n n (mmul n T M) mid -> meq n n (madj M) M ->
  cn_step_of n dt A S ->
  cn_step_of n dt (mmul n T (mmul n (madj A) M)) (mmul n T (mmul n (madj S) M)) /\
  meq n n (mmul n (madj (mmul n T (mmul n (madj S) M))) M) (mmul n M S).
Proof.
  intros Rd HT HM HS. pose proof (left_inverse_right n _ _ HT) as HT'.
  assert (Rh : (dt / (1 + 1))^* = dt / (1 + 1)) by (apply real_half; auto).
  assert (EL : meq n n (implicit dt (mmul n T (mmul n (madj A) M))) (mmul n T (mmul n (madj (implicit dt A)) M))).
  { unfold implicit. rewrite madj_msub, madj_mid, mmul_sub_l, mmul_id_l, mmul_sub_r, HT.
    assert (E : meq n n (madj (mscale (dt / (1 + 1)) A)) (mscale (dt / (1 + 1)) (madj A)))
      by (split; intros; unfold madj, mscale; rewrite conj_mul, Rh; reflexivity).
    rewrite E, mmul_scale_l, mmul_scale_r. reflexivity. }
  assert (ER : meq n n (explicit dt (mmul n T (mmul n (madj A) M))) (mmul n T (mmul n (madj (explicit dt A)) M))).
  { unfold explicit. rewrite madj_madd, madj_mid, mmul_add_l, mmul_id_l, mmul_add_r, HT.
    assert (E : meq n n (madj (mscale (dt / (1 + 1)) A)) (mscale (dt / (1 + 1)) (madj A)))
      by (split; intros; unfold madj, mscale; rewrite conj_mul, Rh; reflexivity).
    rewrite E, mmul_scale_l, mmul_scale_r. reflexivity. }
  split.
  - unfold cn_step_of. rewrite EL, ER.
    rewrite (mmul_assoc n n n n T), (mmul_assoc n n n n _ M), <- (mmul_assoc n n n n M T), HT', mmul_id_l.
    rewrite <- (mmul_assoc n n n n (madj (implicit dt A))), <- madj_mmul, (step_commutes n dt A S HS). reflexivity.
  - rewrite !madj_mmul, madj_madj, HM, !mmul_assoc.
    rewrite <- HM at 2. rewrite <- (madj_mmul n n n M T), HT', madj_mid, mmul_id_r. reflexivity.
Qed.

Theorem C54_main_CGL inv solve lapack sqrt (x : list F) (A B C : arr F) dt nt r t rtol S :
  let n := length x in let W := mdiag (weight x) in
  (forall i, real (at1 x i)) -> strictly_increasing x -> real dt ->
  nr A = n -> nc A = n -> nr B = n -> nc B = 1%nat -> nr C = 1%nat -> nc C = n -> (0 < nt)%nat ->
  real t -> kle 0 t -> tol_real rtol ->
  cn_step_of n dt (ent A) S ->
  (forall G, nr G = n -> nc G = n -> regular n (ent G) -> exists T, inv G = Ok T /\ inv_contract G T) ->
  (forall L, nc L = nr L -> nr L = n \/ nr L = r -> solve_contract solve L) ->
  let response j := mmul n (ent C) (mmul n (mpow n S j) (ent B)) 0%nat 0%nat in
  exists H, nr H = nt /\ nc H = nt /\
    (forall i j, (i < nt)%nat -> (j < nt)%nat -> ent H i j = response (i + j)%nat) /\
    forall U0 S0 Vh0, lapack H = Ok (U0, S0, Vh0) -> svd_contract H U0 S0 Vh0 ->
    (forall i, (i < length S0)%nat -> above (Some t) rtol S0 i -> sqrt_ok sqrt (at1 S0 i)) ->
    exists k, (k <= length S0)%nat /\ (forall i, (i < length S0)%nat -> ((i < k)%nat <-> above (Some t) rtol S0 i)) /\
    let run := main_CGL inv solve lapack sqrt x A B C dt nt r (Some t) rtol in
    ((k < r)%nat -> run = Raise IndexError) /\
    ((r <= k)%nat -> exists res Ar Br Cr,
      let Phi := ent (b_direct res) in let Psi := ent (b_adjoint res) in
      b_Hankel res = H /\ b_sing_vals res = firstn k S0 /\
      nr (b_direct res) = n /\ nc (b_direct res) = r /\ nr (b_adjoint res) = n /\ nc (b_adjoint res) = r /\
      (* is_basis_orthonormal=True is right *)
      meq r r (wip n W Psi Phi) mid /\
      nr Ar = r /\ nc Ar = r /\ nr Br = r /\ nc Br = 1%nat /\ nr Cr = 1%nat /\ nc Cr = r /\
      galerkin n r r W Phi Psi (mmul n (ent A) Phi) (ent Ar) /\ galerkin n r 1 W Phi Psi (ent B) (ent Br) /\
      meq 1 r (ent Cr) (mmul n (ent C) Phi) /\
      let response_r Sr j := mmul r (ent Cr) (mmul r (mpow r Sr j) (ent Br)) 0%nat 0%nat in
      (forall Sr, cn_step_of r dt (ent Ar) Sr -> exists y yr, run = Ok (res, (Ar, Br, Cr), (y, yr)) /\
        nr y = 1%nat /\ nc y = nt /\ nr yr = 1%nat /\ nc yr = nt /\
        forall j, (j < nt)%nat -> ent y 0%nat j = response j /\ ent yr 0%nat j = response_r Sr j) /\
      (* nothing dropped: the same response, at all times *)
      (r = k -> (forall i, (k <= i < length S0)%nat -> at1 S0 i = 0) -> (n <= nt)%nat ->
        exists Sr, cn_step_of r dt (ent Ar) Sr /\ forall j, response_r Sr j = response j)).
Proof.
  intros n W Rx Hx Rd Ar_ Ac_ Brr Bc Cr_ Cc Hnt Rt Ht Hrt HS Hinv Hsol response.
  destruct (proj2 (C54_weights x) (proj1 Hx)) as (w & Ew & _ & Lw & Hw). fold n in Lw.
  assert (Hn2 : (2 <= n)%nat) by apply Hx.
  set (M := mdiag (at1 w)).
  assert (EM : meq n n M W) by (apply mdiag_ext; intros; apply Hw; auto).
  assert (Rw : forall i, (i < n)%nat -> real (at1 w i)) by (intros; rewrite Hw by auto; apply weight_real; auto).
  assert (Nw : forall i, (i < n)%nat -> at1 w i <> 0) by (intros; rewrite Hw by auto; apply weight_pos; auto).
  assert (HM : meq n n (madj M) M) by (apply madj_diag_real; auto).
  destruct (Hinv (diag w)) as (Mi & Ei & Ti).
  { unfold diag. simpl. auto. } { unfold diag. simpl. auto. }
  { exists (mdiag (fun i => 1 / at1 w i)). unfold diag. cbn [ent]. rewrite mmul_diag_diag. apply mdiag_1.
    intros i Hi. apply div_mul_1. auto. }
  destruct Ti as (T1 & T2 & _ & HT). unfold diag in T1, T2, HT. cbn [nr nc ent] in T1, T2, HT. rewrite Lw in T1, T2, HT. fold M in HT.
  set (T := ent Mi) in *. pose proof (left_inverse_right n _ _ HT) as HT'.
  destruct (adjoint_step n dt (ent A) S M T Rd HT HM HS) as [HSa Hadj].
  set (Aa := Arr n n (mmul n T (mmul n (madj (ent A)) M))) in *.
  set (Ca := Arr n 1 (mmul n T (madj (ent C)))) in *.
  set (Sa := mmul n T (mmul n (madj S) M)) in *.
  destruct (simulate_ok solve n dt A B S nt) as (q & Eq & Qr & Qc & Hq); auto.
  destruct (simulate_ok solve n dt Aa Ca Sa nt) as (qa & Eqa & Qar & Qac & Hqa); auto.
  assert (IX : impulse_blocks n 1 S (ent B) (ent q) nt).
  { intros j l b Hj Hl Hb. replace b with 0%nat by lia. rewrite Nat.mul_1_r, Nat.add_0_r. auto. }
  assert (IY : impulse_blocks n 1 Sa (ent Ca) (ent qa) nt).
  { intros j l b Hj Hl Hb. replace b with 0%nat by lia. rewrite Nat.mul_1_r, Nat.add_0_r. auto. }
  set (wopt := Some (Nd [length w] w)).
  assert (Ews : set_weights wopt = Ok (W1 w)) by (apply set_weights_1; lia).
  assert (HCa : meq 1 n (mmul n (madj (ent Ca)) M) (ent C)).
  { unfold Ca. cbn [ent]. rewrite madj_mmul, madj_madj, mmul_assoc. rewrite <- HM. rewrite <- madj_mmul, HT', madj_mid, mmul_id_r. reflexivity. }
  destruct (C21_impulse_Hankel n 1 1 nt nt S (ent B) Sa (ent Ca) M (ent q) (ent qa) Hadj IX IY) as [_ HH0].
  set (idx := map Z.of_nat (seq 0 r)).
  destruct (C21_impulse lapack sqrt q qa 1 1 nt nt (Some idx) (Some idx) wopt (W1 w) t rtol S (ent B) Sa (ent Ca))
    as (H & Hr & Hc & HH & Res); auto; try congruence; try lia; rewrite ?Qr; auto.
  rewrite Qac in Hr, HH. rewrite Qc in Hc, HH. rewrite Qr in HH. cbn [wmat] in HH. fold M in HH.
  assert (HHe : forall i j, (i < nt)%nat -> (j < nt)%nat -> ent H i j = response (i + j)%nat).
  { intros i j Hi Hj. rewrite (meq_at _ _ _ _ HH i j Hi Hj). specialize (HH0 i j 0%nat 0%nat Hi Hj ltac:(lia) ltac:(lia)).
    rewrite !Nat.mul_1_r, !Nat.add_0_r in HH0. rewrite HH0. unfold response.
    assert (E : meq 1 1 (mmul n (madj (ent Ca)) (mmul n M (mmul n (mpow n S (i + j)) (ent B))))
      (mmul n (ent C) (mmul n (mpow n S (i + j)) (ent B)))) by (rewrite <- mmul_assoc, HCa; reflexivity).
    apply (meq_at _ _ _ _ E); lia. }
  exists H. do 3 (split; [auto|]). intros U0 S0 Vh0 HL HC Hsq.
  destruct (Res U0 S0 Vh0 HL HC Hsq) as (Phi & Psi & E & dc & ac & L & V & Ret & SR & BS).
  set (k := length E) in *. exists k.
  assert (Lk : (k <= length S0)%nat) by (unfold k; rewrite (sr_prefix _ _ _ _ _ _ _ SR), firstn_length; lia).
  split; [auto|]. split; [apply (sr_kept _ _ _ _ _ _ _ SR)|]. cbv zeta.
  (* the program up to the modes *)
  assert (R0 : main_CGL inv solve lapack sqrt x A B C dt nt r (Some t) rtol =
    rbind (BPOD_arrays lapack sqrt false q qa 1 1 (Some idx) (Some idx) wopt (Some t) rtol) (fun BPOD_res =>
    rbind (ga_new false (b_direct BPOD_res) (Some (b_adjoint BPOD_res)) true wopt) (fun projection =>
    rbind (dot A (b_direct BPOD_res)) (fun AX => rbind (dot C (b_direct BPOD_res)) (fun CX =>
    rbind (snd (compute_model inv projection AX B (D2 CX))) (fun abc =>
    rbind (simulate solve dt (fst (fst abc)) (snd (fst abc)) nt) (fun qr =>
    rbind (dot C q) (fun y => rbind (dot (snd abc) qr) (fun yr => Ok (BPOD_res, abc, (y, yr))))))))))).
  { unfold main_CGL. rewrite Ew. cbn [rbind]. rewrite Ei. cbn [rbind].
    unfold dot at 1, conj_T at 1 2 3, diag at 1 2 3. cbn [nr nc ent]. rewrite Ar_, Ac_, Lw, Nat.eqb_refl. cbn [rbind].
    unfold dot at 1. cbn [nr nc ent]. rewrite T1, T2, Nat.eqb_refl. cbn [rbind].
    unfold dot at 1. cbn [nr nc ent conj_T]. rewrite T1, T2, Cc, Cr_, Nat.eqb_refl. cbn [rbind].
    rewrite Eq. cbn [rbind]. fold M T Aa Ca. rewrite Eqa. cbn [rbind]. unfold wopt. rewrite Lw. reflexivity. }
  pose proof (bs_Pr _ _ _ _ _ _ _ _ _ _ _ BS) as Pr. pose proof (bs_Pc _ _ _ _ _ _ _ _ _ _ _ BS) as Pc.
  pose proof (bs_Qr _ _ _ _ _ _ _ _ _ _ _ BS) as Pr'. pose proof (bs_Qc _ _ _ _ _ _ _ _ _ _ _ BS) as Pc'.
  fold k in Pc, Pc'. rewrite Qr in Pr, Pr'.
  unfold bpod_returns in Ret. split; intros Hrk.
  { rewrite R0, Ret. cbn [pick_opt]. unfold pick_cols. rewrite Pc. unfold idx. rewrite wrap_short by auto. reflexivity. }
  destruct (pick_first Phi r) as (D & ED & Dr & Dc & HD); [lia|]. destruct (pick_first Psi r) as (D' & ED' & Dr' & Dc' & HD'); [lia|].
  fold idx in ED, ED'. rewrite Pr in Dr, HD. rewrite Pr' in Dr', HD'.
  rewrite ED, ED' in Ret. cbn [rbind] in Ret. set (res := Bpod E D D' dc ac L V H) in *.
  pose proof (bs_bi _ _ _ _ _ _ _ _ _ _ _ BS) as Bi. fold k in Bi. rewrite Qr in Bi.
  assert (Bi' : meq r r (wip n M (ent D') (ent D)) mid).
  { unfold wip in *. rewrite HD, HD'. apply (meq_sub k k); auto. }
  assert (Bi'' : meq r r (wip n W (ent D') (ent D)) mid) by (unfold wip in *; rewrite <- EM; auto).
  destruct (ga_new false D (Some D') true wopt) as [g|e] eqn:Eg.
  2: { exfalso. unfold ga_new in Eg. rewrite Dr, Dr', Dc, Dc', !Nat.eqb_refl, Ews in Eg. discriminate. }
  assert (V1 : forall Z, nr Z = n -> exists Rz, snd (reduce_A inv g Z) = Ok Rz /\ snd (reduce_B inv g Z) = Ok Rz /\
    nr Rz = r /\ nc Rz = nc Z /\ meq r (nc Z) (ent Rz) (wip n M (ent D') (ent Z)) /\
    galerkin n r (nc Z) W (ent D) (ent D') (ent Z) (ent Rz)).
  { intros Z HZ. destruct (C32_orthonormal inv D (Some D') wopt (W1 w) g Z Eg Ews) as (Rz & z1 & z2 & z3 & z4 & z5 & _).
    { rewrite Dr. simpl. auto. } { congruence. }
    rewrite Dr, Dc in *. exists Rz. do 5 (split; [auto|]). eapply galerkin_ext; [|apply (C32_biorthonormal n r (nc Z) W _ _ _ Bi'')].
    unfold wip in *. rewrite z5. simpl wmat. fold M. rewrite EM. reflexivity. }
  set (AX := Arr n r (mmul n (ent A) (ent D))). set (CX := Arr 1 r (mmul n (ent C) (ent D))).
  destruct (V1 AX eq_refl) as (Ar & a1 & _ & a2 & a3 & a4 & a5). destruct (V1 B Brr) as (Br & _ & b1 & b2 & b3 & b4 & b5).
  rewrite Bc in b3, b4, b5. cbn [nc AX ent] in a3, a4, a5.
  assert (Em : snd (compute_model inv g AX B (D2 CX)) = Ok (Ar, Br, CX)).
  { pose proof (C32_model inv _ _ _ _ _ AX B (D2 CX) Eg) as G. cbn [do_gcall] in G. unfold one in G. cbn [snd] in G.
    rewrite a1, b1 in G. cbn [rmap rbind app ndmin2] in G. destruct (snd (compute_model inv g AX B (D2 CX))) as [[[? ?] ?]|]; [|discriminate].
    cbn in G. congruence. }
  exists res, Ar, Br, CX. cbv zeta. cbn [b_Hankel b_sing_vals b_direct b_adjoint res].
  split; [auto|]. split; [apply (sr_prefix _ _ _ _ _ _ _ SR)|]. do 4 (split; [auto|]). split; [auto|].
  do 4 (split; [auto|]). do 2 (split; [reflexivity|]). do 2 (split; [auto|]). split; [reflexivity|]. split.
  - intros Sr HSr. rewrite R0, Ret. cbn [rbind b_direct b_adjoint res]. rewrite Eg. cbn [rbind].
    unfold dot at 1. rewrite Ac_, Dr, Nat.eqb_refl, Ar_, Dc. cbn [rbind]. fold AX.
    unfold dot at 1. rewrite Cc, Dr, Nat.eqb_refl, Cr_, Dc. cbn [rbind]. fold CX. rewrite Em. cbn [rbind fst snd].
    destruct (simulate_ok solve r dt Ar Br Sr nt) as (qr & Eqr & Rr & Rc & Hqr); auto.
    rewrite Eqr. cbn [rbind]. unfold dot. rewrite Cc, Qr, Nat.eqb_refl, Cr_, Qc. cbn [rbind].
    change (nc CX) with r. rewrite Rr, Nat.eqb_refl. cbn [rbind]. do 2 eexists. split; [reflexivity|]. cbn [nr nc ent].
    do 3 (split; [auto|]). split; [congruence|]. intros j Hj. unfold response. split; unfold mmul at 1 3.
    + apply sum_ext. intros l Hl. rewrite Hq; auto.
    + apply sum_ext. intros l Hl. rewrite Hqr; auto.
  - intros -> Hdrop Hnn.
    set (s := fun i => sqrt (at1 E i)).
    assert (Ee : forall i, (i < k)%nat -> at1 E i = at1 S0 i).
    { intros i Hi. rewrite (sr_prefix _ _ _ _ _ _ _ SR). apply at1_firstn. auto. }
    assert (Ab : forall i, (i < k)%nat -> above (Some t) rtol S0 i).
    { intros i Hi. apply (sr_kept _ _ _ _ _ _ _ SR); [lia|auto]. }
    assert (Sq' : forall i, (i < k)%nat -> sqrt_ok sqrt (at1 E i)).
    { intros i Hi. rewrite Ee by auto. apply Hsq; [lia|]. apply Ab; auto. }
    assert (Ns : forall i, (i < k)%nat -> s i <> 0).
    { intros i Hi. apply (sqrt_ok_neq sqrt (at1 E i)); auto. rewrite Ee by auto. apply (kept_nonzero t rtol); auto. }
    assert (Hs : meq k k (mmul k (mdiag s) (mdiag s)) (mdiag (at1 E))).
    { rewrite mmul_diag_diag. apply mdiag_ext. intros i Hi. apply (Sq' i Hi). }
    assert (Rs : meq k k (madj (mdiag s)) (mdiag s)) by (apply madj_diag_real; intros i Hi; apply (Sq' i Hi)).
    pose proof (sr_AV _ _ _ _ _ _ _ SR) as AV. pose proof (sr_AU _ _ _ _ _ _ _ SR) as AU.
    pose proof (sr_exact _ _ _ _ _ _ _ SR Hdrop) as EX. pose proof (sr_U _ _ _ _ _ _ _ SR) as LL.
    pose proof (bs_dspan _ _ _ _ _ _ _ _ _ _ _ BS) as DS. pose proof (bs_aspan _ _ _ _ _ _ _ _ _ _ _ BS) as AS.
    fold k in AV, AU, EX, LL, DS, AS. fold s in DS, AS. rewrite Qr, Qc in DS. rewrite Qr, Qac in AS. rewrite <- HD in DS. rewrite <- HD' in AS.
    rewrite Hr in AV, AU, EX, LL. rewrite Hc in AV, AU, EX.
    (* observability and controllability of the states kept *)
    assert (YD : meq nt k (wip n M (ent qa) (ent D)) (mmul k (ent L) (mdiag s))).
    { apply (diag_cancel_r nt k s); auto. unfold wip in *. rewrite !mmul_assoc, DS, Hs, <- AV, HH, !mmul_assoc. reflexivity. }
    assert (DX : meq k nt (wip n M (ent D') (ent q)) (mmul k (mdiag s) (madj (ent V)))).
    { apply (diag_cancel_l k nt s); auto. rewrite <- mmul_assoc, Hs.
      assert (AU' : meq k nt (mmul nt (madj (ent L)) (ent H)) (mmul k (mdiag (at1 E)) (madj (ent V)))).
      { rewrite <- (madj_madj nt nt (ent H)), <- madj_mmul, AU, madj_mmul. rewrite <- Hs, madj_mmul, Rs. reflexivity. }
      rewrite <- AU', HH. unfold wip. rewrite <- Rs at 1. rewrite <- !mmul_assoc, <- !madj_mmul, AS. reflexivity. }
    assert (YM : meq nt n (mmul n (madj (ent qa)) M) (fun i l => mmul n (ent C) (mpow n S i) 0%nat l)).
    { split. intros i l Hi Hl.
      transitivity (mmul n (madj (mmul n (mpow n Sa i) (ent Ca))) M 0%nat l).
      { unfold mmul at 1 2. apply sum_ext. intros l' Hl'. f_equal. unfold madj. rewrite Hqa by auto. reflexivity. }
      assert (G : meq 1 n (mmul n (madj (mmul n (mpow n Sa i) (ent Ca))) M) (mmul n (ent C) (mpow n S i))).
      { rewrite madj_mmul, mmul_assoc, (adjoint_powers n S Sa M Hadj), <- mmul_assoc, HCa. reflexivity. }
      apply (meq_at _ _ _ _ G); lia. }
    set (G := mmul n (madj (ent D')) M).
    assert (Hspan : forall a (f : mat F), (forall j, (j < nt)%nat -> meq a 1 (mmul n f (mmul n (mpow n S j) (ent B))) mzero) ->
      meq a k (mmul n f (ent D)) mzero).
    { intros a f Hf. apply (diag_cancel_r a k s); auto. rewrite mmul_assoc, DS, mmul_zero_l, <- mmul_assoc.
      assert (G0 : meq a nt (mmul n f (ent q)) mzero).
      { split. intros i j Hi Hj. transitivity (mmul n f (mmul n (mpow n S j) (ent B)) i 0%nat).
        2: { rewrite (meq_at _ _ _ _ (Hf j Hj)) by lia. reflexivity. } unfold mmul at 1 2.
        apply sum_ext. intros l Hl. rewrite Hq by auto. reflexivity. }
      rewrite G0, mmul_zero_l. reflexivity. }
    assert (Hker : forall i j, (i < nt)%nat -> (j < nt)%nat ->
      meq 1 1 (mmul n (ent C) (mmul n (mpow n S i) (mmul n (msub mid (mmul k (ent D) G)) (mmul n (mpow n S j) (ent B))))) mzero).
    { intros i j Hi Hj. rewrite <- mmul_assoc. split. intros i0 j0 Hi0 Hj0. replace i0 with 0%nat by lia. replace j0 with 0%nat by lia.
      transitivity (mmul n (mmul n (madj (ent qa)) M) (mmul n (msub mid (mmul k (ent D) G)) (ent q)) i j).
      { unfold mmul at 1 5. apply sum_ext. intros l Hl. rewrite (meq_at _ _ _ _ YM) by auto. f_equal.
        unfold mmul at 1 4. apply sum_ext. intros l' Hl'. rewrite Hq by auto. reflexivity. }
      assert (Z : meq nt nt (mmul n (mmul n (madj (ent qa)) M) (mmul n (msub mid (mmul k (ent D) G)) (ent q))) mzero).
      { rewrite mmul_sub_l, mmul_id_l, mmul_sub_r. apply msub_zero. unfold G. unfold wip in YD, DX, HH.
        rewrite (mmul_assoc n nt k n), (mmul_assoc k nt n n (madj (ent D')) M (ent q)), DX.
        rewrite <- (mmul_assoc nt nt n k _ (ent D)), (mmul_assoc nt k n n (madj (ent qa)) M (ent D)), YD.
        rewrite (mmul_assoc nt nt n n _ M (ent q)), (mmul_assoc nt nt k k (ent L)), <- (mmul_assoc k nt k k (mdiag s)), Hs, <- EX, HH. reflexivity. }
      rewrite (meq_at _ _ _ _ Z) by auto. reflexivity. }
    assert (Hobs : forall z : mat F, unseen n 1 S (ent C) 1 (mmul k (ent D) z) -> meq k 1 z mzero).
    { intros z Hz.
      assert (Z : meq nt 1 (mmul n (mmul n (madj (ent qa)) M) (mmul k (ent D) z)) mzero).
      { split. intros i j Hi Hj. replace j with 0%nat by lia. transitivity (mmul n (ent C) (mmul n (mpow n S i) (mmul k (ent D) z)) 0%nat 0%nat).
        2: { rewrite (meq_at _ _ _ _ (Hz i)) by lia. reflexivity. }
        assert (G0 : meq 1 1 (mmul n (ent C) (mmul n (mpow n S i) (mmul k (ent D) z))) (mmul n (mmul n (ent C) (mpow n S i)) (mmul k (ent D) z)))
          by (rewrite mmul_assoc; reflexivity).
        rewrite (meq_at _ _ _ _ G0) by lia. unfold mmul at 1 4. apply sum_ext. intros l Hl. rewrite (meq_at _ _ _ _ YM) by auto. reflexivity. }
      unfold wip in YD. rewrite <- (mmul_assoc nt 1 n k), (mmul_assoc nt k n n), YD in Z.
      assert (Z1 : meq k 1 (mmul k (mdiag s) z) (mmul k (mdiag s) mzero)).
      { rewrite mmul_zero_r. rewrite <- (mmul_zero_r k 1 nt (madj (ent L))), <- Z, !(mmul_assoc nt 1), <- mmul_assoc, LL, mmul_id_l. reflexivity. }
      apply (diag_cancel_l k 1 s); auto. }
    assert (EAr : meq k k (ent Ar) (mmul n G (mmul n (ent A) (ent D)))).
    { rewrite a4. unfold wip, G. cbn [ent AX]. rewrite (mmul_assoc k k n n). reflexivity. }
    assert (EBr : meq k 1 (ent Br) (mmul n G (ent B))).
    { rewrite b4. unfold wip, G. rewrite (mmul_assoc k 1 n n). reflexivity. }
    destruct (injective_inverse k (implicit dt (ent Ar))) as (T0 & HT0).
    { intros z Hz. apply (cn_reduced_inj n k 1 1 nt (dt / (1 + 1)) (ent A) S (ent B) (ent C) (ent D) G HS Hspan Hker Hnn Hobs).
      unfold implicit in Hz. rewrite EAr in Hz. exact Hz. }
    destruct (regular_step k dt (ent Ar)) as (Sr & HSr); [exists T0; auto|].
    exists Sr. split; [auto|]. intros j. unfold response. symmetry. cbn [ent CX].
    pose proof (cn_response n k 1 1 nt (dt / (1 + 1)) (ent A) S (ent B) (ent C) (ent D) G HS Hspan Hker Hnn
      (fun j => mmul k (mpow k Sr j) (ent Br))) as K.
    refine (meq_at _ _ _ _ (K _ _ j) 0%nat 0%nat _ _); try lia.
    { simpl. rewrite mmul_id_l. auto. }
    clear j. intros j. cbn [mpow]. unfold cn_step_of, implicit, explicit in HSr. rewrite EAr in HSr.
    rewrite !(mmul_assoc k 1), <- !(mmul_assoc k 1), HSr, !(mmul_assoc k 1). reflexivity.
Qed.
End Main.
