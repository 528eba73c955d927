(** C32: Galerkin projection of linear systems, handles. *)
From stdpp Require Import gmap list.
From Coq Require Import ZArith Lia Field Ring Setoid Morphisms.
From Verif Require Import Prelude Field FieldInst Matrix NdArray DecompModel VSArraysModel VSArraysProofs PodModel
  Spmd InnerProdProps HandlesModel HandlesProofs HandlesSpace HandlesExamples GalerkinModel GalerkinProps GalerkinHandlesModel.
Open Scope nat_scope.
Open Scope k_scope.

(** Column j of [R] holds the coordinates of the projection of the j-th of the vectors
    [xv] on the span of [bv]: the projection has the same inner products with the adjoint
    vectors [av], and no other R does that. *)
Definition matches {F : sfield} {V} (S : space F V) (bv av xv : list V) (R : mat F) : Prop :=
  forall i j d v, i < length bv -> j < length xv -> combination S bv (fun l => R l j) v ->
    ip S (nth i av d) v = ip S (nth i av d) (nth j xv d).
Record hgalerkin {F : sfield} {V} (S : space F V) (bv av xv : list V) (R : mat F) : Prop := {
  hg_matches : matches S bv av xv R;
  hg_unique : forall R', matches S bv av xv R' -> meq (length bv) (length xv) R' R
}.

Section Algebra.
Context {F : sfield} {V : Type} (S : space F V) (HS : ip_space S).
Implicit Types (bv av xv : list V) (R G T : mat F).
Local Notation ga a b := (NdArray.ent (gram S a b)).

Lemma matches_gram bv av xv R : bv <> [] -> length av = length bv ->
  matches S bv av xv R <-> meq (length bv) (length xv) (mmul (length bv) (ga av bv) R) (ga av xv).
Proof.
  intros Nb La. split.
  - intros H. split. intros i j Hi Hj. destruct (combination_exists S HS bv (fun l => R l j) Nb) as [v Hv].
    specialize (H i j v v Hi Hj Hv). rewrite (gram_ent S av xv v) by (auto; lia). rewrite <- H, (Hv (nth i av v)).
    unfold mmul. apply sum_ext. intros l Hl. rewrite (gram_ent S av bv v) by (auto; lia). reflexivity.
  - intros H i j d v Hi Hj Hv. rewrite (Hv (nth i av d)), <- (gram_ent S av xv d) by (auto; lia).
    rewrite <- (meq_at _ _ _ _ H i j Hi Hj). unfold mmul. apply sum_ext. intros l Hl.
    rewrite (gram_ent S av bv d) by (auto; lia). rewrite (nth_indep bv v d) by auto. reflexivity.
Qed.

Lemma hgalerkin_inv bv av xv T : bv <> [] -> length av = length bv ->
  meq (length bv) (length bv) (mmul (length bv) T (ga av bv)) mid ->
  hgalerkin S bv av xv (mmul (length bv) T (ga av xv)).
Proof.
  intros Nb La HT. pose proof (left_inverse_right _ _ _ HT) as HT'. split.
  - apply matches_gram; auto. rewrite <- mmul_assoc, HT', mmul_id_l. reflexivity.
  - intros R' H. apply matches_gram in H; auto. rewrite <- H, <- mmul_assoc, HT, mmul_id_l. reflexivity.
Qed.
Lemma hgalerkin_ext bv av xv R R' : bv <> [] -> length av = length bv -> meq (length bv) (length xv) R R' ->
  hgalerkin S bv av xv R -> hgalerkin S bv av xv R'.
Proof.
  intros Nb La E [H1 H2]. split.
  - apply matches_gram; auto. rewrite <- E. apply matches_gram; auto.
  - intros R'' H. rewrite <- E. auto.
Qed.

(** Vectors in the span of the basis, for instance A on the basis of an invariant
    subspace: exact, whatever the adjoint basis. *)
Theorem C32_handles_exact bv av xv R M : bv <> [] -> length av = length bv ->
  hgalerkin S bv av xv R -> coords S bv M xv -> meq (length bv) (length xv) R M.
Proof.
  intros Nb La [_ HU] HM. symmetry. apply HU. intros i j d v Hi Hj Hv.
  rewrite (Hv (nth i av d)), (HM j d Hj (nth i av d)). apply sum_ext. intros l Hl.
  rewrite (nth_indep bv v (nth j xv d)) by auto. reflexivity.
Qed.

(** The arrays that the object computes. *)
Definition reduced_by (orth : bool) (T : arr F) bv av xv (R : arr F) : Prop :=
  nr R = length bv /\ nc R = length xv /\
  meq (length bv) (length xv) (NdArray.ent R)
    (if orth then ga av xv else mmul (length bv) (NdArray.ent T) (ga av xv)).

Theorem C32_handles_galerkin orth (T : arr F) bv av xv (R : arr F) : bv <> [] -> length av = length bv ->
  (orth = false -> inv_contract (gram S av bv) T) ->
  (orth = true -> meq (length bv) (length bv) (ga av bv) mid) ->
  reduced_by orth T bv av xv R -> hgalerkin S bv av xv (NdArray.ent R).
Proof.
  intros Nb La HT HI (_ & _ & H). destruct orth.
  - eapply hgalerkin_ext; auto; [|apply (hgalerkin_inv bv av xv mid); auto].
    + rewrite H, mmul_id_l. reflexivity.
    + rewrite mmul_id_l. auto.
  - destruct (HT eq_refl) as (_ & _ & _ & T4). change (nr (gram S av bv)) with (length av) in T4. rewrite La in T4.
    eapply hgalerkin_ext; auto; [|apply (hgalerkin_inv bv av xv (NdArray.ent T)); auto]. rewrite H. reflexivity.
Qed.

End Algebra.

Section Runs.
Context {F : sfield} {V : Type} (S : space F V) (HS : ip_space S) (inv : arr F -> res (arr F)).
Implicit Types (st : gmap loc V).

Lemma holds_same (st : gmap loc V) hs vs vs' : holds st hs vs -> holds st hs vs' -> vs = vs'.
Proof.
  intros H. revert vs'. induction H as [|h v hs vs Hh H IH]; intros vs' H'; inversion H'; subst; auto.
  f_equal; [congruence|auto].
Qed.
Definition adj_of (basis : list loc) (adj : option (list loc)) : list loc := from_option id basis adj.
Lemma gh_new_ok basis adj orth (o : gh F) : gh_new basis adj orth = Ok o ->
  o = Gh basis (adj_of basis adj) (match adj with None => true | _ => false end) orth None None None None /\
  length (adj_of basis adj) = length basis.
Proof.
  unfold gh_new, adj_of. destruct adj as [a|]; simpl; [|intros [= <-]; auto].
  destruct (Nat.eqb_spec (length a) (length basis)); [|discriminate]. intros [= <-]. auto.
Qed.

(** The wrong number of adjoint vectors. *)
Theorem C32_handles_constructor basis adj orth : length adj <> length basis ->
  gh_new (F := F) basis (Some adj) orth = Raise ValueError.
Proof. intros H. unfold gh_new. rewrite (proj2 (Nat.eqb_neq _ _) H). reflexivity. Qed.

(** [o]: an object made with these arguments, after any calls. *)
Definition from_new basis adj orth (T : arr F) (o : gh F) : Prop :=
  gh_basis o = basis /\ gh_adjoint o = adj_of basis adj /\
  gh_symmetric o = (match adj with None => true | _ => false end) /\ gh_orthonormal o = orth /\
  forall T', gh_proj o = Some T' -> T' = T.

Definition hanswer st orth T bv av (c : hcall F) (l : list (arr F)) : Prop :=
  match c with
  | GA xs | GB xs => exists xv R, l = [R] /\ holds st xs xv /\ reduced_by S orth T bv av xv R
  | GC C => l = [transp (ndmin2 C)]
  | GModel xs ys C => exists xv yv R R', l = [R; R'; transp (ndmin2 C)] /\ holds st xs xv /\ holds st ys yv /\
      reduced_by S orth T bv av xv R /\ reduced_by S orth T bv av yv R'
  end.
(** The vectors a call uses. *)
Definition uses (c : hcall F) : list (list loc) :=
  match c with GA xs | GB xs => [xs] | GC _ => [] | GModel xs ys _ => [xs; ys] end.

(** reduce_C: column [j] is what is given for basis vector [j].  Numbers instead of arrays
    with one entry give a column, where LTIGalerkinProjectionArrays gives a row. *)
Theorem C32_handles_C (o : gh F) C : let R := snd (gh_reduce_C o C) in
  gh_C (fst (gh_reduce_C o C)) = Some R /\
  match C with
  | D2 X => nr R = nc X /\ nc R = nr X /\ forall i j, ent R i j = ent X j i
  | D1 l => nr R = length l /\ nc R = 1%nat /\ forall i, ent R i 0%nat = at1 l i
  end.
Proof. split; [reflexivity|]. destruct C; simpl; auto. Qed.

Section Fixed.
Context (basis : list loc) (adj : option (list loc)) (orth : bool) (T : arr F) (bv av : list V) (st : gmap loc V).
Hypothesis Hb : holds st basis bv.
Hypothesis Ha : holds st (adj_of basis adj) av.
Hypothesis Nb : basis <> [].
Hypothesis La : length (adj_of basis adj) = length basis.
Hypothesis Hinv : orth = false -> inv (gram S av bv) = Ok T /\ inv_contract (gram S av bv) T.

Lemma Lab : length av = length bv.
Proof. rewrite <- (Forall2_length _ _ _ Ha), La. apply (Forall2_length _ _ _ Hb). Qed.
Lemma Na : adj_of basis adj <> [].
Proof. intros E. pose proof La as L. rewrite E in L. destruct basis; [contradiction|discriminate]. Qed.

Lemma get_proj_ok o : from_new basis adj orth T o -> orth = false ->
  ok S st (gh_get_proj inv o) (fun st' r => st' = st /\ exists o', r = Ok (o', T) /\ from_new basis adj orth T o' /\
    gh_A o' = gh_A o /\ gh_B o' = gh_B o).
Proof.
  intros (H1 & H2 & H3 & H4 & H5) Ho. destruct (Hinv Ho) as [HT _]. unfold gh_get_proj.
  destruct (gh_proj o) as [T'|] eqn:E.
  - rewrite (H5 T' eq_refl). simpl. split; auto. exists o. split; [auto|]. split; [|auto].
    do 4 (split; [auto|]). rewrite E. auto.
  - assert (G : ok S st (if gh_symmetric o then symm_inner_products (gh_basis o)
             else inner_products (gh_adjoint o) (gh_basis o)) (fun st' r => st' = st /\ r = Ok (gram S av bv))).
    { rewrite H1, H2, H3. pose proof Ha as Ha'. pose proof La as La'. destruct adj as [a|]; simpl in *.
      - exists av, bv. do 2 (split; [auto|]). split; [|auto]. intros Ea. rewrite Ea in La'. destruct basis; [contradiction|discriminate].
      - exists bv. do 2 (split; [auto|]). assert (EE : av = bv) by (apply (holds_same st basis); auto). rewrite EE. auto. }
    apply ok_bind. eapply ok_mono; [exact G|]. intros st' r [-> ->]. 
    apply (ok_lift S (inv (gram S av bv)) T); auto. simpl. split; auto. eexists. split; [reflexivity|].
    split; [|auto]. do 4 (split; [auto|]). simpl. congruence.
Qed.

Lemma reduce_ok set o xs xv : set = set_A \/ set = set_B -> from_new basis adj orth T o -> holds st xs xv -> xs <> [] ->
  ok S st (gh_reduce inv set o xs) (fun st' r => st' = st /\ exists o' R, r = Ok (o', R) /\ from_new basis adj orth T o' /\
    reduced_by S orth T bv av xv R /\
    (set = set_A -> gh_A o' = Some R /\ gh_B o' = gh_B o) /\ (set = set_B -> gh_B o' = Some R /\ gh_A o' = gh_A o)).
Proof.
  intros Hset HO Hx Nx. pose proof HO as (H1 & H2 & H3 & H4 & H5). unfold gh_reduce. rewrite H2.
  eapply ok_ip; eauto using Na. set (R := gram S av xv).
  assert (HO' : from_new basis adj orth T (set o R)) by (destruct Hset as [-> | ->]; split; simpl; auto).
  assert (EO : gh_orthonormal (set o R) = orth) by apply HO'. cbv zeta. rewrite EO.
  assert (Eo : orth = true \/ orth = false) by (destruct orth; auto). destruct Eo as [Eo|Eo].
  - match goal with |- ok _ _ (if orth then ?a else ?b) _ => replace (if orth then a else b) with a by (rewrite Eo; reflexivity) end.
    simpl. split; auto. exists (set o R), R. split; auto. split; auto. split.
    { split; [exact Lab|]. split; [reflexivity|]. rewrite Eo. reflexivity. }
    split; intros ->; simpl; auto.
  - match goal with |- ok _ _ (if orth then ?a else ?b) _ => replace (if orth then a else b) with b by (rewrite Eo; reflexivity) end.
    apply ok_bind. eapply ok_mono; [apply (get_proj_ok (set o R)); auto|].
    intros st' r (-> & o' & -> & HO2 & EA & EB). cbn [snd fst].
    destruct (Hinv Eo) as (_ & T1 & T2 & T3 & _).
    change (nr (gram S av bv)) with (length av) in T1, T2.
    assert (ED : dot T R = Ok (Arr (length av) (length xv) (mmul (length av) (NdArray.ent T) (NdArray.ent R)))).
    { unfold dot. rewrite T1, T2. change (nr R) with (length av). rewrite Nat.eqb_refl. reflexivity. }
    apply (ok_lift S (dot T R) _ _ _ _ ED). simpl. split; auto. eexists _, _. split; [reflexivity|].
    split; [destruct Hset as [-> | ->]; destruct HO2 as (K1 & K2 & K3 & K4 & K5); split; simpl; auto|].
    split.
    { split; [exact Lab|]. split; [reflexivity|]. rewrite Eo. simpl. rewrite Lab. reflexivity. }
    split; intros Es; subst set; simpl in *; rewrite ?EA, ?EB; auto.
Qed.

Lemma hcall_ok o c : from_new basis adj orth T o ->
  (forall xs, xs ∈ uses c -> xs <> [] /\ exists xv, holds st xs xv) ->
  ok S st (do_hcall inv o c) (fun st' r => st' = st /\ exists o' l, r = Ok (o', l) /\ from_new basis adj orth T o' /\
    hanswer st orth T bv av c l).
Proof.
  intros HO HU. destruct c as [xs|xs|C|xs ys C]; cbn [do_hcall uses] in *.
  - destruct (HU xs) as (Nx & xv & Hx); [set_solver|]. apply ok_bind.
    eapply ok_mono; [apply (reduce_ok set_A o xs xv); auto|]. intros st' r (-> & o' & R & -> & HO' & HR & _).
    cbn. split; auto. exists o', [R]. split; auto. split; auto. exists xv, R. auto.
  - destruct (HU xs) as (Nx & xv & Hx); [set_solver|]. apply ok_bind.
    eapply ok_mono; [apply (reduce_ok set_B o xs xv); auto|]. intros st' r (-> & o' & R & -> & HO' & HR & _).
    cbn. split; auto. exists o', [R]. split; auto. split; auto. exists xv, R. auto.
  - simpl. split; auto. eexists _, _. split; [reflexivity|]. split; [|reflexivity].
    destruct HO as (K1 & K2 & K3 & K4 & K5). split; simpl; auto.
  - destruct (HU xs) as (Nx & xv & Hx); [set_solver|]. destruct (HU ys) as (Ny & yv & Hy); [set_solver|].
    apply ok_bind. unfold gh_compute_model. apply ok_bind.
    eapply ok_mono; [apply (reduce_ok set_A o xs xv); auto|]. intros st' r (-> & o1 & R & -> & HO1 & HR & HA & _).
    cbn [fst snd]. apply ok_bind.
    eapply ok_mono; [apply (reduce_ok set_B o1 ys yv); auto|]. intros st' r (-> & o2 & R' & -> & HO2 & HR' & _ & HB).
    destruct (HA eq_refl) as [EA _]. destruct (HB eq_refl) as [EB EA']. rewrite EA in EA'. clear HA HB.
    cbn. rewrite EA', EB. cbn. split; auto. eexists _, _. split; [reflexivity|]. split.
    + destruct HO2 as (K1 & K2 & K3 & K4 & K5). split; simpl; auto.
    + exists xv, yv, R, R'. auto 6.
Qed.

Lemma hcalls_ok cs : forall o, from_new basis adj orth T o ->
  (forall c xs, c ∈ cs -> xs ∈ uses c -> xs <> [] /\ exists xv, holds st xs xv) ->
  ok S st (do_hcalls inv o cs) (fun st' r => st' = st /\ exists ls, r = Ok ls /\ Forall2 (hanswer st orth T bv av) cs ls).
Proof.
  induction cs as [|c cs IH]; intros o HO HU; cbn [do_hcalls].
  - simpl. split; auto. exists []. auto.
  - apply ok_bind. eapply ok_mono; [apply hcall_ok; auto|].
    { intros xs Hxs. apply (HU c); auto. set_solver. }
    intros st' r (-> & o' & l & -> & HO' & Hl). cbn [fst snd]. apply ok_bind.
    eapply ok_mono; [apply IH; auto|].
    { intros c' xs Hc. apply HU. set_solver. }
    intros st' r (-> & ls & -> & Hls). simpl. split; auto. exists (l :: ls). auto.
Qed.

End Fixed.

(** Every history of calls, on any number of processes: every rank ends with the same
    arrays, those of a new object, and no vector is changed. *)
Theorem C32_handles limit P tag_ub eager basis adj orth (o : gh F) bv av T st cs :
  set_up limit P tag_ub S -> gh_new basis adj orth = Ok o -> basis <> [] ->
  holds st basis bv -> holds st (adj_of basis adj) av ->
  (orth = false -> inv (gram S av bv) = Ok T /\ inv_contract (gram S av bv) T) ->
  (forall c xs, c ∈ cs -> xs ∈ uses c -> xs <> [] /\ exists xv, holds st xs xv) ->
  runs S P tag_ub eager st (do_hcalls inv o cs)
    (fun st' r => st' = st /\ exists ls, r = Ok ls /\ Forall2 (hanswer st orth T bv av) cs ls).
Proof.
  intros Hup Hn Nb Hb Ha HT HU. destruct (gh_new_ok _ _ _ _ Hn) as [-> L].
  apply (ok_runs S limit); auto. apply (hcalls_ok basis adj orth T bv av st); auto. repeat split; discriminate.
Qed.

(** A singular array of inner products: every rank raises. *)
Theorem C32_handles_singular limit P tag_ub eager basis adj (o : gh F) bv av st xs xv e :
  set_up limit P tag_ub S -> gh_new basis adj false = Ok o -> basis <> [] ->
  holds st basis bv -> holds st (adj_of basis adj) av -> inv (gram S av bv) = Raise e ->
  holds st xs xv -> xs <> [] ->
  runs S P tag_ub eager st (do_hcalls inv o [GA xs]) (fun st' r => st' = st /\ r = Raise e).
Proof.
  intros Hup Hn Nb Hb Ha HT Hx Nx. destruct (gh_new_ok _ _ _ _ Hn) as [-> L].
  assert (Na' : adj_of basis adj <> []).
  { intros E. rewrite E in L. destruct basis; [contradiction|discriminate]. }
  apply (ok_runs S limit); auto. cbn [do_hcalls do_hcall]. apply ok_bind, ok_bind. unfold gh_reduce_A, gh_reduce. cbn [gh_adjoint].
  eapply ok_ip; eauto. cbn. destruct adj as [a|]; simpl in *.
  - exists av, bv. do 4 (split; [auto|]). rewrite HT. cbn. auto.
  - exists bv. assert (EE : av = bv) by (apply (holds_same st basis); auto). rewrite EE in *.
    do 2 (split; [auto|]). rewrite HT. cbn. auto.
Qed.

(** The inner products that a program asks for: [l], in this order, whatever the answers,
    unless it raises before. *)
Inductive hcmd := CIp (rows cols : list loc) | CSymm (vecs : list loc).
Fixpoint issues {A} (l : list hcmd) (h : hprog F A) : Prop :=
  match h with
  | HRet _ => l = []
  | HFail _ => True
  | HIp rows cols k => exists l', l = CIp rows cols :: l' /\ forall a, issues l' (k a)
  | HSymm vecs k => exists l', l = CSymm vecs :: l' /\ forall a, issues l' (k a)
  | HCall _ _ | HLin _ _ _ _ _ => False
  end.
(** The same, and [Q] holds of what is returned. *)
Fixpoint issues_ret {A} (l : list hcmd) (Q : A -> Prop) (h : hprog F A) : Prop :=
  match h with
  | HRet a => l = [] /\ Q a
  | HFail _ => True
  | HIp rows cols k => exists l', l = CIp rows cols :: l' /\ forall a, issues_ret l' Q (k a)
  | HSymm vecs k => exists l', l = CSymm vecs :: l' /\ forall a, issues_ret l' Q (k a)
  | HCall _ _ | HLin _ _ _ _ _ => False
  end.
Lemma issues_bind {A B} l l' Q (h : hprog F A) (f : A -> hprog F B) R : issues_ret l Q h ->
  (forall a, Q a -> issues_ret l' R (f a)) -> issues_ret (l ++ l') R (hbind h f).
Proof.
  intros H G. revert l H. induction h as [a|e|r c k IH|v k IH|call k IH|s b co ix k IH]; intros l H; simpl in *; try tauto.
  - destruct H as [-> Ha]. apply G, Ha.
  - destruct H as (l1 & -> & H). exists (l1 ++ l'). split; [reflexivity|]. intros a. apply IH; auto.
  - destruct H as (l1 & -> & H). exists (l1 ++ l'). split; [reflexivity|]. intros a. apply IH; auto.
Qed.
Lemma issues_ret_issues {A} l Q (h : hprog F A) : issues_ret l Q h -> issues l h.
Proof.
  revert l. induction h as [a|e|r c k IH|v k IH|call k IH|s b co ix k IH]; intros l Hl; simpl in *; try tauto;
    destruct Hl as (l1 & -> & Hl); exists l1; split; auto.
Qed.

Section Commands.
Context (basis : list loc) (adj : option (list loc)) (orth : bool).
(** For the array T. *)
Definition gram_cmd : hcmd := match adj with None => CSymm basis | Some a => CIp a basis end.
Definition made (cached : bool) (o : gh F) : Prop :=
  gh_basis o = basis /\ gh_adjoint o = adj_of basis adj /\
  gh_symmetric o = (match adj with None => true | _ => false end) /\ gh_orthonormal o = orth /\
  (orth = false -> (gh_proj o = None <-> cached = false)).
Definition cmds (cached : bool) (xs : list loc) : list hcmd :=
  CIp (adj_of basis adj) xs :: (if orth || cached then [] else [gram_cmd]).

Lemma reduce_issues set c (o : gh F) xs : set = set_A \/ set = set_B -> made c o ->
  issues_ret (cmds c xs) (fun p => made true (fst p)) (gh_reduce inv set o xs).
Proof.
  intros Hset (H1 & H2 & H3 & H4 & H5). unfold gh_reduce, cmds. rewrite H2. simpl. eexists. split; [reflexivity|]. intros R.
  assert (EO : gh_orthonormal (set o R) = orth) by (destruct Hset as [-> | ->]; exact H4). rewrite EO.
  assert (M' : forall (o' : gh F) X, made true o' -> made true (set o' X)) by (intros o' X Hm; destruct Hset as [-> | ->]; exact Hm).
  assert (Eo : orth = true \/ orth = false) by (destruct orth; auto). destruct Eo as [Eo|Eo].
  { rewrite Eo. simpl. split; [reflexivity|].
    destruct Hset as [-> | ->]; (do 4 (split; [auto|])); intros E; rewrite Eo in E; discriminate. }
  rewrite Eo. simpl orb. rewrite <- (app_nil_r (if c then [] else [gram_cmd])).
  apply (issues_bind _ _ (fun p => made true (fst p))).
  - unfold gh_get_proj. assert (EP : gh_proj (set o R) = gh_proj o) by (destruct Hset as [-> | ->]; reflexivity). rewrite EP.
    assert (Hs : gh_basis (set o R) = basis /\ gh_adjoint (set o R) = adj_of basis adj /\
      gh_symmetric (set o R) = (match adj with None => true | _ => false end)) by (destruct Hset as [-> | ->]; auto).
    destruct Hs as (S1 & S2 & S3). destruct (gh_proj o) as [T|] eqn:E.
    + destruct c; [|pose proof (proj2 (H5 Eo) eq_refl); discriminate].
      simpl. split; [reflexivity|]. do 4 (split; [auto|]). intros _. rewrite EP. split; discriminate.
    + destruct c; [assert (X : true = false) by (apply H5; auto); discriminate|].
      assert (Q : forall G, issues_ret [] (fun p : gh F * arr F => made true (fst p))
        (hbind (hlift (inv G)) (fun T => HRet (set_proj (set o R) T, T)))).
      { intros G. destruct (inv G) as [T|]; simpl; auto. split; [reflexivity|].
        do 4 (split; [auto|]). intros _. split; discriminate. }
      rewrite S1, S2, S3. unfold gram_cmd. destruct adj as [a|]; simpl; (eexists; split; [reflexivity|exact Q]).
  - intros [o' T] Hm. simpl in *. destruct (dot T R); simpl; auto.
Qed.

(** The lists of vectors that are reduced, in order. *)
Definition reduced (cs : list (hcall F)) : list (list loc) := concat (map uses cs).
Definition history (cached : bool) (xs : list (list loc)) : list hcmd :=
  match xs with
  | [] => []
  | x :: xs => CIp (adj_of basis adj) x :: (if orth || cached then [] else [gram_cmd]) ++ map (CIp (adj_of basis adj)) xs
  end.
Lemma history_app c xs ys : history c (xs ++ ys) = history c xs ++ history (c || match xs with [] => false | _ => true end) ys.
Proof.
  destruct xs as [|x xs]; simpl; [rewrite orb_false_r; reflexivity|]. rewrite orb_true_r, map_app, app_assoc. f_equal. f_equal.
  destruct ys as [|y ys]; simpl; [reflexivity|]. rewrite orb_true_r. reflexivity.
Qed.

Lemma hcall_issues c (o : gh F) k : made c o ->
  issues_ret (history c (uses k)) (fun p => made (c || match uses k with [] => false | _ => true end) (fst p)) (do_hcall inv o k).
Proof.
  intros Hm. destruct k as [xs|xs|C|xs ys C]; cbn [do_hcall uses].
  - rewrite orb_true_r. rewrite <- (app_nil_r (history _ _)).
    apply (issues_bind _ _ (fun p => made true (fst p))); [|intros p Hp; simpl; auto].
    replace (history c [xs]) with (cmds c xs) by (unfold history, cmds; rewrite app_nil_r; reflexivity).
    apply (reduce_issues set_A); auto.
  - rewrite orb_true_r. rewrite <- (app_nil_r (history _ _)).
    apply (issues_bind _ _ (fun p => made true (fst p))); [|intros p Hp; simpl; auto].
    replace (history c [xs]) with (cmds c xs) by (unfold history, cmds; rewrite app_nil_r; reflexivity).
    apply (reduce_issues set_B); auto.
  - simpl. rewrite orb_false_r. auto.
  - rewrite orb_true_r. rewrite <- (app_nil_r (history _ _)).
    apply (issues_bind _ _ (fun p => made true (fst p))); [|intros p Hp; simpl; auto].
    unfold gh_compute_model. replace (history c [xs; ys]) with (cmds c xs ++ cmds true ys ++ []).
    2: { unfold history, cmds. rewrite orb_true_r. reflexivity. }
    apply (issues_bind _ _ (fun p => made true (fst p))); [apply reduce_issues; auto|]. intros p Hp.
    apply (issues_bind _ _ (fun p => made true (fst p))); [apply reduce_issues; auto|]. intros p' Hp'. cbv zeta.
    destruct (gh_A _); simpl; auto. destruct (gh_B _); simpl; auto.
Qed.
Lemma hcalls_issues cs : forall c (o : gh F), made c o ->
  issues_ret (history c (reduced cs)) (fun _ => True) (do_hcalls inv o cs).
Proof.
  induction cs as [|k cs IH]; intros c o Hm; cbn [do_hcalls]; [simpl; auto|].
  change (reduced (k :: cs)) with (uses k ++ reduced cs). rewrite history_app.
  apply (issues_bind _ _ _ _ _ _ (hcall_issues c o k Hm)). intros p Hp.
  rewrite <- (app_nil_r (history _ _)). apply (issues_bind _ _ (fun _ => True)); [apply IH, Hp|]. intros l _. simpl. auto.
Qed.
End Commands.

(** A history of calls asks for the inner products of the adjoint basis with each list
    of vectors, once each; those of the bases are asked for once, in the first reduction,
    and not at all if the basis is declared orthonormal. *)
Theorem C32_handles_commands basis adj orth (o : gh F) cs : gh_new basis adj orth = Ok o ->
  issues (history basis adj orth false (reduced cs)) (do_hcalls inv o cs).
Proof.
  intros Hn. destruct (gh_new_ok _ _ _ _ Hn) as [-> _].
  eapply issues_ret_issues, hcalls_issues. do 4 (split; [reflexivity|]). intros _. split; reflexivity.
Qed.

End Runs.

(** ** Example: the operator, bases and weights of GalerkinProps.v, on three processes *)
Definition gh_W : mat QI := mdiag (at1 [qi 2 0 1; qi 1 0 1; qi 3 0 1]).
Definition gh_col (A : arr QI) (j : nat) : nat -> QI := fun i => NdArray.ent A i j.
Definition gh_store : gmap loc (nat -> QI) :=
  <[1%nat := gh_col g_Phi 0]> (<[2%nat := gh_col g_Phi 1]> (<[3%nat := gh_col g_Psi 0]> (<[4%nat := gh_col g_Psi 1]>
  (<[5%nat := gh_col g_X 0]> (<[6%nat := gh_col g_X 1]> ∅))))).
Lemma gh_hermitian : hermitian 3 gh_W.
Proof. apply meqb_true. vm_compute. reflexivity. Qed.
Lemma gh_set_up : set_up (Some 1%Z) 3 20 (wspace (F := QI) 3 gh_W 9 3 1).
Proof. split; [split; [simpl; lia|]; split; [simpl; lia|reflexivity]|simpl; lia]. Qed.

Notation gh_space := (wspace (F := QI) 3 gh_W 9 3 1).
Lemma gh_inverse : exists T, g_inv (gram gh_space (columns g_Psi) (columns g_Phi)) = Ok T /\
  inv_contract (gram gh_space (columns g_Psi) (columns g_Phi)) T.
Proof.
  set (S := gh_space).
  assert (EG : forall A B i j, (i < nc A)%nat -> (j < nc B)%nat ->
    NdArray.ent (gram S (columns A) (columns B)) i j = wip 3 gh_W (NdArray.ent A) (NdArray.ent B) i j).
  { intros A B i j Hi Hj. rewrite (gram_ent S _ _ (fun _ => 0)) by (rewrite columns_length; auto).
    unfold S. rewrite columns_ip by auto. reflexivity. }
  unfold g_inv. rewrite !EG by (simpl; lia).
    match goal with |- context [keqb ?d 0] => replace (keqb d 0) with false by (vm_compute; reflexivity) end.
    eexists. split; [reflexivity|]. split; [auto|]. split; [auto|]. split; [auto|].
    change (nr (gram S (columns g_Psi) (columns g_Phi))) with 2%nat.
    assert (E2 : meq 2 2 (NdArray.ent (gram S (columns g_Psi) (columns g_Phi))) (wip 3 gh_W (NdArray.ent g_Psi) (NdArray.ent g_Phi)))
      by (split; intros; apply EG; auto).
    rewrite E2. apply meqb_true. vm_compute. reflexivity.
Qed.
Lemma gh_coords : coords gh_space (columns g_Phi) g_M (columns g_X).
Proof.
  set (S := gh_space).
  intros j d Hj. change (length (columns g_X)) with 2%nat in Hj. intros u.
    assert (EM : meq 3 2 (NdArray.ent g_X) (mmul 2 (NdArray.ent g_Phi) g_M)) by (apply meqb_true; vm_compute; reflexivity).
    assert (E1 : meq 1 2 (wip 3 gh_W (fun i _ => u i) (NdArray.ent g_X)) (mmul 2 (wip 3 gh_W (fun i _ => u i) (NdArray.ent g_Phi)) g_M))
      by (rewrite EM, wip_mul_r; reflexivity).
    pose proof (meq_at _ _ _ _ E1 O j ltac:(lia) Hj) as E2. destruct j as [|[|j]]; [exact E2|exact E2|lia].
Qed.

Example C32_handles_example eager : exists o : gh QI, gh_new [1; 2]%nat (Some [3; 4]%nat) false = Ok o /\
  runs (wspace (F := QI) 3 gh_W 9 3 1) 3 20 eager gh_store
    (do_hcalls g_inv o [GB [6]%nat; GModel [5; 6]%nat [5]%nat (D2 (eye 2)); GA [5; 6]%nat])
    (fun st' r => st' = gh_store /\ exists R1 R2 R3 R4, r = Ok [[R1]; [R2; R3; transp (eye 2)]; [R4]] /\
      meq 2 2 (NdArray.ent R2) g_M /\ meq 2 2 (NdArray.ent R4) g_M /\ meq 2 1 (NdArray.ent R1) (mcols g_M (fun _ => 1%nat))).
Proof.
  set (S := wspace (F := QI) 3 gh_W 9 3 1).
  assert (HS : ip_space S) by (apply wspace_ip, gh_hermitian).
  destruct gh_inverse as (T & ET & CT). eexists. split; [reflexivity|].
  assert (HX : holds gh_store [5; 6]%nat (columns g_X)) by (repeat constructor).
  assert (HPhi : holds gh_store [1; 2]%nat (columns g_Phi)) by (repeat constructor).
  assert (HPsi : holds gh_store [3; 4]%nat (columns g_Psi)) by (repeat constructor).
  assert (H6 : holds gh_store [6]%nat [gh_col g_X 1]) by (repeat constructor).
  assert (H5 : holds gh_store [5]%nat [gh_col g_X 0]) by (repeat constructor).
  pose proof gh_coords as HM. fold S in HM.
  eapply runs_mono.
  - apply (C32_handles S HS g_inv (Some 1%Z) 3 20 eager [1; 2]%nat (Some [3; 4]%nat) false (Gh [1; 2]%nat [3; 4]%nat false false None None None None)
      (columns g_Phi) (columns g_Psi) T gh_store
      [GB [6]%nat; GModel [5; 6]%nat [5]%nat (D2 (eye 2)); GA [5; 6]%nat] gh_set_up eq_refl); [discriminate|exact HPhi|exact HPsi|intros _; split; assumption|].
    intros c xs Hc Hxs. apply elem_of_list_In in Hc. apply elem_of_list_In in Hxs.
    destruct Hc as [<-|[<-|[<-|[]]]].
    + destruct Hxs as [<-|[]]. split; [discriminate|eauto].
    + destruct Hxs as [<-|[<-|[]]]; (split; [discriminate|eauto]).
    + destruct Hxs as [<-|[]]. split; [discriminate|eauto].
  - cbv beta. intros st' r (-> & ls & -> & HF). split; auto.
    inversion HF as [|c1 l1 cs1 ls1 A1 HF1 Q1 Q2]; subst; clear HF.
    inversion HF1 as [|c2 l2 cs2 ls2 A2 HF2 Q1 Q2]; subst; clear HF1.
    inversion HF2 as [|c3 l3 cs3 ls3 A3 HF3 Q1 Q2]; subst; clear HF2. inversion HF3; subst; clear HF3.
    destruct A1 as (x1 & R1 & -> & B1 & C1). destruct A2 as (x2 & y2 & R2 & R3 & -> & B2 & B2' & C2 & C2').
    destruct A3 as (x4 & R4 & -> & B4 & C4).
    rewrite <- (holds_same _ _ _ _ HX B2) in C2. rewrite <- (holds_same _ _ _ _ HX B4) in C4.
    rewrite <- (holds_same _ _ _ _ H6 B1) in C1.
    exists R1, R2, R3, R4. split; [reflexivity|].
    assert (N : columns g_Phi <> []) by discriminate.
    assert (K : forall xv (R : arr QI), reduced_by S false T (columns g_Phi) (columns g_Psi) xv R ->
      hgalerkin S (columns g_Phi) (columns g_Psi) xv (NdArray.ent R)).
    { intros xv R HR. apply (C32_handles_galerkin S HS false T); auto. discriminate. }
    split; [|split].
    + apply (C32_handles_exact S (columns g_Phi) (columns g_Psi) (columns g_X)); auto.
    + apply (C32_handles_exact S (columns g_Phi) (columns g_Psi) (columns g_X)); auto.
    + apply (C32_handles_exact S (columns g_Phi) (columns g_Psi) [gh_col g_X 1]); auto.
      intros j d Hj. destruct j; [|simpl in Hj; lia]. exact (HM 1%nat d ltac:(simpl; lia)).
Qed.

(** Two basis vectors and one output, as arrays with one entry and as numbers. *)
Example C32_handles_C_example (o : gh QI) :
  let R := snd (gh_reduce_C o (D2 (of_rows 1 [[qi 3 0 1]; [qi 0 1 1]]))) in
  let R' := snd (gh_reduce_C o (D1 [qi 3 0 1; qi 0 1 1])) in
  nr R = 1%nat /\ nc R = 2%nat /\ ent R 0%nat 1%nat = qi 0 1 1 /\ nr R' = 2%nat /\ nc R' = 1%nat.
Proof. simpl. auto. Qed.

Example C32_handles_constructor_example : gh_new (F := QI) [1; 2]%nat (Some [3]%nat) false = Raise ValueError.
Proof. apply C32_handles_constructor. discriminate. Qed.
(** A basis with the same vector twice. *)
Example C32_handles_singular_example eager : exists o : gh QI, gh_new [1; 1]%nat None false = Ok o /\
  runs gh_space 3 20 eager gh_store (do_hcalls (fun _ => Raise LinAlgError) o [GA [5; 6]%nat])
    (fun st' r => st' = gh_store /\ r = Raise LinAlgError).
Proof.
  eexists. split; [reflexivity|].
  apply (C32_handles_singular gh_space (wspace_ip 3 gh_W 9 3 1 gh_hermitian) (fun _ => Raise LinAlgError) (Some 1%Z) 3 20 eager
    [1; 1]%nat None _ [gh_col g_Phi 0; gh_col g_Phi 0] [gh_col g_Phi 0; gh_col g_Phi 0] gh_store [5; 6]%nat (columns g_X) LinAlgError gh_set_up);
    try reflexivity; try discriminate; repeat constructor.
Qed.

Example C32_handles_commands_example : exists o : gh QI, gh_new [1; 2]%nat (Some [3; 4]%nat) false = Ok o /\
  issues [CIp [3; 4] [6]; CIp [3; 4] [1; 2]; CIp [3; 4] [5; 6]; CIp [3; 4] [5]; CIp [3; 4] [5; 6]]%nat
    (do_hcalls g_inv o [GB [6]%nat; GModel [5; 6]%nat [5]%nat (D2 (eye 2)); GA [5; 6]%nat]).
Proof.
  eexists. split; [reflexivity|].
  exact (C32_handles_commands g_inv [1; 2]%nat (Some [3; 4]%nat) false _ [GB [6]%nat; GModel [5; 6]%nat [5]%nat (D2 (eye 2)); GA [5; 6]%nat] eq_refl).
Qed.

Print Assumptions C32_handles.
Print Assumptions C32_handles_commands.
Print Assumptions C32_handles_exact.
Print Assumptions C32_handles_galerkin.
Print Assumptions C32_handles_constructor.
Print Assumptions C32_handles_singular.
Print Assumptions C32_handles_C.
