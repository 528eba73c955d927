(** Property C47 for the class PODHandles, on any number of processes. *)
From stdpp Require Import gmap list.
From Coq Require Import ZArith Lia Field Ring Setoid Morphisms.
From Verif Require Import Prelude Field FieldInst Matrix NdArray DecompModel DecompProofs DecompProps
  VSArraysModel VSArraysProofs PodModel PodProofs PodProps OptimalProofs OptimalProps Spmd LinCombModel
  InnerProdProps HandlesModel HandlesProofs HandlesSpace HandlesExamples PodHandlesModel PodHandlesProps
  TlsExamples DmdExamples.
Open Scope nat_scope.
Open Scope k_scope.

Section Space.
Context {F : sfield} {V : Type} (S : space F V) (HS : ip_space S).
Add Field Ff_opth : (k_field F).

Definition ip_positive : Prop := forall v, kle 0 (ip S v v).

(** The squared distance of two vectors, and the sum over two lists of them. *)
Definition sq_dist (u v : V) : F := ip S u u - ip S u v - ip S v u + ip S v v.
Fixpoint total_error (vs ys : list V) : F :=
  match vs, ys with
  | v :: vs, y :: ys => sq_dist v y + total_error vs ys
  | _, _ => 0
  end.

(** The vectors [ys] are the combinations of [us] with the columns of [B]. *)
Definition made (us : list V) (B : mat F) (ys : list V) : Prop :=
  forall j d, j < length ys -> combination S us (fun a => B a j) (nth j ys d).

Lemma total_error_sum vs : forall ys d, length ys = length vs ->
  total_error vs ys = sum (length vs) (fun j => sq_dist (nth j vs d) (nth j ys d)).
Proof.
  induction vs as [|v vs IH]; intros [|y ys] d E; try discriminate; [reflexivity|].
  cbn [length total_error]. rewrite sum_S_l. cbn [nth]. rewrite (IH ys d) by (simpl in E; lia). reflexivity.
Qed.

Lemma gmat_positive all : ip_positive -> positive (length all) (gmat S all).
Proof.
  intros HP. split; [apply gmat_hermitian; auto|]. intros c.
  destruct all as [|a all']; [apply le_refl|]. set (all := a :: all').
  destruct (combination_exists S HS all c) as [x Hx]; [discriminate|].
  rewrite <- (combination_ip S HS all c c x x Hx Hx). apply HP.
Qed.

Lemma error_total all (X Y : mat F) vs ys : length ys = length vs ->
  coords S all X vs -> coords S all Y ys ->
  error (length all) (length vs) (gmat S all) X Y = total_error vs ys.
Proof.
  intros L HX HY. destruct vs as [|d vs'].
  { destruct ys; [reflexivity|discriminate]. }
  set (vs := d :: vs') in *. rewrite (total_error_sum vs ys d L).
  unfold error. apply sum_ext. intros j Hj.
  change (wip (length all) (gmat S all) (msub X Y) (msub X Y) j j
    = sq_dist (nth j vs d) (nth j ys d)).
  rewrite (meq_at _ _ _ _ (ip_sub_l (length all) (gmat S all) (length vs) (length vs) X Y (msub X Y)) j j Hj Hj).
  unfold msub at 1.
  rewrite (meq_at _ _ _ _ (ip_sub_r (length all) (gmat S all) (length vs) (length vs) X X Y) j j Hj Hj).
  rewrite (meq_at _ _ _ _ (ip_sub_r (length all) (gmat S all) (length vs) (length vs) Y X Y) j j Hj Hj).
  unfold msub, sq_dist.
  rewrite (coords_ip S HS all X X vs vs j j d HX HX Hj Hj).
  rewrite (coords_ip S HS all X Y vs ys j j d HX HY Hj) by lia.
  rewrite (coords_ip S HS all Y X ys vs j j d HY HX) by lia.
  rewrite (coords_ip S HS all Y Y ys ys j j d HY HY) by lia.
  ring.
Qed.

(** The first [q] of the modes [ms] of [vs], with the coefficients [pc], are closest to
    [vs]; the error is the sum of the eigenvalues left out. *)
Definition best_modes (w : list F) (vs ms : list V) (pc : arr F) (q : nat) : Prop :=
  forall xs, length xs = length vs -> made (take q ms) (NdArray.ent pc) xs ->
    total_error vs xs = sum (length w - q) (fun i => at1 w (q + i)) /\
    forall us B ys, length us = q -> length ys = length vs -> made us B ys ->
      kle (total_error vs xs) (total_error vs ys).

Lemma handles_best sqrt vs C w0 V0 w atol rtol E U pc js ms q :
  ip_positive ->
  nr C = length vs -> nc C = length vs ->
  (forall i j d, i < length vs -> j < length vs -> NdArray.ent C i j = ip S (nth i vs d) (nth j vs d)) ->
  eigh_contract C w0 V0 -> eigh_result C w0 w atol rtol E U -> Forall (klt_p 0) E ->
  (forall e, In e w0 -> klt_p 0 e -> sqrt_ok sqrt e) ->
  pod_modes S sqrt vs E U pc js ms ->
  q <= length js -> q <= length E -> (forall a, a < q -> nth a js O = a) ->
  best_modes w vs ms pc q.
Proof.
  intros HP Cr Cc HC HE HR Pos Hsq HM Hq Hk Hjs xs Lxs Hxs.
  set (T := length vs) in *. set (k := length E) in *.
  set (s := fun i => sqrt (at1 E i)).
  assert (Sq : forall i, i < k -> sqrt_ok sqrt (at1 E i)).
  { intros i Hi. apply Hsq; [|apply (Forall_at (klt_p 0)); auto].
    rewrite <- (er_perm _ _ _ _ _ _ _ HR). apply prefix_in; auto. apply (er_prefix _ _ _ _ _ _ _ HR). }
  assert (Ns : forall i, i < k -> s i <> 0).
  { intros i Hi. apply (sqrt_ok_neq sqrt (at1 E i)); [apply Sq; auto|]. intros E0.
    pose proof (Forall_at _ _ i Pos Hi) as G. rewrite E0 in G.
    red in G. rewrite (lt_irrefl F 0 real_0) in G. discriminate. }
  set (mq := take q ms).
  assert (Lm : length mq = q).
  { unfold mq. rewrite take_length, (pm_len _ _ _ _ _ _ _ _ HM). lia. }
  assert (Nm : forall a d, a < q -> nth a mq d = nth a ms d).
  { intros a d Ha. unfold mq. rewrite <- (take_drop q ms) at 2. rewrite app_nth1; auto. fold mq. lia. }
  set (Bm := (fun i a => NdArray.ent U i a * (1 / s a)) : mat F).
  assert (HB : coords S vs Bm mq).
  { intros a d Ha. rewrite Lm in Ha. rewrite Nm by auto.
    pose proof (pm_comb _ _ _ _ _ _ _ _ HM a d ltac:(lia)) as G. rewrite Hjs in G by auto. exact G. }
  (* everything in coordinates with respect to the data and other vectors *)
  assert (G : forall us, exists X Phi, let all := vs ++ us in
    coords S all (NdArray.ent X) vs /\ coords S all (NdArray.ent Phi) mq /\ nr X = length all /\ nc X = T /\
    best X (gmat S all) w Phi (Arr q T (NdArray.ent pc)) q).
  { intros us. set (all := vs ++ us). set (M := length all). set (W := gmat S all).
    set (X := Arr M T (sel (F := F) 0)). set (Phi := Arr M q (mmul T (sel 0) Bm)).
    assert (HX : coords S all (NdArray.ent X) vs) by apply coords_app_l.
    assert (HPhi : coords S all (NdArray.ent Phi) mq) by (apply (coords_trans S all (sel 0) Bm vs mq); auto).
    assert (EC : meq T T (NdArray.ent C) (wip M W (NdArray.ent X) (NdArray.ent X))).
    { split. intros i j Hi Hj. destruct vs as [|d vs'] eqn:Ev; [unfold T in Hi; simpl in Hi; lia|].
      rewrite (HC i j d Hi Hj). apply coords_ip; auto. }
    exists X, Phi. do 4 (split; [auto|]).
    assert (Er : nr U = T) by (rewrite (er_r _ _ _ _ _ _ _ HR); auto).
    assert (Lf : length (firstn q E) = q) by (rewrite firstn_length; unfold k in Hk; lia).
    assert (Nf : forall i, i < q -> at1 (firstn q E) i = at1 E i) by (intros; apply at1_firstn; auto).
    apply (pod_best sqrt X W (NdArray.ent V0) w0 w (firstn q E) Phi (Arr q T (NdArray.ent pc))
      (Arr T q (NdArray.ent U))).
    - apply gmat_positive. auto.
    - apply (eigh_spectrum X C); auto; [apply (er_perm _ _ _ _ _ _ _ HR)|apply (er_sorted _ _ _ _ _ _ _ HR)].
    - split; rewrite ?Lf; auto; cbn [nr nc NdArray.ent].
      + split. intros a b Ha Hb.
        destruct mq as [|d mq'] eqn:Em; [simpl in Lm; lia|]. rewrite <- Em in *.
        transitivity (ip S (nth a mq d) (nth b mq d)).
        { symmetry. apply (coords_ip S HS all _ _ mq mq a b d HPhi HPhi); lia. }
        rewrite !Nm by auto. rewrite (pm_orth _ _ _ _ _ _ _ _ HM a b d) by lia.
        rewrite !Hjs by auto. reflexivity.
      + apply (meq_sub k k); auto. pose proof (er_orth _ _ _ _ _ _ _ HR) as G. rewrite Cr in G. exact G.
      + transitivity (mmul T (NdArray.ent C) (NdArray.ent U)).
        { apply mmul_proper; [symmetry; exact EC|reflexivity]. }
        pose proof (er_eig _ _ _ _ _ _ _ HR) as G. rewrite Cr in G. fold k in G.
        split. intros i a Hi Ha. change (nc X) with T in Hi. rewrite (meq_at _ _ _ _ G i a) by lia.
        rewrite (meq_at _ _ _ _ (mmul_diag_r T k (at1 E) (NdArray.ent U)) i a) by lia.
        rewrite (meq_at _ _ _ _ (mmul_diag_r T q (at1 (firstn q E)) (NdArray.ent U)) i a) by lia.
        rewrite Nf by auto. reflexivity.
      + split. intros a j Ha Hj. change (nc X) with T in Hj.
        destruct mq as [|d mq'] eqn:Em; [simpl in Lm; lia|]. rewrite <- Em in *.
        transitivity (ip S (nth a mq d) (nth j vs d)).
        2:{ apply (coords_ip S HS all _ _ mq vs a j d HPhi HX); lia. }
        rewrite Nm by auto. rewrite <- (pm_coeffs _ _ _ _ _ _ _ _ HM a j d) by (auto; lia).
        rewrite Hjs by auto. reflexivity.
      + change (NdArray.ent Phi) with (mmul T (sel 0) Bm). change (nc X) with T.
        rewrite mmul_assoc. apply mmul_proper; [reflexivity|]. rewrite mmul_diag_r.
        split. intros i a Hi Ha. rewrite Nf by auto. unfold Bm. fold (s a).
        field. apply Ns. lia.
    - rewrite Lf. rewrite (er_prefix _ _ _ _ _ _ _ HR) at 1. fold k. rewrite take_take. f_equal. lia.
    - rewrite Lf. intros i Hi. rewrite Nf by auto. apply Sq. lia.
    - rewrite Lf. auto. }
  assert (Hx : forall us (Phi : arr F), coords S (vs ++ us) (NdArray.ent Phi) mq ->
    coords S (vs ++ us) (mmul q (NdArray.ent Phi) (NdArray.ent pc)) xs).
  { intros us Phi HPhi. rewrite <- Lm. apply (coords_trans S _ _ _ mq xs HPhi). exact Hxs. }
  split.
  - destruct (G []) as (X & Phi & HX & HPhi & Xr & Xc & HB1 & _).
    rewrite Xr, Xc in HB1. rewrite <- HB1. symmetry.
    apply (error_total (vs ++ [])); auto.
  - intros us B ys Lu Ly Hy.
    destruct (G us) as (X & Phi & HX & HPhi & Xr & Xc & _ & HB2).
    specialize (HB2 (sel (length vs)) B). rewrite Xr, Xc in HB2.
    rewrite (error_total (vs ++ us) _ _ vs xs) in HB2; auto.
    rewrite (error_total (vs ++ us) _ _ vs ys) in HB2; auto.
    rewrite <- Lu. apply (coords_trans S _ _ _ us ys (coords_app_r S vs us)). exact Hy.
Qed.

Theorem C47_handles limit P tag_ub eager el argsort sqrt o vecs vs st (t : F) rtol idx modes :
  ip_positive ->
  set_up limit P tag_ub S -> holds st vecs vs -> vecs <> [] ->
  length modes = length idx -> NoDup modes -> (forall h, h ∈ vecs -> h ∉ modes) ->
  real t -> kle 0 t -> tol_real rtol ->
  exists C : arr F,
    (nr C = length vs /\ nc C = length vs /\
     forall i j d, i < length vs -> j < length vs -> NdArray.ent C i j = ip S (nth i vs d) (nth j vs d)) /\
    forall w0 V0, el C = Ok (w0, V0) -> eigh_contract C w0 V0 ->
    argsort_contract (map kabs w0) (argsort (map kabs w0)) ->
    (forall e, In e w0 -> klt_p 0 e -> sqrt_ok sqrt e) ->
    exists E U pc w, eigh el argsort C (Some t) rtol true = Ok (E, U) /\
      Permutation w w0 /\ E = firstn (length E) w /\
      runs S P tag_ub eager st (POD_session el argsort sqrt o vecs (Some t) rtol idx modes)
        (fun st' r => match wrap_all (length E) idx with
         | Raise e => r = Raise e /\ st' = st
         | Ok js => (exists o', r = Ok (o', pc)) /\
             exists ms, holds st' modes ms /\
               forall q, q <= length js -> (forall a, a < q -> nth a js O = a) -> best_modes w vs ms pc q
         end).
Proof.
  intros HP Hup Hst Nv Lm Hnd Hdis Rt Ht Hr.
  destruct (C19_handles S HS limit P tag_ub eager el argsort sqrt o vecs vs st t rtol idx modes
    Hup Hst Nv Lm Hnd Hdis Rt Ht Hr) as (C & (Cr & Cc & HC) & H).
  exists C. split; [auto|]. intros w0 V0 HL HE HA Hsq.
  destruct (H w0 V0 HL HE HA Hsq) as (E & U & pc & atol' & w & HE' & _ & HR & Pos & _ & _ & HG).
  exists E, U, pc, w. split; [auto|]. split; [apply (er_perm _ _ _ _ _ _ _ HR)|].
  split; [apply (er_prefix _ _ _ _ _ _ _ HR)|].
  eapply runs_mono; [exact HG|]. cbv beta. intros st' r Q.
  destruct (wrap_all (length E) idx) as [js|e] eqn:Ew; [|exact Q].
  destruct Q as (Q1 & _ & ms & Q2 & Q3 & _). split; [eauto|]. exists ms. split; [auto|].
  intros q Hq Hjs. apply (handles_best sqrt vs C w0 V0 w atol' rtol E U pc js ms q); auto.
  destruct q as [|q]; [lia|]. rewrite <- (Hjs q ltac:(lia)).
  pose proof (wrap_all_lt _ _ _ Ew) as G. apply (nth_js js (length E) q) in G; lia.
Qed.
End Space.

(** Two processes, the data of C19_example as two vectors, both modes in order: one mode
    is the best single vector, and two are exact. *)
Example C47_handles_example eager :
  exists pc w, Permutation w ex_cw /\
  runs podh_space 2 10 eager podh_store
    (POD_session (fun _ => Ok (ex_cw, ex_cV)) (fun _ => [0; 1]%nat) ex_sqrt POD_new [1; 2]%nat
       (Some (qi 1 0 1000)) None [0; 1]%Z [10; 11]%nat)
    (fun st' r => (exists o', r = Ok (o', pc)) /\ exists ms, holds st' [10; 11]%nat ms /\
       best_modes podh_space w (columns ex_D) ms pc 1 /\ best_modes podh_space w (columns ex_D) ms pc 2).
Proof.
  assert (HW : hermitian 2 podh_W) by (apply meqb_true; vm_compute; reflexivity).
  destruct (C47_handles podh_space (wspace_ip 2 podh_W 6 3 1 HW) (Some 1%Z) 2 10 eager
    (fun _ => Ok (ex_cw, ex_cV)) (fun _ => [0; 1]%nat) ex_sqrt POD_new [1; 2]%nat (columns ex_D) podh_store
    (qi 1 0 1000) None [0; 1]%Z [10; 11]%nat) as (C & (Cr & Cc & HC) & H).
  - intros v. apply (proj2 ex_positive v).
  - split; [split; [simpl; lia|]; split; [simpl; lia|reflexivity]|simpl; lia].
  - repeat constructor.
  - discriminate.
  - reflexivity.
  - apply (bool_decide_unpack (NoDup [10; 11]%nat)). reflexivity.
  - intros h Hh. apply (bool_decide_unpack (h ∉ [10; 11]%nat)).
    repeat (apply elem_of_cons in Hh; destruct Hh as [->|Hh]; [reflexivity|]). inversion Hh.
  - apply keqb_true. vm_compute. reflexivity.
  - left. vm_compute. reflexivity.
  - exact I.
  - destruct (H ex_cw ex_cV) as (E & U & pc & w & HE & Pw & _ & G).
    + reflexivity.
    + apply (eigh_contract_aeq ex_C); [|apply ex_C_contract].
      split; [exact (eq_sym Cr)|]. split; [exact (eq_sym Cc)|]. split. intros i j Hi Hj.
      rewrite (HC i j (fun _ => 0)) by auto. unfold podh_space. rewrite columns_ip by auto.
      apply (meq_at 2 2 (NdArray.ent ex_C) (wip 2 podh_W (NdArray.ent ex_D) (NdArray.ent ex_D))); auto.
      apply meqb_true. vm_compute. reflexivity.
    + split; try reflexivity.
      * repeat constructor; simpl; set_solver.
      * repeat constructor; simpl; lia.
      * intros i j Hij Hj. simpl in Hj. destruct i as [|[|i]]; destruct j as [|[|j]]; try lia;
          try (left; vm_compute; reflexivity); right; reflexivity.
    + intros e [<-|[<-|[]]] _; apply sq_ok_dec; vm_compute; reflexivity.
    + assert (EE : E = [qi 4 0 1; qi 1 0 1]).
      { apply (f_equal (rmap fst)) in HE. vm_compute in HE. injection HE as HE. symmetry. exact HE. }
      exists pc, w. split; [exact Pw|].
      eapply runs_mono; [exact G|]. cbv beta. intros st' r Q. rewrite EE in Q.
      change (wrap_all (length [qi 4 0 1; qi 1 0 1]) [0; 1]%Z) with (Ok [0; 1]%nat) in Q. cbv iota in Q.
      destruct Q as (Q0 & ms & Q1 & Q2). split; [exact Q0|]. exists ms. split; [exact Q1|]. split.
      * apply Q2; [simpl; lia|]. intros [|a] Ha; [reflexivity|lia].
      * apply Q2; [simpl; lia|]. intros [|[|a]] Ha; [reflexivity|reflexivity|lia].
Qed.

Print Assumptions C47_handles.
