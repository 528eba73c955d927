(** Property C69 for the class BPODHandles: what the modes written by it do to the empirical
    Gramians, on any number of processes. *)
From stdpp Require Import gmap list.
From Coq Require Import ZArith Lia Field Ring Setoid Morphisms.
From Verif Require Import Prelude Field FieldInst Matrix NdArray HankelModel DecompModel DecompProofs DecompProps
  VSArraysModel VSArraysProofs PodModel PodProofs PodProps BpodModel BpodProofs BpodProps DmdModel DmdCore
  Spmd LinCombModel InnerProdProps HandlesModel HandlesProofs HandlesSpace HandlesExamples BpodHandlesModel BpodHandlesProps.
Open Scope nat_scope.
Open Scope k_scope.

Section Bal.
Context {F : sfield} {V : Type} (S : space F V) (HS : ip_space S).
Add Field C69h_F : (k_field F).

(** The controllability Gramian of the direct vectors takes each adjoint mode to the direct
    mode of the same number times the singular value, the observability Gramian of the
    adjoint vectors the direct to the adjoint mode; between the modes both are diagonal. *)
Record balanced_vectors (dv av : list V) (E : list F) (djs ajs : list nat) (dms ams : list V) : Prop := {
  bv_c : forall u a b d, a < length ajs -> b < length djs -> nth a ajs O = nth b djs O ->
    sum (length dv) (fun j => ip S u (nth j dv d) * ip S (nth j dv d) (nth a ams d)) =
    ip S u (nth b dms d) * at1 E (nth b djs O);
  bv_o : forall u a b d, a < length ajs -> b < length djs -> nth a ajs O = nth b djs O ->
    sum (length av) (fun j => ip S u (nth j av d) * ip S (nth j av d) (nth b dms d)) =
    ip S u (nth a ams d) * at1 E (nth a ajs O);
  bv_c_diag : forall a b d, a < length ajs -> b < length ajs ->
    sum (length dv) (fun j => ip S (nth a ams d) (nth j dv d) * ip S (nth j dv d) (nth b ams d)) =
    if (nth a ajs O =? nth b ajs O)%nat then at1 E (nth a ajs O) else 0;
  bv_o_diag : forall a b d, a < length djs -> b < length djs ->
    sum (length av) (fun j => ip S (nth a dms d) (nth j av d) * ip S (nth j av d) (nth b dms d)) =
    if (nth a djs O =? nth b djs O)%nat then at1 E (nth a djs O) else 0
}.

(** A mode combined from [ws] by [A], whose inner products with [vs] take [A] to [B E]. *)
Lemma half (vs ws : list V) (A B : mat F) (e s : F) l (w : V) d : s * s = e -> s <> 0 ->
  combination S ws (fun i => A i l * (1 / s)) w ->
  (forall j, (j < length vs)%nat -> sum (length ws) (fun i => ip S (nth j vs d) (nth i ws d) * A i l) = B j l * e) ->
  forall j, (j < length vs)%nat -> ip S (nth j vs d) w = B j l * s.
Proof.
  intros Hs Ns HC HM j Hj. rewrite (HC (nth j vs d)).
  rewrite (sum_ext _ _ (fun i => ip S (nth j vs d) (nth i ws d) * A i l * (1 / s))).
  - rewrite sum_mul_r, HM by auto. rewrite <- Hs. field. auto.
  - intros i Hi. rewrite (nth_indep ws w d) by auto. ring.
Qed.
(** Gramian of [vs] on such a mode. *)
Lemma half_gramian (vs : list V) (B : mat F) (e s : F) l l' (w m : V) u d : s * s = e -> s <> 0 -> l = l' ->
  combination S vs (fun i => B i l' * (1 / s)) m ->
  (forall j, (j < length vs)%nat -> ip S (nth j vs d) w = B j l * s) ->
  sum (length vs) (fun j => ip S u (nth j vs d) * ip S (nth j vs d) w) = ip S u m * e.
Proof.
  intros Hs Ns -> HC HW. rewrite (HC u), <- sum_mul_r. apply sum_ext. intros j Hj.
  rewrite HW by auto. rewrite (nth_indep vs m d) by auto. rewrite <- Hs. field. auto.
Qed.
Lemma half_diag (vs : list V) (B : mat F) (E : list F) (s : nat -> F) l l' (w w' : V) d :
  l < length E -> l' < length E -> real (s l) -> s l * s l = at1 E l ->
  meq (length E) (length E) (mmul (length vs) (madj B) B) mid ->
  (forall j, (j < length vs)%nat -> ip S (nth j vs d) w = B j l * s l) ->
  (forall j, (j < length vs)%nat -> ip S (nth j vs d) w' = B j l' * s l') ->
  sum (length vs) (fun j => ip S w (nth j vs d) * ip S (nth j vs d) w') = if (l =? l')%nat then at1 E l else 0.
Proof.
  intros Hl Hl' Rs Hs HB W1 W2.
  rewrite (sum_ext _ _ (fun j => (B j l)^* * B j l' * (s l * s l'))).
  - rewrite sum_mul_r. pose proof (meq_at _ _ _ _ HB l l' Hl Hl') as G. unfold mmul, madj in G. rewrite G.
    unfold mid. destruct (Nat.eqb_spec l l') as [<-|N]; [rewrite <- Hs; ring|ring].
  - intros j Hj. rewrite <- (ips_conj S HS), W1, W2 by auto. rewrite conj_mul, Rs. ring.
Qed.

Theorem C69_modes sqrt (dv av : list V) (H : arr F) S0 atol rtol E L R dc ac djs ajs dms ams :
  nr H = length av -> nc H = length dv ->
  (forall i j d, (i < length av)%nat -> (j < length dv)%nat -> NdArray.ent H i j = ip S (nth i av d) (nth j dv d)) ->
  svd_result H S0 atol rtol L E R ->
  (forall i, i < length E -> at1 E i <> 0 /\ sqrt_ok sqrt (at1 E i)) ->
  Forall (fun i => (i < length E)%nat) djs -> Forall (fun i => (i < length E)%nat) ajs ->
  bpod_modes S sqrt dv av E L R dc ac djs ajs dms ams ->
  balanced_vectors dv av E djs ajs dms ams.
Proof.
  intros Hr Hc HH SR Hsq Fd Fa BM.
  set (s := fun i => sqrt (at1 E i)).
  assert (Hs : forall i, i < length E -> s i * s i = at1 E i) by (intros i Hi; apply (Hsq i Hi)).
  assert (Rs : forall i, i < length E -> real (s i)) by (intros i Hi; apply (Hsq i Hi)).
  assert (Ns : forall i, i < length E -> s i <> 0).
  { intros i Hi. apply (sqrt_ok_neq sqrt (at1 E i)); apply (Hsq i Hi). }
  assert (Ld : forall a, a < length djs -> nth a djs O < length E).
  { intros a Ha. exact (proj1 (List.Forall_forall _ _) Fd _ (nth_In _ _ Ha)). }
  assert (La : forall a, a < length ajs -> nth a ajs O < length E).
  { intros a Ha. exact (proj1 (List.Forall_forall _ _) Fa _ (nth_In _ _ Ha)). }
  pose proof (sr_AV _ _ _ _ _ _ _ SR) as AV. pose proof (sr_AU _ _ _ _ _ _ _ SR) as AU.
  pose proof (sr_U _ _ _ _ _ _ _ SR) as OU. pose proof (sr_V _ _ _ _ _ _ _ SR) as OV.
  rewrite Hr, Hc in *.
  assert (PA : forall a d, a < length ajs -> forall j, (j < length dv)%nat ->
    ip S (nth j dv d) (nth a ams d) = NdArray.ent R j (nth a ajs O) * s (nth a ajs O)).
  { intros a d Ha. apply (half dv av (NdArray.ent L) (NdArray.ent R) (at1 E (nth a ajs O))); auto.
    - apply (bm_adjoint _ _ _ _ _ _ _ _ _ _ _ _ _ BM a d Ha).
    - intros j Hj. pose proof (meq_at _ _ _ _ AU j (nth a ajs O) Hj (La a Ha)) as G.
      rewrite (meq_at _ _ _ _ (mmul_diag_r (length dv) (length E) (at1 E) (NdArray.ent R)) j (nth a ajs O) Hj (La a Ha)) in G.
      etransitivity; [|exact G]. unfold mmul, madj. apply sum_ext. intros i Hi. rewrite (HH i j d Hi Hj), (ips_conj S HS). reflexivity. }
  assert (PD : forall a d, a < length djs -> forall j, (j < length av)%nat ->
    ip S (nth j av d) (nth a dms d) = NdArray.ent L j (nth a djs O) * s (nth a djs O)).
  { intros a d Ha. apply (half av dv (NdArray.ent R) (NdArray.ent L) (at1 E (nth a djs O))); auto.
    - apply (bm_direct _ _ _ _ _ _ _ _ _ _ _ _ _ BM a d Ha).
    - intros j Hj. pose proof (meq_at _ _ _ _ AV j (nth a djs O) Hj (Ld a Ha)) as G.
      rewrite (meq_at _ _ _ _ (mmul_diag_r (length av) (length E) (at1 E) (NdArray.ent L)) j (nth a djs O) Hj (Ld a Ha)) in G.
      etransitivity; [|exact G]. unfold mmul. apply sum_ext. intros i Hi. rewrite (HH j i d Hj Hi). reflexivity. }
  split.
  - intros u a b d Ha Hb Eab. apply (half_gramian dv (NdArray.ent R) _ (s (nth b djs O)) (nth b djs O) (nth b djs O)); auto.
    + apply (bm_direct _ _ _ _ _ _ _ _ _ _ _ _ _ BM b d Hb).
    + intros j Hj. rewrite <- Eab. auto.
  - intros u a b d Ha Hb Eab. apply (half_gramian av (NdArray.ent L) _ (s (nth a ajs O)) (nth a ajs O) (nth a ajs O)); auto.
    + apply (bm_adjoint _ _ _ _ _ _ _ _ _ _ _ _ _ BM a d Ha).
    + intros j Hj. rewrite Eab. auto.
  - intros a b d Ha Hb. apply (half_diag dv (NdArray.ent R) E s); auto.
  - intros a b d Ha Hb. apply (half_diag av (NdArray.ent L) E s); auto.
Qed.

(** compute_decomp, then both kinds of modes, of any numbers. *)
Theorem C69_handles limit P tag_ub eager lapack sqrt o direct adjoint dv av p q mx my st atol rtol
    di dmodes ai amodes :
  set_up limit P tag_ub S -> holds st direct dv -> holds st adjoint av ->
  (0 < p)%nat -> (0 < q)%nat -> (0 < mx)%nat -> (0 < my)%nat ->
  length dv = (mx * p)%nat -> length av = (my * q)%nat ->
  (forall d, block_Hankel p q mx my (fun i j => ip S (nth i av d) (nth j dv d))) ->
  length dmodes = length di -> length amodes = length ai -> NoDup (dmodes ++ amodes) ->
  (forall h, h ∈ direct \/ h ∈ adjoint -> h ∉ dmodes ++ amodes) ->
  tol_real atol -> tol_real rtol ->
  exists H : arr F,
    (nr H = length av /\ nc H = length dv /\
     forall i j d, i < length av -> j < length dv -> NdArray.ent H i j = ip S (nth i av d) (nth j dv d)) /\
    forall U0 S0 Vh0, lapack H = Ok (U0, S0, Vh0) -> svd_contract H U0 S0 Vh0 ->
    (forall i, i < length S0 -> above atol rtol S0 i -> at1 S0 i <> 0 /\ sqrt_ok sqrt (at1 S0 i)) ->
    exists E, E = firstn (length E) S0 /\ (forall i, i < length S0 -> (i < length E <-> above atol rtol S0 i)) /\
    forall djs ajs, wrap_all (length E) di = Ok djs -> wrap_all (length E) ai = Ok ajs ->
      runs S P tag_ub eager st
        (BPOD_session lapack sqrt o direct adjoint p q atol rtol di dmodes ai amodes)
        (fun st' r => (exists x, r = Ok x) /\ exists dms ams, holds st' dmodes dms /\ holds st' amodes ams /\
           holds st' direct dv /\ holds st' adjoint av /\
           balanced_vectors dv av E djs ajs dms ams).
Proof.
  intros Hup Hd Ha Hp Hq Hmx Hmy LD LA HB Ldm Lam Hnd Hdis Rat Rrt.
  destruct (C21_handles S HS limit P tag_ub eager lapack sqrt o direct adjoint dv av p q mx my st atol rtol di dmodes ai amodes
    Hup Hd Ha Hp Hq Hmx Hmy LD LA HB Ldm Lam Hnd Hdis Rat Rrt) as (H & HH & G).
  exists H. split; [exact HH|]. intros U0 S0 Vh0 H1 H2 H3.
  destruct (G U0 S0 Vh0 H1 H2 H3) as (E & L & R & dc & ac & _ & SR & _ & _ & _ & _ & K).
  exists E. pose proof (sr_prefix _ _ _ _ _ _ _ SR) as Pr. pose proof (sr_kept _ _ _ _ _ _ _ SR) as Kp.
  split; [exact Pr|]. split; [exact Kp|]. intros djs ajs Wd Wa. rewrite Wd, Wa in K.
  eapply runs_mono; [exact K|]. cbv beta iota. intros st' r (-> & Un & dms & ams & M1 & M2 & M3).
  split; [eauto|]. exists dms, ams. do 2 (split; [assumption|]).
  destruct HH as (Hr & Hc & HH).
  split; [|split].
  - eapply unchanged_holds; eauto.
  - eapply unchanged_holds; eauto.
  - apply (C69_modes sqrt dv av H S0 atol rtol E L R dc ac djs ajs dms ams); auto.
    + intros i Hi. assert (Ll : (length E <= length S0)%nat) by (rewrite Pr, firstn_length; lia).
      assert (Ei : at1 E i = at1 S0 i) by (rewrite Pr; apply at1_firstn; auto). rewrite Ei.
      apply H3; [lia|]. apply Kp; [lia|auto].
    + eapply wrap_all_lt; eauto.
    + eapply wrap_all_lt; eauto.
Qed.
End Bal.

(** On two processes, with the data of BpodHandlesProps; the direct modes are asked for in
    reverse order, the first adjoint mode by a negative index. *)
Example C69_handles_example eager :
  exists E, length E = 2%nat /\
  runs bpodh_space 2 10 eager bpodh_store
    (BPOD_session (fun _ => Ok (bx_U, bx_S, bx_Vh)) ex_sqrt BPOD_new [1; 2]%nat [3; 4]%nat 1 1
       (Some (qi 1 0 10)) None [1; 0]%Z [10; 11]%nat [-2]%Z [12]%nat)
    (fun st' r => exists dms ams, holds st' [10; 11]%nat dms /\ holds st' [12]%nat ams /\
       balanced_vectors bpodh_space (columns bx_X) (columns bx_Y) E [1; 0]%nat [0]%nat dms ams).
Proof.
  assert (HW : hermitian 2 bpodh_W) by (apply meqb_true; vm_compute; reflexivity).
  assert (HB : block_Hankel 1 1 2 2 (wip 2 bpodh_W (NdArray.ent bx_Y) (NdArray.ent bx_X))).
  { intros i j i' j' a b Hi Hi' Hj Hj' Ha Hb Hs. apply keqb_true.
    destruct a; [|lia]. destruct b; [|lia].
    destruct i as [|[|]], j as [|[|]], i' as [|[|]], j' as [|[|]]; try lia; vm_compute; reflexivity. }
  destruct (C69_handles bpodh_space (wspace_ip 2 bpodh_W 6 3 1 HW) (Some 1%Z) 2 10 eager
    (fun _ => Ok (bx_U, bx_S, bx_Vh)) ex_sqrt BPOD_new [1; 2]%nat [3; 4]%nat (columns bx_X) (columns bx_Y)
    1%nat 1%nat 2%nat 2%nat bpodh_store (Some (qi 1 0 10)) None [1; 0]%Z [10; 11]%nat [-2]%Z [12]%nat) as (H & (Hr & Hc & HH) & G);
    try lia; try reflexivity.
  - split; [split; [simpl; lia|]; split; [simpl; lia|reflexivity]|simpl; lia].
  - repeat constructor.
  - repeat constructor.
  - intros d i j i' j' a b Hi Hi' Hj Hj' Ha Hb Hs. unfold bpodh_space. rewrite !columns_ip by (simpl; lia).
    apply HB; auto.
  - apply (bool_decide_unpack (NoDup [10; 11; 12]%nat)). reflexivity.
  - intros h Hh. apply (bool_decide_unpack (h ∉ [10; 11; 12]%nat)).
    destruct Hh as [Hh|Hh]; repeat (apply elem_of_cons in Hh; destruct Hh as [->|Hh]; [reflexivity|]); inversion Hh.
  - apply keqb_true. vm_compute. reflexivity.
  - destruct (G bx_U bx_S bx_Vh) as (E & Pr & Kp & K).
    + reflexivity.
    + apply bx_contract; auto. split. intros i j Hi Hj.
      rewrite (HH i j (fun _ => 0)) by auto. unfold bpodh_space. rewrite columns_ip by auto. reflexivity.
    + intros i Hi _. change (length bx_S) with 2%nat in Hi. destruct i as [|[|]]; [..|lia].
      all: split; [intros E0; apply (f_equal (fun x => keqb x 0)) in E0; vm_compute in E0; discriminate|].
      all: apply sq_ok_dec; vm_compute; reflexivity.
    + assert (L2 : length E = 2%nat).
      { assert (length E <= 2)%nat by (rewrite Pr, firstn_length; simpl; lia).
        assert (1 < length E)%nat; [|lia]. apply Kp; [simpl; lia|].
        split; [vm_compute; reflexivity|exact I]. }
      exists E. split; [exact L2|]. rewrite L2 in K.
      eapply runs_mono; [exact (K [1; 0]%nat [0]%nat eq_refl eq_refl)|]. cbv beta.
      intros st' r (_ & dms & ams & Q1 & Q2 & _ & _ & Q3). exists dms, ams. auto.
Qed.

Print Assumptions C69_modes.
Print Assumptions C69_handles.
