(** Property C53: whole programs on any number of processes. *)
From stdpp Require Import gmap list.
From Coq Require Import ZArith Lia Field Ring Setoid Morphisms.
From Verif Require Import Prelude Field FieldInst Matrix NdArray DecompModel DecompProofs DecompProps
  VSArraysModel VSArraysProofs PodModel PodProofs PodProps BpodModel BpodProofs BpodProps DmdModel DmdProofs DmdCore DmdSnaps DmdProps
  Spmd SpmdFacts ReductionsModel InnerProdModel LinCombModel InnerProdProps HandlesModel HandlesProofs HandlesSeqProofs HandlesSpace HandlesExamples
  PodHandlesModel PodHandlesProps BpodHandlesModel BpodHandlesProps DmdHandlesModel DmdHandlesProofs DmdHandlesModes DmdHandlesDecomp
  DmdHandlesProps TlsProps GalerkinModel GalerkinProps GalerkinHandlesModel GalerkinHandlesProps
  MainModel MainProofs ProgramsModel ProgramsProofs.
Open Scope nat_scope.
Open Scope k_scope.

(** [m] run by [P] processes from the store [st]: on every schedule every rank ends, all
    with the same result r, in the store st', and [Q st' r] holds. *)
Definition main_runs {F : sfield} {V A} (P tag_ub : nat) (eager : msg V F -> bool) (st : gmap loc V)
    (m : main F V A) (Q : gmap loc V -> res A -> Prop) : Prop :=
  always_ends tag_ub eager (launch P (fun r => exec_main P tag_ub r m) st)
    (fun c => length (procs c) = P /\ exists r, all_end r c /\ Q (store c) r).

Lemma main_runs_mono {F : sfield} {V A} P tag_ub (eager : msg V F -> bool) st (m : main F V A) (Q Q' : _ -> _ -> Prop) :
  main_runs P tag_ub eager st m Q -> (forall st' r, Q st' r -> Q' st' r) -> main_runs P tag_ub eager st m Q'.
Proof.
  intros (n & H) HQ.
  assert (W : forall c : config (msg V F) V A, (length (procs c) = P /\ exists r, all_end r c /\ Q (store c) r) ->
    length (procs c) = P /\ exists r, all_end r c /\ Q' (store c) r) by (intros c (H1 & r & H2 & H3); eauto 6).
  exists n. intros k d Hk. destruct (H k d Hk) as (K1 & K2 & d' & K3 & K4). split; [auto|]. split; [auto|]. eauto.
Qed.

Section Props.
Context {F : sfield} {V : Type} (S : space F V) (HS : ip_space S).
Context (limit : option Z) (P tag_ub : nat) (eager : msg V F -> bool).
Context (Hup : set_up limit P tag_ub S).
Add Field Ff_main : (k_field F).

Lemma HPpos : (0 < P)%nat.
Proof. destruct Hup as [(H & _) _]. exact H. Qed.

(** Methods one after another: what one process would do is what P processes do, whatever
    is read and written. *)
Theorem C53_methods {A} (h : hprog F A) st Q : ok S st h Q -> runs S P tag_ub eager st h Q.
Proof. apply (ok_runs S limit); auto. Qed.

(** Main programs. *)
Theorem C53_main {A} (m : main F V A) st Q : okm P tag_ub st m Q -> main_runs P tag_ub eager st m Q.
Proof. apply main_ends. apply HPpos. Qed.

Lemma okm_puts {A} hs (vs : list V) (m : main F V A) st Q : NoDup hs -> length hs = length vs ->
  (forall st', holds st' hs vs -> unchanged_but st st' hs -> okm P tag_ub st' m Q) ->
  okm P tag_ub st (MActs (rank_zero (puts hs vs)) m) Q.
Proof.
  intros Hnd L H. destruct (puts_run hs vs st Hnd L) as (st' & H1 & H2 & H3). split; [apply rank_zero_no_conflict|].
  exists st'. split; [rewrite rank_zero_run by apply HPpos; exact H1|auto].
Qed.

Lemma okm_do {A X} (sp : space F V) (h : hprog F X) (k : X -> main F V A) st Q :
  ip_space sp -> (exists limit, set_up limit P tag_ub sp) ->
  ok sp st h (fun st' r => match r with Ok x => okm P tag_ub st' (k x) Q | Raise e => Q st' (Raise e) end) ->
  okm P tag_ub st (MDo sp h k) Q.
Proof. intros H1 H2 H. exact (conj H1 (conj H2 H)). Qed.

Lemma pure_pod_coeffs sqrt (o : pod_obj F) : pure (POD_proj_coeffs sqrt o).
Proof.
  unfold POD_proj_coeffs. do 2 (apply pure_bind; [apply pure_need|]; intros ?).
  apply pure_bind; [apply pure_lift|]. intros ?. exact Logic.I.
Qed.

(** POD, with the modes read by the methods that follow. *)
Lemma pod_okm el argsort sqrt vecs vs st (t : F) rtol idx js modes :
  holds st vecs vs -> vecs <> [] -> length modes = length idx -> NoDup modes -> (forall h, h ∈ vecs -> h ∉ modes) ->
  real t -> kle 0 t -> tol_real rtol ->
  exists C : arr F,
    (nr C = length vs /\ nc C = length vs /\
     forall i j d, i < length vs -> j < length vs -> NdArray.ent C i j = ip S (nth i vs d) (nth j vs d)) /\
    forall w0 V0, el C = Ok (w0, V0) -> eigh_contract C w0 V0 ->
    argsort_contract (map kabs w0) (argsort (map kabs w0)) ->
    (forall e, In e w0 -> klt_p 0 e -> sqrt_ok sqrt e) ->
    exists E U pc, eigh el argsort C (Some t) rtol true = Ok (E, U) /\
      (wrap_all (length E) idx = Ok js -> forall A (k : main F V A) Q,
       (forall st' ms, unchanged_but st st' modes -> holds st' modes ms -> pod_modes S sqrt vs E U pc js ms ->
          (ip_definite S -> (exists d, Permutation w0 (E ++ repeat 0 d)) -> Permutation js (seq 0 (length E)) ->
           forall u j d, j < length vs ->
             ip S u (nth j vs d) = sum (length js) (fun a => ip S u (nth a ms d) * NdArray.ent pc (nth a js O) j)) ->
          okm P tag_ub st' k Q) ->
       okm P tag_ub st (MDo S (POD_decomp el argsort POD_new vecs (Some t) rtol) (fun o =>
         MDo S (POD_compute_modes sqrt o (Some (Cols idx)) modes None) (fun _ => k))) Q).
Proof.
  intros Hst Nv Lm Hnd Hdis Rt Ht Hr.
  destruct (POD_ok S HS el argsort sqrt POD_new vecs vs st t rtol idx modes Hst Nv Lm Hnd Hdis Rt Ht Hr) as (C & HC & H).
  exists C. split; [exact HC|]. intros w0 V0 H1 H2 H3 H4.
  destruct (H w0 V0 H1 H2 H3 H4) as (E & U & pc & atol' & w & G1 & G2 & G3 & G4 & G5 & G6 & G).
  exists E, U, pc. split; [exact G1|]. intros Hj A k Q HK. rewrite Hj in G. unfold POD_session in G. apply ok_unbind in G.
  apply okm_do; eauto. eapply ok_mono; [exact G|]. clear G. intros st1 [o|e] G; [|destruct G; discriminate].
  apply ok_unbind in G. apply okm_do; eauto. eapply ok_mono; [exact G|]. clear G.
  intros st2 [o'|e] G; [|destruct G; discriminate].
  apply ok_pure in G; [|apply pure_pod_coeffs]. destruct G as (r & _ & Hun & ms & K1 & K2 & K3).
  apply (HK st2 ms); auto.
Qed.

Lemma pod_orth E U pc sqrt vs js ms (sp : space F V) : ip sp = ip S -> pod_modes S sqrt vs E U pc js ms -> NoDup js ->
  meq (length js) (length js) (NdArray.ent (gram sp ms ms)) mid.
Proof.
  intros Eip Hpm Hndj. pose proof (pm_len _ _ _ _ _ _ _ _ Hpm) as Lms. split. intros a b Ha Hb.
  assert (exists d : V, True) as [d _] by (destruct ms as [|d ms]; [simpl in *; lia|exists d; auto]).
  rewrite (gram_ent sp ms ms d) by lia. rewrite Eip, (pm_orth _ _ _ _ _ _ _ _ Hpm) by lia.
  unfold mid. destruct (Nat.eqb_spec (nth a js O) (nth b js O)) as [En|Nn].
  - assert (a = b) as ->; [|rewrite Nat.eqb_refl; auto]. apply NoDup_ListNoDup in Hndj. eapply NoDup_nth; eauto; lia.
  - destruct (Nat.eqb_spec a b) as [->|]; [contradiction|reflexivity].
Qed.

(** tutorial_ex5.py: the inner products of the modes are the identity, on every rank. *)
Theorem C53_ex5 S2 el argsort sqrt vecs vs st (t : F) rtol idx js modes :
  ip_space S2 -> (exists limit2, set_up limit2 P tag_ub S2) -> ip S2 = ip S ->
  NoDup vecs -> length vecs = length vs -> vecs <> [] ->
  length modes = length idx -> idx <> [] -> NoDup modes -> (forall h, h ∈ vecs -> h ∉ modes) ->
  real t -> kle 0 t -> tol_real rtol ->
  exists C : arr F,
    (nr C = length vs /\ nc C = length vs /\
     forall i j d, i < length vs -> j < length vs -> NdArray.ent C i j = ip S (nth i vs d) (nth j vs d)) /\
    forall w0 V0, el C = Ok (w0, V0) -> eigh_contract C w0 V0 ->
    argsort_contract (map kabs w0) (argsort (map kabs w0)) ->
    (forall e, In e w0 -> klt_p 0 e -> sqrt_ok sqrt e) ->
    exists E U, eigh el argsort C (Some t) rtol true = Ok (E, U) /\
      (wrap_all (length E) idx = Ok js -> NoDup js ->
       main_runs P tag_ub eager st (tutorial_ex5 S S2 el argsort sqrt vecs vs (Some t) rtol idx modes)
         (fun st' r => exists G, r = Ok G /\ nr G = length idx /\ nc G = length idx /\
            meq (length idx) (length idx) (NdArray.ent G) mid /\
            holds st' vecs vs /\ unchanged_but st st' (vecs ++ modes))).
Proof.
  intros HS2 Hup2 Eip Hndv Lv Nv Lm Ni Hnd Hdis Rt Ht Hr.
  destruct (puts_run vecs vs st Hndv Lv) as (st1 & P1 & P2 & P3).
  destruct (pod_okm el argsort sqrt vecs vs st1 t rtol idx js modes) as (C & HC & H); auto.
  exists C. split; [exact HC|]. intros w0 V0 H1 H2 H3 H4. destruct (H w0 V0 H1 H2 H3 H4) as (E & U & pc & G1 & G).
  exists E, U. split; [exact G1|]. intros Hj Hndj. apply C53_main.
  split; [apply rank_zero_no_conflict|]. exists st1. split; [rewrite rank_zero_run by apply HPpos; exact P1|].
  apply G; auto. clear G. intros st2 ms Hun Hms Hpm _.
  pose proof (pm_len _ _ _ _ _ _ _ _ Hpm) as Lms. pose proof (Forall2_length _ _ _ Hms) as Lms'.
  simpl. do 2 (split; [auto|]). exists ms. split; [auto|].
  split; [intros ->; simpl in Lm; destruct idx; [contradiction|discriminate]|].
  exists (gram S2 ms ms). split; [reflexivity|]. split; [simpl; congruence|]. split; [simpl; congruence|]. split.
  - replace (length idx) with (length js) by congruence. apply (pod_orth E U pc sqrt vs js ms); auto.
  - split.
    + apply (unchanged_holds st1 st2 modes); auto.
    + intros h Hh. rewrite Hun, P3; auto; intros Hin; apply Hh, elem_of_app; auto.
Qed.

(** POD, the operator applied to the modes by their owners, Galerkin projection: on every
    rank the reduced array is that of the projected operator. *)
Theorem C53_pod_galerkin A owner inv el argsort sqrt vecs vs st (t : F) rtol idx js modes images :
  NoDup vecs -> length vecs = length vs -> vecs <> [] ->
  length modes = length idx -> idx <> [] -> NoDup modes -> (forall h, h ∈ vecs -> h ∉ modes) ->
  length images = length modes -> NoDup images -> (forall h, h ∈ modes -> h ∉ images) ->
  (forall i, i < length modes -> owner i < P) ->
  real t -> kle 0 t -> tol_real rtol ->
  exists C : arr F,
    (nr C = length vs /\ nc C = length vs /\
     forall i j d, i < length vs -> j < length vs -> NdArray.ent C i j = ip S (nth i vs d) (nth j vs d)) /\
    forall w0 V0, el C = Ok (w0, V0) -> eigh_contract C w0 V0 ->
    argsort_contract (map kabs w0) (argsort (map kabs w0)) ->
    (forall e, In e w0 -> klt_p 0 e -> sqrt_ok sqrt e) ->
    exists E U pc, eigh el argsort C (Some t) rtol true = Ok (E, U) /\
      (wrap_all (length E) idx = Ok js -> NoDup js ->
       main_runs P tag_ub eager st
         (pod_galerkin S A owner inv el argsort sqrt vecs vs (Some t) rtol idx modes images)
         (fun st' r => exists ms R, r = Ok R /\ holds st' modes ms /\ holds st' images (map A ms) /\
            pod_modes S sqrt vs E U pc js ms /\ nr R = length idx /\ nc R = length idx /\
            (forall a b d, a < length idx -> b < length idx ->
               NdArray.ent R a b = ip S (nth a ms d) (A (nth b ms d))) /\
            hgalerkin S ms ms (map A ms) (NdArray.ent R))).
Proof.
  intros Hndv Lv Nv Lm Ni Hnd Hdis Li Hndi Hdi Ho Rt Ht Hr.
  destruct (puts_run vecs vs st Hndv Lv) as (st1 & P1 & P2 & P3).
  destruct (pod_okm el argsort sqrt vecs vs st1 t rtol idx js modes) as (C & HC & H); auto.
  exists C. split; [exact HC|]. intros w0 V0 H1 H2 H3 H4. destruct (H w0 V0 H1 H2 H3 H4) as (E & U & pc & G1 & G).
  exists E, U, pc. split; [exact G1|]. intros Hj Hndj. apply C53_main.
  split; [apply rank_zero_no_conflict|]. exists st1. split; [rewrite rank_zero_run by apply HPpos; exact P1|].
  apply G; auto. clear G. intros st2 ms Hun Hms Hpm _.
  pose proof (pm_len _ _ _ _ _ _ _ _ Hpm) as Lms. pose proof (Forall2_length _ _ _ Hms) as Lms'.
  split; [apply applies_no_conflict; auto|].
  destruct (applies_run A owner modes images P ms st2) as (st3 & K1 & K2 & K3 & K4); auto.
  exists st3. split; [exact K1|]. simpl gh_new. apply okm_do; eauto.
  assert (HO : from_new modes None true (eye (length modes)) (Gh modes modes true true None None None None : gh F))
    by (repeat split; discriminate).
  assert (Ne : modes <> []) by (intros ->; simpl in Lm; destruct idx; [contradiction|discriminate]).
  assert (Nm : ms <> []) by (intros ->; apply Ne, length_zero_iff_nil; auto).
  eapply ok_mono.
  { apply (reduce_ok S inv modes None true (eye (length modes)) ms ms st3 K2 K2 Ne eq_refl) with (xv := map A ms); auto.
    - discriminate.
    - intros ->. destruct modes; [contradiction|discriminate]. }
  intros st4 r (-> & o' & R & -> & _ & HR & _). exists ms, R.
  assert (EG : meq (length ms) (length ms) (NdArray.ent (gram S ms ms)) mid).
  { rewrite Lms. apply (pod_orth E U pc sqrt vs js ms); auto. }
  pose proof HR as (R1 & R2 & R3). rewrite map_length in R2, R3.
  split; [reflexivity|]. do 3 (split; [auto|]). split; [lia|]. split; [lia|]. split.
  - intros a b d Ha Hb. rewrite (meq_at _ _ _ _ R3 a b) by lia. rewrite (gram_ent S ms (map A ms) d) by (rewrite ?map_length; lia).
    f_equal. rewrite (nth_indep _ d (A d)) by (rewrite map_length; lia). apply map_nth.
  - apply (C32_handles_galerkin S HS true (eye (length modes)) ms ms (map A ms) R); auto. discriminate.
Qed.
(** rom_ex2.py: every rank ends with the same reduced arrays, those of the projection on
    the modes along the adjoint modes. *)
Theorem C53_rom_ex2 inv basis bv adj av As xv Bs yv (C : data F) T st :
  length basis = length bv -> length adj = length av -> length As = length xv -> length Bs = length yv ->
  length adj = length basis -> basis <> [] -> As <> [] -> Bs <> [] -> NoDup (basis ++ adj ++ As ++ Bs) ->
  inv (gram S av bv) = Ok T -> inv_contract (gram S av bv) T ->
  main_runs P tag_ub eager st (rom_ex2 S inv basis bv adj av As xv Bs yv C)
    (fun st' r => exists RA RB, r = Ok (RA, RB, transp (ndmin2 C)) /\
       nr RA = length bv /\ nc RA = length xv /\ hgalerkin S bv av xv (NdArray.ent RA) /\
       nr RB = length bv /\ nc RB = length yv /\ hgalerkin S bv av yv (NdArray.ent RB) /\
       unchanged_but st st' (basis ++ adj ++ As ++ Bs)).
Proof.
  intros Lb La Lx Ly Lab Nb Nx Ny Hnd HT CT. apply C53_main. unfold rom_ex2.
  apply okm_puts; auto; [rewrite !app_length; lia|]. intros st1 Hh Hun.
  apply holds_app in Hh; [|auto]. destruct Hh as [Hb Hh]. apply holds_app in Hh; [|auto]. destruct Hh as [Ha Hh].
  apply holds_app in Hh; [|auto]. destruct Hh as [Hx Hy].
  unfold gh_new. rewrite Lab, Nat.eqb_refl. apply okm_do; eauto.
  set (o := Gh basis adj false false None None None None : gh F).
  assert (G : ok S st1 (do_hcall inv o (GModel As Bs C)) (fun st' r => st' = st1 /\ exists o' l, r = Ok (o', l) /\
    from_new basis (Some adj) false T o' /\ hanswer S st1 false T bv av (GModel As Bs C) l)).
  { apply (hcall_ok S HS inv basis (Some adj) false T bv av st1); auto.
    - repeat split; discriminate.
    - intros xs Hxs. cbn [uses] in Hxs. rewrite !elem_of_cons in Hxs.
      destruct Hxs as [->|[->|Hn]]; [eauto|eauto|]. apply not_elem_of_nil in Hn. contradiction. }
  cbn [do_hcall] in G. apply ok_unbind in G. eapply ok_mono; [exact G|]. clear G.
  intros st2 [p|e] G; [|destruct G as (_ & ? & ? & ? & _); discriminate].
  destruct G as (-> & o' & l & Er & _ & xv' & yv' & R & R' & El & Hx' & Hy' & HR & HR').
  injection Er as _ <-. injection El as E1 E2 E3. cbn [okm].
  assert (xv' = xv) as -> by (apply (holds_same st1 As); auto). assert (yv' = yv) as -> by (apply (holds_same st1 Bs); auto).
  assert (Nbv : bv <> []) by (intros ->; apply Nb, length_zero_iff_nil; auto).
  exists R, R'. split.
  { destruct p as [p1 [[pa pb] pc]]. simpl in *. congruence. }
  pose proof HR as (A1 & A2 & _). pose proof HR' as (B1 & B2 & _).
  do 2 (split; [auto|]). split; [apply (C32_handles_galerkin S HS false T); auto; [lia|discriminate]|].
  do 2 (split; [auto|]). split; [apply (C32_handles_galerkin S HS false T); auto; [lia|discriminate]|]. exact Hun.
Qed.

(** tutorial_ex4.py. *)
Theorem C53_ex4 el argsort eig sqrt vecs vs st t rtol mx ei eh pi ph ai ah :
  NoDup vecs -> length vecs = length vs -> 2 <= length vs ->
  dmd_outputs vecs None ei eh pi ph ai ah -> real t -> kle 0 t ->
  let xv := removelast vs in let yv := tl vs in
  exists C, aeq C (gram S xv xv) /\
    forall w0 V0, el C = Ok (w0, V0) -> eigh_contract C w0 V0 ->
      argsort_contract (map kabs w0) (argsort (map kabs w0)) ->
      (forall e, In e w0 -> klt_p 0 e -> sqrt_ok sqrt e) ->
      exists E U w1 M, kept_by (eigh el argsort C (Some t) None true) mx E U /\
        eigh_kept C w0 w1 t None mx E U /\ nr M = length E /\ nc M = length E /\
        meq (length E) (length E) (NdArray.ent M)
          (low_order sqrt (length xv) mid E (NdArray.ent U) (NdArray.ent (gram S xv yv))) /\
        forall w L0 R, eig M = Ok (w, L0, R) -> eig_contract M w L0 R ->
          (forall i, i < length E -> pairing (length E) L0 R i i <> 0) ->
          exists L pc apc sp o', biorthog_result M w R L /\
            dmd_coeffs sqrt (length xv) mid E U L (NdArray.ent (gram S xv yv)) pc apc sp /\
            forall ejs pjs ajs, wrap_all (length E) ei = Ok ejs -> wrap_all (length E) pi = Ok pjs ->
              wrap_all (length E) ai = Ok ajs ->
              main_runs P tag_ub eager st
                (tutorial_ex4 S el argsort eig sqrt vecs vs (Some t) rtol mx ei eh pi ph ai ah)
                (fun st' r => r = Ok (o', sp, (pc, apc)) /\ unchanged_but st st' (vecs ++ eh ++ ph ++ ah) /\
                   exists ems pms ams, holds st' eh ems /\ holds st' ph pms /\ holds st' ah ams /\
                     dmd_modes S sqrt xv yv mid E U w R L pc apc sp ejs pjs ajs ems pms ams).
Proof.
  intros Hnd Lv L2 Hout Rt Ht xv yv. destruct (puts_run vecs vs st Hnd Lv) as (st1 & P1 & P2 & P3).
  assert (HD : handles_data vecs None (removelast vecs) (tl vecs)) by (split; [lia|auto]).
  assert (Hx : holds st1 (removelast vecs) xv).
  { unfold xv. rewrite !removelast_firstn_len, Lv. apply holds_firstn. auto. }
  assert (Hy : holds st1 (tl vecs) yv).
  { unfold yv. destruct P2; constructor || assumption. }
  destruct (DMD_ok S HS el argsort eig sqrt DMD_new vecs None _ _ xv yv st1 t rtol mx ei eh pi ph ai ah HD Hx Hy)
    as (C & HC & H); auto.
  exists C. split; [exact HC|]. intros w0 V0 H1 H2 H3 H4.
  destruct (H w0 V0 H1 H2 H3 H4) as (E & U & w1 & M & G1 & G2 & G3 & G4 & G5 & G).
  exists E, U, w1, M. do 5 (split; [auto|]). intros w L0 R K1 K2 K3.
  destruct (G w L0 R K1 K2 K3) as (L & pc & apc & sp & o' & B1 & B2 & B).
  exists L, pc, apc, sp, o'. do 2 (split; [auto|]). intros ejs pjs ajs Ee Ep Ea. apply C53_main.
  split; [apply rank_zero_no_conflict|]. exists st1. split; [rewrite rank_zero_run by apply HPpos; exact P1|].
  unfold DMD_session in B. apply ok_unbind in B. apply okm_do; eauto. eapply ok_mono; [exact B|]. clear B.
  unfold dmd_post. rewrite Ee, Ep, Ea. intros st2 [o|e] B; [|destruct B; discriminate].
  apply okm_do; eauto. eapply ok_mono; [exact B|]. clear B.
  intros st3 [r|e] B; [|destruct B; discriminate]. destruct B as (Er & Hu & B). cbn [okm]. split; [auto|]. split; [|auto].
  intros h Hh. rewrite Hu, P3; auto; intros Hin; apply Hh, elem_of_app; auto.
Qed.

Lemma pos_neq (z : F) : klt_p 0 z -> z <> 0.
Proof. intros H ->. red in H. rewrite (lt_irrefl F 0 real_0) in H. discriminate. Qed.
Lemma svd_real_at (A U : arr F) s Vh i : svd_contract A U s Vh -> i < length s -> real (at1 s i).
Proof.
  intros H Hi. pose proof (svd_real _ _ _ _ H) as Hr. unfold all_real in Hr. rewrite Forall_forall in Hr.
  apply Hr, elem_of_list_In, nth_In. auto.
Qed.
Lemma pure_bpod_coeffs sqrt (o : bpod_obj F) :
  pure (r <== BPOD_direct_coeffs sqrt o ; r' <== BPOD_adjoint_coeffs sqrt (fst r) ; HRet (fst r', snd r, snd r'))%h.
Proof.
  apply pure_bind; [|intros r; apply pure_bind; [|intros r'; exact Logic.I]];
    unfold BPOD_direct_coeffs, BPOD_adjoint_coeffs; do 2 (apply pure_bind; [apply pure_need|]; intros ?);
    (apply pure_bind; [apply pure_lift|]; intros ?; exact Logic.I).
Qed.
Lemma wrap_seq n k : n <= k -> wrap_all k (map Z.of_nat (seq 0 n)) = Ok (seq 0 n).
Proof.
  intros Hn. assert (G : forall m i, i + m <= k -> wrap_all k (map Z.of_nat (seq i m)) = Ok (seq i m)).
  { induction m as [|m IH]; intros i Hi; [reflexivity|]. cbn [seq map wrap_all]. unfold wrap_index.
    rewrite (proj2 (Z.leb_le 0 _)), (proj2 (Z.ltb_lt _ _)) by lia. cbn [andb]. rewrite Nat2Z.id, IH by lia. reflexivity. }
  apply G. lia.
Qed.

(** tutorial_ex6.py: the number of modes is the least with which the sum of the singular
    values exceeds the part c of the total, and as many biorthonormal modes are saved.
    The data must have the structure BPOD needs. *)
Theorem C53_ex6 lapack sqrt direct dv adjoint av p q mx my st atol rtol (c : F) dh ah :
  NoDup (direct ++ adjoint) -> length direct = length dv -> length adjoint = length av ->
  0 < p -> 0 < q -> 0 < mx -> 0 < my -> length dv = (mx * p)%nat -> length av = (my * q)%nat ->
  (forall d, block_Hankel p q mx my (fun i j => ip S (nth i av d) (nth j dv d))) ->
  (forall i j, dh i = dh j -> i = j) -> (forall i j, ah i = ah j -> i = j) -> (forall i j, dh i <> ah j) ->
  (forall h i, h ∈ direct ++ adjoint -> h <> dh i /\ h <> ah i) ->
  tol_real atol -> tol_real rtol -> real c -> klt_p c 1 ->
  exists H : arr F,
    (nr H = length av /\ nc H = length dv /\
     forall i j d, i < length av -> j < length dv -> NdArray.ent H i j = ip S (nth i av d) (nth j dv d)) /\
    forall U0 S0 Vh0, lapack H = Ok (U0, S0, Vh0) -> svd_contract H U0 S0 Vh0 ->
    (forall i, i < length S0 -> above atol rtol S0 i -> klt_p 0 (at1 S0 i) /\ sqrt_ok sqrt (at1 S0 i)) ->
    (exists i, i < length S0 /\ above atol rtol S0 i) ->
    exists E L R dc ac n,
      svd lapack H atol rtol = Ok (L, E, R) /\ svd_result H S0 atol rtol L E R /\
      1 <= n <= length E /\ klt_p (c * sum (length E) (at1 E)) (sum n (at1 E)) /\
      (forall m, 1 <= m < n -> kle (sum m (at1 E)) (c * sum (length E) (at1 E))) /\
      main_runs P tag_ub eager st
        (tutorial_ex6 S lapack sqrt direct dv adjoint av p q atol rtol c dh ah)
        (fun st' r => r = Ok (E, n) /\
           unchanged_but st st' (direct ++ adjoint ++ map dh (seq 0 n) ++ map ah (seq 0 n)) /\
           exists dms ams, holds st' (map dh (seq 0 n)) dms /\ holds st' (map ah (seq 0 n)) ams /\
             bpod_modes S sqrt dv av E L R dc ac (seq 0 n) (seq 0 n) dms ams).
Proof.
  intros Hnd Ld La Hp Hq Hmx Hmy LD LA HB Id Ia Ida Hdis Rat Rrt Rc Hc.
  destruct (puts_run (direct ++ adjoint) (dv ++ av) st Hnd) as (st1 & P1 & P2 & P3); [rewrite !app_length; lia|].
  apply holds_app in P2; [|auto]. destruct P2 as [Hd Ha].
  destruct (BPOD_parts_ok S HS lapack sqrt BPOD_new direct adjoint dv av p q mx my st1 atol rtol) as (H & HH & G); auto.
  exists H. split; [exact HH|]. intros U0 S0 Vh0 H1 H2 H3 Hne.
  destruct (G U0 S0 Vh0 H1 H2) as (E & L & R & dc & ac & G1 & G2 & _ & _ & _ & _ & K1 & K2).
  { intros i Hi Hab. destruct (H3 i Hi Hab) as [Hpos Hs]. split; auto. apply pos_neq; auto. }
  clear G.
  assert (HE : Forall (fun x => real x /\ klt_p 0 x) E).
  { rewrite Forall_forall. intros x Hx. apply elem_of_list_In, (In_nth _ _ 0) in Hx. destruct Hx as (i & Hi & <-).
    assert (L0 : length E <= length S0) by (rewrite (sr_prefix _ _ _ _ _ _ _ G2), firstn_length; lia).
    assert (Ei : nth i E 0 = at1 S0 i).
    { rewrite (sr_prefix _ _ _ _ _ _ _ G2). apply at1_firstn. auto. }
    rewrite Ei. assert (Hab : above atol rtol S0 i) by (apply (sr_kept _ _ _ _ _ _ _ G2); [lia|auto]).
    split; [apply (svd_real_at H U0 S0 Vh0); auto; lia|apply (H3 i); auto; lia]. }
  assert (NE : E <> []).
  { destruct Hne as (i & Hi & Hab). intros ->. apply (sr_kept _ _ _ _ _ _ _ G2) in Hab; auto. simpl in Hab. lia. }
  destruct (num_modes_spec c E NE HE Rc Hc) as (n & En & Hn & Hn1 & Hn2).
  exists E, L, R, dc, ac, n. do 5 (split; [auto|]). apply C53_main.
  split; [apply rank_zero_no_conflict|]. exists st1. split; [rewrite rank_zero_run by apply HPpos; exact P1|].
  apply okm_do; eauto. eapply ok_mono; [exact K1|]. intros st2 r [-> ->]. cbn [bh_sing_vals]. rewrite En.
  assert (Hin : forall h, h ∈ map dh (seq 0 n) \/ h ∈ map ah (seq 0 n) -> exists i, h = dh i \/ h = ah i).
  { intros h [Hh|Hh]; apply elem_of_list_fmap in Hh; destruct Hh as (i & -> & _); eauto. }
  assert (N2 : NoDup (map dh (seq 0 n) ++ map ah (seq 0 n))).
  { apply NoDup_app. split; [apply NoDup_fmap_2_strong; [intros; auto|apply NoDup_seq]|].
    split; [|apply NoDup_fmap_2_strong; [intros; auto|apply NoDup_seq]].
    intros h Hh Hh'. apply elem_of_list_fmap in Hh, Hh'. destruct Hh as (i & -> & _). destruct Hh' as (j & Ej & _).
    apply (Ida i j Ej). }
  assert (D2 : forall h, h ∈ direct \/ h ∈ adjoint -> h ∉ map dh (seq 0 n) ++ map ah (seq 0 n)).
  { intros h Hh Hin'. apply elem_of_app in Hin'. destruct (Hin h Hin') as [i Hi].
    destruct (Hdis h i) as [D1 D2]; [apply elem_of_app; auto|]. tauto. }
  pose proof (K2 (map Z.of_nat (seq 0 n)) (map dh (seq 0 n)) (map Z.of_nat (seq 0 n)) (map ah (seq 0 n))
    ltac:(rewrite !map_length; reflexivity) ltac:(rewrite !map_length; reflexivity) N2 D2) as K.
  clear K2. rewrite wrap_seq in K by lia. unfold BPOD_results_of in K. apply ok_unbind in K.
  apply okm_do; eauto. eapply ok_mono; [exact K|]. clear K. intros st2 [o|e] K; [|destruct K; discriminate].
  apply ok_unbind in K. apply okm_do; eauto. eapply ok_mono; [exact K|]. clear K.
  intros st3 [o'|e] K; [|destruct K; discriminate].
  apply ok_pure in K; [|apply pure_bpod_coeffs]. destruct K as (r & _ & Hu & K). cbn [okm]. split; [auto|]. split; [|auto].
  intros h Hh. rewrite !elem_of_app in Hh. rewrite Hu, P3; auto; intros Hin'; apply elem_of_app in Hin'; tauto.
Qed.

End Props.

(** ** Without the barrier, without the test for rank zero, and the output directory *)
Section Races.
Context {F : sfield} {V : Type}.

(** tutorial_ex4.py:26-28 without line 29: the other rank may read before rank zero has
    written. *)
Theorem C53_no_barrier_refuted tag_ub (eager : msg V F -> bool) h v (st : gmap loc V) : st !! h = None ->
  ~ always_ends tag_ub eager (launch 2 (fun r => unsynced (rank_zero [Save h v] r) h) st)
      (fun c => forall r, r < 2 -> procs c !! r = Some (Ret v)).
Proof.
  intros Hn (n & H). set (c0 := launch 2 _ st) in H.
  assert (St : steps tag_ub eager 3 c0 (Config [Ret v; Fail OSError] ∅ (<[h := v]> st))).
  { eapply steps_S; [apply (step_rank _ _ 1%nat); unfold rank_step; simpl; rewrite Hn; reflexivity|].
    eapply steps_S; [apply (step_rank _ _ 0%nat); reflexivity|].
    eapply steps_S; [apply (step_rank _ _ 0%nat); unfold rank_step; simpl; rewrite lookup_insert; reflexivity|]. apply steps_O. }
  destruct (H _ _ St) as (_ & Q & _).
  assert (K : stuck tag_ub eager (Config [Ret v; Fail OSError] ∅ (<[h := v]> st) : config (msg V F) V V)).
  { intros c' Hs. inversion Hs as [i c1 c2 Hr|ps ch st2 Hne Hall]; subst.
    - destruct i as [|[|i]]; discriminate.
    - inversion Hall as [|? ? Hb]; subst. exact Hb. }
  specialize (Q K 1%nat ltac:(lia)). discriminate.
Qed.

(** tutorial_ex3.py:22-26, as run by runall.py:11-14: every rank writes every file.  A
    file that is being written holds [part]; another rank may read that. *)
Theorem C53_ex3_refuted tag_ub (eager : msg V F -> bool) h v part (st : gmap loc V) : part <> v ->
  ~ always_ends tag_ub eager (launch 2 (fun r => unsynced [Save h part; Save h v] h) st)
      (fun c => forall r, r < 2 -> procs c !! r = Some (Ret v)).
Proof.
  intros Ne (n & H). set (c0 := launch 2 _ st) in H.
  set (s1 := <[h := v]> (<[h := part]> st)). set (s2 := <[h := part]> s1). set (s3 := <[h := v]> s2).
  assert (St : steps tag_ub eager 6 c0 (Config [Ret part; Ret v] ∅ s3)).
  { eapply steps_S; [apply (step_rank _ _ 0%nat); reflexivity|].
    eapply steps_S; [apply (step_rank _ _ 0%nat); reflexivity|].
    eapply steps_S; [apply (step_rank _ _ 1%nat); reflexivity|].
    eapply steps_S; [apply (step_rank _ _ 0%nat); unfold rank_step; simpl; rewrite lookup_insert; reflexivity|].
    eapply steps_S; [apply (step_rank _ _ 1%nat); reflexivity|].
    eapply steps_S; [apply (step_rank _ _ 1%nat); unfold rank_step; simpl; rewrite lookup_insert; reflexivity|]. apply steps_O. }
  destruct (H _ _ St) as (_ & Q & _).
  assert (K : stuck tag_ub eager (Config [Ret part; Ret v] ∅ s3 : config (msg V F) V V)).
  { intros c' Hs. inversion Hs as [i c1 c2 Hr|ps ch st2 Hne Hall]; subst.
    - destruct i as [|[|i]]; discriminate.
    - inversion Hall as [|? ? Hb]; subst. exact Hb. }
  specialize (Q K 0%nat ltac:(lia)). simpl in Q. congruence.
Qed.
End Races.

(** The directory: one process, or a directory that exists: no failure; at the end it
    exists. *)
Theorem C53_makedirs n ex c : n <= 1 \/ ex = true -> dir_runs (replicate n DTest, ex) c ->
  forall p, p ∈ fst c -> p <> DFailed /\ (p = DDone -> snd c = true).
Proof.
  intros Hn Hr.
  assert (G : length (fst c) = n /\ (n <= 1 \/ snd c = true) /\
    forall i p, fst c !! i = Some p -> p <> DFailed /\ (p = DDone -> snd c = true) /\ (p = DMake -> n <= 1 /\ snd c = false)).
  { induction Hr as [|c1 c2 Hr IH Hs].
    - split; [apply replicate_length|]. split; [auto|]. intros i p Hp. apply lookup_replicate in Hp.
      destruct Hp as [-> _]. split; [discriminate|]. split; discriminate.
    - destruct IH as (L & Hx & IH). destruct Hs as [ps i e Hi|ps i e Hi]; simpl in *.
      + split; [rewrite insert_length; auto|]. split; [auto|]. intros j p Hj.
        apply list_lookup_insert_Some in Hj. destruct Hj as [(<- & <- & _)|[_ Hj]]; [|eauto].
        destruct e; (split; [discriminate|]); (split; [auto; discriminate|]); [discriminate|].
        intros _. destruct Hx; [auto|discriminate].
      + destruct (IH i DMake Hi) as (_ & _ & HM). destruct (HM eq_refl) as [Hn1 He]. subst e.
        split; [rewrite insert_length; auto|]. split; [auto|]. intros j p Hj.
        apply list_lookup_insert_Some in Hj. destruct Hj as [(<- & <- & _)|[Hij Hj]].
        * split; [discriminate|]. split; [auto|discriminate].
        * apply lookup_lt_Some in Hi, Hj. lia. }
  intros p Hp. apply elem_of_list_lookup in Hp. destruct Hp as [i Hp]. destruct G as (_ & _ & G). split; apply (G i p Hp).
Qed.
(** Two processes or more and no directory: a rank may fail. *)
Theorem C53_makedirs_refuted n : 2 <= n ->
  exists ps, dir_runs (replicate n DTest, false) (ps, true) /\ ps !! 1%nat = Some DFailed.
Proof.
  intros Hn. destruct n as [|[|n]]; try lia. exists (DDone :: DFailed :: replicate n DTest). split; [|reflexivity].
  eapply dir_more; [eapply dir_more; [eapply dir_more; [eapply dir_more; [apply dir_start|]|]|]|].
  - apply (dir_test _ 0%nat). reflexivity.
  - apply (dir_test _ 1%nat). reflexivity.
  - apply (dir_make _ 0%nat). reflexivity.
  - exact (dir_make (DDone :: DMake :: replicate n DTest) 1%nat true eq_refl).
Qed.

Print Assumptions C53_methods.
Print Assumptions C53_main.
Print Assumptions C53_ex4.
Print Assumptions C53_ex5.
Print Assumptions C53_ex6.
Print Assumptions C53_rom_ex2.
Print Assumptions C53_pod_galerkin.
Print Assumptions C53_no_barrier_refuted.
Print Assumptions C53_ex3_refuted.
Print Assumptions C53_makedirs.
Print Assumptions C53_makedirs_refuted.
