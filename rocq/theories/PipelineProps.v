(** C52: system identification from end to end, composing the models of lsim, impulse,
    OKID, make_sampled_format and compute_ERA_model. *)
From Coq Require Import List Arith Lia Bool ZArith Field Ring Setoid Morphisms.
Import ListNotations.
From Verif Require Import Prelude Field FieldInst Matrix NdArray DecompModel DecompProofs DecompProps VSArraysModel
  PodModel BpodModel EraModel EraProofs EraProps Lti LtiModel LtiProps OkidModel OkidProofs OkidProps.
Open Scope nat_scope.
Open Scope k_scope.

Section C52.
Context {F : sfield}.
Add Field C52_F : (k_field F).

(** What the user writes between the calls (no code of modred): [Y.T], since lsim has a
    column per signal (util.py:446-455) and OKID a row (okid.py:11-16), and [Markovs[1:]],
    since OKID starts with D (okid.py:89) and ERA with CB (era.py:166-167). *)
Definition as_rows (Y : arr F) : nd F :=
  Nd [nc Y; nr Y] (map (fun x => ent Y (x mod nr Y) (x / nr Y))%nat (seq 0 (nc Y * nr Y))).
Definition drop_first (M : arr3 F) : arr3 F :=
  Arr3 (a3_t M - 1) (a3_p M) (a3_m M) (fun t => a3 M (t + 1)%nat).

Lemma as_rows_signal Y t j : t < nr Y -> j < nc Y -> signal (nr Y) (as_rows Y) t j = ent Y t j.
Proof.
  intros Ht Hj. unfold signal, as_rows. cbn [flat]. unfold at1.
  set (f := fun x => ent Y (x mod nr Y) (x / nr Y)%nat).
  rewrite (nth_indep _ 0 (f O)) by (rewrite map_length, seq_length; nia).
  rewrite map_nth, seq_nth by nia. unfold f. rewrite Nat.add_0_l. f_equal.
  - symmetry. apply (Nat.mod_unique _ (nr Y) j); nia.
  - symmetry. apply (Nat.div_unique _ (nr Y) j t); nia.
Qed.

(** ** Reality of the computed model *)

Definition real_arr (A : arr F) : Prop := real_mat (nr A) (nc A) (ent A).

Lemma dot_real (A B C : arr F) : real_arr A -> real_arr B -> dot A B = Ok C -> real_arr C.
Proof.
  intros HA HB. unfold dot. destruct (nc A =? nr B)%nat eqn:E; [|discriminate].
  intros [= <-]. apply Nat.eqb_eq in E. intros i j Hi Hj. cbn in *. unfold mmul. apply sum_real.
  intros l Hl. apply real_mul; [apply HA|apply HB]; lia.
Qed.
Lemma diag_real (l : list F) : (forall i, i < length l -> real (at1 l i)) -> real_arr (diag l).
Proof.
  intros H i j Hi Hj. cbn in *. unfold mdiag. destruct (i =? j)%nat; auto. apply real_0.
Qed.
Lemma conj_T_real (A : arr F) : real_arr A -> real_arr (conj_T A).
Proof.
  intros H i j Hi Hj. cbn in *. unfold madj. rewrite (H j i Hj Hi). apply H; auto.
Qed.
Lemma first_cols_real k (A : arr F) : real_arr A -> real_arr (first_cols k A).
Proof. intros H i j Hi Hj. cbn in *. apply H; lia. Qed.
Lemma col_slice_real a b (A : arr F) : real_arr A -> real_arr (col_slice a b A).
Proof. intros H i j Hi Hj. unfold col_slice in *. cbn in *. apply H; lia. Qed.
Lemma row_slice_real a b (A : arr F) : real_arr A -> real_arr (row_slice a b A).
Proof. intros H i j Hi Hj. unfold row_slice in *. cbn in *. apply H; lia. Qed.

Lemma foldM_inv {S A} (P : S -> Prop) (f : S -> A -> res S) l : 
  (forall s a s', P s -> f s a = Ok s' -> P s') ->
  forall s s', P s -> foldM f l s = Ok s' -> P s'.
Proof.
  intros H. induction l as [|a l IH]; intros s s' Hs; cbn [foldM].
  - intros [= <-]. auto.
  - destruct (f s a) as [s1|e] eqn:E; cbn [rbind]; [|discriminate]. apply IH. eauto.
Qed.
Lemma assemble_real (M : arr3 F) mc mo H H2 : assemble_Hankel M mc mo = Ok (H, H2) ->
  real_arr H /\ real_arr H2.
Proof.
  unfold assemble_Hankel. destruct (_ <? _)%Z; [discriminate|]. destruct (_ || _); [discriminate|].
  match goal with |- context [foldM ?f ?l ?s] => destruct (foldM f l s) as [HH|e] eqn:E end;
    cbn [rbind]; [|discriminate].
  intros [= <- <-].
  assert (G : (forall i j, real (fst HH i j)) /\ (forall i j, real (snd HH i j))).
  { revert E. apply foldM_inv with (P := fun HH : mat F * mat F =>
      (forall i j, real (fst HH i j)) /\ (forall i j, real (snd HH i j))).
    2: { split; intros; apply real_0. }
    intros s row s' Hs. apply foldM_inv with (P := fun HH : mat F * mat F =>
      (forall i j, real (fst HH i j)) /\ (forall i j, real (snd HH i j))); auto.
    clear s s' Hs. intros s col s' [H1 H2]. unfold Hankel_step.
    destruct (index3 M _) as [B1|]; cbn [rbind]; [|discriminate].
    destruct (index3 M _) as [B2|]; cbn [rbind]; [|discriminate].
    intros [= <-]. cbn [fst snd]. unfold set_block. split; intros i j; destruct (_ && _); auto;
      apply real_kre. }
  destruct G. split; intros i j _ _; cbn; auto.
Qed.

Lemma model_real sl eigvals (sqrt : F -> F) Markovs n M' H H2 U S Vh Ar Br Cr :
  real_arr U -> real_arr Vh -> set_Markovs Markovs = Ok M' -> assemble_Hankel M' None None = Ok (H, H2) ->
  sl H = Ok (U, S, Vh) -> n <= length S ->
  (forall i, i < n -> real (sqrt (at1 S i)) /\ sqrt (at1 S i) <> 0) ->
  compute_ERA_model sl eigvals sqrt Markovs n = Ok (Ar, Br, Cr) ->
  real_arr Ar /\ real_arr Br /\ real_arr Cr.
Proof.
  intros RU RV EM EH EL Ln Hsq. destruct (assemble_real _ _ _ _ _ EH) as [R1 R2].
  unfold compute_ERA_model, compute_model, rmap. rewrite EM. cbn [rbind e_mc e_mo ERA]. rewrite EH. cbn [rbind fst snd].
  unfold svd. rewrite EL. cbn [rbind fst snd num_kept]. rewrite firstn_all.
  set (Ur := first_cols n (first_cols (length S) U)). set (Vr := first_cols n (first_cols (length S) (conj_T Vh))).
  set (Er := firstn n S).
  assert (LE : length Er = n) by (unfold Er; rewrite firstn_length; lia).
  assert (AE : forall i, i < n -> at1 Er i = at1 S i) by (intros; unfold Er; apply at1_firstn; auto).
  assert (RUr : real_arr Ur) by (unfold Ur; repeat apply first_cols_real; auto).
  assert (RVr : real_arr Vr) by (unfold Vr; repeat apply first_cols_real; apply conj_T_real; auto).
  assert (RDi : real_arr (diag (map (inv_sqrt sqrt) Er))).
  { apply diag_real. intros i Hi. rewrite map_length, LE in Hi. rewrite at1_map by lia. rewrite AE by auto.
    unfold inv_sqrt. destruct (Hsq i Hi). apply real_div; auto. apply real_1. }
  assert (RD : real_arr (diag (map sqrt Er))).
  { apply diag_real. intros i Hi. rewrite map_length, LE in Hi. rewrite at1_map by lia. rewrite AE by auto.
    apply Hsq; auto. }
  destruct (dot Vr _) as [VD|] eqn:E1; cbn [rbind]; [|discriminate].
  destruct (dot H2 VD) as [HVD|] eqn:E2; cbn [rbind]; [|discriminate].
  destruct (dot (conj_T Ur) HVD) as [UHVD|] eqn:E3; cbn [rbind]; [|discriminate].
  destruct (dot _ UHVD) as [A|] eqn:E4; cbn [rbind]; [|discriminate].
  destruct (dot _ (col_slice _ _ _)) as [B|] eqn:E5; cbn [rbind]; [|discriminate].
  destruct (dot (row_slice _ _ _) _) as [C|] eqn:E6; cbn [rbind]; [|discriminate].
  destruct (eigvals A) as [ev|]; cbn [rbind]; [|discriminate]. cbn [snd]. intros [= <- <- <-].
  split; [|split].
  - apply (dot_real _ _ _ RDi) in E4; auto. apply (dot_real _ _ _ (conj_T_real _ RUr)) in E3; auto.
    apply (dot_real _ _ _ R2) in E2; auto. apply (dot_real _ _ _ RVr RDi E1).
  - apply (dot_real _ _ _ RD) in E5; auto. apply col_slice_real, conj_T_real; auto.
  - apply dot_real in E6; auto. apply row_slice_real; auto.
Qed.

(** ** From Markov parameters to a model *)

(** The two systems have the same impulse responses of any length, and the same outputs
    for all real inputs. *)
Definition same_responses (m p : nat) (A B C A' B' C' : arr F) : Prop :=
  (forall N, exists M M', impulse A B C (Some N) = Ok M /\ impulse A' B' C' (Some N) = Ok M' /\
     a3_t M = N /\ a3_t M' = N /\ forall k, k < N -> meq p m (a3 M k) (a3 M' k)) /\
  (forall inputs, 0 < nr inputs -> nc inputs = m -> real_mat (nr inputs) m (ent inputs) ->
     exists Y Y', lsim A B C inputs None = Ok Y /\ lsim A' B' C' inputs None = Ok Y' /\
       nr Y = nr inputs /\ nr Y' = nr inputs /\ nc Y = p /\ nc Y' = p /\ meq (nr inputs) p (ent Y) (ent Y')).

Lemma same_Markov n n' m p A B C A' B' C' : real_system n m p A B C -> real_system n' m p A' B' C' -> 0 < m ->
  (forall k, meq p m (mmul n' (ent C') (mmul n' (mpow n' (ent A') k) (ent B')))
                     (mmul n (ent C) (mmul n (mpow n (ent A) k) (ent B)))) ->
  same_responses m p A B C A' B' C'.
Proof.
  intros Hs Hs' Pm HM. split.
  - intros N. destruct (C36_impulse n m p A B C N Hs Pm) as (M & EM & M1 & _ & _ & HM1).
    destruct (C36_impulse n' m p A' B' C' N Hs' Pm) as (M' & EM' & M1' & _ & _ & HM1').
    exists M, M'. do 4 (split; [auto|]). intros k Hk. rewrite HM1, HM1', HM by auto. reflexivity.
  - intros inputs HT Hm Hu. destruct (C36_convolution n m p A B C inputs Hs HT Hm Hu) as (Y & EY & Y1 & Y2 & HY).
    destruct (C36_convolution n' m p A' B' C' inputs Hs' HT Hm Hu) as (Y' & EY' & Y1' & Y2' & HY').
    exists Y, Y'. do 6 (split; [auto|]). constructor. intros t i Ht Hi. rewrite HY, HY' by auto.
    apply sum_ext. intros k Hk. apply sum_ext. intros j Hj. f_equal. symmetry. apply HM; auto.
Qed.

(** The array given to make_sampled_format and the result to compute_ERA_model, with
    [Q] holding of the model. LAPACK's contract is for the one matrix passed to it,
    whose blocks are [K (r + c)]. *)
Definition identifies sl eigvals (sqrt : F -> F) (round : F -> Z) (times : list F) (tol : F) (T n m p : nat)
    (M0 : arr3 F) (K : nat -> mat F) (Q : arr F -> arr F -> arr F -> Prop) : Prop :=
  let d := ((T - 2) / 2)%nat in
  exists steps M M' H H2, make_sampled_format round times (of_3d M0) tol = Ok (steps, M) /\
    set_Markovs (of_3d M) = Ok M' /\ assemble_Hankel M' None None = Ok (H, H2) /\
    nr H = (p * d)%nat /\ nc H = (m * d)%nat /\
    (forall r r' i j, r < d -> r' < d -> i < p -> j < m -> ent H (r * p + i)%nat (r' * m + j)%nat = K (r + r')%nat i j) /\
    forall U0 S0 Vh0, sl H = Ok (U0, S0, Vh0) -> svd_contract H U0 S0 Vh0 -> real_arr U0 -> real_arr Vh0 ->
      (forall x, In x S0 -> x <> 0 -> sqrt_ok sqrt x) -> (forall X, exists l, eigvals X = Ok l) ->
      exists Ar Br Cr, compute_ERA_model sl eigvals sqrt (of_3d M) n = Ok (Ar, Br, Cr) /\
        real_system n m p Ar Br Cr /\ Q Ar Br Cr.

Lemma identify sl eigvals (sqrt : F -> F) round times (tol : F) T n m p (A B C Lo Rc : mat F) (M0 : arr3 F) :
  length times = T -> 2 <= T -> all_real times -> real tol -> equally_spaced times tol ->
  0 < p -> 0 < m -> 0 < n ->
  a3_t M0 = T -> a3_p M0 = p -> a3_m M0 = m ->
  (forall k i j, k < T -> i < p -> j < m -> real (a3 M0 k i j)) ->
  (forall k, k < T -> meq p m (a3 M0 k) (mmul n C (mmul n (mpow n A k) B))) ->
  let d := ((T - 2) / 2)%nat in
  meq n n (mmul (p * d) Lo (observability n p 1 A C)) mid ->
  meq n n (mmul (m * d) (controllability n m 1 A B) Rc) mid ->
  identifies sl eigvals sqrt round times tol T n m p M0 (fun k => mmul n C (mmul n (mpow n A k) B))
    (fun Ar Br Cr => forall k, meq p m (mmul n (ent Cr) (mmul n (mpow n (ent Ar) k) (ent Br))) (mmul n C (mmul n (mpow n A k) B))).
Proof.
  intros HL HT HR Rt Hsp Pp Pm Pn Mt Mp Mm Rm HM d HLo HRc.
  assert (At : forall k i j, k < T -> i < p -> j < m -> at1 (flat (of_3d M0)) ((k * p + i) * m + j)%nat = a3 M0 k i j).
  { intros k i j Hk Hi Hj. rewrite <- Mp at 1. rewrite <- Mm at 1. apply of_3d_at; lia. }
  destruct (C30_from_samples sl eigvals sqrt round times (of_3d M0) tol T n p m A B C Lo Rc)
    as (steps & M & M' & H & H2 & E1 & E2 & E3 & HH & Res); auto.
  { cbn. rewrite Mt, Mp, Mm. reflexivity. }
  { intros k i j Hk Hi Hj. rewrite At by auto. apply Rm; auto. }
  { intros k i j Hk Hi Hj. rewrite At by auto. apply HM; auto. }
  destruct (C28_sampled round times (of_3d M0) tol T p m) as (st & M2 & E1' & _ & t1 & t2 & t3 & Ent & _); auto.
  { cbn. rewrite Mt, Mp, Mm. reflexivity. }
  rewrite E1 in E1'. injection E1' as _ <-.
  assert (D2 : (2 * d + 2 <= T)%nat) by (pose proof (Nat.div_mod (T - 2) 2 ltac:(lia)); unfold d; lia).
  exists steps, M, M', H, H2. split; [auto|]. split; [auto|]. split; [auto|].
  fold d in HH. destruct HH as (h1 & h2 & _ & _ & h5). rewrite t2, t3 in *.
  split; [auto|]. split; [auto|]. split.
  - intros r r' i j Hr Hr' Hi Hj. destruct (h5 r r' i j Hr Hr' Hi Hj) as [-> _].
    assert (L2 : 2 * (r + r') < (T - 1) * 2) by lia.
    rewrite Ent, doubled_nth by auto.
    replace (2 * (r + r') / 2 + (2 * (r + r')) mod 2)%nat with (r + r')%nat.
    2: { rewrite Nat.mul_comm, Nat.div_mul, Nat.mod_mul by lia. lia. }
    rewrite At by lia. rewrite (kre_real (a3 M0 (r + r')%nat i j)) by (apply Rm; lia).
    rewrite kre_real by (apply Rm; lia). apply HM; auto. lia.
  - intros U0 S0 Vh0 EL HC RU RV Hsq Heig. destruct (Res U0 S0 Vh0 EL HC Hsq Heig)
      as (Ln & Hn & Ar & Br & Cr & EC & s1 & s2 & s3 & s4 & s5 & s6 & HMk).
    exists Ar, Br, Cr. split; [auto|]. split; [|exact HMk].
    destruct (model_real sl eigvals sqrt (of_3d M) n M' H H2 U0 S0 Vh0 Ar Br Cr) as (r1 & r2 & r3); auto.
    { intros i Hi. assert (I : In (at1 S0 i) S0) by (apply nth_In; lia).
      destruct (Hsq _ I (Hn i Hi)) as (q1 & _ & q3). split; auto.
      intros Z. apply (Hn i Hi). rewrite <- q3, Z. ring. }
    unfold real_arr in *. rewrite s1, s2 in r1. rewrite s3, s4 in r2. rewrite s5, s6 in r3.
    do 6 (split; [auto|]). auto.
Qed.

Lemma Markov_real n m p (A B C : arr F) k i j : real_system n m p A B C -> i < p -> j < m ->
  real (mmul n (ent C) (mmul n (mpow n (ent A) k) (ent B)) i j).
Proof.
  intros (_ & _ & _ & _ & _ & _ & HA & HB & HC) Hi Hj.
  assert (G : forall l, l < n -> real (mmul n (mpow n (ent A) k) (ent B) l j)).
  { assert (P : forall k l l', l < n -> l' < n -> real (mpow n (ent A) k l l')).
    { clear k. intros k. induction k as [|k IH]; intros l l' Hl Hl'; cbn [mpow].
      - unfold mid. destruct (l =? l')%nat; [apply real_1|apply real_0].
      - apply sum_real. intros x Hx. apply real_mul; auto. }
    intros l Hl. apply sum_real. intros x Hx. apply real_mul; auto. }
  apply sum_real. intros l Hl. apply real_mul; auto.
Qed.

(** C52: the model computed from the impulse response. *)
Theorem C52_impulse_era sl eigvals (sqrt : F -> F) round times (tol : F) T n m p (A B C : arr F) (Lo Rc : mat F) :
  real_system n m p A B C -> 0 < p -> 0 < m -> 0 < n ->
  length times = T -> 2 <= T -> all_real times -> real tol -> equally_spaced times tol ->
  let d := ((T - 2) / 2)%nat in
  meq n n (mmul (p * d) Lo (observability n p 1 (ent A) (ent C))) mid ->
  meq n n (mmul (m * d) (controllability n m 1 (ent A) (ent B)) Rc) mid ->
  exists M0, impulse A B C (Some T) = Ok M0 /\
    identifies sl eigvals sqrt round times tol T n m p M0
      (fun k => mmul n (ent C) (mmul n (mpow n (ent A) k) (ent B)))
      (fun Ar Br Cr => same_responses m p A B C Ar Br Cr).
Proof.
  intros Hs Pp Pm Pn HL HT HR Rt Hsp d HLo HRc.
  destruct (C36_impulse n m p A B C T Hs Pm) as (M0 & EM & M1 & M2 & M3 & HM). exists M0. split; [exact EM|].
  assert (Rm : forall k i j, k < T -> i < p -> j < m -> real (a3 M0 k i j)).
  { intros k i j Hk Hi Hj. rewrite (meq_at _ _ _ _ (HM k Hk)) by auto. apply (Markov_real n m p A B C); auto. }
  pose proof (identify sl eigvals sqrt round times tol T n m p (ent A) (ent B) (ent C) Lo Rc M0
    HL HT HR Rt Hsp Pp Pm Pn M1 M2 M3 Rm HM HLo HRc) as (steps & M & M' & H & H2 & E1 & E2 & E3 & E4 & E5 & E6 & Res).
  exists steps, M, M', H, H2. do 6 (split; [auto|]). intros U0 S0 Vh0 EL HC RU RV Hsq Heig.
  destruct (Res U0 S0 Vh0 EL HC RU RV Hsq Heig) as (Ar & Br & Cr & EC & Hr & HMk).
  exists Ar, Br, Cr. split; [auto|]. split; [auto|]. apply (same_Markov n n); auto.
Qed.

(** ** From a simulation to Markov parameters *)

Lemma regressor_ext m p N ns (u u' y y' : nat -> nat -> F) :
  (forall t j, t < ns -> j < m -> u t j = u' t j) -> (forall t j, t < ns -> j < p -> y t j = y' t j) ->
  meq (m + (m + p) * N) ns (regressor m p u y) (regressor m p u' y').
Proof.
  intros Hu Hy. constructor. intros r t Hr Ht. unfold regressor. destruct (Nat.ltb_spec r m); [auto|].
  assert (Q : (m + p <> 0)%nat) by lia. pose proof (Nat.mod_upper_bound (r - m) (m + p) Q) as Um.
  destruct (Nat.ltb_spec t (S ((r - m) / (m + p)))); auto.
  destruct (Nat.ltb_spec ((r - m) mod (m + p)) m); [apply Hu|apply Hy]; lia.
Qed.

(** OKID's estimates from lsim's output: the direct term, which lsim does not have, then
    impulse's array. *)
Theorem C52_lsim_okid lstsq n m p N (A B C inputs : arr F) (G : mat F) :
  real_system n m p A B C -> 0 < m -> 0 < N -> N <= nr inputs -> nc inputs = m ->
  real_mat (nr inputs) m (ent inputs) ->
  meq n n (mpow n (madd (ent A) (mmul p G (ent C))) N) mzero ->
  let ns := nr inputs in
  exists Y, lsim A B C inputs None = Ok Y /\ nr Y = ns /\ nc Y = p /\
    (informative m N ns (ent inputs) \/ independent m p N ns (ent inputs) (ent Y) ->
     exists V, nr V = (m + (m + p) * N)%nat /\ nc V = ns /\
       meq (nr V) ns (ent V) (regressor m p (ent inputs) (ent Y)) /\
       let out := transp (as_2d p ns (flat (as_rows Y))) in
       meq ns p (ent out) (ent Y) /\
       forall X, lstsq (conj_T V) out = Ok X -> lstsq_contract (conj_T V) out X ->
         exists M M0, OKID lstsq (as_rows inputs) (as_rows Y) N = Ok M /\ a3_t M = N /\ a3_p M = p /\ a3_m M = m /\
           impulse A B C (Some (N - 1)%nat) = Ok M0 /\
           meq p m (a3 M 0%nat) mzero /\
           forall k, k < N - 1 -> meq p m (a3 (drop_first M) k) (a3 M0 k)).
Proof.
  intros Hs Pm PN HN Hm Hu Hdb ns. assert (Pns : 0 < nr inputs) by lia.
  destruct (C36_lsim n m p A B C inputs None (fun _ => 0) Hs Pns Hm Hu eq_refl) as (Y & x & EY & Y1 & Y2 & X0 & XS & HY).
  { intros. apply real_0. }
  exists Y. split; [exact EY|]. split; [exact Y1|]. split; [exact Y2|]. intros Hinf.
  assert (Su : forall t j, t < ns -> j < m -> signal ns (as_rows inputs) t j = ent inputs t j).
  { intros t j Ht Hj. unfold ns. apply as_rows_signal; [exact Ht|lia]. }
  assert (Sy : forall t j, t < ns -> j < p -> signal ns (as_rows Y) t j = ent Y t j).
  { intros t j Ht Hj. unfold ns. rewrite <- Y1. apply as_rows_signal; [unfold ns in Ht|]; lia. }
  assert (RY : forall t i, t < ns -> i < p -> real (ent Y t i)).
  { intros t i Ht Hi. destruct (C36_convolution n m p A B C inputs Hs Pns Hm Hu) as (Y' & EY' & _ & _ & HY').
    rewrite EY in EY'. injection EY' as <-. rewrite HY' by auto. apply sum_real. intros k Hk. apply sum_real. intros j Hj.
    apply real_mul; [apply (Markov_real n m p A B C); auto|apply Hu; auto; unfold ns in Ht; lia]. }
  destruct (C31_recovered lstsq (as_rows inputs) (as_rows Y) m p ns N n (ent A) (ent B) (ent C) mzero G) as (V & V1 & V2 & V3 & Res).
  - cbn. rewrite Hm. reflexivity.
  - cbn. rewrite Y1, Y2. reflexivity.
  - exact PN.
  - exact HN.
  - intros t j Ht Hj. rewrite Su by auto. apply Hu; auto.
  - intros t j Ht Hj. rewrite Sy by auto. apply RY; auto.
  - exists x. split; [auto|]. split.
    + intros t l Ht Hl. rewrite XS by auto. unfold mv at 1. f_equal. unfold mv. apply sum_ext. intros j Hj. rewrite Su by (auto; lia). reflexivity.
    + intros t i Ht Hi. rewrite Sy, HY by auto. rewrite mv_mzero. unfold mv. ring.
  - exact Hdb.
  - destruct Hinf as [Hinf|(W & HW)].
    + left. intros dd Hd. apply Hinf. intros t Ht. rewrite <- (Hd t Ht). apply sum_ext. intros k Hk. apply sum_ext. intros j Hj.
      rewrite Su by (auto; lia). reflexivity.
    + right. exists W. rewrite (regressor_ext m p N ns _ _ _ _ Su Sy). exact HW.
  - exists V. split; [exact V1|]. split; [exact V2|]. split.
    { rewrite V3, V1. apply regressor_ext; auto. }
    split.
    { constructor. intros t i Ht Hi. cbn. unfold mtr. apply (Sy t i); auto. }
    intros X EX HC. destruct (Res X EX HC) as (M & EM & M1 & M2 & M3 & HM).
    destruct (C36_impulse n m p A B C (N - 1) Hs Pm) as (M0 & E0 & _ & _ & _ & H0).
    exists M, M0. do 5 (split; [auto|]). split.
    + rewrite (HM O PN). reflexivity.
    + intros k Hk. rewrite (H0 k Hk). cbn [drop_first a3]. rewrite (HM (k + 1)%nat) by lia.
      rewrite Nat.add_1_r. reflexivity.
Qed.

(** ** From a simulation to a model *)
Theorem C52_identification lstsq sl eigvals (sqrt : F -> F) round times (tol : F) T n m p
    (A B C inputs : arr F) (G Lo Rc : mat F) :
  real_system n m p A B C -> 0 < p -> 0 < m -> 0 < n ->
  T + 1 <= nr inputs -> nc inputs = m -> real_mat (nr inputs) m (ent inputs) ->
  meq n n (mpow n (madd (ent A) (mmul p G (ent C))) (T + 1)) mzero ->
  length times = T -> 2 <= T -> all_real times -> real tol -> equally_spaced times tol ->
  let d := ((T - 2) / 2)%nat in
  meq n n (mmul (p * d) Lo (observability n p 1 (ent A) (ent C))) mid ->
  meq n n (mmul (m * d) (controllability n m 1 (ent A) (ent B)) Rc) mid ->
  let ns := nr inputs in
  exists Y, lsim A B C inputs None = Ok Y /\ nr Y = ns /\ nc Y = p /\
    (informative m (T + 1) ns (ent inputs) \/ independent m p (T + 1) ns (ent inputs) (ent Y) ->
     exists V, nr V = (m + (m + p) * (T + 1))%nat /\ nc V = ns /\
       meq (nr V) ns (ent V) (regressor m p (ent inputs) (ent Y)) /\
       let out := transp (as_2d p ns (flat (as_rows Y))) in
       meq ns p (ent out) (ent Y) /\
       forall X, lstsq (conj_T V) out = Ok X -> lstsq_contract (conj_T V) out X ->
         exists M, OKID lstsq (as_rows inputs) (as_rows Y) (T + 1) = Ok M /\
           identifies sl eigvals sqrt round times tol T n m p (drop_first M)
             (fun k => mmul n (ent C) (mmul n (mpow n (ent A) k) (ent B)))
             (fun Ar Br Cr => same_responses m p A B C Ar Br Cr)).
Proof.
  intros Hs Pp Pm Pn Hns Hm Hu Hdb HL HT HR Rt Hsp d HLo HRc ns.
  destruct (C52_lsim_okid lstsq n m p (T + 1) A B C inputs G Hs Pm ltac:(lia) Hns Hm Hu Hdb) as (Y & EY & Y1 & Y2 & Rest).
  exists Y. split; [exact EY|]. split; [exact Y1|]. split; [exact Y2|]. intros Hinf.
  destruct (Rest Hinf) as (V & V1 & V2 & V3 & V4 & Res). exists V. do 4 (split; [assumption|]). intros X EX HC.
  destruct (Res X EX HC) as (M & M0 & EM & M1 & M2 & M3 & EI & _ & HM). exists M. split; [exact EM|].
  destruct (C36_impulse n m p A B C (T + 1 - 1) Hs Pm) as (M0' & EI' & _ & _ & _ & H0).
  rewrite EI in EI'. injection EI' as <-.
  assert (HM2 : forall k, k < T -> meq p m (a3 (drop_first M) k) (mmul n (ent C) (mmul n (mpow n (ent A) k) (ent B)))).
  { intros k Hk. rewrite HM, H0 by lia. reflexivity. }
  assert (Rm : forall k i j, k < T -> i < p -> j < m -> real (a3 (drop_first M) k i j)).
  { intros k i j Hk Hi Hj. rewrite (meq_at _ _ _ _ (HM2 k Hk)) by auto. apply (Markov_real n m p A B C); auto. }
  assert (Dt : a3_t (drop_first M) = T) by (cbn; lia).
  pose proof (identify sl eigvals sqrt round times tol T n m p (ent A) (ent B) (ent C) Lo Rc (drop_first M)
    HL HT HR Rt Hsp Pp Pm Pn Dt M2 M3 Rm HM2 HLo HRc) as (steps & Ms & M' & H & H2 & E1 & E2 & E3 & E4 & E5 & E6 & Res2).
  exists steps, Ms, M', H, H2. do 6 (split; [auto|]). intros U0 S0 Vh0 EL HC2 RU RV Hsq Heig.
  destruct (Res2 U0 S0 Vh0 EL HC2 RU RV Hsq Heig) as (Ar & Br & Cr & EC & Hr & HMk).
  exists Ar, Br, Cr. split; [auto|]. split; [auto|]. apply (same_Markov n n); auto.
Qed.

(** Without dropping the direct term: a model of order q that reproduces OKID's array
    (0, CB, CAB, ...) answers one step late. *)
Theorem C52_undropped sl eigvals (sqrt : F -> F) round times (tol : F) T n q m p (A B C : arr F) (A' B' C' Lo Rc : mat F) (M : arr3 F) :
  real_system n m p A B C -> 0 < p -> 0 < m -> 0 < q ->
  length times = T -> 2 <= T -> all_real times -> real tol -> equally_spaced times tol ->
  a3_t M = T -> a3_p M = p -> a3_m M = m ->
  (forall k, k < T -> meq p m (a3 M k) (Markov n (ent A) (ent B) (ent C) mzero k)) ->
  (forall k, meq p m (mmul q C' (mmul q (mpow q A' k) B')) (Markov n (ent A) (ent B) (ent C) mzero k)) ->
  let d := ((T - 2) / 2)%nat in
  meq q q (mmul (p * d) Lo (observability q p 1 A' C')) mid ->
  meq q q (mmul (m * d) (controllability q m 1 A' B') Rc) mid ->
  identifies sl eigvals sqrt round times tol T q m p M (Markov n (ent A) (ent B) (ent C) mzero)
    (fun Ar Br Cr => forall inputs, 0 < nr inputs -> nc inputs = m -> real_mat (nr inputs) m (ent inputs) ->
       exists Y Y', lsim A B C inputs None = Ok Y /\ lsim Ar Br Cr inputs None = Ok Y' /\
         (forall i, i < p -> ent Y' 0%nat i = 0) /\
         forall t i, S t < nr inputs -> i < p -> ent Y' (S t) i = ent Y t i).
Proof.
  intros Hs Pp Pm Pq HL HT HR Rt Hsp M1 M2 M3 HM HK d HLo HRc.
  assert (RK : forall k i j, i < p -> j < m -> real (Markov n (ent A) (ent B) (ent C) mzero k i j)).
  { intros k i j Hi Hj. destruct k as [|k]; [apply real_0|]. apply (Markov_real n m p A B C); auto. }
  assert (Rm : forall k i j, k < T -> i < p -> j < m -> real (a3 M k i j)).
  { intros k i j Hk Hi Hj. rewrite (meq_at _ _ _ _ (HM k Hk)) by auto. apply RK; auto. }
  assert (HM2 : forall k, k < T -> meq p m (a3 M k) (mmul q C' (mmul q (mpow q A' k) B'))).
  { intros k Hk. rewrite HM, HK by auto. reflexivity. }
  pose proof (identify sl eigvals sqrt round times tol T q m p A' B' C' Lo Rc M
    HL HT HR Rt Hsp Pp Pm Pq M1 M2 M3 Rm HM2 HLo HRc) as (steps & Ms & M' & H & H2 & E1 & E2 & E3 & E4 & E5 & E6 & Res).
  exists steps, Ms, M', H, H2. do 5 (split; [auto|]). split.
  { intros r r' i j Hr Hr' Hi Hj. rewrite E6 by auto. apply HK; auto. }
  intros U0 S0 Vh0 EL HC RU RV Hsq Heig.
  destruct (Res U0 S0 Vh0 EL HC RU RV Hsq Heig) as (Ar & Br & Cr & EC & Hr & HMk).
  exists Ar, Br, Cr. split; [auto|]. split; [auto|]. intros inputs HT' Hm Hu.
  destruct (C36_convolution n m p A B C inputs Hs HT' Hm Hu) as (Y & EY & Y1 & Y2 & HY).
  destruct (C36_convolution q m p Ar Br Cr inputs Hr HT' Hm Hu) as (Y' & EY' & Y1' & Y2' & HY').
  exists Y, Y'. split; [auto|]. split; [auto|]. split.
  - intros i Hi. rewrite HY' by auto. reflexivity.
  - intros t i Ht Hi. rewrite HY', HY by (auto; lia). rewrite sum_S_l.
    rewrite (sum_0 m).
    2: { intros j Hj. rewrite (meq_at _ _ _ _ (HMk O)), (meq_at _ _ _ _ (HK O)) by auto. cbn [Markov]. unfold mzero. ring. }
    transitivity (sum t (fun k => sum m (fun j => mmul n (ent C) (mmul n (mpow n (ent A) k) (ent B)) i j * ent inputs (t - 1 - k)%nat j))); [|reflexivity].
    match goal with |- 0 + ?x = ?y => assert (E : x = y); [|rewrite E; ring] end.
    apply sum_ext. intros k Hk. apply sum_ext. intros j Hj.
    rewrite (meq_at _ _ _ _ (HMk (S k))), (meq_at _ _ _ _ (HK (S k))) by auto. cbn [Markov].
    replace (S t - 1 - S k)%nat with (t - 1 - k)%nat by lia. reflexivity.
Qed.
End C52.
