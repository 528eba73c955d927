(** Property C33: finite-difference derivatives of handles. *)
From stdpp Require Import gmap list.
From Coq Require Import ZArith Lia.
From Verif Require Import Prelude ParallelModel ParallelProofs Spmd SpmdFacts SpmdLock SpmdEnds
  SpmdWrites ReductionsModel ReductionsProofs InnerProdModel ArrayProofs TaskProofs LinCombProofs
  InnerProdProps DerivsModel DerivsProofs.
Open Scope nat_scope.

(** Derivative handle [i] may be one of the inputs only if it is input [i]. *)
Definition no_clash (vecs advs derivs : list loc) : Prop :=
  forall i j h, derivs !! i = Some h -> vecs !! j = Some h \/ advs !! j = Some h -> i = j.

(** On every schedule, derivative handle [i] ends with [c * (adv_i - vec_i)],
    [c] being [1. / dt], every rank returns and nothing else is modified. *)
Theorem C33_derivatives {M V K} tag_ub (eager : M -> bool) P vsub smul (c : K) st
    (vecs advs derivs : list loc) (vs ws : list V) :
  0 < P -> length vecs = length advs -> length vecs = length derivs ->
  holds st vecs vs -> holds st advs ws ->
  NoDup derivs -> no_clash vecs advs derivs ->
  always_ends tag_ub eager
    (launch P (fun r => derivs_handles P vsub smul (Ok c) r vecs advs derivs) st)
    (fun d => all_return (fun _ (_ : unit) => True) d /\ length (procs d) = P /\
      (forall i h v w, derivs !! i = Some h -> vs !! i = Some v -> ws !! i = Some w ->
         store d !! h = Some (smul c (vsub w v))) /\
      (forall h, h ∉ derivs -> store d !! h = st !! h)).
Proof.
  intros HP L1 L2 Hv Hw Hnd Hc.
  apply (wp_always_ends tag_ub eager P st _
    (fun r h => r < P /\ dreads P vecs advs r h) (dwrites P vecs derivs)
    (fun st' _ => st' = puts st (dputs vsub smul derivs vs ws c)) (fun _ _ => True)
    (fun st' => (forall i h v w, derivs !! i = Some h -> vs !! i = Some v -> ws !! i = Some w ->
         st' !! h = Some (smul c (vsub w v))) /\
      (forall h, h ∉ derivs -> st' !! h = st !! h))); auto.
  - apply derivs_separate; auto.
  - intros r Hr. apply puses_uses. apply puses_derivs; auto.
  - apply (wp_derivs P tag_ub eager vsub smul HP vecs advs derivs L1 L2 st vs ws); auto.
  - intros st' os ->. split; auto.
    apply (derivs_done P vsub smul HP vecs advs derivs L1 L2 st vs ws Hv Hw Hnd c).
Qed.

(** Every derivative handle is written exactly once and nothing else is written. *)
Theorem C33_written_once {M V K} tag_ub (eager : M -> bool) P vsub smul (inv_dt : res K) st
    (vecs advs derivs : list loc) w (d : config M V unit) :
  0 < P -> length vecs = length derivs ->
  run tag_ub eager w
    (launch P (fun r => derivs_handles P vsub smul inv_dt r vecs advs derivs) st) d ->
  (forall i p, procs d !! i = Some p -> exists o : unit, p = Ret o) ->
  map snd w ≡ₚ derivs.
Proof.
  intros HP L Hrun Hd.
  set (ws := fun r => map (fun j => nth j derivs 0) (rank_tasks P (length vecs) r)).
  assert (Hlen : length (procs (launch P (fun r =>
     derivs_handles P vsub smul inv_dt r vecs advs derivs) st : config M V unit)) = P).
  { simpl. rewrite fmap_length. apply seq_length. }
  assert (Hw : forall r, r < P -> writes_of_rank r w = ws r).
  { intros r Hr. apply (run_writes tag_ub eager w _ d Hrun ws); auto; [|rewrite Hlen; auto].
    simpl. intros i p Hp. rewrite list_lookup_fmap in Hp.
    destruct (seq 0 P !! i) as [i'|] eqn:Ei; [|discriminate].
    apply lookup_seq in Ei. destruct Ei as [-> Hi]. simpl in Hp. injection Hp as <-.
    apply pwrites_writes. apply pwrites_derivs; auto. }
  rewrite (by_rank P w).
  2:{ intros x Hx. rewrite <- Hlen. eapply run_ranks; eauto. }
  rewrite (flat_map_ext_in _ ws).
  2:{ intros r Hr. apply elem_of_seq in Hr. apply Hw. lia. }
  unfold ws. rewrite <- map_flat_map. unfold rank_tasks. rewrite tasks_concat by auto.
  rewrite L, map_nth_seq. reflexivity.
Qed.

(** Lists of different lengths: RuntimeError on every rank, nothing written. *)
Theorem C33_length_mismatch {M V K} tag_ub (eager : M -> bool) P vsub smul (inv_dt : res K) st
    (vecs advs derivs : list loc) :
  0 < P -> length vecs <> length advs \/ length vecs <> length derivs ->
  always_ends tag_ub eager
    (launch P (fun r => derivs_handles P vsub smul inv_dt r vecs advs derivs) st)
    (fun c => length (procs c) = P /\
       (forall i, i < P -> procs c !! i = Some (@Fail M V unit RuntimeError)) /\
       chans c = ∅ /\ store c = st).
Proof.
  intros HP Hl.
  assert (G : forall r, @derivs_handles M V K unit P vsub smul inv_dt r vecs advs derivs
                = fail RuntimeError).
  { intros r. unfold derivs_handles.
    destruct (Nat.eqb_spec (length vecs) (length advs)); [|reflexivity].
    destruct (Nat.eqb_spec (length vecs) (length derivs)); [lia|reflexivity]. }
  apply (all_fail tag_ub eager P _ st (fun _ _ => True) (fun _ _ => False)); auto.
  - apply separate_readonly.
  - intros i Hi. rewrite G. exact I.
  - intros i Hi. rewrite G. apply local_fail_fail.
Qed.

(** [dt = 0]: rank 0 fails on every schedule (the ranks without tasks then
    wait at the barrier for ever). *)
Theorem C33_zero_dt {M V K} tag_ub (eager : M -> bool) P vsub smul st
    (vecs advs derivs : list loc) (vs ws : list V) e :
  0 < P -> length vecs = length advs -> length vecs = length derivs ->
  holds st vecs vs -> holds st advs ws -> vecs <> [] ->
  NoDup derivs -> no_clash vecs advs derivs ->
  always_ends tag_ub eager
    (launch P (fun r => derivs_handles P vsub smul (@Raise K e) r vecs advs derivs) st)
    (fun c => procs c !! 0 = Some (@Fail M V unit e)).
Proof.
  intros HP L1 L2 Hv Hw Nv Hnd Hc.
  apply (rank_fails tag_ub eager P _ st
    (fun r h => r < P /\ dreads P vecs advs r h) (dwrites P vecs derivs)); auto.
  - apply derivs_separate; auto.
  - intros r Hr. apply puses_uses. apply puses_derivs; auto.
  - unfold derivs_handles.
    rewrite (proj2 (Nat.eqb_eq _ _) L1), (proj2 (Nat.eqb_eq _ _) L2). simpl.
    apply local_fail_bind. rewrite tasks_nth by auto. rewrite tstart_0.
    assert (T : 0 < tlen P (length vecs) 0).
    { apply tlen_pos; auto. destruct vecs; simpl; [congruence|lia]. }
    destruct (tlen P (length vecs) 0) as [|k]; [lia|]. simpl.
    destruct vecs as [|h vecs]; [congruence|]. destruct advs as [|h' advs]; [discriminate|].
    inversion Hv as [|? v ? vs' Sv]; subst. inversion Hw as [|? w ? ws' Sw]; subst.
    apply local_fail_bind. simpl.
    eapply local_fail_after; [apply local_ret|].
    eapply local_fail_after; [apply local_get; exact Sv|].
    eapply local_fail_after; [apply local_ret|].
    eapply local_fail_after; [apply local_get; exact Sw|].
    apply local_fail_bind, local_fail_fail.
Qed.

(** ** Arrays *)

(** [m] rows, at least one, of [n] entries. *)
Definition rectangle {K} (m n : nat) (A : list (list K)) : Prop := 0 < m /\ length A = m /\ Forall (fun r => length r = n) A.
(** Entry [i, j]. *)
Definition cell {K} (A : list (list K)) (i j : nat) : option K := r ← A !! i; r !! j.
(** The index in a dimension of length [a], if one of length one is repeated. *)
Definition clip (a i : nat) : nat := if decide (a = 1) then 0 else i.

Lemma stretch_len {A} n (l : list A) : length l = n \/ length l = 1 -> length (stretch n l) = n.
Proof. intros H. destruct l as [|x [|y l]]; simpl in *; rewrite ?replicate_length; lia. Qed.
Lemma stretch_lookup {A} n (l : list A) i : length l = n \/ length l = 1 -> i < n -> stretch n l !! i = l !! clip (length l) i.
Proof.
  intros H Hi. unfold clip. destruct l as [|x [|y l]]; simpl in *; [reflexivity| |reflexivity].
  apply lookup_replicate. auto.
Qed.
Lemma rectangle_width {K} m n (A : list (list K)) : rectangle m n A -> width A = n.
Proof. intros (H1 & H2 & H3). destruct A as [|r A]; simpl in *; [lia|]. inversion H3; auto. Qed.
Lemma rectangle_cell {K} m n (A : list (list K)) i j : rectangle m n A -> i < m -> j < n -> exists x, cell A i j = Some x.
Proof.
  intros (H1 & H2 & H3) Hi Hj. destruct (lookup_lt_is_Some_2 A i) as [r Hr]; [lia|].
  rewrite Forall_lookup in H3. specialize (H3 i r Hr). destruct (lookup_lt_is_Some_2 r j) as [x Hx]; [lia|].
  exists x. unfold cell. rewrite Hr. exact Hx.
Qed.
Lemma stretch_rows {K} m n m' n' (A : list (list K)) : rectangle m n A -> (m = m' \/ m = 1) -> (n = n' \/ n = 1) -> 
  length (stretch m' (map (stretch n') A)) = m' /\ Forall (fun r => length r = n') (stretch m' (map (stretch n') A)) /\
  forall i j, i < m' -> j < n' -> cell (stretch m' (map (stretch n') A)) i j = cell A (clip m i) (clip n j).
Proof.
  intros (H1 & H2 & H3) Hm Hn.
  assert (L : length (map (stretch n') A) = m' \/ length (map (stretch n') A) = 1) by (rewrite map_length; lia).
  split; [apply stretch_len; auto|]. split.
  - apply Forall_lookup. intros i r Hr. pose proof (lookup_lt_Some _ _ _ Hr) as Hi. rewrite stretch_len in Hi by auto.
    rewrite stretch_lookup in Hr by auto. rewrite lookup_map in Hr.
    destruct (A !! clip (length (map (stretch n') A)) i) as [r0|] eqn:E; [|discriminate]. injection Hr as <-.
    rewrite Forall_lookup in H3. apply stretch_len. rewrite (H3 _ _ E). destruct Hn; auto.
  - intros i j Hi Hj. unfold cell. rewrite stretch_lookup by auto. rewrite lookup_map, map_length, H2.
    destruct (A !! clip m i) as [r0|] eqn:E; [|reflexivity]. simpl. rewrite Forall_lookup in H3. pose proof (H3 _ _ E) as Lr.
    rewrite stretch_lookup by (rewrite ?Lr; destruct Hn; auto). rewrite Lr. reflexivity.
Qed.

(** Every entry of the result is the quotient of the difference.  A dimension of length one
    is repeated to fit (so one vector or one entry will do for all); other shapes that
    differ are rejected. *)
Theorem C33_arrays {K} (sub : K -> K -> K) (div : K -> K) vecs advs m n m' n' :
  rectangle m n vecs -> rectangle m' n' advs ->
  ((m = m' \/ m = 1 \/ m' = 1) /\ (n = n' \/ n = 1 \/ n' = 1) ->
   exists rows k l, derivs_arrays sub div vecs advs = Ok rows /\
     k = (if decide (m = 1) then m' else m) /\ l = (if decide (n = 1) then n' else n) /\ rectangle k l rows /\
     forall i j, i < k -> j < l -> exists a v, cell advs (clip m' i) (clip n' j) = Some a /\
       cell vecs (clip m i) (clip n j) = Some v /\ cell rows i j = Some (div (sub a v))) /\
  (~ ((m = m' \/ m = 1 \/ m' = 1) /\ (n = n' \/ n = 1 \/ n' = 1)) -> derivs_arrays sub div vecs advs = Raise ValueError).
Proof.
  intros Rv Ra. pose proof (rectangle_width _ _ _ Rv) as Wv. pose proof (rectangle_width _ _ _ Ra) as Wa.
  unfold derivs_arrays. rewrite Wv, Wa. pose proof Rv as (Hm & -> & _). pose proof Ra as (Hm' & -> & _).
  assert (BD : forall a b, (b = a \/ b = 1 \/ a = 1) -> broadcast_dim a b = Some (if decide (b = 1) then a else b)).
  { intros a b H. unfold broadcast_dim. destruct (Nat.eqb_spec a b) as [->|]; [destruct (decide (b = 1)); congruence|].
    destruct (Nat.eqb_spec a 1) as [->|]; [rewrite decide_False by lia; reflexivity|].
    destruct (Nat.eqb_spec b 1) as [->|]; [rewrite decide_True by auto; reflexivity|lia]. }
  assert (BN : forall a b, ~ (b = a \/ b = 1 \/ a = 1) -> broadcast_dim a b = None).
  { intros a b H. unfold broadcast_dim. destruct (Nat.eqb_spec a b); [lia|]. destruct (Nat.eqb_spec a 1); [lia|]. destruct (Nat.eqb_spec b 1); [lia|auto]. }
  split.
  - intros [C1 C2]. rewrite (BD m' m C1), (BD n' n C2).
    set (k := if decide (m = 1) then m' else m). set (l := if decide (n = 1) then n' else n).
    assert (K1 : m' = k \/ m' = 1) by (unfold k; destruct (decide (m = 1)); lia).
    assert (K2 : m = k \/ m = 1) by (unfold k; destruct (decide (m = 1)); lia).
    assert (L1 : n' = l \/ n' = 1) by (unfold l; destruct (decide (n = 1)); lia).
    assert (L2 : n = l \/ n = 1) by (unfold l; destruct (decide (n = 1)); lia).
    assert (Kp : 0 < k) by (unfold k; destruct (decide (m = 1)); lia).
    destruct (stretch_rows m' n' k l advs Ra K1 L1) as (A1 & A2 & A3).
    destruct (stretch_rows m n k l vecs Rv K2 L2) as (V1 & V2 & V3).
    eexists. exists k, l. split; [reflexivity|]. split; [reflexivity|]. split; [reflexivity|].
    set (A := stretch k (map (stretch l) advs)) in *. set (B := stretch k (map (stretch l) vecs)) in *.
    split.
    + split; [auto|]. split; [rewrite map_length, zip_with_length; lia|]. apply Forall_lookup. intros i r Hr.
      rewrite lookup_map, lookup_zip_with in Hr. destruct (A !! i) as [x|] eqn:Ex; [|discriminate].
      destruct (B !! i) as [y|] eqn:Ey; [|discriminate]. injection Hr as <-. rewrite Forall_lookup in A2, V2.
      rewrite map_length, zip_with_length, (A2 _ _ Ex), (V2 _ _ Ey). lia.
    + intros i j Hi Hj. specialize (A3 i j Hi Hj). specialize (V3 i j Hi Hj).
      assert (CL0 : forall a b x, (a = b \/ a = 1) -> x < b -> clip a x < a) by (intros a b x Ho Hx; unfold clip; destruct (decide (a = 1)); lia).
      destruct (rectangle_cell m' n' advs (clip m' i) (clip n' j) Ra) as [a Ea]; [eapply CL0; eauto|eapply CL0; eauto|].
      destruct (rectangle_cell m n vecs (clip m i) (clip n j) Rv) as [v Ev]; [eapply CL0; eauto|eapply CL0; eauto|].
      exists a, v. split; [auto|]. split; [auto|]. rewrite Ea in A3. rewrite Ev in V3. unfold cell in A3, V3 |- *.
      rewrite lookup_map, lookup_zip_with. destruct (A !! i) as [x|]; [|discriminate]. destruct (B !! i) as [y|]; [|discriminate].
      simpl in *. rewrite lookup_map, lookup_zip_with, A3. simpl. rewrite V3. reflexivity.
  - intros N. destruct (decide (m = m' \/ m = 1 \/ m' = 1)) as [C1|C1].
    + rewrite (BD m' m C1), (BN n' n) by tauto. reflexivity.
    + rewrite (BN m' m) by tauto. reflexivity.
Qed.

(** Handles holding the columns (lists of numbers) of two arrays: the derivative
    handles end with the columns of the array of derivatives, provided dividing
    by [dt] is multiplying by [1. / dt]. *)
Theorem C33_handles_agree_with_arrays {M K} tag_ub (eager : M -> bool) P
    (sub mul : K -> K -> K) (div : K -> K) (c : K) st
    (vecs advs derivs : list loc) (vs ws rows : list (list K)) :
  (forall x, div x = mul c x) ->
  0 < P -> length vecs = length advs -> length vecs = length derivs ->
  holds st vecs vs -> holds st advs ws ->
  NoDup derivs -> no_clash vecs advs derivs ->
  map length vs = map length ws -> Forall (fun v => length v = width vs) vs ->
  derivs_arrays sub div vs ws = Ok rows ->
  always_ends tag_ub eager
    (launch P (fun r => derivs_handles P (zip_with sub) (fun x => map (mul x)) (Ok c) r
                          vecs advs derivs) st)
    (fun d => all_return (fun _ (_ : unit) => True) d /\ holds (store d) derivs rows).
Proof.
  intros Hdiv HP L1 L2 Hv Hw Hnd Hc ES ER E.
  eapply always_ends_mono; [apply (C33_derivatives tag_ub eager P (zip_with sub)
    (fun x => map (mul x)) c st vecs advs derivs vs ws); auto|].
  intros d (H1 & H2 & H3 & H4). split; auto.
  assert (LS : length vs = length ws) by (rewrite <- (map_length length vs), ES, map_length; auto).
  assert (WS : width ws = width vs) by (destruct vs, ws; simpl in *; congruence).
  assert (EW : Forall (fun v => length v = width vs) ws).
  { apply Forall_lookup. intros i w Ei. assert (X : map length vs !! i = Some (length w)) by (rewrite ES, lookup_map, Ei; reflexivity).
    rewrite lookup_map in X. destruct (vs !! i) as [v|] eqn:Ev; [|discriminate]. injection X as <-. rewrite Forall_lookup in ER. eauto. }
  unfold derivs_arrays, broadcast_dim in E. rewrite LS, WS, !Nat.eqb_refl in E. injection E as <-.
  assert (SI : forall l : list (list K), Forall (fun v => length v = width vs) l -> map (stretch (width vs)) l = l).
  { intros l Hl. rewrite <- (map_id l) at 2. apply map_ext_in. intros x Hx. rewrite Forall_forall in Hl. specialize (Hl x ltac:(apply elem_of_list_In; auto)).
    destruct x as [|x0 [|x1 x]]; simpl in *; auto. rewrite <- Hl. reflexivity. }
  assert (SJ : forall l : list (list K), length l = length ws -> stretch (length ws) l = l).
  { intros [|x0 [|x1 l]] Hl; simpl in *; auto. rewrite <- Hl. reflexivity. }
  rewrite !SI, !SJ by auto.
  pose proof (Forall2_length _ _ _ Hv). pose proof (Forall2_length _ _ _ Hw).
  apply Forall2_same_length_lookup. split.
  - rewrite map_length, zip_with_length. lia.
  - intros i h r Hi Hr. rewrite lookup_map, lookup_zip_with in Hr.
    destruct (ws !! i) as [w|] eqn:Ew; [|discriminate]. simpl in Hr.
    destruct (vs !! i) as [v|] eqn:Ev; [|discriminate]. simpl in Hr. injection Hr as <-.
    rewrite (H3 i h v w Hi Ev Ew). f_equal. apply map_ext. intros x. symmetry. apply Hdiv.
Qed.

(** ** Instances *)

Definition d_store : gmap loc (list Z) :=
  {[ 1 := [1; 2]%Z; 2 := [4; 8]%Z; 3 := [9; 7]%Z; 4 := [0; 0]%Z ]}.
Definition z_sub (v w : list Z) : list Z := zip_with Z.sub v w.
Definition z_smul (x : Z) (v : list Z) : list Z := map (Z.mul x) v.

(** Two processes; the third derivative overwrites its own input. *)
Example C33_example (eager : unit -> bool) :
  always_ends 0 eager
    (launch 2 (fun r => derivs_handles 2 z_sub z_smul (Ok 2%Z) r [1; 2; 3] [2; 3; 4] [5; 6; 4])
       d_store)
    (fun d => all_return (fun _ (_ : unit) => True) d /\
       map (fun h => store d !! h) [1; 2; 3; 4; 5; 6] =
         [Some [1; 2]; Some [4; 8]; Some [9; 7]; Some [-18; -14]; Some [6; 12];
          Some [10; -2]]%Z).
Proof.
  eapply always_ends_mono; [apply (C33_derivatives 0 eager 2 z_sub z_smul 2%Z d_store [1; 2; 3]
    [2; 3; 4] [5; 6; 4] [[1; 2]; [4; 8]; [9; 7]]%Z [[4; 8]; [9; 7]; [0; 0]]%Z); auto|].
  - repeat constructor.
  - repeat constructor.
  - apply (bool_decide_unpack (NoDup [5; 6; 4])). reflexivity.
  - intros i j h Hi Hj.
    destruct i as [|[|[|i]]]; destruct j as [|[|[|j]]]; simpl in *; rewrite ?lookup_nil in *; intuition congruence.
  - intros d (H1 & _ & H3 & H4). split; auto. simpl.
    pose proof (H3 0 5 [1; 2]%Z [4; 8]%Z eq_refl eq_refl eq_refl) as E5.
    pose proof (H3 1 6 [4; 8]%Z [9; 7]%Z eq_refl eq_refl eq_refl) as E6.
    pose proof (H3 2 4 [9; 7]%Z [0; 0]%Z eq_refl eq_refl eq_refl) as E4.
    assert (F : forall h, h ∈ [1; 2; 3] -> store d !! h = d_store !! h).
    { intros h Hh. apply H4. apply (bool_decide_unpack (h ∉ [5; 6; 4])).
      repeat (apply elem_of_cons in Hh; destruct Hh as [->|Hh]; [reflexivity|]). inversion Hh. }
    pose proof (F 1 ltac:(repeat constructor)) as E1.
    pose proof (F 2 ltac:(repeat constructor)) as E2.
    pose proof (F 3 ltac:(repeat constructor)) as E3.
    unfold loc in *. rewrite E1, E2, E3, E4, E5, E6. reflexivity.
Qed.

Example C33_written_once_example (eager : unit -> bool) : exists w d,
  run 0 eager w
    (launch 2 (fun r => derivs_handles 2 z_sub z_smul (Ok 2%Z) r [1; 2; 3] [2; 3; 4] [5; 6; 4]) d_store) d /\
  (forall i p, procs d !! i = Some p -> exists o : unit, p = Ret o) /\ map snd w ≡ₚ [5; 6; 4].
Proof.
  destruct (C33_example eager) as [n H]. destruct (H 0 _ (steps_O _ _ _)) as (_ & _ & d & Hs & (Hr & _) & _).
  destruct (steps_run _ _ _ _ _ Hs) as [w Hw].
  assert (Hd : forall i p, procs d !! i = Some p -> exists o : unit, p = Ret o).
  { intros i p Hp. destruct (Hr i p Hp) as (o & -> & _). eauto. }
  exists w, d. split; [exact Hw|]. split; [exact Hd|].
  refine (C33_written_once 0 eager 2 z_sub z_smul (Ok 2%Z) d_store _ _ _ w d _ _ Hw Hd); simpl; lia.
Qed.

Example C33_agree_example (eager : unit -> bool) :
  always_ends 0 eager
    (launch 2 (fun r => derivs_handles 2 (zip_with Z.sub) (fun x => map (Z.mul x)) (Ok 2%Z) r [1; 2] [2; 3] [5; 6]) d_store)
    (fun d => all_return (fun _ (_ : unit) => True) d /\ holds (store d) [5; 6] [[6; 12]; [10; -2]]%Z).
Proof.
  apply (C33_handles_agree_with_arrays 0 eager 2 Z.sub Z.mul (Z.mul 2) 2%Z d_store [1; 2] [2; 3] [5; 6]
    [[1; 2]; [4; 8]]%Z [[4; 8]; [9; 7]]%Z); auto.
  - repeat constructor.
  - repeat constructor.
  - apply (bool_decide_unpack (NoDup [5; 6])). reflexivity.
  - intros i j h Hi Hj. destruct i as [|[|i]]; destruct j as [|[|j]]; simpl in *; rewrite ?lookup_nil in *; intuition congruence.
Qed.

Example C33_mismatch_example : length [1; 2] <> length [3] \/ length [1; 2] <> length [4; 5].
Proof. left. discriminate. Qed.

Example C33_length_mismatch_example (eager : unit -> bool) :
  always_ends 0 eager
    (launch 2 (fun r => derivs_handles 2 z_sub z_smul (Ok 2%Z) r [1; 2] [3] [4; 5]) d_store)
    (fun c => procs c !! 1 = Some (@Fail unit (list Z) unit RuntimeError) /\ store c = d_store).
Proof.
  eapply always_ends_mono; [apply (C33_length_mismatch 0 eager 2 z_sub z_smul (Ok 2%Z) d_store [1; 2] [3] [4; 5]);
    [lia|exact C33_mismatch_example]|].
  intros c (_ & Hp & _ & Hs). split; [apply Hp; lia|exact Hs].
Qed.

Example C33_zero_dt_example (eager : unit -> bool) :
  always_ends 0 eager
    (launch 2 (fun r => derivs_handles 2 z_sub z_smul (Raise ZeroDivisionError) r [1] [2] [5])
       d_store)
    (fun d => procs d !! 0 = Some (@Fail unit (list Z) unit ZeroDivisionError)).
Proof.
  apply (C33_zero_dt 0 eager 2 z_sub z_smul d_store [1] [2] [5] [[1; 2]]%Z [[4; 8]]%Z); auto.
  - repeat constructor.
  - repeat constructor.
  - apply (bool_decide_unpack (NoDup [5])). reflexivity.
  - intros i j h Hi Hj. destruct i; destruct j; simpl in *; rewrite ?lookup_nil in *; intuition congruence.
Qed.

Example C33_arrays_example :
  derivs_arrays Z.sub (Z.mul 2) [[1; 2]; [4; 8]]%Z [[4; 8]; [9; 7]]%Z = Ok [[6; 12]; [10; -2]]%Z /\
  (* one advanced vector (a column) for two vectors: repeated *)
  derivs_arrays Z.sub (Z.mul 2) [[1; 2]; [4; 8]]%Z [[4]; [9]]%Z = Ok [[6; 4]; [10; 2]]%Z /\
  derivs_arrays Z.sub (Z.mul 2) [[1; 2; 3]]%Z [[1; 4]]%Z = Raise ValueError.
Proof.
  split; [reflexivity|]. split; [reflexivity|].
  apply (C33_arrays Z.sub (Z.mul 2) [[1; 2; 3]]%Z [[1; 4]]%Z 1 3 1 2); [repeat constructor..|lia].
Qed.

Print Assumptions C33_derivatives.
Print Assumptions C33_written_once.
Print Assumptions C33_length_mismatch.
Print Assumptions C33_zero_dt.
Print Assumptions C33_arrays.
Print Assumptions C33_handles_agree_with_arrays.
