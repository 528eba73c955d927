(** Bounds on the vectors noted by the programs of HeldModel.v. *)
From stdpp Require Import gmap list.
From Coq Require Import Lia.
From Verif Require Import Prelude ParallelModel Spmd SpmdFacts ReductionsModel InnerProdModel SymmModel
  LinCombModel HeldModel ParallelProofs TaskProofs InnerProdProofs LinCombProofs SymmProofs ReadsProofs.
Open Scope nat_scope.

(** ** Counting *)

Lemma held_le s L : (forall x, x ∈ references s -> x ∈ L) -> held s <= length L.
Proof.
  intros H. unfold held. apply submseteq_length. apply NoDup_submseteq.
  - apply NoDup_remove_dups.
  - intros x Hx. apply H. exact (proj1 (elem_of_remove_dups (references s) x) Hx).
Qed.

Lemma ref_same x l s : refs (set_ref x l s) x = l.
Proof. unfold set_ref. cbn [refs]. rewrite decide_True; auto. Qed.
Lemma ref_other x y l s : y <> x -> refs (set_ref x l s) y = refs s y.
Proof. intros H. unfold set_ref. cbn [refs]. rewrite decide_False; auto. Qed.

(** All variables but [New]. *)
Definition others (s : mem) : list nat :=
  refs s RowVec ++ refs s ColVec ++ refs s RowVecs ++ refs s ColVecs ++ refs s Sent ++
  refs s Received ++ refs s Layer ++ omap id (layer_refs s).
Definition few (d : nat) (s : mem) : Prop :=
  exists L, (forall x, x ∈ others s -> x ∈ L) /\ length L <= d.
Lemma few_held d s : few d s -> held s <= d + length (refs s New).
Proof.
  intros (L & HL & Hd). etransitivity; [apply (held_le s (L ++ refs s New))|].
  - intros x Hx. unfold references in Hx. cbn [flat_map all_vars] in Hx.
    rewrite !elem_of_app in *. destruct (decide (x ∈ refs s New)); [auto|]. left. apply HL.
    unfold others. rewrite !elem_of_app. rewrite elem_of_nil in Hx. tauto.
  - rewrite app_length. lia.
Qed.

(** The memory up to [New]. *)
Definition but_new (s s' : mem) : Prop :=
  (forall y, y <> New -> refs s' y = refs s y) /\ layer_refs s' = layer_refs s.
Lemma but_new_few d s s' : but_new s s' -> few d s -> few d s'.
Proof.
  intros [H HL] (L & HO & Hd). exists L. split; auto. intros x. unfold others.
  rewrite !H, HL by discriminate. apply HO.
Qed.
Lemma but_new_trans s1 s2 s3 : but_new s1 s2 -> but_new s2 s3 -> but_new s1 s3.
Proof. intros [H1 L1] [H2 L2]. split; [intros y Hy; rewrite H2, H1; auto|congruence]. Qed.

Section Safe.
Context {V K O : Type}.
Context (B : nat).
Notation msg := (msg V K).
Notation mproc := (mproc msg V O).

(** Whatever is read and received, at most one vector in a message, no note above [B]. *)
Inductive safe : mproc -> Prop :=
| sf_ret o : safe (MRet o)
| sf_fail e : safe (MFail e)
| sf_isend dst ctx tag x m : safe m -> safe (MIsend dst ctx tag x m)
| sf_recv src ctx tag m : (forall x, vec_count x <= 1 -> safe (m x)) -> safe (MRecv src ctx tag m)
| sf_wait dst ctx tag x m : safe m -> safe (MWait dst ctx tag x m)
| sf_barrier m : safe m -> safe (MBarrier m)
| sf_get h m : (forall v, safe (m v)) -> safe (MGet h m)
| sf_put h v m : safe m -> safe (MPut h v m)
| sf_held n m : n <= B -> safe m -> safe (Held n m).

(** From memories with [I] the program [m] ends, if it does, in memories with [Q], and
    is safe on the way. *)
Definition keeps {A} (I : mem -> Prop) (m : mprog A) (Q : A -> mem -> Prop) : Prop :=
  forall s k, I s -> (forall a s', Q a s' -> safe (k a s')) -> safe (m s k).

Lemma keeps_ret {A} (I : mem -> Prop) (a : A) (Q : A -> mem -> Prop) :
  (forall s, I s -> Q a s) -> keeps I (mret a) Q.
Proof. intros H s k Hs Hk. apply Hk, H, Hs. Qed.
Lemma keeps_bind {A C} (I : mem -> Prop) (m : mprog A) (f : A -> mprog C) R Q :
  keeps I m R -> (forall a, keeps (R a) (f a) Q) -> keeps I (mbind m f) Q.
Proof. intros Hm Hf s k Hs Hk. apply Hm; auto. intros a s' Ha. apply Hf; auto. Qed.
Lemma keeps_graft {A} (p : proc msg V A) (k : A -> mproc) :
  (forall a, safe (k a)) -> safe (graft p k).
Proof. intros Hk. induction p; simpl; try constructor; auto. Qed.
Lemma keeps_plain {A} (I : mem -> Prop) (p : prog msg V A A) : keeps I (plain p) (fun _ => I).
Proof. intros s k Hs Hk. apply keeps_graft. intros a. apply Hk, Hs. Qed.
Lemma keeps_lift {A} (I : mem -> Prop) (r : res A) : keeps I (mlift r) (fun a s => r = Ok a /\ I s).
Proof. intros s k Hs Hk. destruct r; simpl; [apply Hk; auto|constructor]. Qed.
Lemma keeps_mono {A} (I I' : mem -> Prop) (m : mprog A) (Q Q' : A -> mem -> Prop) :
  (forall s, I' s -> I s) -> (forall a s, Q a s -> Q' a s) -> keeps I m Q -> keeps I' m Q'.
Proof. intros H1 H2 H s k Hs Hk. apply H; auto. Qed.
Lemma keeps_pure {A} (I : mem -> Prop) (m : mprog A) (Q : A -> mem -> Prop) (R : Prop) :
  (forall s, I s -> R) -> (R -> keeps I m Q) -> keeps I m Q.
Proof. intros H1 H s k Hs Hk. apply H; eauto. Qed.
(** Changes of the memory. *)
Lemma keeps_assign (I : mem -> Prop) x y (Q : mem -> Prop) :
  (forall s, I s -> Q (set_ref x (refs s y) s)) -> keeps I (assign x y) (fun _ => Q).
Proof. intros H s k Hs Hk. apply Hk, H, Hs. Qed.
Lemma keeps_del (I : mem -> Prop) x (Q : mem -> Prop) :
  (forall s, I s -> Q (set_ref x [] s)) -> keeps I (del x) (fun _ => Q).
Proof. intros H s k Hs Hk. apply Hk, H, Hs. Qed.
Lemma keeps_assign_slice (I : mem -> Prop) x y a b (Q : mem -> Prop) :
  (forall s, I s -> Q (set_ref x (slice a b (refs s y)) s)) -> keeps I (assign_slice x y a b) (fun _ => Q).
Proof. intros H s k Hs Hk. apply Hk, H, Hs. Qed.
Lemma keeps_assign_new (I : mem -> Prop) x (Q : mem -> Prop) :
  (forall s, I s -> Q (set_ref New [] (set_ref x (refs s New) s))) -> keeps I (assign_new x) (fun _ => Q).
Proof. intros H s k Hs Hk. apply Hk, H, Hs. Qed.
Lemma keeps_visit n (I : mem -> Prop) (Q : mem -> Prop) :
  (forall s, I s -> 0 < n -> refs s ColVecs = [] -> Q s) ->
  (forall s x, I s -> 0 < n -> last (refs s ColVecs) = Some x -> Q (set_ref ColVec [x] s)) ->
  (forall s, I s -> n = 0 -> Q s) -> keeps I (visit n) (fun _ => Q).
Proof.
  intros H1 H2 H3 s k Hs Hk. unfold visit. apply Hk. destruct (Nat.ltb_spec 0 n) as [Hn|Hn].
  - destruct (last (refs s ColVecs)) eqn:E; auto. apply last_None in E. auto.
  - apply H3; auto. lia.
Qed.
(** A loop. *)
Lemma keeps_for {A T} (l : list A) (t : T) body (I : nat -> mem -> Prop) :
  (forall i x t, l !! i = Some x -> keeps (I i) (body x t) (fun _ => I (S i))) ->
  keeps (I 0) (mfor l t body) (fun _ => I (length l)).
Proof.
  revert t I. induction l as [|x l IH]; intros t I H; [apply keeps_ret; auto|].
  apply keeps_bind with (fun _ => I 1); [apply (H 0); auto|]. intros t'.
  apply (IH t' (fun i => I (S i))). intros i y u Hy. apply (H (S i)). exact Hy.
Qed.
Lemma keeps_loop {A T} (l : list A) (t : T) body (I : mem -> Prop) :
  (forall x t, x ∈ l -> keeps I (body x t) (fun _ => I)) -> keeps I (mfor l t body) (fun _ => I).
Proof.
  intros H. apply (keeps_for l t body (fun _ => I)). intros i x u Hx. apply H.
  eapply elem_of_list_lookup_2; eauto.
Qed.

(** Making vectors. *)
Lemma safe_make n s k d : few d s -> d + length (refs s New) + n <= B ->
  (forall s', but_new s s' -> length (refs s' New) = length (refs s New) + n -> safe (k tt s')) ->
  safe (make New n s k).
Proof.
  intros Hf Hd Hk. unfold make. cbv zeta.
  set (s' := set_ref New (refs s New ++ seq (next s) n) (Mem (refs s) (layer_refs s) (next s + n))).
  assert (HN : length (refs s' New) = length (refs s New) + n).
  { unfold s'. rewrite ref_same, app_length, seq_length. reflexivity. }
  assert (Hb : but_new s s').
  { split; auto. intros y Hy. unfold s'. rewrite ref_other; auto. }
  constructor; [|apply Hk; auto].
  etransitivity; [apply (few_held d), (but_new_few d s); auto|]. lia.
Qed.
Lemma keeps_make n d (I : mem -> Prop) (Q : mem -> Prop) :
  (forall s, I s -> few d s /\ refs s New = []) -> d + n <= B ->
  (forall s s', I s -> but_new s s' -> length (refs s' New) = n -> Q s') ->
  keeps I (make New n) (fun _ => Q).
Proof.
  intros HI Hd HQ s k Hs Hk. destruct (HI s Hs) as [Hf Hn]. apply (safe_make n s _ d); auto.
  - rewrite Hn. simpl. lia.
  - intros s' Hb Hl. apply Hk, (HQ s); auto. rewrite Hl, Hn. reflexivity.
Qed.
Lemma safe_get_list l : forall s k d, few d s -> d + length (refs s New) + length l <= B ->
  (forall vs s', length vs = length l -> but_new s s' ->
     length (refs s' New) = length (refs s New) + length l -> safe (k vs s')) ->
  safe (mget_list l s k).
Proof.
  induction l as [|h l IH]; intros s k d Hf Hd Hk.
  - apply Hk; auto. split; auto.
  - cbn [mget_list]. unfold mbind, mget. constructor. intros v. apply (safe_make 1 s _ d); auto.
    + simpl in Hd. lia.
    + intros s1 Hb1 Hl1. apply (IH s1 _ d).
      * apply (but_new_few d s); auto.
      * simpl in Hd. lia.
      * intros vs s2 Hvs Hb2 Hl2. apply Hk; [simpl; lia|eapply but_new_trans; eauto|simpl; lia].
Qed.
Lemma keeps_get_list l d (I : mem -> Prop) (Q : list V -> mem -> Prop) :
  (forall s, I s -> few d s /\ refs s New = []) -> d + length l <= B ->
  (forall s s' vs, I s -> but_new s s' -> length vs = length l -> length (refs s' New) = length l -> Q vs s') ->
  keeps I (mget_list l) Q.
Proof.
  intros HI Hd HQ s k Hs Hk. destruct (HI s Hs) as [Hf Hn]. apply (safe_get_list l s _ d); auto.
  - rewrite Hn. simpl. lia.
  - intros vs s' Hvs Hb Hl. apply Hk, (HQ s); auto. rewrite Hl, Hn. reflexivity.
Qed.
Lemma keeps_get h d (I : mem -> Prop) (Q : V -> mem -> Prop) :
  (forall s, I s -> few d s /\ refs s New = []) -> d + 1 <= B ->
  (forall s s' v, I s -> but_new s s' -> length (refs s' New) = 1 -> Q v s') ->
  keeps I (mget h) Q.
Proof.
  intros HI Hd HQ s k Hs Hk. destruct (HI s Hs) as [Hf Hn]. unfold mget. constructor. intros v.
  apply (safe_make 1 s _ d); auto.
  - rewrite Hn. simpl. lia.
  - intros s' Hb Hl. apply Hk, (HQ s); auto. rewrite Hl, Hn. reflexivity.
Qed.
Lemma keeps_swap P rank dest source payload d (I : mem -> Prop) (Q : list V * list nat -> mem -> Prop) :
  (forall s, I s -> few d s /\ refs s New = []) -> d + 1 <= B ->
  (forall s s' p, I s -> but_new s s' -> length (fst p) <= 1 -> length (refs s' New) = length (fst p) ->
     Q p (set_ref New [] (set_ref Received (refs s' New) s'))) ->
  keeps I (mswap P rank dest source payload) Q.
Proof.
  intros HI Hd HQ. unfold mswap. cbv zeta.
  eapply keeps_bind; [apply keeps_plain|]. intros [].
  intros s k Hs Hk. destruct (HI s Hs) as [Hf Hn]. unfold mbind at 1, mrecv. constructor. intros x Hx.
  apply (safe_make _ s _ d); auto.
  - rewrite Hn. simpl. lia.
  - intros s' Hb Hl. rewrite Hn in Hl. simpl in Hl.
    unfold mbind, assign_new, assign, del, plain. cbn. constructor.
    destruct x as [vs idx|a|tl|]; cbn; try constructor. apply Hk. apply (HQ s); auto.
Qed.

(** The ring: [I] between the uses of the vectors at hand, [J] before. *)
Lemma keeps_ring {T} P rank fetch compute (acc : T) (I0 I : mem -> Prop)
    (J : list V * list nat -> mem -> Prop) :
  0 < P ->
  keeps (fun s => exists s0, I0 s0 /\ s = set_ref Received [] s0) fetch
    (fun p s => J p (set_ref New [] (set_ref ColVecs (refs s New) s))) ->
  (forall p t, keeps (J p) (compute p t) (fun _ => I)) ->
  (1 < P -> forall dest source p,
     keeps (fun s => exists s0, I s0 /\ s = set_ref Sent (refs s0 ColVecs) s0)
       (mswap P rank dest source p) (fun p s => J p (set_ref ColVecs (refs s Received) s))) ->
  keeps I0 (mring P rank fetch compute acc) (fun _ => I).
Proof.
  intros HP Hf Hc Hs. unfold mring.
  apply keeps_bind with (fun _ s => exists s0, I0 s0 /\ s = set_ref Received [] s0).
  { apply keeps_del. eauto. }
  intros _. apply keeps_bind with (fun _ => I).
  2:{ intros [t p]. apply keeps_ret. auto. }
  destruct P as [|P]; [lia|]. cbn [seq mfor].
  apply keeps_bind with (fun _ => I).
  - apply keeps_bind with J.
    + cbn [Nat.eqb]. eapply keeps_bind; [exact Hf|]. intros p. intros s k Hp Hk. apply Hk, Hp.
    + intros p. eapply keeps_bind; [apply Hc|]. intros t. apply keeps_ret. auto.
  - intros s1. apply keeps_loop. intros i t Hi. apply elem_of_seq in Hi.
    apply keeps_bind with J.
    + assert ((i =? 0) = false) as -> by (apply Nat.eqb_neq; lia). cbv zeta.
      eapply keeps_bind.
      { apply (keeps_assign I Sent ColVecs
          (fun s => exists s0, I s0 /\ s = set_ref Sent (refs s0 ColVecs) s0)). eauto. }
      intros []. eapply keeps_bind; [apply Hs; lia|]. intros p.
      eapply keeps_bind; [apply keeps_plain|]. intros []. intros s k Hp Hk. apply Hk, Hp.
    + intros p. eapply keeps_bind; [apply Hc|]. intros t'. apply keeps_ret. auto.
Qed.
End Safe.

(** Looking up variables after changes of the memory. *)
Ltac refs_tac :=
  repeat match goal with
  | H : but_new ?s ?s' |- _ =>
      let Hb := fresh "Hb" in let HL := fresh "HL" in destruct H as [Hb HL];
      pose proof (Hb RowVec ltac:(discriminate)); pose proof (Hb ColVec ltac:(discriminate));
      pose proof (Hb RowVecs ltac:(discriminate)); pose proof (Hb ColVecs ltac:(discriminate));
      pose proof (Hb Sent ltac:(discriminate)); pose proof (Hb Received ltac:(discriminate));
      pose proof (Hb Layer ltac:(discriminate)); clear Hb
  end;
  repeat (rewrite ref_same in * || rewrite ref_other in * by discriminate);
  cbn [layer_refs set_ref set_layers] in *;
  repeat match goal with
  | H : refs ?s' ?x = refs ?s ?y |- _ => try rewrite H in *; clear H
  | H : layer_refs ?s' = layer_refs ?s |- _ => try rewrite H in *; clear H
  end;
  repeat match goal with
  | H : refs ?s ?x = [] |- _ => rewrite H in *; clear H
  end.
Ltac ref_goal := repeat (rewrite ref_same || rewrite ref_other by discriminate); cbn [refs].
Ltac in_tac :=
  let x := fresh "x" in intros x;
  repeat match goal with H : forall y, y ∈ _ -> y ∈ _ |- _ => specialize (H x) end;
  rewrite ?elem_of_app, ?elem_of_nil in *; tauto.

Lemma elem_of_slice {A} (x : A) a b l : x ∈ slice a b l -> x ∈ l.
Proof.
  unfold slice. intros H. rewrite <- (firstn_skipn a l). apply elem_of_app. right.
  rewrite <- (firstn_skipn (b - a) (skipn a l)). apply elem_of_app. left. exact H.
Qed.

Lemma chunk_size tasks g m : snd (chunk_bounds tasks g m) - fst (chunk_bounds tasks g m) <= m.
Proof. unfold chunk_bounds. destruct tasks; simpl; lia. Qed.

(** ** compute_inner_product_array *)
Section Inner.
Context {V K O : Type}.
Context (P tag_ub : nat).
Notation msg := (msg V K).
Context (zero : K) (add : K -> K -> K) (conj : K -> K).
Context (store_as : K -> K -> res K).
Context (HP : 0 < P) (c : nat).

(** A rank by itself never sends. *)
Definition sent_max : nat := if 1 <? P then 1 else 0.

Definition ip_mem (s : mem) : Prop :=
  refs s RowVec = [] /\ refs s Layer = [] /\ omap id (layer_refs s) = [] /\ refs s New = [] /\
  length (refs s RowVecs) <= c /\ length (refs s Sent) <= sent_max /\
  length (refs s ColVec) <= 1 /\ length (refs s ColVecs) <= 1 /\
  (forall x, x ∈ refs s Received -> x ∈ refs s ColVecs) /\ length (refs s Received) <= sent_max.
Definition ip_start (s : mem) : Prop :=
  refs s RowVec = [] /\ refs s Layer = [] /\ omap id (layer_refs s) = [] /\ refs s New = [] /\
  length (refs s RowVecs) <= c /\ length (refs s Sent) <= sent_max /\
  length (refs s ColVec) <= 1 /\ refs s ColVecs = [] /\ length (refs s Received) <= sent_max.

Lemma sent_le : sent_max <= 1.
Proof. unfold sent_max. destruct (1 <? P); lia. Qed.

Notation keeps := (@keeps V K O (c + 2 + sent_max)).
Lemma keeps_ip_swap rank dest source p : 1 < P ->
  keeps (fun s => exists s0, ip_mem s0 /\ s = set_ref Sent (refs s0 ColVecs) s0)
    (mswap P rank dest source p) (fun p s => ip_mem (set_ref ColVecs (refs s Received) s)).
Proof.
  intros H. assert (E : sent_max = 1) by (unfold sent_max; rewrite (proj2 (Nat.ltb_lt 1 P)); auto).
  apply keeps_swap with (c + 2); [|lia|].
  - intros s (s0 & (H1 & H2 & H3 & H4 & H5 & H6 & H7 & H8 & H9 & H10) & ->). split; [|refs_tac; auto].
    exists (refs s0 RowVecs ++ refs s0 ColVec ++ refs s0 ColVecs). split; [|rewrite !app_length; lia].
    unfold others. refs_tac. rewrite H3. in_tac.
  - intros s s' q (s0 & (H1 & H2 & H3 & H4 & H5 & H6 & H7 & H8 & H9 & H10) & ->) Hb Hq Hn.
    unfold ip_mem. refs_tac. repeat split; auto; lia.
Qed.
Lemma keeps_ip_block ip like a b rv p x :
  keeps ip_mem (mip_block store_as ip like a b rv p x) (fun _ => ip_mem).
Proof.
  apply keeps_bind with (fun _ => ip_mem).
  { eapply keeps_mono; [| |apply keeps_lift]; [intros s Hs; exact Hs|]. tauto. }
  intros y. apply keeps_bind with (fun _ => ip_mem); [|intros u; apply keeps_ret; auto].
  apply keeps_visit; auto. intros s z (H1 & H2 & H3 & H4 & H5 & H6 & H7 & H8 & H9 & H10) Hn Hz.
  unfold ip_mem. refs_tac. repeat split; auto.
Qed.
Lemma keeps_ip_ring rank hs a b compute (acc : list (list K)) : b - a <= 1 ->
  (forall p t, keeps ip_mem (compute p t) (fun _ => ip_mem)) ->
  keeps ip_start (mring P rank
    (vs <- mget_slice hs a b ;; mret (vs, seq a (b - a)))%mprog compute acc) (fun _ => ip_mem).
Proof.
  intros Hab Hc. apply keeps_ring with (fun _ => ip_mem); auto.
  - eapply keeps_bind.
    + apply (keeps_get_list _ _ (c + 1 + sent_max) _
        (fun _ s => ip_mem (set_ref New [] (set_ref ColVecs (refs s New) s)))).
      * intros s (s0 & (H1 & H2 & H3 & H4 & H5 & H6 & H7 & H8 & H9) & ->). split; [|refs_tac; auto].
        exists (refs s0 RowVecs ++ refs s0 ColVec ++ refs s0 Sent). split; [|rewrite !app_length; lia].
        unfold others. refs_tac. rewrite H3. in_tac.
      * pose proof (slice_short a b hs). lia.
      * intros s s' vs (s0 & (H1 & H2 & H3 & H4 & H5 & H6 & H7 & H8 & H9) & ->) Hb Hv Hn.
        pose proof (slice_short a b hs). unfold ip_mem. refs_tac. repeat split; simpl; auto; try lia. in_tac.
    + intros vs. apply keeps_ret. auto.
  - intros H dest source p. apply keeps_ip_swap; auto.
Qed.
Lemma keeps_burn ip per_node N rows cols :
  2 <= c + 1 ->
  keeps (fun s => ip_start s /\ refs s ColVec = [] /\ refs s RowVecs = [] /\ refs s Sent = [] /\ refs s Received = [])
    (mburn P ip per_node N rows cols) (fun _ s => ip_start s /\ refs s RowVecs = []).
Proof.
  intros Hc.
  set (start := fun s => ip_start s /\ refs s ColVec = [] /\ refs s RowVecs = [] /\ refs s Sent = [] /\ refs s Received = []).
  set (bare := fun s x y => refs s RowVec = x /\ refs s ColVec = y /\ refs s Layer = [] /\
    omap id (layer_refs s) = [] /\ refs s New = [] /\ refs s RowVecs = [] /\ refs s ColVecs = [] /\
    refs s Sent = [] /\ refs s Received = []).
  assert (F : forall s x y d, bare s x y -> length x + length y <= d -> few d s /\ refs s New = []).
  { intros s x y d (<- & <- & H1 & H2 & H3 & H4 & H5 & H6 & H7) Hd. split; auto.
    exists (refs s RowVec ++ refs s ColVec). split; [|rewrite !app_length; lia].
    unfold others. rewrite H1, H2, H4, H5, H6, H7. in_tac. }
  apply keeps_bind with (fun _ s => bare s [] []).
  { eapply keeps_mono; [| |apply (keeps_lift _ start)]; [auto|].
    intros h s (_ & (H1 & H2 & H3 & H4 & H5 & H6 & H7 & H8 & H9) & H11 & H12 & H13 & H14).
    repeat split; auto. }
  intros h. eapply keeps_bind.
  { apply (keeps_get _ h 0 _ (fun _ s => exists x, length x = 1 /\ bare (set_ref New [] (set_ref RowVec (refs s New) s)) x [])).
    - intros s H. apply (F s [] []); auto.
    - unfold sent_max. lia.
    - intros s s' v (H0 & H1 & H2 & H3 & H4 & H5 & H6 & H7 & H8) Hb Hn.
      exists (refs s' New). split; auto. unfold bare. refs_tac. repeat split; auto. }
  intros v0. eapply keeps_bind.
  { apply (keeps_assign_new _ _ _ (fun s => exists x, length x = 1 /\ bare s x [])). auto. }
  intros []. eapply keeps_bind; [apply (keeps_lift _ (fun s => exists x, length x = 1 /\ bare s x []))|].
  intros h'. eapply keeps_bind.
  { apply (keeps_get _ h' 1 _ (fun _ s => exists x y, length x = 1 /\ length y = 1 /\
      bare (set_ref New [] (set_ref ColVec (refs s New) s)) x y)).
    - intros s (_ & x & Hx & H). apply (F s x []); auto. simpl. lia.
    - lia.
    - intros s s' v (_ & x & Hx & (H0 & H1 & H2 & H3 & H4 & H5 & H6 & H7 & H8)) Hb Hn.
      exists x, (refs s' New). split; auto. split; auto. unfold bare. refs_tac. repeat split; auto. }
  intros w. eapply keeps_bind.
  { apply (keeps_assign_new _ _ _ (fun s => exists x y, length x = 1 /\ length y = 1 /\ bare s x y)). auto. }
  intros []. eapply keeps_bind.
  { apply (keeps_get _ h 2 _ (fun _ s => exists x y, length x = 1 /\ length y = 1 /\
      bare (set_ref New [] (set_ref RowVec (refs s New) s)) x y)).
    - intros s (x & y & Hx & Hy & H). apply (F s x y); auto. lia.
    - lia.
    - intros s s' v (x & y & Hx & Hy & (H0 & H1 & H2 & H3 & H4 & H5 & H6 & H7 & H8)) Hb Hn.
      exists (refs s' New), y. split; auto. split; auto. unfold bare. refs_tac. repeat split; auto. }
  intros v. eapply keeps_bind.
  { apply (keeps_assign_new _ _ _ (fun s => exists x y, length x = 1 /\ length y = 1 /\ bare s x y)). auto. }
  intros []. apply keeps_bind with (fun _ s => exists x y, length x = 1 /\ length y = 1 /\ bare s x y).
  { destruct (_ =? _); [apply keeps_plain|apply keeps_ret; auto]. }
  intros x. apply keeps_bind with (fun _ s => exists y, bare s [] y).
  { apply keeps_del. intros s (x1 & y & _ & _ & (H0 & H1 & H2 & H3 & H4 & H5 & H6 & H7 & H8)).
    exists y. unfold bare. refs_tac. repeat split; auto. }
  intros []. apply keeps_bind with (fun _ s => ip_start s /\ refs s RowVecs = []); [|intros u; apply keeps_ret; auto].
  apply keeps_del. intros s (y & (H0 & H1 & H2 & H3 & H4 & H5 & H6 & H7 & H8)).
  unfold ip_start, ip_mem. refs_tac. repeat split; simpl; auto; lia.
Qed.

Lemma keeps_core ip per_node N rank rows cols :
  1 <= c ->
  keeps (eq no_vectors)
    (mip_array_core P tag_ub zero add store_as ip per_node (c + 1) N rank rows cols) (fun _ _ => True).
Proof.
  intros Hc. unfold mip_array_core. cbv zeta.
  apply keeps_bind with (fun _ s => ip_start s /\ refs s RowVecs = []).
  { eapply keeps_mono; [| |apply keeps_burn; lia]; [|auto]. intros s <-. pose proof sent_le.
    unfold ip_start. repeat split; simpl; auto; try lia. }
  intros like. apply keeps_bind with (fun _ s => ip_start s /\ refs s RowVecs = []).
  2:{ intros a. eapply keeps_mono; [| |apply keeps_plain]; [intros s Hs; exact Hs|]. auto. }
  apply keeps_loop. intros g a _.
  set (row_tasks := nth rank (find_assignments P (seq 0 (length rows)) None) []).
  replace (c + 1 - 1) with c by lia.
  eapply keeps_bind.
  { apply (keeps_get_list _ _ (1 + sent_max + sent_max) _
      (fun _ s => ip_start (set_ref New [] (set_ref RowVecs (refs s New) s)))).
    - intros s ((H1 & H2 & H3 & H4 & H5 & H6 & H7 & H8 & H9) & H11). split; auto.
      exists (refs s ColVec ++ refs s Sent ++ refs s Received). split; [|rewrite !app_length; lia].
      unfold others. refs_tac. rewrite H3. in_tac.
    - pose proof (slice_short (fst (chunk_bounds row_tasks g c)) (snd (chunk_bounds row_tasks g c)) rows).
      pose proof (chunk_size row_tasks g c). pose proof sent_le. lia.
    - intros s s' vs ((H1 & H2 & H3 & H4 & H5 & H6 & H7 & H8 & H9) & H11) Hb Hv Hn.
      pose proof (slice_short (fst (chunk_bounds row_tasks g c)) (snd (chunk_bounds row_tasks g c)) rows).
      pose proof (chunk_size row_tasks g c).
      unfold ip_start. refs_tac. repeat split; simpl; auto; lia. }
  intros rv. eapply keeps_bind.
  { apply (keeps_assign_new _ _ _ ip_start). auto. }
  intros []. apply keeps_bind with (fun _ => ip_start).
  - apply keeps_loop. intros i x _.
    set (col_tasks := nth rank (find_assignments P (seq 0 (length cols)) None) []).
    eapply keeps_bind.
    { apply keeps_ip_ring; [apply chunk_size|]. intros p t.
      destruct (0 <? length rv); [apply keeps_ip_block|apply keeps_ret; auto]. }
    intros y. apply keeps_bind with (fun _ => ip_start); [|intros u; apply keeps_ret; auto].
    apply keeps_del. intros s (H1 & H2 & H3 & H4 & H5 & H6 & H7 & H8 & H9 & H10).
    unfold ip_start. refs_tac. repeat split; simpl; auto; lia.
  - intros y. apply keeps_bind with (fun _ s => ip_start s /\ refs s RowVecs = []); [|intros u; apply keeps_ret; auto].
    apply keeps_del. intros s (H1 & H2 & H3 & H4 & H5 & H6 & H7 & H8 & H9).
    unfold ip_start. refs_tac. repeat split; simpl; auto; lia.
Qed.
Lemma keeps_ip_array ip per_node N rank rows cols :
  1 <= c ->
  keeps (eq no_vectors)
    (mip_array P tag_ub zero add conj store_as ip per_node (c + 1) N rank rows cols) (fun _ _ => True).
Proof.
  intros Hc. destruct ip as [ip|].
  - apply keeps_bind with (fun _ _ => True).
    + destruct (_ <? _); [|apply keeps_core; auto].
      eapply keeps_bind; [apply keeps_core; auto|]. intros a. apply keeps_ret. auto.
    + intros a. eapply keeps_bind; [apply keeps_plain|]. intros []. apply keeps_ret. auto.
  - eapply keeps_mono; [| |apply keeps_plain]; [intros s Hs; exact Hs|]. auto.
Qed.
End Inner.

(** ** compute_symm_inner_product_array *)
Section Symm.
Context {V K O : Type}.
Context (P tag_ub : nat).
Notation msg := (msg V K).
Context (zero : K) (add : K -> K -> K) (conj : K -> K) (is_zero : K -> bool).
Context (store_as : K -> K -> res K).
Context (HP : 0 < P) (c : nat) (Hc : 1 <= c).
Notation keeps := (@keeps V K O (c + 2 + sent_max P)).
Notation sent_max := (sent_max P).

(** [col_vec] and [col_vecs] hold one vector together. *)
Definition tidy (s : mem) : Prop :=
  exists L, length L <= 1 /\ (forall x, x ∈ refs s ColVec -> x ∈ L) /\ (forall x, x ∈ refs s ColVecs -> x ∈ L).
Definition loose (s : mem) : Prop :=
  refs s RowVec = [] /\ refs s Layer = [] /\ omap id (layer_refs s) = [] /\ refs s New = [] /\
  length (refs s RowVecs) <= c /\ length (refs s Sent) <= sent_max /\
  length (refs s ColVec) <= 1 /\ length (refs s ColVecs) <= 1 /\
  (forall x, x ∈ refs s Received -> x ∈ refs s ColVecs).
(** With and without rows on this rank. *)
Definition sy_before (b : bool) (s : mem) : Prop :=
  loose s /\ (b = false -> refs s RowVecs = []).
Definition sy_after (b : bool) (s : mem) : Prop :=
  sy_before b s /\ (b = true -> tidy s).

Lemma few_after b s : sy_after b s -> few (c + 1 + sent_max) s /\ refs s New = [].
Proof.
  intros (((H1 & H2 & H3 & H4 & H5 & H6 & H7 & H8 & H9) & HE) & HT). split; auto. destruct b.
  - destruct (HT eq_refl) as (L & HL & HL1 & HL2).
    exists (refs s RowVecs ++ L ++ refs s Sent). split; [|rewrite !app_length; lia].
    unfold others. refs_tac. rewrite H3. in_tac.
  - specialize (HE eq_refl). exists (refs s ColVec ++ refs s ColVecs ++ refs s Sent).
    split; [|rewrite !app_length; lia]. unfold others. refs_tac. rewrite H3. in_tac.
Qed.
(** The same when what is sent is among the vectors at hand. *)
Lemma few_sent b s l : sy_after b s ->
  (forall x, x ∈ l -> x ∈ refs s RowVecs \/ x ∈ refs s ColVecs) ->
  few (c + 1) (set_ref Sent l s) /\ refs (set_ref Sent l s) New = [].
Proof.
  intros (((H1 & H2 & H3 & H4 & H5 & H6 & H7 & H8 & H9) & HE) & HT) Hl. split; [|refs_tac; auto].
  destruct b.
  - destruct (HT eq_refl) as (L & HL & HL1 & HL2).
    exists (refs s RowVecs ++ L). split; [|rewrite !app_length; lia].
    unfold others. refs_tac. rewrite H3. intros x. specialize (Hl x). specialize (HL1 x). specialize (HL2 x).
    specialize (H9 x). rewrite ?elem_of_app, ?elem_of_nil. tauto.
  - specialize (HE eq_refl). exists (refs s ColVec ++ refs s ColVecs).
    split; [|rewrite !app_length; lia]. unfold others. refs_tac. rewrite H3.
    intros x. specialize (Hl x). rewrite ?elem_of_app, ?elem_of_nil in *. specialize (H9 x). tauto.
Qed.

Lemma keeps_sy_swap b rank dest source p : 1 < P ->
  keeps (fun s => exists s0 l, sy_after b s0 /\ s = set_ref Sent l s0 /\ length l <= 1 /\
      (forall x, x ∈ l -> x ∈ refs s0 RowVecs \/ x ∈ refs s0 ColVecs))
    (mswap P rank dest source p) (fun p s => sy_before b (set_ref ColVecs (refs s Received) s)).
Proof.
  intros H. assert (E : sent_max = 1) by (unfold HeldBounds.sent_max; rewrite (proj2 (Nat.ltb_lt 1 P)); auto).
  apply keeps_swap with (c + 1); [|lia|].
  - intros s (s0 & l & Ha & -> & _ & Hl). apply (few_sent b); auto.
  - intros s s' q (s0 & l & (((H1 & H2 & H3 & H4 & H5 & H6 & H7 & H8 & H9) & HE) & HT) & -> & Hl1 & Hl) Hb Hq Hn.
    unfold sy_before, loose. destruct Hb as [Hb HL].
    assert (Hs : refs s' Sent = l) by (rewrite Hb by discriminate; refs_tac; auto).
    pose proof (Hb RowVec ltac:(discriminate)) as R1. pose proof (Hb ColVec ltac:(discriminate)) as R2.
    pose proof (Hb RowVecs ltac:(discriminate)) as R3. pose proof (Hb Layer ltac:(discriminate)) as R4.
    rewrite ref_other in R1, R2, R3, R4 by discriminate. cbn [layer_refs set_ref] in HL.
    repeat (rewrite ref_same || rewrite ref_other by discriminate). cbn [layer_refs set_ref].
    rewrite R1, R2, R3, R4, HL, Hs. repeat split; auto; lia.
Qed.
Lemma keeps_sy_block b ip like a e rv p x : (b = true -> a < e) ->
  keeps (sy_before b) (if b then mip_block store_as ip like a e rv p x else mret x) (fun _ => sy_after b).
Proof.
  intros Hae. destruct b.
  2:{ apply keeps_ret. intros s Hs. split; auto. discriminate. }
  specialize (Hae eq_refl). apply keeps_bind with (fun _ => sy_before true).
  { eapply keeps_mono; [| |apply keeps_lift]; [intros s Hs; exact Hs|]. tauto. }
  intros y. apply keeps_bind with (fun _ => sy_after true); [|intros u; apply keeps_ret; auto].
  apply keeps_visit.
  - intros s ((H1 & H2 & H3 & H4 & H5 & H6 & H7 & H8 & H9) & HE) _ Hn.
    split; [split; auto; repeat split; auto|]. intros _. exists (refs s ColVec). split; auto. split; auto.
    rewrite Hn. in_tac.
  - intros s z ((H1 & H2 & H3 & H4 & H5 & H6 & H7 & H8 & H9) & HE) _ Hz.
    assert (E : refs s ColVecs = [z]).
    { destruct (refs s ColVecs) as [|u [|u' l]]; simpl in *; try discriminate; [congruence|lia]. }
    unfold sy_after, sy_before, loose, tidy. refs_tac. rewrite E in *. repeat split; simpl; auto; try discriminate.
    intros _. exists [z]. repeat split; auto.
  - intros s Hs Hn. lia.
Qed.

Lemma keeps_square b ip like rank active mx tasks rv a :
  b = (0 <? length tasks) -> (b = true -> first_of tasks < last_of tasks + 1) ->
  (1 < active -> 1 < P) ->
  keeps (sy_after b) (msquare_sets P store_as ip like rank active mx tasks rv a) (fun _ => sy_after b).
Proof.
  intros Eb Hfl Hact. apply keeps_loop. intros i x Hi. apply elem_of_seq in Hi.
  assert (H1P : 1 < P).
  { apply Hact. destruct (Nat.le_gt_cases active 1) as [L|G]; auto.
    assert (active - 1 = 0) as E by lia. rewrite E in Hi. unfold ceil_div in Hi. simpl in Hi. lia. }
  assert (E1 : sent_max = 1) by (unfold HeldBounds.sent_max; rewrite (proj2 (Nat.ltb_lt 1 P)); auto).
  apply keeps_loop. intros j y _.
  apply keeps_bind with (fun _ => sy_after b).
  2:{ intros z. eapply keeps_bind; [apply keeps_plain|]. intros []. apply keeps_ret. auto. }
  rewrite <- Eb. destruct b; [|apply keeps_ret; auto]. cbv zeta.
  eapply keeps_bind.
  { apply (keeps_assign_slice _ _ _ _ _ _ (fun s => exists s0 l, sy_after true s0 /\ s = set_ref Sent l s0 /\ length l <= 1 /\
      (forall x, x ∈ l -> x ∈ refs s0 RowVecs \/ x ∈ refs s0 ColVecs))).
    intros s Hs. eexists s, _. split; [exact Hs|]. split; [reflexivity|]. split.
    - etransitivity; [apply slice_short|]. lia.
    - intros z Hz. left. apply elem_of_slice in Hz. exact Hz. }
  intros []. eapply keeps_bind; [apply keeps_sy_swap; auto|]. intros p.
  apply keeps_bind with (fun _ => sy_before true).
  { apply keeps_assign. auto. }
  intros []. apply (keeps_sy_block true). auto.
Qed.

Lemma keeps_rectangle b ip like rank er vecs tasks rv a :
  rank < P -> b = (0 <? length tasks) -> (b = true -> first_of tasks < last_of tasks + 1) ->
  keeps (sy_after b) (mrectangle P store_as ip like rank er vecs tasks rv a) (fun _ => sy_after b).
Proof.
  intros Hr Eb Hfl. apply keeps_loop. intros sc x _. cbv zeta.
  rewrite (tasks_nth P) by auto. set (n := Nat.min (sc + P) (length vecs) - sc).
  apply keeps_ring with (fun _ => sy_before b); auto.
  - pose proof (tlen_small P HP n rank Hr ltac:(unfold n; lia)) as Ht. rewrite seq_length.
    destruct (Nat.ltb_spec 0 (tlen P n rank)) as [L|L].
    + eapply keeps_bind.
      * apply (keeps_get_list _ _ (c + 1 + sent_max) _
          (fun _ s => sy_before b (set_ref New [] (set_ref ColVecs (refs s New) s)))).
        -- intros s (s0 & Hs & ->). destruct (few_after b s0 Hs) as [(L0 & HL0 & HLl) HN]. split; [|refs_tac; auto].
           exists L0. split; auto. intros z Hz. apply HL0. unfold others in *.
           repeat (rewrite ref_same in Hz || rewrite ref_other in Hz by discriminate). cbn [layer_refs set_ref] in Hz.
           rewrite ?elem_of_app, ?elem_of_nil in *. tauto.
        -- rewrite first_of_seq, last_of_seq by auto.
           pose proof (slice_short (sc + tstart P n rank) (sc + tstart P n rank + tlen P n rank) vecs). lia.
        -- intros s s' vs (s0 & (((H1 & H2 & H3 & H4 & H5 & H6 & H7 & H8 & H9) & HE) & HT) & ->) Hb Hv Hn.
           rewrite first_of_seq, last_of_seq in Hn by auto.
           pose proof (slice_short (sc + tstart P n rank) (sc + tstart P n rank + tlen P n rank) vecs).
           unfold sy_before, loose. refs_tac. repeat split; simpl; auto; try lia. in_tac.
      * intros vs. apply keeps_ret. auto.
    + apply keeps_ret. intros s (s0 & (((H1 & H2 & H3 & H4 & H5 & H6 & H7 & H8 & H9) & HE) & HT) & ->).
      unfold sy_before, loose. refs_tac. repeat split; simpl; auto; try lia.
  - intros p t. rewrite <- Eb. apply keeps_sy_block. auto.
  - intros H dest source p. eapply keeps_mono; [| |apply (keeps_sy_swap b); auto].
    + intros s (s0 & Hs & ->). exists s0, (refs s0 ColVecs). split; auto. split; auto. split; auto.
      destruct Hs as (((_ & _ & _ & _ & _ & _ & _ & H8 & _) & _) & _). exact H8.
    + auto.
Qed.

(** Rows of this rank in the chunk from [sr]. *)
Definition chunk_rows (vecs : list loc) (rank sr : nat) : nat :=
  tlen P (Nat.min (length vecs) (sr + c * P) - sr) rank.
Lemma chunk_rows_le vecs rank sr : rank < P -> chunk_rows vecs rank sr <= c.
Proof.
  intros Hr. unfold chunk_rows. set (n := Nat.min _ _ - sr).
  pose proof (tlen_le_max P 0 n rank HP Hr) as M. rewrite largest_share in M by auto.
  assert (n <= c * P) by (unfold n; lia).
  assert (ceil_div n P <= c); [|lia]. unfold ceil_div.
  apply Nat.lt_succ_r. apply Nat.div_lt_upper_bound; nia.
Qed.

Lemma keeps_row_chunk ip like rank vecs sr a : rank < P ->
  keeps (fun s => sy_after (0 <? chunk_rows vecs rank sr) s /\ refs s RowVecs = [])
    (mrow_chunk P store_as ip like (c + 1) rank vecs sr a)
    (fun _ s => loose s /\ (0 < chunk_rows vecs rank sr -> tidy s) /\ refs s RowVecs = []).
Proof.
  intros Hr. unfold mrow_chunk. cbv zeta. replace (c + 1 - 1) with c by lia.
  set (er := Nat.min (length vecs) (sr + c * P)). rewrite (tasks_nth P) by auto.
  fold (chunk_rows vecs rank sr) in *.
  assert (Eq : tlen P (er - sr) rank = chunk_rows vecs rank sr) by reflexivity. rewrite Eq.
  pose proof (chunk_rows_le vecs rank sr Hr) as Hle. set (t := sr + tstart P (er - sr) rank).
  set (n := chunk_rows vecs rank sr) in *. set (b := 0 <? n).
  assert (Hlen : length (seq t n) = n) by apply seq_length.
  assert (Hfl : b = true -> first_of (seq t n) < last_of (seq t n) + 1).
  { intros Hb. apply Nat.ltb_lt in Hb. rewrite first_of_seq, last_of_seq by auto. lia. }
  apply keeps_bind with (fun _ s => sy_after b (set_ref New [] (set_ref RowVecs (refs s New) s))).
  { rewrite Hlen. fold b. destruct b eqn:Hb.
    - apply Nat.ltb_lt in Hb. rewrite first_of_seq, last_of_seq by auto.
      pose proof (slice_short t (t + n) vecs) as Hsl.
      apply (keeps_get_list _ _ (1 + sent_max)).
      + intros s ((((H1 & H2 & H3 & H4 & H5 & H6 & H7 & H8 & H9) & HE) & HT) & H0). split; auto.
        destruct (HT eq_refl) as (L & HL & HL1 & HL2).
        exists (L ++ refs s Sent). split; [|rewrite !app_length; lia]. unfold others. refs_tac. rewrite H3. in_tac.
      + lia.
      + intros s s' vs ((((H1 & H2 & H3 & H4 & H5 & H6 & H7 & H8 & H9) & HE) & HT) & H0) Hbn Hv Hn.
        unfold sy_after, sy_before, loose, tidy in *. refs_tac. repeat split; auto; try discriminate. lia.
    - apply keeps_ret. intros s ((((H1 & H2 & H3 & H4 & H5 & H6 & H7 & H8 & H9) & HE) & HT) & H0).
      unfold sy_after, sy_before, loose, tidy in *. refs_tac. repeat split; simpl; auto; try lia; discriminate. }
  intros rv. apply keeps_bind with (fun _ => sy_after b); [apply keeps_assign_new; auto|]. intros [].
  apply keeps_bind with (fun _ => sy_after b).
  { rewrite Hlen. fold b. destruct b; [|apply keeps_ret; auto]. destruct (consecutive _); [|apply keeps_plain].
    eapply keeps_mono; [| |apply keeps_lift]; [intros s Hs; exact Hs|]. intros y s [_ Hs]; exact Hs. }
  intros x. apply keeps_bind with (fun _ => sy_after b).
  { apply keeps_square; auto; [rewrite Hlen; reflexivity|]. intros Ha.
    pose proof (filter_length (fun t => busy t = true) (find_assignments P (seq sr (er - sr)) None)) as F.
    rewrite find_assignments_length in F. lia. }
  intros y. apply keeps_bind with (fun _ => sy_after b).
  { apply keeps_rectangle; auto. rewrite Hlen. reflexivity. }
  intros z. eapply keeps_bind; [|intros u; apply keeps_ret; intros s Hs; exact Hs].
  apply keeps_del. intros s (((H1 & H2 & H3 & H4 & H5 & H6 & H7 & H8 & H9) & HE) & HT).
  unfold loose, tidy in *. refs_tac. repeat split; simpl; auto; try lia.
  intros Hn. apply HT. apply Nat.ltb_lt. exact Hn.
Qed.

Lemma keeps_symm_array ip per_node N rank vecs : rank < P ->
  keeps (eq no_vectors)
    (msymm_array P tag_ub zero add conj is_zero store_as ip per_node (c + 1) N rank vecs) (fun _ _ => True).
Proof.
  intros Hr. destruct ip as [ip|].
  2:{ eapply keeps_mono; [| |apply keeps_plain]; [intros s Hs; exact Hs|]. auto. }
  unfold msymm_array. cbv zeta. replace (c + 1 - 1) with c by lia.
  eapply keeps_bind; [apply keeps_lift|]. intros h.
  set (bare := fun s x => refs s RowVec = x /\ refs s ColVec = [] /\ refs s Layer = [] /\
    omap id (layer_refs s) = [] /\ refs s New = [] /\ refs s RowVecs = [] /\ refs s ColVecs = [] /\
    refs s Sent = [] /\ refs s Received = []).
  assert (F : forall s x d, bare s x -> length x <= d -> few d s /\ refs s New = []).
  { intros s x d (<- & H0 & H1 & H2 & H3 & H4 & H5 & H6 & H7) Hd. split; auto.
    exists (refs s RowVec). split; auto.
    unfold others. rewrite H0, H1, H2, H4, H5, H6, H7. in_tac. }
  eapply keeps_bind.
  { apply (keeps_get _ h 0 _ (fun _ s => exists x, length x = 1 /\ bare (set_ref New [] (set_ref RowVec (refs s New) s)) x)).
    - intros s (_ & <-). apply (F no_vectors []); [|simpl; lia]. repeat split.
    - lia.
    - intros s s' v (_ & <-) Hb Hn.
      exists (refs s' New). split; auto. unfold bare. refs_tac. repeat split; auto. }
  intros v0. eapply keeps_bind.
  { apply (keeps_assign_new _ _ _ (fun s => exists x, length x = 1 /\ bare s x)). auto. }
  intros []. eapply keeps_bind.
  { apply (keeps_get _ h 1 _ (fun _ s => exists x, length x = 1 /\ bare (set_ref New [] (set_ref RowVec (refs s New) s)) x)).
    - intros s (x & Hx & H). apply (F s x); auto. lia.
    - lia.
    - intros s s' v (x & Hx & (H0 & H1 & H2 & H3 & H4 & H5 & H6 & H7 & H8)) Hb Hn.
      exists (refs s' New). split; auto. unfold bare. refs_tac. repeat split; auto. }
  intros v. eapply keeps_bind.
  { apply (keeps_assign_new _ _ _ (fun s => exists x, length x = 1 /\ bare s x)). auto. }
  intros []. apply keeps_bind with (fun _ s => exists x, length x = 1 /\ bare s x).
  { destruct (_ =? _); [apply keeps_plain|apply keeps_ret; auto]. }
  intros []. apply keeps_bind with (fun _ s => bare s []).
  { apply keeps_del. intros s (x & _ & (H0 & H1 & H2 & H3 & H4 & H5 & H6 & H7 & H8)).
    unfold bare. refs_tac. repeat split; auto. }
  intros [].
  set (l := py_range 0 (length vecs) (c * P)).
  set (I := fun i s => sy_after (0 <? chunk_rows vecs rank (i * (c * P))) s /\ refs s RowVecs = []).
  apply keeps_bind with (fun _ => I (length l)).
  { eapply keeps_mono; [| |apply (keeps_for _ l _ _ I)].
    - intros s (H0 & H1 & H2 & H3 & H4 & H5 & H6 & H7 & H8). split; auto.
      unfold sy_after, sy_before, loose, tidy. rewrite H0, H1, H2, H3, H4, H5, H6, H7, H8.
      repeat split; simpl; auto; try lia. intros _. exists []. repeat split; auto.
    - auto.
    - intros i sr x Hi. apply py_range_lookup in Hi. destruct Hi as [-> Hi].
      replace (0 + i * (c * P)) with (i * (c * P)) by lia.
      eapply keeps_mono; [| |apply keeps_row_chunk; auto]; [intros s Hs; exact Hs|].
      cbv beta. intros _ s (HL & HT & H0). split; auto. split; [split; auto|].
      intros Hb. apply HT. apply Nat.ltb_lt in Hb. unfold chunk_rows in *.
      apply (proj1 (tlen_pos P _ rank HP Hr)) in Hb. apply (proj2 (tlen_pos P _ rank HP Hr)).
      assert (P <= c * P) by nia. replace (S i * (c * P)) with (i * (c * P) + c * P) in Hb by (simpl; lia). lia. }
  intros x. eapply keeps_bind; [apply keeps_plain|]. intros y. eapply keeps_bind; [apply keeps_plain|].
  intros []. apply keeps_ret. auto.
Qed.
End Symm.

(** ** lin_combine *)
Section Combine.
Context {V K O : Type}.
Context (P : nat).
Notation msg := (msg V K).
Context (vadd : V -> V -> V) (smul : V -> K -> V) (in_place : bool).
Context (HP : 0 < P) (c : nat) (Hc : 1 <= c).
Notation keeps := (@keeps V K O (c + 3 + sent_max P)).
Notation sent_max := (sent_max P).

Lemma omap_id_length {A} (l : list (option A)) : length (omap id l) <= length l.
Proof. induction l as [|[x|] l IH]; csimpl; unfold id in *; csimpl; lia. Qed.

(** With [n] sums under way. *)
Definition lc_loose (n : nat) (s : mem) : Prop :=
  refs s RowVec = [] /\ refs s RowVecs = [] /\ refs s New = [] /\ length (layer_refs s) = n /\
  length (refs s Sent) <= sent_max /\ length (refs s Layer) <= 1 /\
  length (refs s ColVec) <= 1 /\ length (refs s ColVecs) <= 1 /\
  (forall x, x ∈ refs s Received -> x ∈ refs s ColVecs).
Definition lc_before (n : nat) (p : list V * list nat) (s : mem) : Prop :=
  lc_loose n s /\ length (refs s ColVecs) = length (fst p).
Definition lc_after (n : nat) (s : mem) : Prop := lc_loose n s /\ (0 < n -> tidy s).

Lemma few_layers n s : n <= c -> lc_loose n s -> (forall x, x ∈ refs s ColVec -> x ∈ refs s ColVecs) ->
  few (c + 2 + sent_max) s /\ refs s New = [].
Proof.
  intros Hn (H1 & H2 & H3 & H4 & H5 & H6 & H7 & H8 & H9) Hv. split; auto.
  exists (refs s ColVecs ++ refs s Sent ++ refs s Layer ++ omap id (layer_refs s)). split.
  - unfold others. refs_tac. in_tac.
  - rewrite !app_length. pose proof (omap_id_length (layer_refs s)). lia.
Qed.
Lemma few_lc n s : n <= c -> lc_after n s -> few (c + 2 + sent_max) s /\ refs s New = [].
Proof.
  intros Hn ((H1 & H2 & H3 & H4 & H5 & H6 & H7 & H8 & H9) & HT). split; auto.
  pose proof (omap_id_length (layer_refs s)). destruct (decide (0 < n)) as [Hp|Hp].
  - destruct (HT Hp) as (L & HL & HL1 & HL2).
    exists (L ++ refs s Sent ++ refs s Layer ++ omap id (layer_refs s)). split; [|rewrite !app_length; lia].
    unfold others. refs_tac. in_tac.
  - exists (refs s ColVec ++ refs s ColVecs ++ refs s Sent ++ refs s Layer ++ omap id (layer_refs s)).
    split; [|rewrite !app_length; lia]. unfold others. refs_tac. in_tac.
Qed.
Lemma few_lc_sent n s : n <= c -> lc_after n s ->
  few (c + 2) (set_ref Sent (refs s ColVecs) s) /\ refs (set_ref Sent (refs s ColVecs) s) New = [].
Proof.
  intros Hn ((H1 & H2 & H3 & H4 & H5 & H6 & H7 & H8 & H9) & HT). split; [|refs_tac; auto].
  pose proof (omap_id_length (layer_refs s)). destruct (decide (0 < n)) as [Hp|Hp].
  - destruct (HT Hp) as (L & HL & HL1 & HL2).
    exists (L ++ refs s Layer ++ omap id (layer_refs s)). split; [|rewrite !app_length; lia].
    unfold others. refs_tac. in_tac.
  - exists (refs s ColVec ++ refs s ColVecs ++ refs s Layer ++ omap id (layer_refs s)).
    split; [|rewrite !app_length; lia]. unfold others. refs_tac. in_tac.
Qed.

Definition lc_in (n : nat) (s : mem) : Prop :=
  lc_loose n s /\ (forall x, x ∈ refs s ColVec -> x ∈ refs s ColVecs).

Lemma keeps_one_layer n coeff a si bi bv p (layers : list (option V)) : n <= c ->
  keeps (lc_loose n)
    (assign_slice ColVec ColVecs bi (bi + 1) ;;;
      i <- mlift (py_nth (snd (p : list V * list nat)) bi) ;;
      c <- mlift (get_entry coeff i si) ;;
      make New 1 ;;;
      assign_new Layer ;;;
      old <- mlift (py_nth layers (si - a)) ;;
      let layer := smul bv c in
      match old with
      | None => assign_layer (si - a) Layer
      | Some _ =>
          if in_place then mret tt
          else make New 1 ;;; assign_layer (si - a) New ;;; del New
      end ;;;
      mret (<[si - a := Some match old with None => layer | Some s => vadd s layer end]> layers))%mprog
    (fun _ => lc_in n).
Proof.
  intros Hn.
  assert (HL : forall A (r : res A), keeps (lc_in n) (mlift r) (fun _ => lc_in n)).
  { intros A r. eapply keeps_mono; [| |apply keeps_lift]; [intros s Hs; exact Hs|]. intros x s [_ Hs]; exact Hs. }
  apply keeps_bind with (fun _ => lc_in n).
  { apply keeps_assign_slice. intros s (H1 & H2 & H3 & H4 & H5 & H6 & H7 & H8 & H9).
    pose proof (slice_short bi (bi + 1) (refs s ColVecs)).
    unfold lc_in, lc_loose. refs_tac. repeat split; auto; try lia. intros x Hx. eapply elem_of_slice; eauto. }
  intros []. eapply keeps_bind; [apply HL|]. intros i. eapply keeps_bind; [apply HL|]. intros x.
  eapply keeps_bind.
  { apply (keeps_make _ 1 (c + 2 + sent_max) _ (fun s => lc_in n (set_ref New [] (set_ref Layer (refs s New) s)))).
    - intros s [Hs Hv]. eapply few_layers; eauto.
    - lia.
    - intros s s' ((H1 & H2 & H3 & H4 & H5 & H6 & H7 & H8 & H9) & Hv) Hb HN.
      unfold lc_in, lc_loose. refs_tac. repeat split; auto; lia. }
  intros []. eapply keeps_bind; [apply (keeps_assign_new _ _ _ (lc_in n)); auto|]. intros [].
  eapply keeps_bind; [apply HL|]. intros old. cbv zeta.
  apply keeps_bind with (fun _ => lc_in n); [|intros u; apply keeps_ret; auto].
  assert (HA : forall x s, lc_in n s -> lc_in n (set_layers (<[si - a := x]> (layer_refs s)) s)).
  { intros y s ((H1 & H2 & H3 & H4 & H5 & H6 & H7 & H8 & H9) & Hv).
    split; [|exact Hv]. repeat split; auto. cbn [set_layers layer_refs]. rewrite insert_length. auto. }
  destruct old as [old|].
  - destruct in_place; [apply keeps_ret; auto|].
    eapply keeps_bind.
    { apply (keeps_make _ 1 (c + 2 + sent_max) _ (fun s => lc_in n (set_ref New [] s))).
      - intros s [Hs Hv]. eapply few_layers; eauto.
      - lia.
      - intros s s' ((H1 & H2 & H3 & H4 & H5 & H6 & H7 & H8 & H9) & Hv) Hb HN.
        unfold lc_in, lc_loose. refs_tac. repeat split; auto; lia. }
    intros []. intros s k Hs Hk. apply Hk. exact (HA (head (refs s New)) _ Hs).
  - intros s k Hs Hk. apply Hk. apply HA. exact Hs.
Qed.

Lemma keeps_add_layers n coeff a b p layers : n <= c -> b - a = n ->
  keeps (lc_before n p) (madd_layers vadd smul in_place coeff a b p layers) (fun _ => lc_after n).
Proof.
  intros Hn Hab. apply keeps_pure with (length (fst p) <= 1).
  { intros s [(_ & _ & _ & _ & _ & _ & _ & H8 & _) E]. lia. }
  intros Hp. unfold madd_layers. rewrite Hab.
  set (I := fun i s => lc_loose n s /\ (fst p = [] -> refs s ColVecs = []) /\ (0 < i -> tidy s)).
  eapply keeps_mono; [| |apply (keeps_for _ (seq a n) _ _ I)].
  - intros s [Hs E]. split; auto. split; [|lia]. intros E'. rewrite E' in E.
    apply nil_length_inv. exact E.
  - intros u s (H1 & _ & H2). rewrite seq_length in H2. split; auto.
  - intros i si l Hi. destruct (fst p) as [|v [|v' vs]] eqn:Ep; simpl in Hp; [| |lia].
    + cbn [zip zip_with length seq mfor]. apply keeps_ret. intros s (H1 & H2 & H3).
      split; auto. split; auto. intros _. specialize (H2 eq_refl).
      exists (refs s ColVec). destruct H1 as (_ & _ & _ & _ & _ & _ & H7 & _). split; auto. split; auto.
      rewrite H2. in_tac.
    + cbn [zip zip_with length seq mfor].
      eapply keeps_bind; [|intros u; apply keeps_ret; intros s Hs; exact Hs].
      eapply keeps_mono; [| |apply (keeps_one_layer n); auto].
      * intros s [Hs _]. exact Hs.
      * intros u s [Hs Hv]. split; auto. split; [discriminate|]. intros _.
        exists (refs s ColVecs). destruct Hs as (_ & _ & _ & _ & _ & _ & _ & H8 & _). auto.
Qed.

Lemma keeps_lc_ring n rank hs a b sa sb coeff (acc : list (option V)) :
  b - a <= 1 -> n <= c -> sb - sa = n ->
  keeps (lc_after n) (mring P rank
    (vs <- mget_slice hs a b ;; mret (vs, seq a (b - a)))%mprog
    (madd_layers vadd smul in_place coeff sa sb) acc) (fun _ => lc_after n).
Proof.
  intros Hab Hn Hs. apply keeps_ring with (lc_before n); auto.
  - eapply keeps_bind.
    + apply (keeps_get_list _ _ (c + 2 + sent_max) _
        (fun vs s => lc_before n (vs, seq a (b - a)) (set_ref New [] (set_ref ColVecs (refs s New) s)))).
      * intros s (s0 & H & ->). destruct (few_lc n s0 Hn H) as [(L0 & HL0 & HLl) HN]. split; [|refs_tac; auto].
        exists L0. split; auto. intros z Hz. apply HL0. unfold others in *.
        repeat (rewrite ref_same in Hz || rewrite ref_other in Hz by discriminate). cbn [layer_refs set_ref] in Hz.
        rewrite ?elem_of_app, ?elem_of_nil in *. tauto.
      * pose proof (slice_short a b hs). lia.
      * intros s s' vs (s0 & ((H1 & H2 & H3 & H4 & H5 & H6 & H7 & H8 & H9) & HT) & ->) Hb Hv HN.
        pose proof (slice_short a b hs). unfold lc_before, lc_loose. refs_tac.
        repeat split; simpl; auto; try lia. in_tac.
    + intros vs. apply keeps_ret. auto.
  - intros p t. apply keeps_add_layers; auto.
  - intros H dest source p.
    assert (E : sent_max = 1) by (unfold HeldBounds.sent_max; rewrite (proj2 (Nat.ltb_lt 1 P)); auto).
    apply keeps_swap with (c + 2); [|lia|].
    + intros s (s0 & Ha & ->). apply (few_lc_sent n); auto.
    + intros s s' q (s0 & ((H1 & H2 & H3 & H4 & H5 & H6 & H7 & H8 & H9) & HT) & ->) Hb Hq HN.
      unfold lc_before, lc_loose. refs_tac. repeat split; auto; lia.
Qed.

Definition clean (s : mem) : Prop := (forall x, refs s x = []) /\ layer_refs s = [].
(** Nothing but one vector in [RowVec] and what is in [New]. *)
Definition testing (s : mem) : Prop :=
  length (refs s RowVec) = 1 /\ (forall x, x <> RowVec -> x <> New -> refs s x = []) /\ layer_refs s = [].
Lemma testing_few s : testing s -> few 1 s.
Proof.
  intros (H1 & H2 & H3). exists (refs s RowVec). split; [|lia].
  unfold others. rewrite (H2 ColVec), (H2 RowVecs), (H2 ColVecs), (H2 Sent), (H2 Received), (H2 Layer), H3 by discriminate. in_tac.
Qed.
Lemma keeps_test h : keeps clean (mtest h) (fun _ => clean).
Proof.
  unfold mtest. eapply keeps_bind.
  { apply (keeps_get _ h 0 _ (fun _ s => testing (set_ref New [] (set_ref RowVec (refs s New) s)))).
    - intros s [H1 H2]. split; auto. exists []. split; auto. unfold others. rewrite !H1, H2. in_tac.
    - lia.
    - intros s s' v [H1 H2] [Hb HL] HN. unfold testing. ref_goal. split; auto. split.
      + intros x Hx Hx'. rewrite !ref_other by auto. rewrite Hb by auto. auto.
      + cbn [layer_refs set_ref]; congruence. }
  intros v. eapply keeps_bind.
  { apply (keeps_assign_new _ _ _ (fun s => testing s /\ refs s New = [])). intros s Hs. split; auto. }
  intros []. eapply keeps_bind.
  { apply (keeps_make _ 1 1 _ (fun s => testing s /\ length (refs s New) = 1)).
    - intros s [H1 H2]. split; auto. apply testing_few. auto.
    - lia.
    - intros s s' [(H1 & H2 & H3) _] [Hb HL] HN. split; auto. split; [rewrite Hb by discriminate; auto|].
      split; [|congruence]. intros x Hx Hx'. rewrite Hb by auto. auto. }
  intros [] s k [(H1 & H2 & H3) H4] Hk. unfold mbind, make, del. cbv zeta. constructor.
  - etransitivity; [eapply (held_le _ (refs s RowVec ++ seq (next s) 1 ++ refs s New))|].
    + unfold references. cbn [flat_map all_vars].
      repeat (rewrite ref_same || rewrite ref_other by discriminate). cbn [layer_refs refs set_ref].
      rewrite ?(H2 ColVec), (H2 RowVecs), (H2 ColVecs), (H2 Sent), (H2 Received), (H2 Layer), H3 by discriminate. in_tac.
    + rewrite !app_length, seq_length. lia.
  - apply Hk. split; [|exact H3]. intros x.
    destruct (decide (x = ColVec)) as [->|N1]; [ref_goal; auto|].
    destruct (decide (x = RowVec)) as [->|N2]; [ref_goal; auto|].
    destruct (decide (x = New)) as [->|N3]; [ref_goal; auto|].
    rewrite !ref_other by auto. cbn [refs]. auto.
Qed.

(** A rank with no sums in one round has none in the next. *)
Lemma chunk_mono tasks g : 0 < c ->
  0 < snd (chunk_bounds tasks (S g) c) - fst (chunk_bounds tasks (S g) c) ->
  0 < snd (chunk_bounds tasks g c) - fst (chunk_bounds tasks g c).
Proof. intros H. unfold chunk_bounds. destruct tasks as [|t ts]; simpl; lia. Qed.

Lemma keeps_lin_core per_node N rank sums basis coeff :
  keeps (eq no_vectors)
    (mlin_core P vadd smul in_place per_node (c + 1) N rank sums basis coeff) (fun _ _ => True).
Proof.
  unfold mlin_core. cbv zeta. replace (c + 1 - 1) with c by lia.
  apply keeps_bind with (fun _ => clean).
  { eapply keeps_mono; [| |apply keeps_lift]; [intros s Hs; exact Hs|]. intros x s [_ <-]. split; auto. }
  intros h. eapply keeps_bind; [apply keeps_test|]. intros v. cbv beta. eapply keeps_bind; [apply keeps_test|].
  intros v'. cbv beta. apply keeps_bind with (fun _ => clean).
  { destruct (_ =? _); [apply keeps_plain|apply keeps_ret; auto]. }
  intros [].
  set (tasks := nth rank (find_assignments P (seq 0 (length sums)) None) []).
  set (n := fun g => snd (chunk_bounds tasks g c) - fst (chunk_bounds tasks g c)).
  set (I := fun g s => lc_loose 0 s /\ (0 < n g -> tidy s)).
  set (m := ceil_div _ c). apply keeps_bind with (fun _ => I (length (seq 0 m))).
  2:{ intros []. eapply keeps_mono; [| |apply keeps_plain]; [intros s Hs; exact Hs|]. auto. }
  eapply keeps_mono; [| |apply (keeps_for _ (seq 0 m) _ _ I)].
  - intros s [H1 H2]. split.
    + unfold lc_loose. rewrite !H1, H2. repeat split; simpl; auto; lia.
    + intros _. exists []. rewrite !H1. repeat split; auto.
  - auto.
  - intros g g' [] Hg. apply lookup_seq in Hg. destruct Hg as [-> _]. simpl Nat.add.
    assert (Hn : n g <= c) by apply chunk_size.
    apply keeps_bind with (fun _ => lc_after (n g)).
    { intros s k [(H1 & H2 & H3 & H4 & H5 & H6 & H7 & H8 & H9) HT] Hk. apply Hk.
      split; [|exact HT]. repeat split; auto. cbn [set_layers layer_refs]. apply replicate_length. }
    intros []. apply keeps_bind with (fun _ => lc_after (n g)).
    { apply keeps_loop. intros i l _.
      set (btasks := nth rank (find_assignments P (seq 0 (length basis)) None) []).
      apply keeps_lc_ring; auto. apply chunk_size. }
    intros l. eapply keeps_bind; [apply keeps_plain|]. intros [].
    intros s k [(H1 & H2 & H3 & H4 & H5 & H6 & H7 & H8 & H9) HT] Hk. apply Hk. split.
    + repeat split; auto.
    + intros Hg. apply HT. apply (chunk_mono tasks g); auto.
Qed.
Lemma keeps_lin_combine per_node N rank sums basis coeff idx :
  keeps (eq no_vectors)
    (mlin_combine P vadd smul in_place per_node (c + 1) N rank sums basis coeff idx) (fun _ _ => True).
Proof.
  apply keeps_bind with (fun _ => eq no_vectors).
  - eapply keeps_mono; [| |apply keeps_lift]; [intros s Hs; exact Hs|]. intros x s [_ Hs]; exact Hs.
  - intros a. apply keeps_lin_core.
Qed.
End Combine.
