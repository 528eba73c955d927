(** The object-level lin_combine of ObjectsModel.v does what the value-level one of
    LinCombModel.v does. *)
From stdpp Require Import gmap list.
From Coq Require Import Lia.
From Verif Require Import Prelude ParallelModel Spmd SpmdWrites ReductionsModel InnerProdModel
  LinCombModel ObjectsModel ObjectsSim.
Open Scope nat_scope.

Lemma py_nth_lookup {A} (l : list A) i :
  py_nth l i = match l !! i with Some a => Ok a | None => Raise IndexError end.
Proof. unfold py_nth. revert i. induction l as [|x l IH]; intros [|i]; simpl; auto. Qed.

Section Proofs.
Context {V W K O O' : Type}.
Notation world := (gmap nat V).
Notation msg := (msg V K).
Context (stored : world -> V -> W -> Prop) (own : world -> W -> Prop).
Context (Rd : loc -> Prop) (good : V -> Prop) (Fin : world -> O -> O' -> Prop).
Notation sim := (sim stored own Rd good Fin).
Notation good_msg := (@good_msg V K good).
Notation heap := (heap V).
Notation prog := (prog msg V O).
Notation oprog := (@oprog msg V W O').

Definition has (s : heap) (r : nat) (v : V) : Prop := vals s !! r = Some v.
Definition ext (s s' : heap) : Prop := forall r v, has s r v -> has s' r v.
Definition wf (s : heap) (F : world) : Prop :=
  F ⊆ vals s /\ forall r, fresh s <= r -> vals s !! r = None.

Definition sm {A B} (s : heap) (F : world) (m : prog A) (o : oprog B)
    (Q : A -> B -> heap -> world -> Prop) : Prop :=
  forall k ko, (forall a b s' F', F ⊆ F' -> Q a b s' F' -> sim F' (k a) (ko b s')) ->
    sim F (m k) (o s ko).

Lemma sm_ret {A B} s F (a : A) (b : B) (Q : _ -> _ -> _ -> _ -> Prop) :
  Q a b s F -> sm s F (ret a) (oret b) Q.
Proof. intros H k ko Hk. apply Hk; auto. Qed.
Lemma sm_bind {A B A' B'} s F (m : prog A) (o : oprog B) (f : A -> prog A') (g : B -> oprog B')
    (R : A -> B -> heap -> world -> Prop) (Q : A' -> B' -> heap -> world -> Prop) :
  sm s F m o R ->
  (forall a b s' F', F ⊆ F' -> R a b s' F' -> sm s' F' (f a) (g b) Q) ->
  sm s F (bind m f) (obind o g) Q.
Proof.
  intros Hm Hf k ko Hk. unfold bind, obind. apply Hm. intros a b s' F' HF HR.
  apply (Hf a b s' F' HF HR). intros a' b' s'' F'' HF'. apply Hk. etransitivity; eauto.
Qed.
Lemma sm_mono {A B} s F (m : prog A) (o : oprog B) (R Q : A -> B -> heap -> world -> Prop) :
  sm s F m o R -> (forall a b s' F', F ⊆ F' -> R a b s' F' -> Q a b s' F') -> sm s F m o Q.
Proof. intros Hm HQ k ko Hk. apply Hm. eauto. Qed.
Lemma sm_raise {A B} s F e (g : A -> oprog B) (Q : A -> B -> heap -> world -> Prop) :
  sm s F (lift (Raise e)) (obind (olift (Raise e)) g) Q.
Proof. intros k ko Hk. simpl. constructor. Qed.
Lemma sm_lift {A} s F (r : res A) (Q : A -> A -> heap -> world -> Prop) :
  (forall a, r = Ok a -> Q a a s F) -> sm s F (lift r) (olift r) Q.
Proof. intros H k ko Hk. destruct r; simpl; [apply Hk; auto|constructor]. Qed.
Lemma sm_rbind {A B C} s F (r : res A) (f : A -> res B) (g : A -> oprog C) Q :
  (forall a, r = Ok a -> sm s F (lift (f a)) (g a) Q) ->
  sm s F (lift (rbind r f)) (obind (olift r) g) Q.
Proof. intros H k ko Hk. destruct r; simpl; [apply (H a eq_refl); auto|constructor]. Qed.
(** Steps of the object program alone. *)
Lemma sm_alloc {A B} s F (v : V) (m : prog A) (g : nat -> oprog B) Q :
  sm (Heap (<[fresh s := v]> (vals s)) (S (fresh s))) F m (g (fresh s)) Q ->
  sm s F m (obind (alloc v) g) Q.
Proof. intros H. exact H. Qed.
Lemma sm_deref {A B} s F r v (m : prog A) (g : V -> oprog B) Q :
  has s r v -> sm s F m (g v) Q -> sm s F m (obind (deref r) g) Q.
Proof. intros Hv H k ko Hk. unfold obind, deref. rewrite Hv. apply H; auto. Qed.
Lemma sm_modify {A B} s F r v (m : prog A) (g : unit -> oprog B) Q :
  sm (Heap (<[r := v]> (vals s)) (fresh s)) F m (g tt) Q ->
  sm s F m (obind (modify r v) g) Q.
Proof. intros H. exact H. Qed.
Lemma sm_pre {A B} s F (m : prog A) (o : oprog B) Q :
  sm s F m o Q -> sm s F (bind (ret tt) (fun _ => m)) o Q.
Proof. intros H. exact H. Qed.

Lemma sm_for2 {X X' T T'} (E : X -> X' -> Prop) (J : T -> T' -> heap -> world -> Prop) l l' body body' :
  Forall2 E l l' ->
  (forall x x' t t' s F, E x x' -> J t t' s F -> sm s F (body x t) (body' x' t') J) ->
  forall t t' s F, J t t' s F -> sm s F (for_loop l t body) (ofor l' t' body') J.
Proof.
  intros Hl Hb. induction Hl as [|x x' l l' Hx Hl IH]; intros t t' s F HJ; simpl.
  - apply sm_ret. exact HJ.
  - eapply sm_bind; [apply Hb; eauto|]. intros a b s' F' _ HJ'. apply IH. exact HJ'.
Qed.
Lemma sm_for {X T T'} (J : T -> T' -> heap -> world -> Prop) (l : list X) body body' :
  (forall x t t' s F, x ∈ l -> J t t' s F -> sm s F (body x t) (body' x t') J) ->
  forall t t' s F, J t t' s F -> sm s F (for_loop l t body) (ofor l t' body') J.
Proof.
  intros Hb. apply sm_for2 with (E := fun x x' => x = x' /\ x ∈ l).
  - apply Forall_Forall2_diag. apply Forall_forall. auto.
  - intros x x' t t' s F [<- Hx] HJ. apply Hb; auto.
Qed.
Lemma sm_fold2 {X X' T T'} (E : X -> X' -> Prop) (J : T -> T' -> heap -> world -> Prop) l l' f body' :
  Forall2 E l l' ->
  (forall x x' t t' s F, E x x' -> J t t' s F -> sm s F (lift (f x t)) (body' x' t') J) ->
  forall t t' s F, J t t' s F -> sm s F (lift (res_fold f l t)) (ofor l' t' body') J.
Proof.
  intros Hl Hb. induction Hl as [|x x' l l' Hx Hl IH]; intros t t' s F HJ; simpl.
  - apply sm_ret. exact HJ.
  - intros k ko Hk. unfold obind.
    pose proof (Hb x x' t t' s F Hx HJ) as Hx1. destruct (f x t) as [t1|e].
    + apply (Hx1 (fun t1 => lift (res_fold f l t1) k)). intros a b s' F' HF HJ'.
      apply IH; auto. intros a' b' s'' F'' HF'. apply Hk. etransitivity; eauto.
    + apply (Hx1 (fun t1 => lift (res_fold f l t1) k)). intros a b s' F' HF HJ'.
      apply IH; auto. intros a' b' s'' F'' HF'. apply Hk. etransitivity; eauto.
Qed.

(** Facts on heaps. *)
Lemma wf_alloc s F v : wf s F ->
  let s' := Heap (<[fresh s := v]> (vals s)) (S (fresh s)) in
  wf s' F /\ ext s s' /\ has s' (fresh s) v /\ vals s !! fresh s = None /\ F !! fresh s = None.
Proof.
  intros [HF Hn] s'. assert (Hs : vals s !! fresh s = None) by (apply Hn; lia).
  assert (HFs : F !! fresh s = None) by (eapply lookup_weaken_None; eauto).
  split; [split|split; [|split; [|split]]]; auto.
  - simpl. etransitivity; [exact HF|]. apply insert_subseteq. exact Hs.
  - simpl. intros r Hr. rewrite lookup_insert_ne by lia. apply Hn. lia.
  - intros r v' Hr. unfold has in *. simpl. rewrite lookup_insert_ne; auto. congruence.
  - unfold has. simpl. apply lookup_insert.
Qed.
Lemma wf_modify s F r v : wf s F -> F !! r = None -> is_Some (vals s !! r) ->
  wf (Heap (<[r := v]> (vals s)) (fresh s)) F.
Proof.
  intros [HF Hn] HFr [u Hu]. split; simpl.
  - apply map_subseteq_spec. intros x y Hx. rewrite lookup_insert_ne by congruence.
    eapply lookup_weaken; eauto.
  - intros x Hx. rewrite lookup_insert_ne; [apply Hn; lia|]. intros ->. rewrite Hn in Hu by lia. discriminate.
Qed.

(** ** The handles *)
Record handles_ok (H : handles msg V W O') : Prop := {
  h_load : forall s F v w, wf s F -> stored F v w -> exists r s',
    (forall k, load H w s k = k r s') /\ wf s' F /\ ext s s' /\ has s' r v /\
    (F !! r = Some v \/ vals s !! r = None);
  h_save : forall s F r v, wf s F -> has s r v -> F !! r = None -> exists w F',
    (forall k, save H r s k = k w s) /\ F ⊆ F' /\ wf s F' /\ own F w /\ stored F' v w /\
    (forall r', F' !! r' = F !! r' \/ r' = r)
}.

Context (P : nat).
Context (H : handles msg V W O') (HH : handles_ok H).
Context (vadd : V -> V -> V) (smul : V -> K -> V) (two : K).
Context (mul_new : V -> K -> bool) (in_place : bool) (can_add : V -> V -> bool).
Context (coeff : list (list K)) (lay : V -> Prop).
Context (Hnew : forall v c, mul_new v c = true).
Context (Hmul : forall v i j c, good v -> get_entry coeff i j = Ok c -> lay (smul v c)).
Context (Hadd : forall x y, lay x -> lay y -> can_add x y = true /\ lay (vadd x y)).
Context (Hlay : forall v, lay v -> good v).

Definition pay (s : heap) (vs : list V) (rs : list nat) : Prop :=
  Forall2 (has s) rs vs /\ Forall good vs.
Definition layer_rel (s : heap) (F : world) (rs : list nat) (o : option V) (o' : option nat) : Prop :=
  match o, o' with
  | Some v, Some r => has s r v /\ lay v /\ F !! r = None /\ r ∉ rs
  | None, None => True
  | _, _ => False
  end.
Definition lays (s : heap) (F : world) (rs : list nat) (lv : list (option V)) (lr : list (option nat)) : Prop :=
  Forall2 (layer_rel s F rs) lv lr /\
  (forall i j r, lr !! i = Some (Some r) -> lr !! j = Some (Some r) -> i = j).

Lemma pay_ext s s' vs rs : ext s s' -> pay s vs rs -> pay s' vs rs.
Proof. intros He [Hp Hg]. split; auto. eapply Forall2_impl; eauto. Qed.
Lemma lays_ext s s' F rs lv lr : ext s s' -> lays s F rs lv lr -> lays s' F rs lv lr.
Proof.
  intros He [Hp Hi]. split; auto. eapply Forall2_impl; eauto. intros [v|] [r|]; simpl; auto.
  intros (A & B & C & D). auto.
Qed.
(** Other vectors at hand. *)
Lemma lays_other s F rs rs' lv lr :
  (forall r, r ∈ rs' -> (exists v, F !! r = Some v) \/ (forall i r', lr !! i = Some (Some r') -> r <> r')) ->
  lays s F rs lv lr -> lays s F rs' lv lr.
Proof.
  intros Hr [Hp Hi]. split; auto. apply Forall2_same_length_lookup. split.
  - eapply Forall2_length; eauto.
  - intros i o o' Ho Ho'. pose proof (Forall2_lookup_lr _ _ _ _ _ _ Hp Ho Ho') as Hx.
    destruct o, o'; simpl in *; auto. destruct Hx as (A & B & C & D). repeat split; auto.
    intros Hin. destruct (Hr _ Hin) as [[u Hu]|Hne]; [congruence|]. eapply Hne; eauto.
Qed.
Lemma lays_world s F F' rs lv lr : (forall r, is_Some (F' !! r) -> is_Some (F !! r)) ->
  lays s F rs lv lr -> lays s F' rs lv lr.
Proof.
  intros HF [Hp Hi]. split; auto. eapply Forall2_impl; eauto. intros [v|] [r|]; simpl; auto.
  intros (A & B & C & D). repeat split; auto. apply eq_None_not_Some. intros Hs. apply HF in Hs.
  rewrite C in Hs. destruct Hs; discriminate.
Qed.

(** ** The layers *)

Lemma lays_insert s F rs lv lr j v r : lays s F rs lv lr -> has s r v -> lay v -> F !! r = None ->
  r ∉ rs -> (forall i, lr !! i = Some (Some r) -> i = j) ->
  lays s F rs (<[j := Some v]> lv) (<[j := Some r]> lr).
Proof.
  intros [Hp Hi] Hv Hl HF Hr Hu. split.
  - apply Forall2_insert; auto. simpl. auto.
  - intros a b x Ha Hb. destruct (decide (a = j)) as [->|Na], (decide (b = j)) as [->|Nb]; auto.
    + rewrite list_lookup_insert_ne in Hb by auto.
      destruct (decide (j < length lr)) as [Hj|Hj].
      * rewrite list_lookup_insert in Ha by auto. injection Ha as ->. symmetry. apply Hu. auto.
      * rewrite list_insert_ge in Ha by lia. eapply Hi; eauto.
    + rewrite list_lookup_insert_ne in Ha by auto.
      destruct (decide (j < length lr)) as [Hj|Hj].
      * rewrite list_lookup_insert in Hb by auto. injection Hb as ->. apply Hu. auto.
      * rewrite list_insert_ge in Hb by lia. eapply Hi; eauto.
    + rewrite list_lookup_insert_ne in Ha, Hb by auto. eapply Hi; eauto.
Qed.

Lemma sm_add_layer s F vs rs idx lv lr sum start bi b r : wf s F -> pay s vs rs -> lays s F rs lv lr ->
  vs !! bi = Some b -> rs !! bi = Some r ->
  sm s F (lift (i <-? py_nth idx bi ;
                c <-? get_entry coeff i sum ;
                old <-? py_nth lv (sum - start) ;
                let layer := smul b c in
                Ok (<[sum - start := Some match old with None => layer | Some s => vadd s layer end]> lv))%res)
    (i <- olift (py_nth idx bi) ;;
     c <- olift (get_entry coeff i sum) ;;
     sum_layer <- omul smul mul_new r c ;;
     old <- olift (py_nth lr (sum - start)) ;;
     new <- match old with None => oret sum_layer | Some r => oiadd vadd in_place can_add r sum_layer end ;;
     oret (<[sum - start := Some new]> lr))%oprog
    (fun lv' lr' s' F' => F' = F /\ wf s' F /\ pay s' vs rs /\ lays s' F rs lv' lr').
Proof.
  intros Hwf Hpay Hlays Hb Hr.
  apply sm_rbind. intros i Hi. apply sm_rbind. intros c Hc.
  assert (Hbv : has s r b) by (eapply Forall2_lookup_lr; [apply Hpay|eauto|eauto]).
  assert (Hbg : good b) by (eapply Forall_lookup_1; [apply Hpay|eauto]).
  pose proof (Hmul b i sum c Hbg Hc) as Hyl.
  unfold omul.
  change (obind (obind (deref r) ?f) ?g) with (obind (deref r) (fun x => obind (f x) g)).
  eapply sm_deref; [exact Hbv|]. rewrite Hnew.
  apply sm_alloc.
  destruct (wf_alloc s F (smul b c) Hwf) as (Hwf' & Hext & Hnewv & Hnone & HFnone).
  set (q := fresh s) in *.
  set (s1 := Heap (<[q := smul b c]> (vals s)) (S q)) in *.
  assert (Hq : forall j, lr !! j = Some (Some q) -> False).
  { intros j Hj. destruct Hlays as [Hp _].
    destruct (Forall2_lookup_r _ _ _ _ _ Hp Hj) as ([v|] & _ & Hx); simpl in Hx; [|contradiction].
    destruct Hx as [Hx _]. unfold has in Hx. congruence. }
  assert (Hqr : q ∉ rs).
  { intros Hin. apply elem_of_list_lookup in Hin as [j Hj].
    destruct (Forall2_lookup_l _ _ _ _ _ (proj1 Hpay) Hj) as (v & _ & Hv).
    unfold has in Hv. congruence. }
  apply (pay_ext s s1) in Hpay; auto.
  apply (lays_ext s s1) in Hlays; auto.
  rewrite !py_nth_lookup. pose proof (proj1 Hlays) as Hp.
  pose proof (Forall2_length _ _ _ Hp) as Hlen.
  destruct (lv !! (sum - start)) as [ov|] eqn:Ev.
  2: { assert (lr !! (sum - start) = None) as -> by (apply lookup_ge_None; apply lookup_ge_None in Ev; lia).
       intros k ko Hk. simpl. constructor. }
  destruct (Forall2_lookup_l _ _ _ _ _ Hp Ev) as (or & Er & Hrel). rewrite Er.
  cbn [rbind].
  change (olift (Ok ?a)) with (@oret msg V W O' _ a).
  change (obind (oret ?a) ?g) with (g a). cbv beta.
  destruct ov as [x|], or as [x'|]; simpl in Hrel; try contradiction.
  - destruct Hrel as (Hx & Hxl & HFx & Hxr).
    destruct (Hadd x (smul b c) Hxl Hyl) as [Hca Hl2]. unfold oiadd.
    change (obind (obind (deref x') ?f) ?g) with (obind (deref x') (fun z => obind (f z) g)).
    eapply sm_deref; [exact Hx|].
    change (obind (obind (deref q) ?f) ?g) with (obind (deref q) (fun z => obind (f z) g)).
    eapply sm_deref; [exact Hnewv|]. rewrite Hca. destruct in_place.
    + change (obind (obind (modify ?a ?v) ?f) ?g) with (obind (modify a v) (fun z => obind (f z) g)).
      apply sm_modify. change (obind (oret ?a) ?g) with (g a). cbv beta.
      apply sm_ret. split; auto.
      set (s2 := Heap (<[x' := vadd x (smul b c)]> (vals s1)) (fresh s1)).
      assert (Hk : forall y v, y <> x' -> has s1 y v -> has s2 y v).
      { intros y v Hne Hy. unfold has, s2. simpl. rewrite lookup_insert_ne by auto. exact Hy. }
      split; [apply wf_modify; auto; exists x; exact Hx|]. split.
      * split; [|apply Hpay]. apply Forall2_same_length_lookup.
        split; [eapply Forall2_length; apply Hpay|]. intros j y v Hy Hv. apply Hk.
        -- intros ->. apply Hxr. eapply elem_of_list_lookup_2; eauto.
        -- eapply Forall2_lookup_lr; [apply Hpay|eauto|eauto].
      * split.
        -- apply Forall2_same_length_lookup. rewrite !insert_length. split; auto.
           intros j o o' Ho Ho'. destruct (decide (j = sum - start)) as [->|Hne].
           ++ rewrite list_lookup_insert in Ho by (eapply lookup_lt_Some; eauto).
              rewrite list_lookup_insert in Ho' by (eapply lookup_lt_Some; eauto).
              injection Ho as <-. injection Ho' as <-. simpl. split; auto.
              unfold has, s2. simpl. apply lookup_insert.
           ++ rewrite list_lookup_insert_ne in Ho by auto. rewrite list_lookup_insert_ne in Ho' by auto.
              pose proof (Forall2_lookup_lr _ _ _ _ _ _ Hp Ho Ho') as Hz.
              destruct o as [v|], o' as [y|]; simpl in *; auto.
              destruct Hz as (A1 & A2 & A3 & A4). split; auto. apply Hk; auto.
              intros ->. apply Hne. eapply (proj2 Hlays); eauto.
        -- rewrite list_insert_id by auto. apply (proj2 Hlays).
    + apply sm_alloc. apply sm_ret.
      destruct (wf_alloc s1 F (vadd x (smul b c)) Hwf') as (Hwf2 & Hext2 & Hnew2 & Hnone2 & HFnone2).
      split; auto. split; auto. split; [eapply pay_ext; eauto|].
      apply lays_insert; auto.
      * eapply lays_ext; eauto.
      * intros Hin. apply elem_of_list_lookup in Hin as [j Hj].
        destruct (Forall2_lookup_l _ _ _ _ _ (proj1 Hpay) Hj) as (v & _ & Hv).
        pose proof (eq_trans (eq_sym Hv) Hnone2). discriminate.
      * intros j Hj. exfalso.
        destruct (Forall2_lookup_r _ _ _ _ _ Hp Hj) as ([v|] & _ & Hz); simpl in Hz; [|contradiction].
        destruct Hz as [Hz _]. pose proof (eq_trans (eq_sym Hz) Hnone2). discriminate.
  - apply sm_ret. split; auto. split; auto. split; auto. apply lays_insert; auto.
    intros j Hj. exfalso. eauto.
Qed.

Definition adding (F0 : world) vs rs lv lr (s : heap) (F : world) : Prop :=
  F = F0 /\ wf s F /\ pay s vs rs /\ lays s F rs lv lr.

Lemma sm_add_layers s F vs rs idx lv lr a b : wf s F -> pay s vs rs -> lays s F rs lv lr ->
  sm s F (lift (add_layers vadd smul coeff a b (vs, idx) lv))
    (oadd_layers vadd smul mul_new in_place can_add coeff a b (rs, idx) lr)
    (fun lv' lr' => adding F vs rs lv' lr').
Proof.
  intros Hwf Hpay Hlays. unfold add_layers, oadd_layers.
  apply sm_fold2 with (E := fun x x' => x = x').
  { apply Forall_Forall2_diag. apply Forall_forall. auto. }
  2: { split; auto. }
  intros j _ t t' s1 F1 <- HJ. simpl fst. simpl snd.
  assert (Hlen : length vs = length rs) by (symmetry; eapply Forall2_length; apply Hpay).
  rewrite <- Hlen.
  apply sm_fold2 with (E := fun x x' => x.1 = x'.1 /\ vs !! x.1 = Some x.2 /\ rs !! x'.1 = Some x'.2).
  - apply Forall2_same_length_lookup. rewrite !zip_with_length_r_eq by (rewrite seq_length; auto). split; auto.
    intros i [x1 x2] [y1 y2] Hx Hy. apply lookup_zip_with_Some in Hx as (u & v & E & Hu & Hv).
    apply lookup_zip_with_Some in Hy as (u' & v' & E' & Hu' & Hv').
    injection E as -> ->. injection E' as -> ->. apply lookup_seq in Hu as [-> _]. apply lookup_seq in Hu' as [-> _].
    simpl. auto.
  - intros [x1 x2] [y1 y2] u u' s2 F2 (E1 & E2 & E3) (-> & Hw2 & Hp2 & Hl2). simpl in *. subst y1.
    eapply sm_mono; [eapply sm_add_layer; eauto|].
    intros a' b' s' F' _ (-> & A1 & A2 & A3). split; auto.
  - exact HJ.
Qed.

(** ** Messages and handles *)
Lemma deref_list rs vs s (k : list V -> heap -> proc msg W O') : Forall2 (has s) rs vs ->
  omap_prog deref rs s k = k vs s.
Proof.
  intros Hf. revert k. induction Hf as [|r v rs vs Hr Hf IH]; intros k; simpl; auto.
  unfold obind, deref at 1. rewrite Hr. rewrite IH. reflexivity.
Qed.
Lemma alloc_list F vs : forall s, wf s F -> exists rs s',
  (forall k, @omap_prog msg V W O' _ _ alloc vs s k = k rs s') /\ wf s' F /\ ext s s' /\
  Forall2 (has s') rs vs /\ (forall r, r ∈ rs -> vals s !! r = None).
Proof.
  induction vs as [|v vs IH]; intros s Hwf; simpl.
  - exists [], s. split; [reflexivity|]. split; auto. split; [intros ? ?; auto|]. split; [constructor|].
    intros r Hr. apply elem_of_nil in Hr. destruct Hr.
  - destruct (wf_alloc s F v Hwf) as (Hw1 & He1 & Hh1 & Hn1 & _).
    destruct (IH _ Hw1) as (rs & s' & Hk & Hw & He & Hf & Hn).
    exists (fresh s :: rs), s'. split.
    { intros k. unfold obind, alloc at 1. rewrite Hk. reflexivity. }
    split; auto. split; [intros r u Hr; apply He, He1, Hr|]. split; [constructor; auto|].
    intros r Hr. apply elem_of_cons in Hr as [->|Hr]; auto. specialize (Hn r Hr). simpl in Hn.
    apply lookup_insert_None in Hn as [Hn _]. exact Hn.
Qed.

Definition at_hand (s0 : heap) (F0 : world) (x : list V * list nat) (y : list nat * list nat)
    (s : heap) (F : world) : Prop :=
  F = F0 /\ wf s F /\ ext s0 s /\ snd x = snd y /\ pay s (fst x) (fst y) /\
  forall r, r ∈ fst y -> (exists v, F !! r = Some v) \/ vals s0 !! r = None.

Lemma sm_swap s F rank dest source x y : wf s F -> pay s (fst x) (fst y) -> snd x = snd y ->
  sm s F (swap P rank dest source x) (oswap P rank dest source y) (at_hand s F).
Proof.
  intros Hwf Hpay Hsnd k ko Hk. unfold swap, oswap, bind, obind, isend, recv, wait, oplain.
  rewrite (deref_list (fst y) (fst x)) by apply Hpay. rewrite <- Hsnd.
  constructor; [apply Hpay|]. constructor. intros m Hm. constructor.
  destruct m as [vs idx| | |]; try (simpl; constructor).
  destruct (alloc_list F vs s Hwf) as (rs & s' & Ha & Hw & He & Hf & Hn). unfold olift, oplain. simpl. unfold ret, oret. simpl. rewrite Ha.
  apply Hk; [reflexivity|]. split; auto. split; auto. split; auto. split; auto. split; [split; auto|].
  simpl. auto.
Qed.

Lemma sm_barrier s F : sm s F (barrier P) (oplain (barrier P)) (fun _ _ s' F' => s' = s /\ F' = F).
Proof.
  intros k ko Hk. unfold barrier, oplain. destruct (1 <? P); simpl.
  - constructor. apply Hk; auto.
  - apply Hk; auto.
Qed.

Lemma sm_get s F h : wf s F -> Rd h ->
  sm s F (get h) (oget H h) (fun v r s' F' => F' = F /\ wf s' F /\ ext s s' /\ has s' r v /\ good v /\
    (F !! r = Some v \/ vals s !! r = None)).
Proof.
  intros Hwf Hr k ko Hk. unfold get, oget, obind, oplain. constructor; auto.
  intros v w Hv Hs. destruct (h_load _ HH s F v w Hwf Hs) as (r & s' & E & Hw & He & Hh & Hc).
  rewrite E. apply Hk; auto. repeat split; auto; apply Hw.
Qed.
Lemma sm_get_list l : forall s F, wf s F -> (forall h, h ∈ l -> Rd h) ->
  sm s F (map_prog get l) (omap_prog (oget H) l) (fun vs rs s' F' => F' = F /\ wf s' F /\ ext s s' /\
    pay s' vs rs /\ forall r, r ∈ rs -> (exists v, F !! r = Some v) \/ vals s !! r = None).
Proof.
  induction l as [|h l IH]; intros s F Hwf Hl; simpl.
  - apply sm_ret. split; auto. split; auto. split; [intros ? ?; auto|]. split; [split; constructor|].
    intros r Hr. apply elem_of_nil in Hr. destruct Hr.
  - eapply sm_bind; [apply sm_get; auto; apply Hl, elem_of_cons; auto|].
    intros v r s1 F1 _ (-> & Hw1 & He1 & Hh1 & Hg1 & Hc1).
    eapply sm_bind; [apply IH; auto; intros h' Hh'; apply Hl, elem_of_cons; auto|].
    intros vs rs s2 F2 _ (-> & Hw2 & He2 & [Hp2 Hg2] & Hc2).
    apply sm_ret. split; auto. split; auto. split; [intros x u Hx; auto|].
    split; [split; constructor; auto|].
    intros x Hx. apply elem_of_cons in Hx as [->|Hx]; [destruct Hc1; eauto|].
    destruct (Hc2 x Hx) as [Hx1|Hx1]; auto. right.
    destruct (vals s !! x) as [u|] eqn:E; auto. apply He1 in E. unfold has in E. congruence.
Qed.
Lemma sm_test s F h : wf s F -> Rd h ->
  sm s F (get h) (otest H vadd smul two mul_new h) (fun _ _ s' F' => F' = F /\ wf s' F).
Proof.
  intros Hwf Hr k ko Hk. unfold otest.
  change (sim F (get h k) (obind (oget H h) (fun r => obind (omul smul mul_new r two) (fun r' =>
    obind (deref r) (fun x => obind (deref r') (fun y => obind (alloc (vadd x y)) (fun _ => oret tt))))) s ko)).
  unfold obind at 1. apply (sm_get s F h Hwf Hr).
  intros v r s1 F1 _ (-> & Hw1 & He1 & Hh1 & Hg1 & _).
  unfold obind, omul, deref at 1. unfold obind. rewrite Hh1. rewrite Hnew. unfold alloc at 1.
  destruct (wf_alloc s1 F (smul v two) Hw1) as (Hw2 & He2 & Hh2 & _).
  unfold deref at 1. rewrite (He2 r v Hh1). unfold deref at 1. rewrite Hh2. unfold alloc, oret.
  apply Hk; auto. split; auto. apply (wf_alloc _ F _ Hw2).
Qed.

(** ** The ring *)
Lemma sm_ring s F rank lv lr a b fetch ofetch : wf s F -> lays s F [] lv lr ->
  (forall s', wf s' F -> sm s' F fetch ofetch (at_hand s' F)) ->
  sm s F (ring P rank fetch (add_layers vadd smul coeff a b) lv)
    (oring P rank ofetch (oadd_layers vadd smul mul_new in_place can_add coeff a b) lr)
    (fun lv' lr' s' F' => F' = F /\ wf s' F /\ lays s' F [] lv' lr').
Proof.
  intros Hwf Hl Hf. unfold ring, oring.
  eapply sm_bind.
  - apply sm_for with (J := fun t t' s' F' => F' = F /\ wf s' F /\ pay s' (fst (snd t)) (fst (snd t')) /\
      snd (snd t) = snd (snd t') /\ lays s' F (fst (snd t')) (fst t) (fst t')).
    + intros pass t t' s1 F1 _ (-> & Hw1 & Hp1 & Hs1 & Hl1).
      eapply sm_bind with (R := at_hand s1 F).
      * destruct (pass =? 0); [apply Hf; auto|].
        eapply sm_bind; [apply sm_swap; eauto|].
        intros x y s2 F2 _ Hxy. pose proof Hxy as (-> & _).
        change (at_hand s1 F x y s2 F) in Hxy.
        eapply sm_bind; [apply sm_barrier|]. intros _ _ s3 F3 _ [-> ->]. apply sm_ret. exact Hxy.
      * intros [vs idx] [rs idx'] s2 F2 _ (-> & Hw2 & He2 & Hi2 & Hp2 & Hc2). simpl in Hi2, Hp2, Hc2. subst idx'.
        eapply sm_bind; [apply sm_add_layers; eauto|].
        -- apply lays_other with (rs := fst (snd t')); [|eapply lays_ext; eauto].
           intros r Hr. destruct (Hc2 r Hr) as [?|Hn]; auto. right. intros j r' Hj ->.
           destruct (Forall2_lookup_r _ _ _ _ _ (proj1 Hl1) Hj) as ([v|] & _ & Hz); simpl in Hz; [|contradiction].
           destruct Hz as [Hz _]. unfold has in Hz. congruence.
        -- intros lv' lr' s3 F3 _ (-> & Hw3 & Hp3 & Hl3). apply sm_ret. simpl. auto.
    + simpl. split; auto. split; auto. split; [split; constructor|]. auto.
  - intros [lv' [vs idx]] [lr' [rs idx']] s1 F1 _ (-> & Hw1 & _ & _ & Hl1). simpl in Hl1.
    apply sm_ret. split; auto. split; auto. eapply lays_other; [|exact Hl1].
    intros r Hr. apply elem_of_nil in Hr. destruct Hr.
Qed.

(** ** Writing the sums *)
Lemma sm_put s F h r v : wf s F -> has s r v -> good v -> F !! r = None ->
  sm s F (put h v) (oput H h r) (fun _ _ s' F' => s' = s /\ wf s F' /\ forall r', F' !! r' = F !! r' \/ r' = r).
Proof.
  intros Hwf Hh Hg HF k ko Hk. unfold put, oput, obind, oplain.
  destruct (h_save _ HH s F r v Hwf Hh HF) as (w & F' & E & HFF & Hw & Ho & Hs & Hc). rewrite E.
  econstructor; eauto.
Qed.
Lemma sm_put_sums sums start lv lr s : 
  Forall2 (fun o o' => match o, o' with Some v, Some r => has s r v /\ lay v | None, None => True | _, _ => False end) lv lr ->
  (forall i j r, lr !! i = Some (Some r) -> lr !! j = Some (Some r) -> i = j) ->
  forall n a F, start <= a -> wf s F ->
  (forall j r, a - start <= j -> lr !! j = Some (Some r) -> F !! r = None) ->
  sm s F
    (for_loop (seq a n) tt (fun sum_index _ =>
      bind (lift (py_nth sums sum_index)) (fun h =>
      bind (lift (py_nth lv (sum_index - start))) (fun layer =>
      match layer with Some v => put h v | None => fail TypeError end))))
    (ofor (seq a n) tt (fun sum_index _ =>
      obind (olift (py_nth sums sum_index)) (fun h =>
      obind (olift (py_nth lr (sum_index - start))) (fun layer =>
      match layer with Some r => oput H h r | None => olift (Raise TypeError) end))))
    (fun _ _ s' F' => s' = s /\ wf s F').
Proof.
  intros Hp Hi. induction n as [|n IH]; intros a F Ha Hwf HF; simpl.
  - apply sm_ret. auto.
  - eapply sm_bind with (R := fun _ _ s' F' => s' = s /\ wf s F' /\
      forall j r, S a - start <= j -> lr !! j = Some (Some r) -> F' !! r = None).
    2: { intros [] [] s' F' _ (-> & A & B). apply IH; auto. }
    eapply sm_bind with (R := fun x y s' F' => x = y /\ s' = s /\ F' = F); [apply sm_lift; auto|].
    intros h _ _ _ _ (<- & -> & ->).
    rewrite !py_nth_lookup. pose proof (Forall2_length _ _ _ Hp) as Hlen.
    destruct (lv !! (a - start)) as [ov|] eqn:Ev.
    2: { assert (lr !! (a - start) = None) as -> by (apply lookup_ge_None; apply lookup_ge_None in Ev; lia).
         intros k ko Hk. simpl. constructor. }
    destruct (Forall2_lookup_l _ _ _ _ _ Hp Ev) as (or & Er & Hrel). rewrite Er.
    destruct ov as [v|], or as [r|]; try contradiction.
    + destruct Hrel as [Hh Hv].
      change (sm s F (put h v) (oput H h r) (fun _ _ s' F' => s' = s /\ wf s F' /\
        forall j r, S a - start <= j -> lr !! j = Some (Some r) -> F' !! r = None)).
      eapply sm_mono; [apply sm_put; eauto|]. intros _ _ s' F' _ (-> & Hw & Hc). split; auto. split; auto.
      intros j r' Hj Hr'. destruct (Hc r') as [->| ->]; [apply (HF j); auto; lia|].
      pose proof (Hi _ _ _ Er Hr'). lia.
    + intros k ko Hk. simpl. constructor.
Qed.

(** ** lin_combine *)
Lemma sm_lin_core s F per_node per_proc N rank sums basis : wf s F -> (forall h, h ∈ basis -> Rd h) ->
  sm s F (lin_core P vadd smul per_node per_proc N rank sums basis coeff)
    (olin_core P H vadd smul two mul_new in_place can_add per_node per_proc N rank sums basis coeff)
    (fun _ _ s' F' => wf s' F').
Proof.
  intros Hwf HR. unfold lin_core, olin_core.
  eapply sm_bind with (R := fun x y s' F' => x = y /\ py_nth basis 0 = Ok x /\ s' = s /\ F' = F); [apply sm_lift; auto|].
  intros h _ _ _ _ (<- & Hh & -> & ->).
  assert (HRh : Rd h).
  { apply HR. rewrite py_nth_lookup in Hh. destruct (basis !! 0) eqn:E; [|discriminate].
    injection Hh as ->. eapply elem_of_list_lookup_2; eauto. }
  eapply sm_bind; [apply sm_test; auto|]. intros _ _ s1 F1 _ [-> Hw1].
  eapply sm_bind; [apply sm_test; auto|]. intros _ _ s2 F2 _ [-> Hw2].
  eapply sm_bind with (R := fun _ _ s' F' => s' = s2 /\ F' = F).
  { destruct (per_node * N =? 2 * P); intros k ko Hk; [constructor|apply Hk; auto]. }
  intros _ _ _ _ _ [-> ->].
  eapply sm_bind.
  - apply sm_for with (J := fun _ _ s' F' => wf s' F'); auto.
    intros g _ _ s3 F3 _ Hw3. cbv zeta.
    set (bounds := chunk_bounds _ g _).
    eapply sm_bind.
    + apply sm_for with (J := fun lv lr s' F' => F' = F3 /\ wf s' F3 /\ lays s' F3 [] lv lr).
      * intros g' lv lr s4 F4 _ (-> & Hw4 & Hl4). apply sm_ring; auto.
        intros s5 Hw5. unfold get_slice.
        eapply sm_bind; [apply sm_get_list; auto|].
        -- intros x Hx. apply HR. unfold slice in Hx.
           apply elem_of_take in Hx as (j & Hj & _). rewrite lookup_drop in Hj. eapply elem_of_list_lookup_2; eauto.
        -- intros vs rs s6 F6 _ (-> & Hw6 & He6 & Hp6 & Hc6). apply sm_ret.
           split; [reflexivity|]. split; [exact Hw6|]. auto.
      * split; auto. split; auto. split.
        -- apply Forall2_replicate. exact I.
        -- intros i j r Hi. apply lookup_replicate in Hi as [Hi _]. discriminate.
    + intros lv lr s4 F4 _ (-> & Hw4 & Hp & Hi).
      eapply sm_mono; [apply sm_put_sums; auto|].
      * eapply Forall2_impl; [exact Hp|]. intros [v|] [r|]; simpl; tauto.
      * intros j r _ Hr. destruct (Forall2_lookup_r _ _ _ _ _ Hp Hr) as ([v|] & _ & Hz); simpl in Hz; [|contradiction].
        apply Hz.
      * intros _ _ s5 F5 _ [-> Hw5]. exact Hw5.
  - intros u u' s3 F3 _ Hw3. eapply sm_mono; [apply sm_barrier|]. intros _ _ s4 F4 _ [-> ->]. exact Hw3.
Qed.
End Proofs.
