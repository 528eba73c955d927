(** The decompositions computed by the DMD handle classes: lemmas. *)
From stdpp Require Import gmap list.
From Coq Require Import ZArith Lia Field Ring Setoid Morphisms.
From Verif Require Import Prelude Field Matrix NdArray DecompModel DecompProofs DecompProps
  VSArraysModel VSArraysProofs PodModel PodProofs PodProps BpodModel DmdModel DmdProofs DmdCore DmdSnaps
  TlsModel TlsProofs TlsProps
  Spmd LinCombModel InnerProdProps HandlesModel HandlesProofs HandlesSpace DmdHandlesModel DmdHandlesProofs
  DmdHandlesModes.
Open Scope nat_scope.
Open Scope k_scope.

(** The low-order map D U^H (Q^H K Q) U D with D = E^(-1/2). *)
Definition low_order {F : sfield} (sqrt : F -> F) (m : nat) (Q : mat F) (E : list F) (U K : mat F) : mat F :=
  let D := mdiag (fun i => 1 / sqrt (at1 E i)) in
  mmul (length E) D (mmul m (madj U) (mmul m (mmul m (madj Q) (mmul m K Q)) (mmul (length E) U D))).

(** The advanced handles an object holds after compute_decomp. *)
Definition adv_after {F : sfield} (o : dmd_obj F) (adv : option (list loc)) : option (list loc) :=
  match adv with Some a => Some a | None => dh_adv o end.

Section Decomp.
Context {F : sfield} {V : Type} (S : space F V) (HS : ip_space S).
Add Field Ff_dmdd : (k_field F).

Lemma holds_inj (st : gmap loc V) hs vs vs' : holds st hs vs -> holds st hs vs' -> vs = vs'.
Proof.
  intros H. revert vs'. induction H as [|h v hs vs E H IH]; intros vs' H'; inversion H'; subst; auto.
  f_equal; auto. congruence.
Qed.
Lemma holds_take (st : gmap loc V) k hs vs : holds st hs vs -> holds st (firstn k hs) (firstn k vs).
Proof. intros H. unfold holds in *. revert k. induction H; intros [|k]; simpl; constructor; auto. Qed.
Lemma holds_removelast (st : gmap loc V) hs vs : holds st hs vs -> holds st (removelast hs) (removelast vs).
Proof.
  intros H. rewrite !removelast_firstn_len, (Forall2_length _ _ _ H). apply holds_take. auto.
Qed.
Lemma nth_take_lt {B} k (l : list B) i d : (i < k)%nat -> nth i (firstn k l) d = nth i l d.
Proof. revert l i. induction k; intros [|x l] [|i] Hi; simpl; auto; try lia. apply IHk. lia. Qed.
Lemma nth_removelast {B} (l : list B) i d : (i < length l - 1)%nat -> nth i (removelast l) d = nth i l d.
Proof. intros H. rewrite removelast_firstn_len. apply nth_take_lt. auto. Qed.
Lemma nth_tl {B} (l : list B) i d : nth i (tl l) d = nth (Datatypes.S i) l d.
Proof. destruct l; simpl; auto. destruct i; auto. Qed.

Lemma gram_aeq (A : arr F) us vs : nr A = length us -> nc A = length vs ->
  (forall i j d, i < length us -> j < length vs -> NdArray.ent A i j = ip S (nth i us d) (nth j vs d)) ->
  aeq A (gram S us vs).
Proof.
  intros H1 H2 H3. split; [auto|]. split; [auto|]. split. rewrite H1, H2. intros i j Hi Hj.
  destruct us as [|d us']; [simpl in Hi; lia|]. rewrite (gram_ent S _ _ d) by auto. apply H3; auto.
Qed.

(** The correlation arrays. *)
Lemma correlations_run vecs adv xh yh xv yv st :
  handles_data vecs adv xh yh -> holds st xh xv -> holds st yh yv ->
  exists C K G, aeq C (gram S xv xv) /\ aeq K (gram S xv yv) /\ aeq G (gram S yv yv) /\
    (forall el argsort eig sqrt o atol rtol mx Post,
      ok S st (DMD_eigendecomp el argsort eig sqrt
                 (set_corr (set_handles o (Some vecs) (adv_after o adv)) C K (dh_adv_corr o)) atol rtol mx) Post ->
      ok S st (DMD_decomp el argsort eig sqrt o vecs adv atol rtol mx) Post) /\
    (forall el argsort eig sqrt o atol rtol mx Post,
      ok S st (TLS_eigendecomp el argsort eig sqrt
                 (set_corr (set_handles o (Some vecs) (adv_after o adv)) C K (Some G)) atol rtol mx) Post ->
      ok S st (TLS_decomp el argsort eig sqrt o vecs adv atol rtol mx) Post).
Proof.
  intros HD Hx Hy. destruct (handles_dims _ _ _ _ HD) as (D1 & D2 & D3).
  assert (Nv : vecs <> []) by (intros ->; destruct adv; simpl in D3; lia).
  pose proof (Forall2_length _ _ _ Hx) as Lx. pose proof (Forall2_length _ _ _ Hy) as Ly.
  destruct adv as [a|].
  - destruct HD as (H1 & H2 & -> & ->).
    exists (gram S xv xv), (gram S xv yv), (gram S yv yv).
    do 3 (split; [apply aeq_refl|]).
    assert (Na : a <> []) by (intros ->; simpl in *; lia).
    split.
    + intros el argsort eig sqrt o atol rtol mx Post H. unfold DMD_decomp, DMD_set_handles.
      rewrite H2, Nat.eqb_refl. cbn [hbind].
      apply ok_bind. apply (ok_symm S vecs xv); auto. apply (ok_ip S vecs a xv yv); auto.
    + intros el argsort eig sqrt o atol rtol mx Post H. unfold TLS_decomp, DMD_set_handles.
      rewrite H2, Nat.eqb_refl. cbn [hbind].
      apply ok_bind. apply (ok_symm S vecs xv); auto. apply (ok_ip S vecs a xv yv); auto.
      apply (ok_symm S a yv); auto.
  - destruct HD as (H1 & -> & ->).
    destruct vecs as [|h hs]; [simpl in H1; lia|]. destruct hs as [|h' hs]; [simpl in H1; lia|].
    set (vecs := h :: h' :: hs) in *.
    destruct xv as [|x xv']; [simpl in Lx; lia|].
    assert (Eh : st !! h = Some x) by (inversion Hx; auto).
    set (vv := x :: yv).
    assert (Hv : holds st vecs vv) by (constructor; auto).
    assert (Ex : x :: xv' = removelast vv) by (apply (holds_inj st (removelast vecs)); auto; apply holds_removelast; auto).
    assert (Lv : length vv = length vecs) by (symmetry; apply (Forall2_length _ _ _ Hv)).
    set (G0 := gram S vv vv).
    assert (Gr : nr G0 = length vv) by reflexivity. assert (Gc : nc G0 = length vv) by reflexivity.
    exists (but_last_col (but_last_row G0)), (but_first_col (but_last_row G0)), (but_first_col (but_first_row G0)).
    rewrite Ex. change yv with (tl vv).
    assert (Lt : length (tl vv) = (length vv - 1)%nat) by (simpl; lia).
    split; [|split; [|split; [|split]]].
    + apply gram_aeq; rewrite removelast_length.
      * simpl. lia.
      * simpl. lia.
      * intros i j d Hi Hj. rewrite !nth_removelast by auto.
        change (NdArray.ent (but_last_col (but_last_row G0)) i j) with (NdArray.ent G0 i j).
        apply gram_ent; lia.
    + apply gram_aeq; rewrite ?removelast_length, ?Lt.
      * simpl. lia.
      * simpl. lia.
      * intros i j d Hi Hj. rewrite nth_removelast, nth_tl by auto.
        change (NdArray.ent (but_first_col (but_last_row G0)) i j) with (NdArray.ent G0 i (Datatypes.S j)).
        apply gram_ent; lia.
    + apply gram_aeq; rewrite ?Lt.
      * simpl. lia.
      * simpl. lia.
      * intros i j d Hi Hj. rewrite !nth_tl.
        change (NdArray.ent (but_first_col (but_first_row G0)) i j) with (NdArray.ent G0 (Datatypes.S i) (Datatypes.S j)).
        apply gram_ent; lia.
    + intros el argsort eig sqrt o atol rtol mx Post H. unfold DMD_decomp, DMD_set_handles. cbn [hbind].
      apply ok_bind. apply (ok_symm S vecs vv); auto.
    + intros el argsort eig sqrt o atol rtol mx Post H. unfold TLS_decomp, DMD_set_handles. cbn [hbind].
      apply ok_bind. apply (ok_symm S vecs vv); auto.
Qed.

Lemma DMD_low_ok (sqrt : F -> F) m E (U K : arr F) : nr U = m -> nc U = length E -> nr K = m -> nc K = m ->
  exists M, DMD_low sqrt E U K = Ok M /\ nr M = length E /\ nc M = length E /\
    meq (length E) (length E) (NdArray.ent M) (low_order sqrt m mid E (NdArray.ent U) (NdArray.ent K)).
Proof.
  intros Ur Uc Kr Kc. set (k := length E) in *. unfold DMD_low. cbv zeta.
  assert (Ld : length (map (inv_sqrt sqrt) E) = k) by apply map_length.
  rewrite (dot_mul U _ m k k) by (cbn [diag nr nc]; auto). cbn [rbind].
  rewrite (dot_mul K _ m k m) by (cbn [nr nc]; auto). cbn [rbind].
  rewrite (dot_mul (conj_T U) _ k k m) by (cbn [conj_T nr nc]; auto). cbn [rbind].
  rewrite (dot_mul _ _ k k k) by (cbn [diag nr nc]; auto).
  eexists. split; [reflexivity|]. do 2 (split; [reflexivity|]).
  cbn [NdArray.ent diag conj_T]. unfold low_order. fold k.
  rewrite (inv_diag sqrt E). fold k. rewrite madj_mid, mmul_id_l, mmul_id_r. reflexivity.
Qed.
Lemma TLS_low_ok (sqrt : F -> F) m E (Vs U K : arr F) : nr Vs = m -> nr U = m -> nc U = length E -> nr K = m -> nc K = m ->
  exists M, TLS_low sqrt Vs E U K = Ok M /\ nr M = length E /\ nc M = length E /\
    meq (length E) (length E) (NdArray.ent M) (low_order sqrt m (projection true Vs) E (NdArray.ent U) (NdArray.ent K)).
Proof.
  intros Vsr Ur Uc Kr Kc. set (k := length E) in *. unfold TLS_low. cbv zeta.
  assert (Ld : length (map (inv_sqrt sqrt) E) = k) by apply map_length.
  rewrite (dot_mul U _ m k k) by (cbn [diag nr nc]; auto). cbn [rbind].
  destruct (onto_mul Vs (Arr m k (mmul k (NdArray.ent U) (NdArray.ent (diag (map (inv_sqrt sqrt) E))))) m k)
    as (A & EA & A1 & A2 & A3); auto. rewrite EA. cbn [rbind].
  rewrite (dot_mul K A m k m) by auto. cbn [rbind].
  destruct (onto_mul Vs (Arr m k (mmul m (NdArray.ent K) (NdArray.ent A))) m k)
    as (B & EB & B1 & B2 & B3); auto. rewrite EB. cbn [rbind].
  rewrite (dot_mul (conj_T U) B k k m) by (cbn [conj_T nr nc]; auto). cbn [rbind].
  rewrite (dot_mul _ _ k k k) by (cbn [diag nr nc]; auto).
  eexists. split; [reflexivity|]. do 2 (split; [reflexivity|]).
  cbn [NdArray.ent diag conj_T] in *. unfold low_order. fold k.
  rewrite B3. rewrite A3. rewrite (inv_diag sqrt E). fold k. rewrite (projection_adj true Vs m).
  rewrite !mmul_assoc. reflexivity.
Qed.

Lemma low_map_order (sqrt : F -> F) xv yv Q E (U : mat F) : length yv = length xv ->
  meq (length E) (length E) (low_map sqrt (data_X xv yv Q) (data_Y xv yv Q) (gmat S (xv ++ yv)) E U)
    (low_order sqrt (length xv) Q E U (NdArray.ent (gram S xv yv))).
Proof.
  intros LY. unfold low_map, low_order. cbn [data_X data_Y nr nc].
  rewrite (data_cross S HS xv yv LY Q). reflexivity.
Qed.

(** After eigenvalues of the low-order map. *)
Lemma DMD_eigendecomp_ok el argsort eig sqrt (o : dmd_obj F) C K st t rtol mx vals cvecs M w R L :
  dh_corr o = Some C -> dh_cross o = Some K ->
  eigh el argsort C (Some t) None true = Ok (vals, cvecs) ->
  DMD_low sqrt (max_list mx vals) (max_cols mx (length vals) cvecs) K = Ok M ->
  eig_biorthog eig M SLeft = Ok (w, R, L) ->
  ok S st (DMD_eigendecomp el argsort eig sqrt o (Some t) rtol mx) (fun st' r => st' = st /\
    r = Ok (set_decomp o w R L (max_list mx vals) (max_cols mx (length vals) cvecs) (dh_svals o) (dh_svecs o))).
Proof.
  intros HC HK EE EM EB. unfold DMD_eigendecomp. rewrite HC.
  apply (ok_eigh S _ vals cvecs); [exact EE|]. cbn [fst snd]. rewrite HK.
  apply (ok_need S _ _ K); [reflexivity|]. apply (ok_lift S _ M); [exact EM|].
  apply (ok_eig S _ w R L); [exact EB|]. cbn [fst snd ok]. auto.
Qed.
Lemma TLS_eigendecomp_ok el argsort eig sqrt (o : dmd_obj F) C G K Sm PC st t rtol mx vals cvecs vals' cvecs' M w R L :
  dh_corr o = Some C -> dh_adv_corr o = Some G -> dh_cross o = Some K ->
  add_arr C G = Ok Sm -> eigh el argsort Sm (Some t) None true = Ok (vals, cvecs) ->
  TLS_proj_corr (max_cols mx (length vals) cvecs) C = Ok PC ->
  eigh el argsort PC (Some t) None true = Ok (vals', cvecs') ->
  TLS_low sqrt (max_cols mx (length vals) cvecs) (max_list mx vals') (max_cols mx (length vals') cvecs') K = Ok M ->
  eig_biorthog eig M SLeft = Ok (w, R, L) ->
  ok S st (TLS_eigendecomp el argsort eig sqrt o (Some t) rtol mx) (fun st' r => st' = st /\
    r = Ok (set_decomp o w R L (max_list mx vals') (max_cols mx (length vals') cvecs')
              (Some (max_list mx vals)) (Some (max_cols mx (length vals) cvecs)))).
Proof.
  intros HC HG HK ES EE EP EE' EM EB. unfold TLS_eigendecomp. rewrite HC, HG.
  apply (ok_need S _ _ C); [reflexivity|]. apply (ok_need S _ _ G); [reflexivity|].
  apply (ok_lift S _ Sm); [exact ES|]. apply (ok_eigh S _ vals cvecs); [exact EE|]. cbn [fst snd].
  apply (ok_lift S _ PC); [exact EP|]. apply (ok_eigh S _ vals' cvecs'); [exact EE'|]. cbn [fst snd]. rewrite HK.
  apply (ok_need S _ _ K); [reflexivity|]. apply (ok_lift S _ M); [exact EM|].
  apply (ok_eig S _ w R L); [exact EB|]. cbn [fst snd ok]. auto.
Qed.

(** Eigenvectors kept of arrays that are correlation arrays. *)
Lemma kept_data sqrt xv yv Q (PC : arr F) w0 w1 t rtol mx E U : length yv = length xv ->
  nr PC = length xv -> meq (length xv) (length xv) (NdArray.ent PC)
    (mmul (length xv) (madj Q) (mmul (length xv) (NdArray.ent (gram S xv xv)) Q)) ->
  eigh_kept PC w0 w1 t rtol mx E U -> (forall e, In e w0 -> klt_p 0 e -> sqrt_ok sqrt e) ->
  dmd_kept sqrt (data_X xv yv Q) (gmat S (xv ++ yv)) E U.
Proof.
  intros LY H1 H2 H3 H4. apply (eigh_stage_kept sqrt _ PC _ w0 w1 t rtol mx); auto.
  cbn [data_X nc nr]. rewrite H2. symmetry. apply (data_corr S HS xv yv Q).
Qed.

(** What the methods read and write. *)
Definition with_handles (vecs : list loc) (adv : option (list loc)) (o : dmd_obj F) : Prop :=
  dh_vecs o = Some vecs /\ dh_adv o = adv.
Lemma returns_eigendecomp (el : arr F -> res (list F * arr F)) argsort eig sqrt (o : dmd_obj F) vecs adv atol rtol mx :
  with_handles vecs adv o ->
  returns (with_handles vecs adv) (DMD_eigendecomp el argsort eig sqrt o atol rtol mx) /\
  returns (with_handles vecs adv) (TLS_eigendecomp el argsort eig sqrt o atol rtol mx).
Proof.
  intros H. split.
  - unfold DMD_eigendecomp. do 4 (apply returns_all; intros ?). exact H.
  - unfold TLS_eigendecomp. do 9 (apply returns_all; intros ?). exact H.
Qed.
Lemma returns_set_handles (o : dmd_obj F) vecs adv :
  returns (with_handles vecs (adv_after o adv)) (DMD_set_handles o vecs adv).
Proof.
  unfold DMD_set_handles. destruct adv as [a|]; simpl; [|split; reflexivity].
  destruct (_ =? _)%nat; simpl; [split; reflexivity|exact I].
Qed.
Lemma returns_decomp (el : arr F -> res (list F * arr F)) argsort eig sqrt (o : dmd_obj F) vecs adv atol rtol mx :
  returns (with_handles vecs (adv_after o adv)) (DMD_decomp el argsort eig sqrt o vecs adv atol rtol mx) /\
  returns (with_handles vecs (adv_after o adv)) (TLS_decomp el argsort eig sqrt o vecs adv atol rtol mx).
Proof.
  split.
  - unfold DMD_decomp. eapply returns_bind; [apply returns_set_handles|]. intros o1 H1.
    apply (returns_bind (with_handles vecs (adv_after o adv))).
    + destruct adv as [a|]; simpl; intros; exact H1.
    + intros o2 H2. apply returns_eigendecomp. auto.
  - unfold TLS_decomp. eapply returns_bind; [apply returns_set_handles|]. intros o1 H1.
    apply (returns_bind (with_handles vecs (adv_after o adv))).
    + destruct adv as [a|]; simpl; intros; exact H1.
    + intros o2 H2. apply returns_eigendecomp. auto.
Qed.
Lemma in_tl (l : list loc) h : h ∈ tl l -> h ∈ l.
Proof. destruct l; auto. right. auto. Qed.
Lemma in_removelast (l : list loc) h : h ∈ removelast l -> h ∈ l.
Proof.
  intros H. rewrite removelast_firstn_len in H. rewrite <- (take_drop (length l - 1) l). apply elem_of_app. auto.
Qed.

End Decomp.
