(** The DMD handle classes: lemmas. *)
From stdpp Require Import gmap list.
From Coq Require Import ZArith Lia Field Ring Setoid Morphisms.
From Verif Require Import Prelude Field Matrix NdArray DecompModel DecompProofs DecompProps
  VSArraysModel VSArraysProofs PodModel PodProofs PodProps BpodModel DmdModel DmdProofs DmdCore DmdSnaps
  TlsModel TlsProofs TlsProps
  Spmd LinCombModel InnerProdProps HandlesModel HandlesProofs HandlesSpace DmdHandlesModel.
Open Scope nat_scope.
Open Scope k_scope.

(** The handles of the snapshots and of the advanced snapshots meant by the arguments. *)
Definition handles_data {A} (vecs : list A) (adv : option (list A)) (xh yh : list A) : Prop :=
  match adv with
  | None => (2 <= length vecs)%nat /\ xh = removelast vecs /\ yh = tl vecs
  | Some a => (1 <= length vecs)%nat /\ length a = length vecs /\ xh = vecs /\ yh = a
  end.
Lemma removelast_length {A} (l : list A) : length (removelast l) = (length l - 1)%nat.
Proof. induction l as [|x [|y l] IH]; simpl in *; auto. rewrite IH. lia. Qed.
Lemma removelast_firstn_len {A} (l : list A) : removelast l = firstn (length l - 1) l.
Proof.
  induction l as [|x [|y l] IH]; auto. simpl in *. rewrite Nat.sub_0_r in IH. rewrite IH. reflexivity.
Qed.
Lemma handles_dims {A} (vecs : list A) adv xh yh : handles_data vecs adv xh yh ->
  (1 <= length xh)%nat /\ length yh = length xh /\
  length vecs = match adv with None => (length xh + 1)%nat | Some _ => length xh end.
Proof.
  destruct adv as [a|]; simpl.
  - intros (H1 & H2 & -> & ->). lia.
  - intros (H1 & -> & ->). rewrite removelast_length. destruct vecs; simpl in *; lia.
Qed.
Lemma handles_in (vecs : list loc) adv xh yh h : handles_data vecs adv xh yh ->
  h ∈ xh \/ h ∈ yh -> h ∈ vecs \/ h ∈ from_option id [] adv.
Proof.
  destruct adv as [a|]; simpl.
  - intros (_ & _ & -> & ->). auto.
  - intros (_ & -> & ->) [H|H]; left.
    + rewrite removelast_firstn_len in H. rewrite <- (take_drop (length vecs - 1) vecs). apply elem_of_app. auto.
    + destruct vecs; [inversion H|]. right. exact H.
Qed.

Section Build.
Context {F : sfield}.
Add Field Ff_dmdh : (k_field F).

(** Coefficients of the modes: Q V E^(-1/2) B. *)
Definition mode_coeffs (sqrt : F -> F) (m : nat) (Q : mat F) (E : list F) (V B : mat F) : mat F :=
  mmul m Q (mmul (length E) V (mmul (length E) (mdiag (fun i => 1 / sqrt (at1 E i))) B)).
(** The projection of TLSqrDMDHandles, none in DMDHandles. *)
Definition projection (tls : bool) (Vs : arr F) : mat F :=
  if tls then mmul (nc Vs) (NdArray.ent Vs) (madj (NdArray.ent Vs)) else mid.
Lemma projection_adj tls Vs m : meq m m (madj (projection tls Vs)) (projection tls Vs).
Proof.
  destruct tls; simpl; [|apply madj_mid]. rewrite madj_mmul, madj_madj. reflexivity.
Qed.
Lemma onto_mul (Vs B : arr F) m j : nr Vs = m -> nr B = m -> nc B = j ->
  exists C, onto Vs B = Ok C /\ nr C = m /\ nc C = j /\
    meq m j (NdArray.ent C) (mmul m (projection true Vs) (NdArray.ent B)).
Proof.
  intros H1 H2 H3. eexists. split; [apply onto_eq; congruence|]. cbn [nr nc NdArray.ent].
  do 2 (split; [auto|]). rewrite H1. simpl. rewrite mmul_assoc. reflexivity.
Qed.
Lemma dot_mul (A B : arr F) m j l : nr A = m -> nc A = l -> nr B = l -> nc B = j ->
  dot A B = Ok (Arr m j (mmul l (NdArray.ent A) (NdArray.ent B))).
Proof. intros H1 H2 H3 H4. rewrite dot_eq by congruence. rewrite H1, H2, H4. reflexivity. Qed.

Context (tls : bool) (sqrt : F -> F) (o : dmd_obj F) (m : nat).
Context (w : list F) (R L : arr F) (E : list F) (V Vs : arr F) (K : arr F).
Notation k := (length E).
Context (Ow : dh_eigvals o = Some w) (OR : dh_R o = Some R) (OL : dh_L o = Some L)
  (OE : dh_cvals o = Some E) (OV : dh_cvecs o = Some V) (OK_ : dh_cross o = Some K)
  (OVs : tls = true -> dh_svecs o = Some Vs).
Context (Lw : length w = k) (Vr : nr V = m) (Vc : nc V = k) (Vsr : tls = true -> nr Vs = m)
  (Rr : nr R = k) (Rc : nc R = k) (Lr : nr L = k) (Lc : nc L = k) (Kr : nr K = m) (Kc : nc K = m).
Notation Q := (projection tls Vs).
Notation D := (mdiag (at1 (map (inv_sqrt sqrt) E))).

Lemma inv_diag : meq k k D (mdiag (fun i => 1 / sqrt (at1 E i))).
Proof. apply mdiag_ext. intros i Hi. rewrite at1_map by auto. reflexivity. Qed.
Lemma onto_or B j : nr B = m -> nc B = j -> tls = true ->
  exists C, onto Vs B = Ok C /\ nr C = m /\ nc C = j /\
    meq m j (NdArray.ent C) (mmul m Q (NdArray.ent B)).
Proof. intros H1 H2 Ht. destruct tls; [|discriminate]. apply onto_mul; auto. Qed.

Lemma build_coeffs_ok B : nr B = k -> nc B = k ->
  exists C, build_coeffs tls sqrt o (Some B) = HRet C /\ nr C = m /\ nc C = k /\
    meq m k (NdArray.ent C) (mode_coeffs sqrt m Q E (NdArray.ent V) (NdArray.ent B)).
Proof.
  intros H1 H2. unfold build_coeffs. rewrite OV, OE. cbn [need].
  set (A := Arr m k (mmul k (NdArray.ent V) (mmul k D (NdArray.ent B)))).
  assert (E1 : dot (diag (map (inv_sqrt sqrt) E)) B = Ok (Arr k k (mmul k D (NdArray.ent B)))).
  { apply dot_mul; cbn [diag nr nc]; rewrite ?map_length; auto. }
  assert (E2 : dot V (Arr k k (mmul k D (NdArray.ent B))) = Ok A) by (apply dot_mul; auto).
  assert (E3 : exists C, (if tls then onto Vs A else Ok A) = Ok C /\ nr C = m /\ nc C = k /\
    meq m k (NdArray.ent C) (mode_coeffs sqrt m Q E (NdArray.ent V) (NdArray.ent B))).
  { unfold mode_coeffs. destruct tls eqn:Et.
    - destruct (onto_mul Vs A m k) as (C & EC & C1 & C2 & C3); auto. exists C. do 3 (split; [auto|]).
      rewrite C3, <- inv_diag. reflexivity.
    - exists A. do 3 (split; [reflexivity|]). rewrite <- inv_diag. simpl. rewrite mmul_id_l. reflexivity. }
  destruct E3 as (C & E3 & H). exists C. split; [|exact H].
  destruct tls eqn:Et; [rewrite OVs by auto|]; cbn [hbind need]; rewrite E1; cbn [rbind];
    rewrite E2; cbn [rbind]; rewrite E3; reflexivity.
Qed.

Lemma build_exact_ok :
  exists C, build_exact tls sqrt o = HRet C /\ nr C = m /\ nc C = k /\
    meq m k (NdArray.ent C) (mmul k (mode_coeffs sqrt m Q E (NdArray.ent V) (NdArray.ent R))
      (mdiag (fun i => 1 / at1 w i))).
Proof.
  unfold build_exact. rewrite OV, OE, OR, Ow. cbn [need].
  set (Dw := mdiag (at1 (map (fun x => 1 / x) w))).
  assert (EDw : meq k k Dw (mdiag (fun i => 1 / at1 w i))).
  { apply mdiag_ext. intros i Hk. rewrite at1_map by lia. reflexivity. }
  assert (E1 : dot R (diag (map (fun x => 1 / x) w)) = Ok (Arr k k (mmul k (NdArray.ent R) Dw))).
  { apply dot_mul; cbn [diag nr nc]; rewrite ?map_length; auto. }
  assert (E2 : dot (diag (map (inv_sqrt sqrt) E)) (Arr k k (mmul k (NdArray.ent R) Dw))
             = Ok (Arr k k (mmul k D (mmul k (NdArray.ent R) Dw)))).
  { apply dot_mul; cbn [diag nr nc]; rewrite ?map_length; auto. }
  set (A := Arr m k (mmul k (NdArray.ent V) (mmul k D (mmul k (NdArray.ent R) Dw)))).
  assert (E3 : dot V (Arr k k (mmul k D (mmul k (NdArray.ent R) Dw))) = Ok A) by (apply dot_mul; auto).
  assert (E4 : dot V (diag (map (inv_sqrt sqrt) E)) = Ok (Arr m k (mmul k (NdArray.ent V) D))).
  { apply dot_mul; cbn [diag nr nc]; rewrite ?map_length; auto. }
  set (A' := Arr m k (mmul k (mmul k (NdArray.ent V) D) (mmul k (NdArray.ent R) Dw))).
  assert (E5 : dot (Arr m k (mmul k (NdArray.ent V) D)) (Arr k k (mmul k (NdArray.ent R) Dw)) = Ok A')
    by (apply dot_mul; auto).
  unfold mode_coeffs. 
  assert (EA : meq m k (NdArray.ent A) (mmul k (mmul k (NdArray.ent V) (mmul k D (NdArray.ent R))) (mdiag (fun i => 1 / at1 w i)))).
  { unfold A. cbn [NdArray.ent]. rewrite EDw, !mmul_assoc. reflexivity. }
  assert (EA' : meq m k (NdArray.ent A') (mmul k (mmul k (NdArray.ent V) (mmul k D (NdArray.ent R))) (mdiag (fun i => 1 / at1 w i)))).
  { unfold A'. cbn [NdArray.ent]. rewrite EDw, !mmul_assoc. reflexivity. }
  destruct tls eqn:Et.
  - rewrite OVs by auto. cbn [hbind need]. rewrite E4. cbn [rbind]. rewrite E1. cbn [rbind]. rewrite E5. cbn [rbind].
    destruct (onto_mul Vs A' m k) as (C & EC & C1 & C2 & C3); auto. exists C. rewrite EC.
    do 3 (split; [auto|]). rewrite C3, EA', inv_diag, !mmul_assoc. reflexivity.
  - cbn [hbind]. rewrite E1. cbn [rbind]. rewrite E2. cbn [rbind]. rewrite E3. exists A.
    do 3 (split; [reflexivity|]). rewrite EA, inv_diag. simpl. rewrite mmul_id_l. reflexivity.
Qed.

Lemma proj_coeffs_ok : exists pc apc,
  DMD_proj_coeffs tls sqrt o = HRet (set_coeffs o (pc, apc), (pc, apc)) /\
  nr pc = k /\ nc pc = m /\ nr apc = k /\ nc apc = m /\
  meq k m (NdArray.ent pc) (mmul k (madj (NdArray.ent L)) (mmul k (mdiag (fun i => sqrt (at1 E i))) (madj (NdArray.ent V)))) /\
  meq k m (NdArray.ent apc) (mmul k (madj (NdArray.ent L)) (mmul k (mdiag (fun i => 1 / sqrt (at1 E i)))
    (mmul m (madj (NdArray.ent V)) (mmul m (madj Q) (mmul m (NdArray.ent K) Q))))).
Proof.
  unfold DMD_proj_coeffs. rewrite OL, OE, OV, OK_. cbn [need].
  set (Sd := mdiag (at1 (map sqrt E))).
  assert (ES : meq k k Sd (mdiag (fun i => sqrt (at1 E i)))).
  { apply mdiag_ext. intros i Hk. rewrite at1_map by auto. reflexivity. }
  assert (E1 : dot (diag (map sqrt E)) (conj_T V) = Ok (Arr k m (mmul k Sd (madj (NdArray.ent V))))).
  { apply dot_mul; cbn [diag nr nc conj_T]; rewrite ?map_length; auto. }
  set (pc := Arr k m (mmul k (madj (NdArray.ent L)) (mmul k Sd (madj (NdArray.ent V))))).
  assert (E2 : dot (conj_T L) (Arr k m (mmul k Sd (madj (NdArray.ent V)))) = Ok pc).
  { apply dot_mul; auto. }
  assert (E3 : exists B, (if tls then rbind (dot Vs (conj_T Vs)) (fun P => rbind (dot K P) (fun KP => onto Vs KP)) else Ok K) = Ok B /\
    nr B = m /\ nc B = m /\ meq m m (NdArray.ent B) (mmul m (madj Q) (mmul m (NdArray.ent K) Q))).
  { destruct tls eqn:Et.
    - rewrite (dot_mul Vs (conj_T Vs) m m (nc Vs)) by (cbn [conj_T nr nc]; auto). cbn [rbind].
      rewrite (dot_mul K _ m m m) by auto. cbn [rbind].
      destruct (onto_mul Vs (Arr m m (mmul m (NdArray.ent K) (mmul (nc Vs) (NdArray.ent Vs) (NdArray.ent (conj_T Vs))))) m m)
        as (C & EC & C1 & C2 & C3); auto.
      exists C. do 3 (split; [auto|]). rewrite (projection_adj true). exact C3.
    - exists K. do 3 (split; [auto|]). rewrite (projection_adj false). simpl. rewrite mmul_id_l, mmul_id_r. reflexivity. }
  destruct E3 as (B & E3 & B1 & B2 & B3).
  assert (E4 : dot (conj_T V) B = Ok (Arr k m (mmul m (madj (NdArray.ent V)) (NdArray.ent B)))) by (apply dot_mul; auto).
  assert (E5 : dot (diag (map (inv_sqrt sqrt) E)) (Arr k m (mmul m (madj (NdArray.ent V)) (NdArray.ent B)))
             = Ok (Arr k m (mmul k D (mmul m (madj (NdArray.ent V)) (NdArray.ent B))))).
  { apply dot_mul; cbn [diag nr nc]; rewrite ?map_length; auto. }
  set (apc := Arr k m (mmul k (madj (NdArray.ent L)) (mmul k D (mmul m (madj (NdArray.ent V)) (NdArray.ent B))))).
  assert (E6 : dot (conj_T L) (Arr k m (mmul k D (mmul m (madj (NdArray.ent V)) (NdArray.ent B)))) = Ok apc)
    by (apply dot_mul; auto).
  exists pc, apc. split.
  - cbn [hbind]. rewrite E1. cbn [rbind]. rewrite E2. cbn [hlift hbind].
    destruct tls eqn:Et; [rewrite OVs by auto|injection E3 as E3; subst B]; cbn [hbind need];
      [rewrite E3|]; cbn [rbind]; rewrite E4; cbn [rbind]; rewrite E5; cbn [rbind]; rewrite E6; reflexivity.
  - do 4 (split; [reflexivity|]). split.
    + unfold pc. cbn [NdArray.ent]. rewrite ES. reflexivity.
    + unfold apc. cbn [NdArray.ent]. rewrite inv_diag, B3. reflexivity.
Qed.

(** The spectral coefficients are the magnitudes of the first column of projection
    coefficients. *)
Lemma spectrum_ok : (0 < m)%nat -> (forall i, i < k -> real (sqrt (at1 E i))) ->
  exists sp, DMD_spectrum sqrt o = HRet (set_spec o sp, sp) /\
    shape sp = (if (k =? 1)%nat then [] else [k]) /\ length (flat sp) = k /\
    forall i, i < k -> nth i (flat sp) 0 =
      (let x := mmul k (madj (NdArray.ent L)) (mmul k (mdiag (fun i => sqrt (at1 E i))) (madj (NdArray.ent V))) i O in
       sqrt (x^* * x)).
Proof.
  intros Hm Hre. unfold DMD_spectrum. rewrite OL, OE, OV. cbn [need hbind].
  unfold row. rewrite Vr, (proj2 (Nat.ltb_lt 0 m)) by auto. cbn [rbind]. rewrite Vc.
  set (v0 := map (NdArray.ent V O) (seq 0 k)).
  assert (LV0 : length v0 = k) by (unfold v0; rewrite map_length, seq_length; auto).
  rewrite dot1_eq by (cbn [nc diag]; rewrite map_length; auto). cbn [rbind nr nc NdArray.ent diag].
  rewrite map_length.
  set (sv0 := map _ (seq 0 k)).
  assert (LSV : length sv0 = k) by (unfold sv0; rewrite map_length, seq_length; auto).
  rewrite dot1_eq by (cbn [nc conj_T]; rewrite map_length; congruence). cbn [rbind nr nc NdArray.ent conj_T].
  rewrite Lr, Lc. set (spl := map _ (seq 0 k)).
  assert (Lsp : length spl = k) by (unfold spl; rewrite map_length, seq_length; auto).
  eexists. split; [reflexivity|]. split.
  { cbn [shape squeeze]. rewrite Lsp. simpl. destruct (k =? 1)%nat; reflexivity. }
  split; [cbn [flat squeeze]; rewrite map_length; auto|].
  intros i Hi. cbn [flat squeeze]. cbv zeta.
  rewrite (nth_indep _ 0 (cabs sqrt 0)) by (rewrite map_length; lia). rewrite (map_nth (cabs sqrt)).
  assert (G : nth i spl 0 = mmul k (madj (NdArray.ent L)) (mmul k (mdiag (fun i => sqrt (at1 E i))) (madj (NdArray.ent V))) i O).
  { unfold spl. rewrite nth_map_seq by auto. unfold mmul at 1. apply sum_ext. intros j Hj. f_equal.
    rewrite at1_map by lia. unfold at1 at 1, sv0. rewrite nth_map_seq by auto.
    rewrite (meq_at _ _ _ _ (mmul_diag_l k 1 _ _) j O Hj) by lia.
    transitivity ((mmul k (mdiag (at1 (map sqrt E))) (fun l _ => at1 v0 l) j O)^*); [reflexivity|].
    rewrite (meq_at _ _ _ _ (mmul_diag_l k 1 _ _) j O Hj) by lia. rewrite at1_map by auto.
    rewrite conj_mul, (Hre j Hj). f_equal. unfold at1, v0. rewrite nth_map_seq by auto. reflexivity. }
  rewrite G. reflexivity.
Qed.
End Build.
