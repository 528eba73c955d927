(** Total-least-squares DMD: lemmas. *)
From Coq Require Import List Arith Lia Bool ZArith Field Ring Setoid Morphisms Permutation.
Import ListNotations.
From Verif Require Import Prelude Field FieldInst Matrix NdArray DecompModel DecompProofs DecompProps
  VSArraysModel VSArraysProofs VSArraysProps PodModel PodProofs PodProps BpodModel DmdModel DmdProofs DmdCore
  DmdSnaps DmdProps TlsModel.
Open Scope nat_scope.
Open Scope k_scope.

(** [X Vs Vs^H]: every row of the data projected onto the span of the columns of [Vs]. *)
Definition denoised {F : sfield} (X Vs : arr F) : arr F :=
  Arr (nr X) (nc X) (mmul (nc X) (ent X) (mmul (nc Vs) (ent Vs) (madj (ent Vs)))).

(** The weighted norms are not negative. *)
Definition nonneg {F : sfield} (n : nat) (W : mat F) : Prop :=
  forall v : nat -> F, let q := sum n (fun a => (v a)^* * sum n (fun b => W a b * v b)) in real q /\ kle 0 q.

Section Keep.
Context {F : sfield}.
Add Field Keepfield : (k_field F).

Lemma root_nonneg n (W R : mat F) : meq n n (mmul n (madj R) R) W -> nonneg n W.
Proof.
  intros HR v. set (x := fun (i _ : nat) => v i : F).
  set (y := mmul n R x).
  assert (E : sum n (fun a => (v a)^* * sum n (fun b => W a b * v b)) = sum n (fun a => (y a O)^* * y a O)).
  { transitivity (mmul n (madj x) (mmul n W x) O O); [reflexivity|].
    transitivity (mmul n (madj y) y O O); [|reflexivity].
    assert (G : meq 1 1 (mmul n (madj x) (mmul n W x)) (mmul n (madj y) y)).
    { unfold y. rewrite <- HR, madj_mmul, !mmul_assoc. reflexivity. }
    apply (meq_at _ _ _ _ G O O); lia. }
  cbv zeta. rewrite E. split.
  - apply sum_real. intros; apply real_norm.
  - apply sum_nonneg; intros; [apply real_norm|apply le_norm].
Qed.

(** If the kept directions make up X^H W X + Y^H W Y, the projection leaves the data
    unchanged. *)
Lemma keep_all n N k (X Y W V Sm : mat F) e :
  definite n W -> nonneg n W -> meq k k (mmul N (madj V) V) mid ->
  meq N N Sm (madd (wip n W X X) (wip n W Y Y)) ->
  meq N N Sm (mmul k V (mmul k (mdiag e) (madj V))) ->
  meq n N (mmul N X (mmul k V (madj V))) X /\ meq n N (mmul N Y (mmul k V (madj V))) Y.
Proof.
  intros HD HN HV HS HE.
  set (P := mmul k V (madj V)). set (Q := msub mid P : mat F).
  assert (SQ : meq N N (mmul N Sm Q) mzero).
  { unfold Q. rewrite mmul_sub_r, mmul_id_r. apply (proj2 (msub_zero N N _ _)). unfold P. rewrite HE.
    rewrite !mmul_assoc. rewrite <- (mmul_assoc k N N k (madj V) V), HV, mmul_id_l. reflexivity. }
  assert (G : meq N N (madd (wip n W (mmul N X Q) (mmul N X Q)) (wip n W (mmul N Y Q) (mmul N Y Q))) mzero).
  { rewrite !wip_mul_l, <- !wip_mul_r, <- mmul_add_r, <- mmul_add_l, <- HS, SQ, mmul_zero_r. reflexivity. }
  assert (Z : meq n N (mmul N X Q) mzero /\ meq n N (mmul N Y Q) mzero).
  { assert (A : forall j, j < N ->
      wip n W (mmul N X Q) (mmul N X Q) j j = 0 /\ wip n W (mmul N Y Q) (mmul N Y Q) j j = 0).
    { intros j Hj. pose proof (meq_at _ _ _ _ G j j Hj Hj) as G'. unfold madd, mzero in G'.
      destruct (HN (fun a => mmul N X Q a j)) as [R1 P1]. destruct (HN (fun a => mmul N Y Q a j)) as [R2 P2].
      change (sum n (fun a => (mmul N X Q a j)^* * sum n (fun b => W a b * mmul N X Q b j)))
        with (wip n W (mmul N X Q) (mmul N X Q) j j) in R1, P1.
      change (sum n (fun a => (mmul N Y Q a j)^* * sum n (fun b => W a b * mmul N Y Q b j)))
        with (wip n W (mmul N Y Q) (mmul N Y Q) j j) in R2, P2.
      split; [apply (add_eq_0 _ _ R1 R2 P1 P2 G')|].
      apply (add_eq_0 _ _ R2 R1 P2 P1). rewrite <- G'. ring. }
    split; split; intros i j Hi Hj.
    - apply (HD (fun a => mmul N X Q a j)); auto. apply (A j Hj).
    - apply (HD (fun a => mmul N Y Q a j)); auto. apply (A j Hj). }
  destruct Z as [ZX ZY].
  split.
  - symmetry. apply (proj1 (msub_zero n N _ _)). unfold Q in ZX. rewrite mmul_sub_r, mmul_id_r in ZX. exact ZX.
  - symmetry. apply (proj1 (msub_zero n N _ _)). unfold Q in ZY. rewrite mmul_sub_r, mmul_id_r in ZY. exact ZY.
Qed.
End Keep.

Lemma onto_eq {F : sfield} (Vs B : arr F) : nr Vs = nr B ->
  onto Vs B = Ok (Arr (nr Vs) (nc B) (mmul (nc Vs) (ent Vs) (mmul (nr Vs) (madj (ent Vs)) (ent B)))).
Proof.
  intros H. unfold onto. rewrite dot_eq by (cbn [nc conj_T]; auto). cbn [rbind].
  rewrite dot_eq by reflexivity. reflexivity.
Qed.

(** ** The common part of the snapshot method *)

(** Entry [i] of the spectral coefficients as computed: without the conjugate. *)
Definition spectral_as_coded {F : sfield} (sqrt : F -> F) (E : list F) (V L : mat F) (i : nat) : F :=
  let x := sum (length E) (fun j => (L j i)^* * (sqrt (at1 E j) * V O j)) in sqrt (x^* * x).

Section Core.
Context {F : sfield} (eig_lapack : arr F -> res (list F * arr F * arr F)) (sqrt : F -> F).
Context (vecs : arr F) (adv : option (arr F)) (idx : option (list Z)) (X Y Vs : arr F).
Context (W : mat F) (E : list F) (V cross : arr F).
Notation N := (nc X).
Notation n := (nr X).
Notation k := (length E).
Notation Xp := (denoised X Vs).
Notation Yp := (denoised Y Vs).
Notation P := (mmul (nc Vs) (ent Vs) (madj (ent Vs))).
Context (Hd : dmd_data vecs adv X Y) (HN : (0 < N)%nat) (HW : hermitian n W).
Context (Vsr : nr Vs = N).
Context (Kr : nr cross = N) (Kc : nc cross = N).
Context (HK : meq N N (ent cross) (wip n W (ent X) (ent Y))).
Context (KP : dmd_kept sqrt Xp W E V).
Add Field TCorefield : (k_field F).

Lemma P_adj : meq N N (madj P) P.
Proof. rewrite madj_mmul, madj_madj. reflexivity. Qed.
Lemma denoised_cross (K C : mat F) : meq N N K (wip n W (ent X) C) ->
  meq N N (mmul N P (mmul N K P)) (wip n W (ent Xp) (mmul N C P)).
Proof.
  intros H. cbn [denoised nr nc ent]. rewrite wip_mul_l, <- wip_mul_r, P_adj, H. reflexivity.
Qed.

Theorem TLS_core_spec : exists M, nr M = k /\ nc M = k /\
  meq k k (ent M) (low_map sqrt Xp Yp W E (ent V)) /\
  forall w L0 R0, eig_lapack M = Ok (w, L0, R0) -> eig_contract M w L0 R0 ->
    (forall i, i < k -> pairing k L0 R0 i i <> 0) ->
    exists L Pe Pp Ps pc apc sp sp',
      eig_biorthog eig_lapack M SLeft = Ok (w, R0, L) /\
      dmd_returns (TLS_core eig_lapack sqrt vecs adv idx Vs E V cross) idx
        Pe Pp Ps w sp pc apc R0 L E V None /\
      dmd_spec sqrt Xp Yp W E V w M R0 L Pe Pp Ps pc apc sp' /\
      shape sp = shape sp' /\ length (flat sp) = k /\
      (forall i, i < k -> nth i (flat sp) 0 = spectral_as_coded sqrt E (ent V) (ent L) i).
Proof.
  destruct (dmd_data_dims _ _ _ _ Hd) as (Yr & Yc & _).
  assert (Vr : nr V = N) by apply KP. assert (Vc : nc V = k) by apply KP.
  set (Einv := map (inv_sqrt sqrt) E).
  assert (Li : length Einv = k) by apply map_length.
  set (s := fun i => sqrt (at1 E i)).
  set (D := mdiag (at1 Einv)).
  assert (ED : meq k k D (mdiag (fun i => 1 / sqrt (at1 E i)))).
  { apply mdiag_ext. intros i Hk. unfold Einv. rewrite at1_map by auto. reflexivity. }
  assert (ES : meq k k (mdiag (at1 (map sqrt E))) (mdiag s)).
  { apply mdiag_ext. intros i Hk. rewrite at1_map by auto. reflexivity. }
  set (vs := ent Vs). set (q := nc Vs).
  assert (PKP : meq N N (mmul N P (mmul N (ent cross) P)) (wip n W (ent Xp) (ent Yp))).
  { rewrite (denoised_cross (ent cross) (ent Y) HK). unfold denoised. cbn [ent]. rewrite Yc. reflexivity. }
  set (onto' := fun A => mmul q vs (mmul N (madj vs) A)).
  assert (EO : forall j A, meq N j (onto' A) (mmul N P A)).
  { intros j A. unfold onto'. fold vs q. rewrite mmul_assoc. reflexivity. }
  set (M := Arr k k (mmul k D (mmul N (madj (ent V)) (onto' (mmul N (ent cross) (onto' (mmul k (ent V) D))))))).
  assert (EM : meq k k (ent M) (low_map sqrt Xp Yp W E (ent V))).
  { unfold M, low_map. cbn [ent denoised nr nc].
    assert (G : meq N k (onto' (mmul N (ent cross) (onto' (mmul k (ent V) D))))
      (mmul N (wip n W (ent Xp) (ent Yp)) (mmul k (ent V) (mdiag (fun i => 1 / sqrt (at1 E i)))))).
    { rewrite EO, <- PKP. rewrite EO, <- ED, !mmul_assoc. reflexivity. }
    rewrite G, ED. reflexivity. }
  exists M. split; [reflexivity|]. split; [reflexivity|]. split; [exact EM|].
  intros w L0 R0 HL HC HP.
  destruct (C17_biorthogonal eig_lapack M L0 R0 w HL HC HP) as [(L & EB & BR) _].
  assert (Lw : length w = k) by apply (eig_len _ _ _ _ HC).
  pose proof (br_Rr _ _ _ _ BR) as R1. pose proof (br_Rc _ _ _ _ BR) as R2.
  pose proof (br_Lr _ _ _ _ BR) as L1. pose proof (br_Lc _ _ _ _ BR) as L2.
  change (nr M) with k in R1, R2, L1, L2.
  set (Dw := mdiag (at1 (map (fun x => 1 / x) w))).
  assert (EDw : meq k k Dw (mdiag (fun i => 1 / at1 w i))).
  { apply mdiag_ext. intros i Hk. rewrite at1_map by lia. reflexivity. }
  set (bp := Arr N k (onto' (mmul k (ent V) (mmul k D (ent R0))))).
  set (be := Arr N k (mmul k (ent bp) Dw)).
  set (ba := Arr N k (onto' (mmul k (ent V) (mmul k D (ent L))))).
  set (pc := Arr k N (mmul k (madj (ent L)) (mmul k (mdiag (at1 (map sqrt E))) (madj (ent V))))).
  set (apc := Arr k N (mmul k (madj (ent L)) (mmul k D
                        (mmul N (madj (ent V)) (onto' (mmul N (ent cross) (mmul q vs (madj vs)))))))).
  set (v0 := map (ent V O) (seq 0 k)).
  set (sv0 := map (fun i => sum k (fun j => mdiag (at1 (map sqrt E)) i j * at1 v0 j)) (seq 0 k)).
  set (spl := map (fun i => sum k (fun j => madj (ent L) i j * at1 sv0 j)) (seq 0 k)).
  set (sp := squeeze (Nd [length spl] (map (cabs sqrt) spl))).
  set (sp' := squeeze (Nd [k] (map (fun i => sqrt ((ent pc i O)^* * ent pc i O)) (seq 0 k)))).
  set (Pe := Arr n k (mmul N (ent Y) (ent be))).
  set (Pp := Arr n k (mmul N (ent X) (ent bp))).
  set (Ps := Arr n k (mmul N (ent X) (ent ba))).
  assert (Lsp : length spl = k) by (unfold spl; rewrite map_length, seq_length; auto).
  exists L, Pe, Pp, Ps, pc, apc, sp, sp'. split; [exact EB|]. split.
  { (* the code *)
    unfold dmd_returns, TLS_core. cbv zeta. fold Einv.
    assert (LD : length (map sqrt E) = k) by apply map_length.
    assert (LW : length (map (fun x => 1 / x) w) = k) by (rewrite map_length; auto).
    assert (LV0 : length v0 = k) by (unfold v0; rewrite !map_length, seq_length; auto).
    assert (LSV : length sv0 = k) by (unfold sv0; rewrite map_length, seq_length; auto).
    repeat (first [rewrite dot_eq; [cbn [rbind nr nc ent diag conj_T fst snd]|
      cbn [nr nc ent diag conj_T]; congruence] | rewrite onto_eq; [cbn [rbind nr nc ent diag conj_T fst snd]|
      cbn [nr nc ent diag conj_T]; congruence]]).
    rewrite ?Vr, ?Vc, ?Li, ?Kr, ?Kc, ?Vsr. fold D. fold vs. fold q.
    change (Arr k k (mmul k D (mmul N (madj (ent V)) (mmul q vs (mmul N (madj vs)
      (mmul N (ent cross) (mmul q vs (mmul N (madj vs) (mmul k (ent V) D))))))))) with M.
    rewrite EB. cbn [rbind fst snd].
    repeat (first [rewrite dot_eq; [cbn [rbind nr nc ent diag conj_T fst snd]|
      cbn [nr nc ent diag conj_T]; congruence] | rewrite onto_eq; [cbn [rbind nr nc ent diag conj_T fst snd]|
      cbn [nr nc ent diag conj_T]; congruence]]).
    unfold row. rewrite Vr. rewrite (proj2 (Nat.ltb_lt 0 N)) by auto. cbn [rbind].
    rewrite Vc. fold v0.
    rewrite dot1_eq by (cbn [nc diag]; congruence). cbn [rbind nr nc ent diag conj_T]. rewrite LD. fold sv0.
    rewrite dot1_eq by (cbn [nc conj_T]; congruence). cbn [rbind nr nc ent diag conj_T]. rewrite L1, L2.
    fold spl. fold sp.
    repeat (first [rewrite dot_eq; [cbn [rbind nr nc ent diag conj_T fst snd]|
      cbn [nr nc ent diag conj_T]; congruence] | rewrite onto_eq; [cbn [rbind nr nc ent diag conj_T fst snd]|
      cbn [nr nc ent diag conj_T]; congruence]]).
    rewrite ?Vr, ?Vc, ?Li, ?Kr, ?Kc, ?L1, ?L2, ?R1, ?R2, ?LD, ?LW, ?Vsr. fold D. fold Dw. fold vs. fold q.
    rewrite (DMD_modes_ok vecs adv X Y) by (auto; reflexivity). cbn [nr nc ent].
    change (mmul k (mmul q vs (mmul N (madj vs) (mmul k (ent V) (mmul k D (ent R0))))) Dw) with (ent be).
    change (mmul q vs (mmul N (madj vs) (mmul k (ent V) (mmul k D (ent L))))) with (ent ba).
    change (mmul q vs (mmul N (madj vs) (mmul k (ent V) (mmul k D (ent R0))))) with (ent bp).
    fold Pe Pp Ps.
    destruct (pick_opt Pe idx) as [e|]; [|reflexivity]. cbn [rbind].
    destruct (pick_opt Pp idx) as [p|]; [|reflexivity]. cbn [rbind].
    destruct (pick_opt Ps idx) as [a|]; reflexivity. }
  assert (EXP : forall j A, meq n j (mmul N (ent X) (onto' A)) (mmul N (ent Xp) A)).
  { intros j A. rewrite EO. unfold denoised. cbn [ent]. rewrite <- (mmul_assoc n j N N (ent X)). reflexivity. }
  assert (EYP : forall j A, meq n j (mmul N (ent Y) (onto' A)) (mmul N (ent Yp) A)).
  { intros j A. rewrite EO. unfold denoised. cbn [ent]. rewrite Yc, <- (mmul_assoc n j N N (ent Y)). reflexivity. }
  split; [|split; [|split]].
  - apply dmd_spec_intro; auto; try reflexivity; try apply KP.
    + unfold Pp, bp. cbn [ent denoised nr nc]. fold (denoised X Vs). rewrite EXP, ED. reflexivity.
    + unfold Ps, ba. cbn [ent denoised nr nc]. rewrite EXP, ED. reflexivity.
    + unfold Pe, be, bp. cbn [ent denoised nr nc]. rewrite <- (mmul_assoc n k N k (ent Y)), EYP, ED, EDw.
      rewrite (mmul_assoc n k N k). reflexivity.
    + unfold pc. cbn [ent denoised nr nc]. rewrite ES. reflexivity.
    + unfold apc. cbn [ent denoised nr nc]. rewrite EO. unfold vs, q. rewrite PKP, ED. reflexivity.
    + unfold sp'. simpl. destruct (k =? 1)%nat; reflexivity.
    + unfold sp'. cbn [flat squeeze]. rewrite map_length, seq_length. auto.
    + intros i Hi. unfold sp'. cbn [flat squeeze]. rewrite nth_map_seq by auto. reflexivity.
  - unfold sp, sp'. cbn [shape squeeze]. rewrite Lsp. reflexivity.
  - unfold sp. cbn [flat squeeze]. rewrite map_length. auto.
  - intros i Hii. unfold sp. cbn [flat squeeze].
    rewrite (nth_indep _ 0 (cabs sqrt 0)) by (rewrite map_length; lia). rewrite (map_nth (cabs sqrt)).
    unfold cabs, spectral_as_coded. f_equal.
    assert (G : nth i spl 0 = sum k (fun j => (ent L j i)^* * (sqrt (at1 E j) * ent V O j))).
    { unfold spl. rewrite nth_map_seq by auto. apply sum_ext. intros j Hj.
      f_equal. unfold at1 at 1, sv0. rewrite nth_map_seq by auto.
      transitivity (mmul k (mdiag (at1 (map sqrt E))) (fun l _ => at1 v0 l) j O); [reflexivity|].
      rewrite (meq_at _ _ _ _ (mmul_diag_l k 1 _ _) j O Hj) by lia. rewrite at1_map by auto.
      unfold at1 at 2, v0. rewrite nth_map_seq by auto. reflexivity. }
    rewrite G. reflexivity.
Qed.
End Core.
