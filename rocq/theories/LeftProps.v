(** Property C66: what an object is left with when a method raises, and what later calls
    make of it. *)
From stdpp Require Import gmap list.
From Coq Require Import ZArith Lia.
From Verif Require Import Prelude Field FieldInst Matrix NdArray DecompModel DecompProofs DecompProps VSArraysModel VSArraysProofs
  PodModel PodProofs PodProps BpodModel HankelModel DmdModel DmdProofs DmdCore TlsModel EraModel Spmd LinCombModel InnerProdProps
  HandlesModel HandlesProofs HandlesSpace HandlesExamples PodHandlesModel BpodHandlesModel DmdHandlesModel DmdHandlesProofs
  TlsExamples DmdExamples PodHandlesProps ModesProps EraProofs EraExamples LeftModel.
Open Scope nat_scope.

(** ** The same methods *)

(** The same operations in the same order, with the same end. *)
Inductive hsame {F : sfield} {A} : hprog F A -> hprog F A -> Prop :=
| hs_ret a : hsame (HRet a) (HRet a)
| hs_fail e : hsame (HFail e) (HFail e)
| hs_ip rows cols k k' : (forall a, hsame (k a) (k' a)) -> hsame (HIp rows cols k) (HIp rows cols k')
| hs_symm vecs k k' : (forall a, hsame (k a) (k' a)) -> hsame (HSymm vecs k) (HSymm vecs k')
| hs_call call k k' : (forall l, hsame (k l) (k' l)) -> hsame (HCall call k) (HCall call k')
| hs_lin sums basis C idx k k' : hsame k k' -> hsame (HLin sums basis C idx k) (HLin sums basis C idx k').
(** The result, without a [try] statement. *)
Definition uncaught {F : sfield} {O} (h : hprog F (O * res unit)) : hprog F O :=
  hbind h (fun p => match snd p with Ok _ => HRet (fst p) | Raise e => HFail e end).

Lemma hsame_refl {F : sfield} {A} (h : hprog F A) : hsame h h.
Proof. induction h; constructor; auto. Qed.

(** With more than one process the methods of LeftModel.v are those of the other files. *)
Theorem C66_same {F : sfield} :
  (forall el argsort (o : pod_obj F) vecs atol rtol,
     hsame (uncaught (POD_decomp_left true el argsort o vecs atol rtol)) (POD_decomp el argsort o vecs atol rtol)) /\
  (forall lapack (o : bpod_obj F) direct adjoint p q atol rtol,
     hsame (uncaught (BPOD_decomp_left true lapack o direct adjoint p q atol rtol))
       (BPOD_decomp lapack o direct adjoint p q atol rtol)) /\
  (forall el argsort eig sqrt (o : dmd_obj F) vecs adv atol rtol mx,
     hsame (uncaught (DMD_decomp_left true el argsort eig sqrt o vecs adv atol mx))
       (DMD_decomp el argsort eig sqrt o vecs adv atol rtol mx)).
Proof.
  assert (CC : forall A B (bc : res A -> hprog F A) call (k : res A -> hprog F B),
    catch_call true bc call k = hbind (bc call) (fun x => k (Ok x))) by (intros; destruct call; reflexivity).
  assert (ED : forall el argsort eig sqrt (o : dmd_obj F) C K atol rtol mx,
    dh_corr o = Some C -> dh_cross o = Some K ->
    hsame (uncaught (DMD_eigendecomp_left true el argsort eig sqrt o C K atol mx))
      (DMD_eigendecomp el argsort eig sqrt o atol rtol mx)).
  { intros el argsort eig sqrt o C K atol rtol mx EC EK.
    unfold uncaught, DMD_eigendecomp_left, DMD_eigendecomp. rewrite CC, EC, EK. unfold bcast_eigh at 1. cbn [hbind]. constructor.
    intros l. destruct l as [|[] [|[] [|]]]; cbn [hbind need]; try apply hsame_refl.
    cbn [fst snd]. destruct (DMD_low _ _ _ _) as [M|e]; cbn [hlift hbind]; [|apply hsame_refl].
    rewrite CC. unfold bcast_eig. cbn [hbind]. constructor.
    intros l'. destruct l' as [|[] [|[] [|[] [|]]]]; cbn [hbind]; apply hsame_refl. }
  split; [|split].
  - intros. unfold uncaught, POD_decomp_left, POD_decomp, symm_inner_products. cbn [hbind]. constructor. intros C.
    rewrite CC. unfold POD_eigendecomp. cbn [ph_corr]. unfold bcast_eigh. cbn [hbind]. constructor.
    intros l. destruct l as [|[] [|[] [|]]]; cbn [hbind]; apply hsame_refl.
  - intros. unfold uncaught, BPOD_decomp_left, BPOD_decomp, inner_products. cbn [hbind]. constructor. intros A1.
    constructor. intros A2.
    destruct (range_div (nr A1) q) as [ri|e]; cbn [hlift hbind]; [|apply hsame_refl].
    destruct (range_div (nc A2) p) as [rj|e]; cbn [hlift hbind]; [|apply hsame_refl].
    rewrite CC. unfold bcast_arr. cbn [hbind]. constructor. intros l. destruct l as [|[] [|]]; cbn [hbind]; try apply hsame_refl.
    rewrite CC. unfold BPOD_SVD. cbn [bh_Hankel]. unfold bcast_svd. cbn [hbind]. constructor. intros l'.
    destruct l' as [|[] [|[] [|[] [|]]]]; cbn [hbind]; apply hsame_refl.
  - intros. unfold uncaught, DMD_decomp_left, DMD_decomp, DMD_set_handles. destruct adv as [adv|].
    + destruct (_ =? _)%nat; cbn [hbind]; [|apply hsame_refl].
      constructor. intros C. constructor. intros K. cbn [hbind]. refine (ED _ _ _ _ _ _ _ _ _ _ _ _); reflexivity.
    + cbn [hbind]. constructor. intros G. cbn [hbind]. refine (ED _ _ _ _ _ _ _ _ _ _ _ _); reflexivity.
Qed.

(** The same for total-least-squares DMD. *)
Theorem C66_tls_same {F : sfield} el argsort eig sqrt (o : dmd_obj F) vecs adv atol rtol mx :
  hsame (uncaught (TLS_decomp_left true el argsort eig sqrt o vecs adv atol mx))
    (TLS_decomp el argsort eig sqrt o vecs adv atol rtol mx).
Proof.
  assert (CC : forall A B (bc : res A -> hprog F A) call (k : res A -> hprog F B),
    catch_call true bc call k = hbind (bc call) (fun x => k (Ok x))) by (intros; destruct call; reflexivity).
  assert (ED : forall (o : dmd_obj F) C K G, dh_corr o = Some C -> dh_cross o = Some K -> dh_adv_corr o = Some G ->
    hsame (uncaught (TLS_eigendecomp_left true el argsort eig sqrt o C K G atol mx))
      (TLS_eigendecomp el argsort eig sqrt o atol rtol mx)).
  { clear o. intros o C K G EC EK EG.
    unfold uncaught, TLS_eigendecomp_left, TLS_eigendecomp. rewrite EC, EG, EK. cbn [need hbind].
    destruct (add_arr C G) as [sum|e]; cbn [hlift hbind]; [|apply hsame_refl].
    rewrite CC. unfold bcast_eigh at 1 3. cbn [hbind]. constructor.
    intros l. destruct l as [|[] [|[] [|]]]; cbn [hbind need]; try apply hsame_refl.
    cbn [fst snd]. destruct (TLS_proj_corr _ _) as [PC|e]; cbn [hlift hbind]; [|apply hsame_refl].
    rewrite CC. unfold bcast_eigh. cbn [hbind]. constructor.
    intros l'. destruct l' as [|[] [|[] [|]]]; cbn [hbind need]; try apply hsame_refl.
    cbn [fst snd]. destruct (TLS_low _ _ _ _ _) as [M|e]; cbn [hlift hbind]; [|apply hsame_refl].
    rewrite CC. unfold bcast_eig. cbn [hbind]. constructor.
    intros l''. destruct l'' as [|[] [|[] [|[] [|]]]]; cbn [hbind]; apply hsame_refl. }
  unfold uncaught, TLS_decomp_left, TLS_decomp, DMD_set_handles. destruct adv as [adv|].
  - destruct (_ =? _)%nat; cbn [hbind]; [|apply hsame_refl].
    constructor. intros C. constructor. intros K. constructor. intros G. cbn [hbind]. apply ED; reflexivity.
  - cbn [hbind]. constructor. intros G. cbn [hbind]. apply ED; reflexivity.
Qed.

Section Handles.
Context {F : sfield} {V : Type} (S : space F V) (HS : ip_space S).
Context (limit : option Z) (P tag_ub : nat) (eager : InnerProdModel.msg V F -> bool).
Context (Hup : set_up limit P tag_ub S).

(** ** After a failure *)

(** [h] is called in a [try] statement: it raises [e] and leaves the object [o]; nothing
    was written. *)
Definition leaves {O} (st : gmap loc V) (h : hprog F (O * res unit)) (e : exn) (o : O) : Prop :=
  runs S P tag_ub eager st h (fun st' r => st' = st /\ r = Ok (o, Raise e)).

(** A decomposition that fails in LAPACK, on one process: the new vectors and correlation
    array stay, with the former eigenvalues and eigenvectors. *)
Theorem C66_pod el argsort (o : pod_obj F) vecs vs st atol rtol e : P = 1 ->
  holds st vecs vs -> vecs <> [] -> eigh el argsort (gram S vs vs) atol rtol true = Raise e ->
  leaves st (POD_decomp_left (1 <? P) el argsort o vecs atol rtol) e
    (PodObj (ph_eigvals o) (ph_eigvecs o) (Some vecs) (Some (gram S vs vs)) (ph_coeffs o)).
Proof.
  intros HP Hv Nv He. apply (ok_runs S limit); auto. rewrite HP. unfold POD_decomp_left.
  apply (ok_symm S vecs vs); auto. rewrite He. cbn. split; reflexivity.
Qed.

(** No outputs: division by zero on every rank, with both lists of vectors replaced. *)
Theorem C66_bpod_zero lapack (o : bpod_obj F) direct adjoint dv av p st atol rtol :
  holds st direct dv -> holds st adjoint av -> direct <> [] -> adjoint <> [] -> 0 < p ->
  leaves st (BPOD_decomp_left (1 <? P) lapack o direct adjoint p 0 atol rtol) ZeroDivisionError
    (BpodObj (bh_L o) (bh_R o) (bh_sing_vals o) (bh_Hankel o) (Some direct) (Some adjoint)
       (bh_direct_coeffs o) (bh_adjoint_coeffs o)).
Proof.
  intros Hd Ha Nd Na Hp. apply (ok_runs S limit); auto. unfold BPOD_decomp_left.
  apply (ok_ip S adjoint (firstn p direct) av (firstn p dv)); auto.
  { apply Forall2_take; auto. }
  { destruct direct, p; simpl; [congruence|congruence|lia|congruence]. }
  apply (ok_ip S _ direct av dv); auto. split; reflexivity.
Qed.
(** The singular value decomposition fails, on one process. *)
Theorem C66_bpod lapack (o : bpod_obj F) direct adjoint dv av p q mx my st atol rtol H e : P = 1 ->
  holds st direct dv -> holds st adjoint av -> 0 < p -> 0 < q -> direct <> [] -> adjoint <> [] ->
  range_div (length av) q = Ok my -> range_div (length dv) p = Ok mx ->
  Hankel_chunks
    (map (fun i => col_slice 0 p (row_slice (i * q) ((i + 1) * q) (gram S av (firstn p dv)))) my)
    (Some (map (fun j => col_slice (j * p) ((j + 1) * p) (gram S (skipn (length av - q) av) dv)) mx)) = Ok H ->
  svd lapack H atol rtol = Raise e ->
  leaves st (BPOD_decomp_left (1 <? P) lapack o direct adjoint p q atol rtol) e
    (BpodObj (bh_L o) (bh_R o) (bh_sing_vals o) (Some H) (Some direct) (Some adjoint)
       (bh_direct_coeffs o) (bh_adjoint_coeffs o)).
Proof.
  intros HP Hd Ha Hp Hq Nd Na E1 E2 EH He. apply (ok_runs S limit); auto. rewrite HP. unfold BPOD_decomp_left.
  pose proof (Forall2_length _ _ _ Ha) as La.
  apply (ok_ip S adjoint (firstn p direct) av (firstn p dv)); auto.
  { apply Forall2_take; auto. }
  { destruct direct, p; simpl; [congruence|congruence|lia|congruence]. }
  apply (ok_ip S _ direct (skipn (length av - q) av) dv); auto.
  { unfold last_handles. rewrite (proj2 (Nat.eqb_neq q 0)), La by lia. apply Forall2_drop; auto. }
  { unfold last_handles. rewrite (proj2 (Nat.eqb_neq q 0)) by lia. intros Z. apply (f_equal length) in Z.
    rewrite skipn_length in Z. destruct adjoint; simpl in *; [congruence|lia]. }
  change (nr (gram S av (firstn p dv))) with (length av).
  change (nc (gram S (skipn (length av - q) av) dv)) with (length dv). rewrite E1, E2.
  destruct H as [m n f]. rewrite EH. unfold catch_call at 1, bcast_arr. cbn [hbind rmap pack ok]. eexists. split; [reflexivity|].
  unfold pack. cbn [hbind nr nc NdArray.ent]. rewrite He. cbn. split; reflexivity.
Qed.

(** Different numbers of vectors and advanced vectors, on any number of processes: both
    lists stay. *)
Theorem C66_dmd_count el argsort eig sqrt (o : dmd_obj F) vecs adv st atol mx : length vecs <> length adv ->
  leaves st (DMD_decomp_left (1 <? P) el argsort eig sqrt o vecs (Some adv) atol mx) ValueError
    (DmdObj (dh_eigvals o) (dh_R o) (dh_L o) (dh_cvals o) (dh_cvecs o) (dh_svals o) (dh_svecs o)
       (dh_corr o) (dh_cross o) (dh_adv_corr o) (Some vecs) (Some adv) (dh_spec o) (dh_coeffs o)).
Proof.
  intros Hne. apply (ok_runs S limit); auto. unfold DMD_decomp_left. rewrite (proj2 (Nat.eqb_neq _ _) Hne).
  split; reflexivity.
Qed.
(** LAPACK fails, on one process: on the correlation array, or on the low-order linear
    map.  Then the eigenvectors of the new correlation array stand beside those of the
    former map. *)
Theorem C66_dmd el argsort eig sqrt (o : dmd_obj F) vecs adv vs avs st atol mx e : P = 1 ->
  holds st vecs vs -> holds st adv avs -> vecs <> [] -> length adv = length vecs ->
  let C := gram S vs vs in let K := gram S vs avs in
  let left cvals cvecs := DmdObj (dh_eigvals o) (dh_R o) (dh_L o) cvals cvecs (dh_svals o) (dh_svecs o)
    (Some C) (Some K) (dh_adv_corr o) (Some vecs) (Some adv) (dh_spec o) (dh_coeffs o) in
  (eigh el argsort C atol None true = Raise e ->
   leaves st (DMD_decomp_left (1 <? P) el argsort eig sqrt o vecs (Some adv) atol mx) e
     (left (dh_cvals o) (dh_cvecs o))) /\
  (forall vals U M, eigh el argsort C atol None true = Ok (vals, U) ->
   DMD_low sqrt (max_list mx vals) (max_cols mx (length vals) U) K = Ok M -> eig_biorthog eig M SLeft = Raise e ->
   leaves st (DMD_decomp_left (1 <? P) el argsort eig sqrt o vecs (Some adv) atol mx) e
     (left (Some (max_list mx vals)) (Some (max_cols mx (length vals) U)))).
Proof.
  intros HP Hv Ha Nv Lv C K left. unfold leaves. assert (D : (1 <? P) = false) by (rewrite HP; reflexivity). rewrite D. subst C K left.
  assert (Na : adv <> []) by (intros ->; destruct vecs; simpl in Lv; [congruence|lia]).
  split.
  - intros He. apply (ok_runs S limit); auto. unfold DMD_decomp_left.
    rewrite Lv, Nat.eqb_refl.
    apply (ok_symm S vecs vs); auto. apply (ok_ip S vecs adv vs avs); auto.
    unfold DMD_eigendecomp_left. unfold DmdHandlesModel.eigh_of. rewrite He. cbn. split; reflexivity.
  - intros vals [m n f] M He HM Hg. apply (ok_runs S limit); auto. unfold DMD_decomp_left.
    rewrite Lv, Nat.eqb_refl.
    apply (ok_symm S vecs vs); auto. apply (ok_ip S vecs adv vs avs); auto.
    unfold DMD_eigendecomp_left. unfold DmdHandlesModel.eigh_of. rewrite He. unfold catch_call at 1, bcast_eigh. cbn [hbind rmap pack ok fst snd].
    eexists. split; [reflexivity|]. unfold pack. cbn [hbind fst snd nr nc NdArray.ent].
    rewrite HM, Hg. cbn. split; reflexivity.
Qed.

(** Total-least-squares DMD: the same when the numbers differ. *)
Theorem C66_tls_count el argsort eig sqrt (o : dmd_obj F) vecs adv st atol mx : length vecs <> length adv ->
  leaves st (TLS_decomp_left (1 <? P) el argsort eig sqrt o vecs (Some adv) atol mx) ValueError
    (DmdObj (dh_eigvals o) (dh_R o) (dh_L o) (dh_cvals o) (dh_cvecs o) (dh_svals o) (dh_svecs o)
       (dh_corr o) (dh_cross o) (dh_adv_corr o) (Some vecs) (Some adv) (dh_spec o) (dh_coeffs o)).
Proof.
  intros Hne. apply (ok_runs S limit); auto. unfold TLS_decomp_left. rewrite (proj2 (Nat.eqb_neq _ _) Hne).
  split; reflexivity.
Qed.
(** LAPACK fails, on one process, on the first, the second or the third decomposition: the
    attributes of the former ones are new, the others as they were. *)
Theorem C66_tls el argsort eig sqrt (o : dmd_obj F) vecs adv vs avs st atol mx e : P = 1 ->
  holds st vecs vs -> holds st adv avs -> vecs <> [] -> length adv = length vecs ->
  let n := length vs in
  let C := gram S vs vs in let K := gram S vs avs in let G := gram S avs avs in
  let sum := Arr n n (fun i j => kadd F (NdArray.ent C i j) (NdArray.ent G i j)) in
  let left cvals cvecs svals svecs := DmdObj (dh_eigvals o) (dh_R o) (dh_L o) cvals cvecs svals svecs
    (Some C) (Some K) (Some G) (Some vecs) (Some adv) (dh_spec o) (dh_coeffs o) in
  (eigh el argsort sum atol None true = Raise e ->
   leaves st (TLS_decomp_left (1 <? P) el argsort eig sqrt o vecs (Some adv) atol mx) e
     (left (dh_cvals o) (dh_cvecs o) (dh_svals o) (dh_svecs o))) /\
  (forall svals Us, eigh el argsort sum atol None true = Ok (svals, Us) ->
   let Es := max_list mx svals in let Vs := max_cols mx (length svals) Us in
   forall PC, TLS_proj_corr Vs C = Ok PC ->
   (eigh el argsort PC atol None true = Raise e ->
    leaves st (TLS_decomp_left (1 <? P) el argsort eig sqrt o vecs (Some adv) atol mx) e
      (left (dh_cvals o) (dh_cvecs o) (Some Es) (Some Vs))) /\
   (forall vals U M, eigh el argsort PC atol None true = Ok (vals, U) ->
    TLS_low sqrt Vs (max_list mx vals) (max_cols mx (length vals) U) K = Ok M -> eig_biorthog eig M SLeft = Raise e ->
    leaves st (TLS_decomp_left (1 <? P) el argsort eig sqrt o vecs (Some adv) atol mx) e
      (left (Some (max_list mx vals)) (Some (max_cols mx (length vals) U)) (Some Es) (Some Vs)))).
Proof.
  intros HP Hv Ha Nv Lv n C K G sum left. unfold leaves. assert (D : (1 <? P) = false) by (rewrite HP; reflexivity). rewrite D.
  assert (Na : adv <> []) by (intros ->; destruct vecs; simpl in Lv; [congruence|lia]).
  assert (AE : add_arr C G = Ok sum).
  { pose proof (Forall2_length _ _ _ Hv). pose proof (Forall2_length _ _ _ Ha).
    assert (L : length avs = length vs) by lia. subst C G sum n. unfold add_arr, same_shape2.
    change (nr (gram S vs vs)) with (length vs). change (nc (gram S vs vs)) with (length vs).
    change (nr (gram S avs avs)) with (length avs). change (nc (gram S avs avs)) with (length avs).
    rewrite L, Nat.eqb_refl. reflexivity. }
  assert (ST : forall Q, ok S st (TLS_eigendecomp_left false el argsort eig sqrt
      (set_corr (set_handles o (Some vecs) (Some adv)) C K (Some G)) C K G atol mx) Q ->
    runs S P tag_ub eager st (TLS_decomp_left false el argsort eig sqrt o vecs (Some adv) atol mx) Q).
  { intros Q HQ. apply (ok_runs S limit); auto. unfold TLS_decomp_left. rewrite Lv, Nat.eqb_refl.
    apply (ok_symm S vecs vs); auto. apply (ok_ip S vecs adv vs avs); auto. apply (ok_symm S adv avs); auto. }
  clearbody C K G sum. split.
  - intros He. apply ST. unfold TLS_eigendecomp_left. rewrite AE. unfold DmdHandlesModel.eigh_of. rewrite He.
    cbn. split; reflexivity.
  - intros svals [m1 n1 f1] Hs PC HPC. split.
    + intros He. apply ST. unfold TLS_eigendecomp_left. rewrite AE. unfold DmdHandlesModel.eigh_of. rewrite Hs.
      unfold catch_call at 1, bcast_eigh. cbn [hbind rmap pack ok fst snd].
      eexists. split; [reflexivity|]. unfold pack. cbn [hbind fst snd nr nc NdArray.ent]. rewrite HPC, He.
      cbn. split; reflexivity.
    + intros vals [m n' f] M He HM Hg. apply ST. unfold TLS_eigendecomp_left. rewrite AE. unfold DmdHandlesModel.eigh_of. rewrite Hs.
      unfold catch_call at 1, bcast_eigh at 1. cbn [hbind rmap pack ok fst snd].
      eexists. split; [reflexivity|]. unfold pack at 1. cbn [hbind fst snd nr nc NdArray.ent]. rewrite HPC, He.
      unfold catch_call at 1, bcast_eigh. cbn [hbind rmap pack ok fst snd].
      eexists. split; [reflexivity|]. unfold pack. cbn [hbind fst snd nr nc NdArray.ent]. rewrite HM, Hg.
      cbn. split; reflexivity.
Qed.

(** A sequence of vectors, on one process: the first call of LAPACK fails.  The advanced
    vectors of an earlier call stay too. *)
Theorem C66_sequential el argsort eig sqrt (o : dmd_obj F) vecs vs st atol mx e : P = 1 ->
  holds st vecs vs -> vecs <> [] ->
  let X := gram S vs vs in
  let C := but_last_col (but_last_row X) in let K := but_first_col (but_last_row X) in
  let G := but_first_col (but_first_row X) in
  let left adv_corr := DmdObj (dh_eigvals o) (dh_R o) (dh_L o) (dh_cvals o) (dh_cvecs o) (dh_svals o) (dh_svecs o)
    (Some C) (Some K) adv_corr (Some vecs) (dh_adv o) (dh_spec o) (dh_coeffs o) in
  (eigh el argsort C atol None true = Raise e ->
   leaves st (DMD_decomp_left (1 <? P) el argsort eig sqrt o vecs None atol mx) e (left (dh_adv_corr o))) /\
  (eigh el argsort (Arr (nr C) (nc C) (fun i j => kadd F (NdArray.ent C i j) (NdArray.ent G i j))) atol None true = Raise e ->
   leaves st (TLS_decomp_left (1 <? P) el argsort eig sqrt o vecs None atol mx) e (left (Some G))).
Proof.
  intros HP Hv Nv X C K G left. unfold leaves. assert (D : (1 <? P) = false) by (rewrite HP; reflexivity). rewrite D.
  split; intros He; apply (ok_runs S limit); auto.
  - unfold DMD_decomp_left. apply (ok_symm S vecs vs); auto. fold X. fold C K.
    unfold DMD_eigendecomp_left, DmdHandlesModel.eigh_of. rewrite He. cbn. split; reflexivity.
  - unfold TLS_decomp_left. apply (ok_symm S vecs vs); auto. fold X. fold C K G.
    unfold TLS_eigendecomp_left, DmdHandlesModel.eigh_of.
    assert (AE : add_arr C G = Ok (Arr (nr C) (nc C) (fun i j => kadd F (NdArray.ent C i j) (NdArray.ent G i j)))).
    { unfold add_arr. replace (same_shape2 C G) with true; [reflexivity|]. unfold same_shape2. symmetry.
      apply andb_true_intro. split; apply Nat.eqb_eq; subst C G X; cbn [but_last_col but_last_row but_first_col but_first_row row_slice col_slice nr nc gram of_lists]; lia. }
    rewrite AE, He. cbn. split; reflexivity.
Qed.

(** ** Using the object afterwards *)

Lemma ok_made {A} (h : hprog F A) (o' : A) st basis bv (B : arr F) (C : mat F) n idx modes :
  h = hbind (combine modes basis B (Some (Cols idx))) (fun _ => HRet o') ->
  nr B = length basis -> nc B = n -> meq (length basis) n (NdArray.ent B) C ->
  holds st basis bv -> basis <> [] -> outputs basis idx modes ->
  ok S st h (modes_made S bv C n idx modes o' st).
Proof.
  intros -> Br Bc BC Hb Nb (L & Hnd & Hdis).
  apply (ok_combine S modes basis B idx bv); auto.
  { intros h Hh Hin. exact (Hdis h Hin Hh). }
  rewrite Bc. unfold modes_made. destruct (wrap_all n idx) as [js|e]; [|split; reflexivity].
  intros st' ms Ljs Hjs Hms Lms Hco Hun. cbn [ok]. split; [reflexivity|]. split; [exact Hun|].
  exists ms. split; [auto|]. split; [congruence|]. intros a d Ha.
  eapply combination_ext; [|apply (Hco a d); congruence]. intros i Hi. unfold mcols.
  apply (meq_at _ _ _ _ BC); [rewrite (Forall2_length _ _ _ Hb); auto|]. apply nth_js; auto.
Qed.

Local Open Scope h_scope.

(** The modes after a failed decomposition: no error, and combinations of the new vectors
    with the coefficients of the former decomposition, if that was of as many vectors. *)
Theorem C66_pod_modes el argsort sqrt (o : pod_obj F) vecs vs st atol rtol e E U idx modes : P = 1 ->
  holds st vecs vs -> vecs <> [] -> eigh el argsort (gram S vs vs) atol rtol true = Raise e ->
  ph_eigvals o = Some E -> ph_eigvecs o = Some U -> nc U = length E -> nr U = length vecs -> outputs vecs idx modes ->
  runs S P tag_ub eager st
    (p <== POD_decomp_left (1 <? P) el argsort o vecs atol rtol ;
     POD_compute_modes sqrt (fst p) (Some (Cols idx)) modes None)
    (modes_made S vs (fun i j => kmul F (NdArray.ent U i j) (kdiv F (k1 F) (sqrt (at1 E j)))) (length E) idx modes
       (PodObj (Some E) (Some U) (Some vecs) (Some (gram S vs vs)) (ph_coeffs o)) st).
Proof.
  intros HP Hv Nv He OE OU Uc Ur Hout. apply (ok_runs S limit); auto. rewrite HP.
  unfold POD_decomp_left. cbn [symm_inner_products hbind].
  cbn [ok]. exists vs. split; [auto|]. split; [auto|]. rewrite He. cbn [catch_call Nat.ltb Nat.leb hbind fst].
  destruct (scaled_cols sqrt U E _ Ur Uc) as (B & EB & B1 & B2 & B3).
  eapply ok_made; [|exact B1|exact B2|exact B3|exact Hv|exact Nv|exact Hout].
  unfold POD_compute_modes. cbn [ph_eigvals ph_eigvecs ph_vecs]. rewrite OE, OU. cbn [need hbind]. rewrite EB. reflexivity.
Qed.

Theorem C66_bpod_modes lapack sqrt (o : bpod_obj F) direct adjoint dv av p st atol rtol E R idx modes :
  holds st direct dv -> holds st adjoint av -> direct <> [] -> adjoint <> [] -> 0 < p ->
  bh_sing_vals o = Some E -> bh_R o = Some R -> nc R = length E -> nr R = length direct -> outputs direct idx modes ->
  runs S P tag_ub eager st
    (q <== BPOD_decomp_left (1 <? P) lapack o direct adjoint p 0 atol rtol ;
     BPOD_direct_modes sqrt (fst q) (Some (Cols idx)) modes None)
    (modes_made S dv (fun i j => kmul F (NdArray.ent R i j) (kdiv F (k1 F) (sqrt (at1 E j)))) (length E) idx modes
       (BpodObj (bh_L o) (Some R) (Some E) (bh_Hankel o) (Some direct) (Some adjoint)
          (bh_direct_coeffs o) (bh_adjoint_coeffs o)) st).
Proof.
  intros Hd Ha Nd Na Hp OE OR Rc Rr Hout. apply (ok_runs S limit); auto.
  unfold BPOD_decomp_left. cbn [inner_products hbind].
  cbn [ok]. exists av, (firstn p dv). split; [auto|]. split; [apply Forall2_take; auto|]. split; [auto|].
  split; [destruct direct, p; simpl; [congruence|congruence|lia|congruence]|].
  exists av, dv. do 4 (split; [auto|]). cbn [range_div Nat.eqb hbind fst].
  destruct (scaled_cols sqrt R E _ Rr Rc) as (B & EB & B1 & B2 & B3).
  eapply ok_made; [|exact B1|exact B2|exact B3|exact Hd|exact Nd|exact Hout].
  unfold BPOD_direct_modes. cbn [bh_direct bh_R bh_sing_vals]. rewrite OE, OR. cbn [need hbind]. rewrite EB. reflexivity.
Qed.

Theorem C66_dmd_modes el argsort eig sqrt (o : dmd_obj F) vecs adv basis bv st atol mx m w R L E U idx modes :
  length vecs <> length adv -> dmd_has false o m w R L E U (eye 0) -> unadvanced m vecs basis ->
  holds st basis bv -> 0 < m -> outputs basis idx modes ->
  runs S P tag_ub eager st
    (p <== DMD_decomp_left (1 <? P) el argsort eig sqrt o vecs (Some adv) atol mx ;
     DMD_proj_modes false sqrt (fst p) (Some (Cols idx)) modes None)
    (modes_made S bv (mode_coeffs sqrt m (projection false (eye 0)) E (NdArray.ent U) (NdArray.ent R)) (length E) idx modes
       (set_handles o (Some vecs) (Some adv)) st).
Proof.
  intros Hne Hh Hun Hb Hm Hout. unfold DMD_decomp_left. rewrite (proj2 (Nat.eqb_neq _ _) Hne). cbn [hbind fst].
  exact (C46_dmd_proj S HS limit P tag_ub eager Hup false sqrt (set_handles o (Some vecs) (Some adv)) m w R L E U (eye 0)
    None vecs basis bv st idx modes (set_has _ _ _ _ _ _ _ _ _ _ _ Hh) eq_refl Hun Hb Hm Hout).
Qed.

Theorem C66_tls_modes el argsort eig sqrt (o : dmd_obj F) vecs adv basis bv st atol mx m w R L E U Vs idx modes :
  length vecs <> length adv -> dmd_has true o m w R L E U Vs -> unadvanced m vecs basis ->
  holds st basis bv -> 0 < m -> outputs basis idx modes ->
  runs S P tag_ub eager st
    (p <== TLS_decomp_left (1 <? P) el argsort eig sqrt o vecs (Some adv) atol mx ;
     DMD_proj_modes true sqrt (fst p) (Some (Cols idx)) modes None)
    (modes_made S bv (mode_coeffs sqrt m (projection true Vs) E (NdArray.ent U) (NdArray.ent R)) (length E) idx modes
       (set_handles o (Some vecs) (Some adv)) st).
Proof.
  intros Hne Hh Hun Hb Hm Hout. unfold TLS_decomp_left. rewrite (proj2 (Nat.eqb_neq _ _) Hne). cbn [hbind fst].
  exact (C46_dmd_proj S HS limit P tag_ub eager Hup true sqrt (set_handles o (Some vecs) (Some adv)) m w R L E U Vs
    None vecs basis bv st idx modes (set_has _ _ _ _ _ _ _ _ _ _ _ Hh) eq_refl Hun Hb Hm Hout).
Qed.
End Handles.

(** ** Trying again *)

(** A new decomposition does not depend on what is left of former ones, apart from the
    attributes that compute_decomp does not assign. *)
Theorem C66_retry {F : sfield} :
  (forall el argsort (o o' : pod_obj F) vecs atol rtol, ph_coeffs o = ph_coeffs o' ->
     POD_decomp el argsort o vecs atol rtol = POD_decomp el argsort o' vecs atol rtol) /\
  (forall lapack (o o' : bpod_obj F) direct adjoint p q atol rtol,
     bh_direct_coeffs o = bh_direct_coeffs o' -> bh_adjoint_coeffs o = bh_adjoint_coeffs o' ->
     BPOD_decomp lapack o direct adjoint p q atol rtol = BPOD_decomp lapack o' direct adjoint p q atol rtol) /\
  (forall el argsort eig sqrt (o o' : dmd_obj F) vecs adv atol rtol mx,
     dh_svals o = dh_svals o' -> dh_svecs o = dh_svecs o' -> dh_adv_corr o = dh_adv_corr o' ->
     dh_spec o = dh_spec o' -> dh_coeffs o = dh_coeffs o' -> (adv = None -> dh_adv o = dh_adv o') ->
     DMD_decomp el argsort eig sqrt o vecs adv atol rtol mx = DMD_decomp el argsort eig sqrt o' vecs adv atol rtol mx).
Proof.
  split; [|split].
  - intros el argsort [] [] vecs atol rtol E. simpl in E. subst. reflexivity.
  - intros lapack [] [] direct adjoint p q atol rtol E1 E2. simpl in *. subst. reflexivity.
  - intros el argsort eig sqrt [] [] vecs [adv|] atol rtol mx E1 E2 E3 E4 E5 E6; simpl in *; subst.
    + unfold DMD_decomp, DMD_set_handles. destruct (_ =? _); reflexivity.
    + rewrite (E6 eq_refl). reflexivity.
Qed.

Theorem C66_tls_retry {F : sfield} el argsort eig sqrt (o o' : dmd_obj F) vecs adv atol rtol mx :
  dh_spec o = dh_spec o' -> dh_coeffs o = dh_coeffs o' -> (adv = None -> dh_adv o = dh_adv o') ->
  TLS_decomp el argsort eig sqrt o vecs adv atol rtol mx = TLS_decomp el argsort eig sqrt o' vecs adv atol rtol mx.
Proof.
  destruct o, o', adv as [adv|]; simpl; intros E1 E2 E3; subst.
  - unfold TLS_decomp, DMD_set_handles. destruct (_ =? _); reflexivity.
  - rewrite (E3 eq_refl). reflexivity.
Qed.

(** ** ERA *)

Section Era.
Context {F : sfield} (lapack : arr F -> res (arr F * list F * arr F)) (eigvals : arr F -> res (list F)) (sqrt : F -> F).

Lemma loop_foldM {S A} (f : S -> A -> res S) (g : S -> A -> S * res unit) :
  (forall s a, f s a = match g s a with (s', Ok _) => Ok s' | (_, Raise e) => Raise e end) ->
  forall l s, foldM f l s = match loop_left g l s with (s', Ok _) => Ok s' | (_, Raise e) => Raise e end.
Proof.
  intros H l. induction l as [|a l IH]; intros s; [reflexivity|]. cbn [foldM loop_left]. rewrite H.
  destruct (g s a) as [s' [u|e]]; cbn [rbind]; [apply IH|reflexivity].
Qed.
Lemma assemble_same (M : arr3 F) mc mo : assemble_Hankel M mc mo =
  match assemble_Hankel_left M mc mo with
  | (Some HH, Ok _) => Ok HH
  | (None, Ok _) => Raise AttributeError
  | (_, Raise e) => Raise e
  end.
Proof.
  unfold assemble_Hankel, assemble_Hankel_left. destruct (_ <? _)%Z; [reflexivity|].
  destruct (_ || _); [reflexivity|].
  rewrite (loop_foldM _ (fun HH row => loop_left (Hankel_step_left M row) (seq 0 (Z.to_nat (snd (era_sizes (a3_t M) mc mo)))) HH)).
  - destruct (loop_left _ _ _) as [HH [u|e]]; reflexivity.
  - intros HH row. apply loop_foldM. clear HH. intros HH col. unfold Hankel_step, Hankel_step_left.
    destruct (index3 M (2 * (row + col))) as [B1|]; cbn [rbind]; [|reflexivity].
    destruct (index3 M (2 * (row + col) + 1)) as [B2|]; cbn [rbind]; reflexivity.
Qed.

(** The result is that of compute_model, and so is the object when there is no exception. *)
Theorem C66_era_same (o : era F) Markovs n mc mo :
  compute_model lapack eigvals sqrt o Markovs n mc mo =
  match compute_model_left lapack eigvals sqrt o Markovs n mc mo with
  | (o', Ok ABC) => Ok (o', ABC)
  | (_, Raise e) => Raise e
  end.
Proof.
  unfold compute_model, compute_model_left. destruct (set_Markovs Markovs) as [M|]; cbn [rbind]; [|reflexivity].
  cbn [e_mc e_mo]. rewrite assemble_same.
  destruct (assemble_Hankel_left M mc mo) as [[HH|] [u|]]; cbn [rbind]; try reflexivity.
  destruct (svd _ _ _ _) as [usv|]; cbn [rbind]; [|reflexivity].
  repeat match goal with |- context [dot ?A ?B] => destruct (dot A B); cbn [rbind]; [|reflexivity] end.
  destruct (eigvals _); reflexivity.
Qed.

(** The attributes change from the first to the last: what a failed call leaves as it was.
    If the last step, the eigenvalues printed, does not fail, the model is the former one. *)
Theorem C66_era_kept (o o' : era F) Markovs n mc mo e :
  compute_model_left lapack eigvals sqrt o Markovs n mc mo = (o', Raise e) ->
  (e_model o' = e_model o \/ exists A B C, e_model o' = Some (A, B, C) /\ eigvals A = Raise e) /\
  (e_decomp o' <> e_decomp o -> exists H H2 U s V, e_Hankel o' = Some (H, H2) /\
     svd lapack H None None = Ok (U, s, V) /\ e_decomp o' = Some (U, s, V)) /\
  (e_Hankel o' <> e_Hankel o -> exists M HH, set_Markovs Markovs = Ok M /\ e_Hankel o' = Some HH /\
     fst (assemble_Hankel_left M mc mo) = Some HH).
Proof.
  unfold compute_model_left. destruct (set_Markovs Markovs) as [M|] eqn:EM.
  2: { intros [= <- <-]. split; [auto|]. split; congruence. }
  destruct (assemble_Hankel_left M mc mo) as [[HH|] [u|]] eqn:EA; cbn [e_mc e_mo e_decomp e_model e_Hankel].
  2-4: intros [= <- <-]; cbn; split; [auto|]; split; [congruence|]; try congruence; intros _; exists M, HH; rewrite EA; auto.
  destruct HH as [H H2]. destruct (svd lapack _ _ _) as [[[U s] V]|] eqn:ES; cbn [fst snd] in *.
  2: { intros [= <- <-]. cbn. split; [auto|]. split; [congruence|]. intros _. exists M, (H, H2). rewrite EA. auto. }
  match goal with |- context [match ?x with Ok _ => _ | Raise _ => _ end] => destruct x as [[[A B] C]|] eqn:EX end.
  2: { intros [= <- <-]. cbn. split; [auto|]. split; [intros _; exists H, H2, U, s, V; auto|].
       intros _. exists M, (H, H2). rewrite EA. auto. }
  destruct (eigvals A) eqn:EE; [discriminate|]. intros [= <- <-]. cbn. split; [right; eauto 6|].
  split; [intros _; exists H, H2, U, s, V; auto|]. intros _. exists M, (H, H2). rewrite EA. auto.
Qed.

(** The singular value decomposition fails: put_decomp will put the new Hankel arrays with
    the former singular values and vectors. *)
Theorem C66_era_mixed (o : era F) Markovs n mc mo M HH e :
  set_Markovs Markovs = Ok M -> assemble_Hankel M mc mo = Ok HH -> svd lapack (fst HH) None None = Raise e ->
  exists mc' mo', compute_model_left lapack eigvals sqrt o Markovs n mc mo =
    (Era mc' mo' (Some HH) (e_decomp o) (e_model o), Raise e).
Proof.
  intros EM EA ES. rewrite assemble_same in EA. unfold compute_model_left. rewrite EM.
  destruct (assemble_Hankel_left M mc mo) as [[HH'|] [u|]]; try discriminate. injection EA as ->.
  cbn [e_mc e_mo e_decomp e_model e_Hankel]. rewrite ES. eauto.
Qed.

(** Block ([r'], [c']) comes before ([r], [c]) in the order of the loops. *)
Definition earlier (r' c' r c : nat) : Prop := r' < r \/ r' = r /\ c' < c.
(** The blocks of the arrays that the loops have assigned before reaching ([r], [c]): the
    Markov parameters 2 (r' + c') and 2 (r' + c') + 1; zero otherwise. *)
Definition filled_to (M : arr3 F) (nc r c : nat) (HH : mat F * mat F) : Prop :=
  (forall r' c', c' < nc -> earlier r' c' r c -> 2 * (r' + c') + 1 < a3_t M) /\
  forall r' c' i j, c' < nc -> i < a3_p M -> j < a3_m M ->
    (earlier r' c' r c ->
       fst HH (r' * a3_p M + i) (c' * a3_m M + j) = kre (a3 M (2 * (r' + c')) i j) /\
       snd HH (r' * a3_p M + i) (c' * a3_m M + j) = kre (a3 M (2 * (r' + c') + 1) i j)) /\
    (~ earlier r' c' r c ->
       fst HH (r' * a3_p M + i) (c' * a3_m M + j) = k0 F /\ snd HH (r' * a3_p M + i) (c' * a3_m M + j) = k0 F).
(** The loops stopped at ([r], [c]): no Markov parameter 2 (r + c) + 1, perhaps 2 (r + c). *)
Definition stuck_at (M : arr3 F) (nc r c : nat) (HH : mat F * mat F) : Prop :=
  a3_t M <= 2 * (r + c) + 1 /\
  (forall r' c', c' < nc -> earlier r' c' r c -> 2 * (r' + c') + 1 < a3_t M) /\
  forall r' c' i j, c' < nc -> i < a3_p M -> j < a3_m M ->
    (earlier r' c' r c ->
       fst HH (r' * a3_p M + i) (c' * a3_m M + j) = kre (a3 M (2 * (r' + c')) i j) /\
       snd HH (r' * a3_p M + i) (c' * a3_m M + j) = kre (a3 M (2 * (r' + c') + 1) i j)) /\
    (earlier r c r' c' ->
       fst HH (r' * a3_p M + i) (c' * a3_m M + j) = k0 F /\ snd HH (r' * a3_p M + i) (c' * a3_m M + j) = k0 F) /\
    (r' = r -> c' = c ->
       fst HH (r' * a3_p M + i) (c' * a3_m M + j) =
         (if 2 * (r + c) <? a3_t M then kre (a3 M (2 * (r + c)) i j) else k0 F) /\
       snd HH (r' * a3_p M + i) (c' * a3_m M + j) = k0 F).

Lemma step_fills (M : arr3 F) nc r c HH : c < nc -> filled_to M nc r c HH ->
  (exists HH', Hankel_step_left M r HH c = (HH', Ok tt) /\ filled_to M nc r (S c) HH') \/
  (exists HH', Hankel_step_left M r HH c = (HH', Raise IndexError) /\ stuck_at M nc r c HH').
Proof.
  intros Hc [HT HB]. unfold Hankel_step_left.
  destruct (le_lt_dec (a3_t M) (2 * (r + c))) as [L1|L1].
  { rewrite index3_bad by lia. right. eexists. split; [reflexivity|]. split; [lia|]. split; [exact HT|].
    intros r' c' i j H1 H2 H3. destruct (HB r' c' i j H1 H2 H3) as [A B]. split; [exact A|]. unfold earlier in *. split.
    - intros H. apply B. lia.
    - intros -> ->. rewrite (proj2 (Nat.ltb_ge _ _) L1). apply B. lia. }
  rewrite index3_ok by lia. cbv zeta.
  destruct (le_lt_dec (a3_t M) (2 * (r + c) + 1)) as [L2|L2].
  { rewrite index3_bad by lia. right. eexists. split; [reflexivity|]. split; [lia|]. split; [exact HT|].
    intros r' c' i j H1 H2 H3. destruct (HB r' c' i j H1 H2 H3) as [A B]. unfold earlier in *. cbn [fst snd]. split; [|split].
    - intros H. rewrite set_block_out by (auto; lia). auto.
    - intros H. rewrite set_block_out by (auto; lia). apply B. lia.
    - intros -> ->. rewrite set_block_in by auto. rewrite (proj2 (Nat.ltb_lt _ _) L1). split; [reflexivity|]. apply B. lia. }
  rewrite index3_ok by lia. left. eexists. split; [reflexivity|]. split.
  - intros r' c' H1 H2. unfold earlier in *. destruct (Nat.eq_dec r' r) as [->|]; [destruct (Nat.eq_dec c' c) as [->|]; [lia|]|];
      apply HT; unfold earlier; lia.
  - intros r' c' i j H1 H2 H3. destruct (HB r' c' i j H1 H2 H3) as [A B]. unfold earlier in *. cbn [fst snd].
    destruct (Nat.eq_dec r' r) as [->|N]; [destruct (Nat.eq_dec c' c) as [->|N]|].
    + rewrite !set_block_in by auto. split; [auto|]. lia.
    + rewrite !set_block_out by (auto; lia). split; intros H; [apply A|apply B]; lia.
    + rewrite !set_block_out by (auto; lia). split; intros H; [apply A|apply B]; lia.
Qed.
Lemma row_fills (M : arr3 F) nc r l : forall c HH, c + l = nc -> filled_to M nc r c HH ->
  (exists HH', loop_left (Hankel_step_left M r) (seq c l) HH = (HH', Ok tt) /\ filled_to M nc r nc HH') \/
  (exists HH' c0, c0 < nc /\ loop_left (Hankel_step_left M r) (seq c l) HH = (HH', Raise IndexError) /\ stuck_at M nc r c0 HH').
Proof.
  induction l as [|l IH]; intros c HH E H.
  - left. exists HH. split; [reflexivity|]. replace nc with c in * by lia. exact H.
  - cbn [seq loop_left]. destruct (step_fills M nc r c HH ltac:(lia) H) as [(HH' & -> & H')|(HH' & -> & H')].
    + apply IH; [lia|exact H'].
    + right. exists HH', c. split; [lia|]. split; [reflexivity|exact H'].
Qed.
Lemma rows_fill (M : arr3 F) nc l : forall r HH, filled_to M nc r 0 HH ->
  (exists HH', loop_left (fun HH row => loop_left (Hankel_step_left M row) (seq 0 nc) HH) (seq r l) HH = (HH', Ok tt) /\
     filled_to M nc (r + l) 0 HH') \/
  (exists HH' r0 c0, r <= r0 < r + l /\ c0 < nc /\
     loop_left (fun HH row => loop_left (Hankel_step_left M row) (seq 0 nc) HH) (seq r l) HH = (HH', Raise IndexError) /\
     stuck_at M nc r0 c0 HH').
Proof.
  induction l as [|l IH]; intros r HH H.
  - left. exists HH. split; [reflexivity|]. rewrite Nat.add_0_r. exact H.
  - cbn [seq loop_left]. destruct (row_fills M nc r nc 0 HH eq_refl H) as [(HH' & -> & H')|(HH' & c0 & Hc & -> & H')].
    + destruct (IH (S r) HH') as [(H1 & E1 & F1)|(H1 & r0 & c0 & Hr & Hc & E1 & F1)].
      * destruct H' as [A B]. split.
        -- intros r' c' Hc He. apply A; auto. unfold earlier in *. lia.
        -- intros r' c' i j Hc Hi Hj. destruct (B r' c' i j Hc Hi Hj) as [C D]. split; intros He; [apply C|apply D]; unfold earlier in *; lia.
      * left. exists H1. split; [exact E1|]. replace (r + S l) with (S r + l) by lia. exact F1.
      * right. exists H1, r0, c0. split; [lia|]. auto.
    + right. exists HH', r, c0. split; [lia|]. auto.
Qed.

Lemma Markovs_even (Markovs : nd F) M : set_Markovs Markovs = Ok M -> Nat.Even (a3_t M).
Proof.
  unfold set_Markovs.
  match goal with |- context [rbind ?x _] => destruct x as [N|] end; cbn [rbind]; [|discriminate].
  intros [= <-]. destruct (Nat.odd (a3_t N)) eqn:O.
  - cbn [a3_t]. apply Nat.odd_spec in O. destruct O as [k Hk]. exists k. lia.
  - apply Nat.even_spec. rewrite <- Nat.negb_odd, O. reflexivity.
Qed.

(** Sizes that are accepted, but for which there are too few Markov parameters: the arrays
    stay as far as they have been filled, with the rest zero, beside the former
    decomposition and model. *)
Theorem C66_era_partial (o : era F) Markovs n M mo mc :
  set_Markovs Markovs = Ok M -> 0 < mo -> 0 < mc -> mo + mc + 2 <= a3_t M -> a3_t M + 2 < 2 * (mo + mc) ->
  exists H H2 r0 c0,
    compute_model_left lapack eigvals sqrt o Markovs n (Some (Z.of_nat mc)) (Some (Z.of_nat mo)) =
      (Era (Some (Z.of_nat mc)) (Some (Z.of_nat mo)) (Some (H, H2)) (e_decomp o) (e_model o), Raise IndexError) /\
    nr H = a3_p M * mo /\ nc H = a3_m M * mc /\ nr H2 = a3_p M * mo /\ nc H2 = a3_m M * mc /\
    r0 < mo /\ c0 < mc /\ a3_t M <= 2 * (r0 + c0) + 1 /\
    (forall r c, c < mc -> earlier r c r0 c0 -> 2 * (r + c) + 1 < a3_t M) /\
    forall r c i j, c < mc -> i < a3_p M -> j < a3_m M ->
      (earlier r c r0 c0 ->
         NdArray.ent H (r * a3_p M + i) (c * a3_m M + j) = kre (a3 M (2 * (r + c)) i j) /\
         NdArray.ent H2 (r * a3_p M + i) (c * a3_m M + j) = kre (a3 M (2 * (r + c) + 1) i j)) /\
      (~ earlier r c r0 c0 ->
         NdArray.ent H (r * a3_p M + i) (c * a3_m M + j) = k0 F /\ NdArray.ent H2 (r * a3_p M + i) (c * a3_m M + j) = k0 F).
Proof.
  intros EM Ho Hc H1 H2.
  destruct (rows_fill M mc mo 0 (mzero, mzero)) as [(HH & E & H)|(HH & r0 & c0 & Hr & Hc0 & E & H)].
  { split; [unfold earlier; lia|]. intros r' c' i j _ _ _. split; [unfold earlier; lia|]. split; reflexivity. }
  { exfalso. pose proof (proj1 H (mo - 1) (mc - 1) ltac:(lia) ltac:(left; lia)). lia. }
  destruct H as (S1 & S2 & S3).
  exists (Arr (a3_p M * mo) (a3_m M * mc) (fst HH)), (Arr (a3_p M * mo) (a3_m M * mc) (snd HH)), r0, c0.
  split.
  - unfold compute_model_left. rewrite EM. unfold assemble_Hankel_left, era_sizes. cbn [fst snd].
    rewrite (proj2 (Z.ltb_ge _ _)) by lia.
    rewrite (proj2 (Z.ltb_ge _ _)) by lia. rewrite (proj2 (Z.ltb_ge _ _)) by lia. cbn [orb].
    rewrite !Nat2Z.id, <- !Nat2Z.inj_mul, !Nat2Z.id, E. reflexivity.
  - do 4 (split; [reflexivity|]). split; [lia|]. split; [exact Hc0|]. split; [exact S1|]. split; [exact S2|].
    intros r c i j A1 A2 A3. destruct (S3 r c i j A1 A2 A3) as (B1 & B2 & B3). split; [exact B1|]. intros NE.
    assert (EV : 2 * (r0 + c0) <? a3_t M = false).
    { apply Nat.ltb_ge. destruct (Markovs_even _ _ EM) as [k Hk]. lia. }
    rewrite EV in B3. destruct (Nat.eq_dec r r0) as [->|]; [destruct (Nat.eq_dec c c0) as [->|]|];
      [apply B3; reflexivity|apply B2; unfold earlier in *; lia|apply B2; unfold earlier in *; lia].
Qed.

(** Trying again on an object gives what a new object gives. *)
Theorem C66_era_retry (o o2 : era F) Markovs n mc mo :
  compute_model lapack eigvals sqrt o Markovs n mc mo = compute_model lapack eigvals sqrt o2 Markovs n mc mo.
Proof.
  unfold compute_model. destruct (set_Markovs Markovs); reflexivity.
Qed.
End Era.

(** ** Examples *)

Definition is_ok {A} (r : res A) : bool := match r with Ok _ => true | Raise _ => false end.
Lemma is_ok_ex {A} (r : res A) : is_ok r = true -> exists a, r = Ok a.
Proof. destruct r; [eauto|discriminate]. Qed.

(** One process: the decomposition of vectors 3 and 4 fails in LAPACK; then modes are made
    from them with the eigenvectors of 1 and 2. *)
Definition lf_space := wspace (F := QI) 2 podh_W 3 3 1.
Definition lf_pod : pod_obj QI := PodObj (Some ex_cw) (Some ex_cV) (Some [1; 2]) None None.
Lemma lf_up1 : set_up (Some 1%Z) 1 10 lf_space.
Proof. split; [split; [simpl; lia|]; split; [simpl; lia|reflexivity]|simpl; lia]. Qed.
Lemma lf_up2 : set_up (Some 1%Z) 2 10 podh_space.
Proof. split; [split; [simpl; lia|]; split; [simpl; lia|reflexivity]|simpl; lia]. Qed.
Lemma lf_W : hermitian 2 podh_W.
Proof. apply meqb_true. vm_compute. reflexivity. Qed.

Example C66_pod_example eager :
  leaves lf_space 1 10 eager md_store
    (POD_decomp_left (1 <? 1) (fun _ => Raise LinAlgError) (fun _ => []) lf_pod [3; 4] None None) LinAlgError
    (PodObj (Some ex_cw) (Some ex_cV) (Some [3; 4]) (Some (gram lf_space [md_v2; md_v1] [md_v2; md_v1])) None).
Proof.
  apply (C66_pod lf_space (wspace_ip 2 podh_W 3 3 1 lf_W) (Some 1%Z) 1 10 eager lf_up1 (fun _ => Raise LinAlgError)
    (fun _ => []) lf_pod); [reflexivity|repeat constructor|discriminate|reflexivity].
Qed.
Example C66_pod_modes_example eager :
  runs lf_space 1 10 eager md_store
    (hbind (POD_decomp_left (1 <? 1) (fun _ => Raise LinAlgError) (fun _ => []) lf_pod [3; 4] None None)
       (fun p => POD_compute_modes ex_sqrt (fst p) (Some (Cols [1; -2]%Z)) [10; 11] None))
    (fun st' r => exists o ms, r = Ok o /\ holds st' [10; 11] ms /\ length ms = 2 /\
       forall a d, a < 2 -> combination lf_space [md_v2; md_v1]
         (fun i => kmul QI (NdArray.ent ex_cV i (1 - a)) (kdiv QI (k1 QI) (ex_sqrt (at1 ex_cw (1 - a))))) (nth a ms d)).
Proof.
  eapply runs_mono; [apply (C66_pod_modes lf_space (wspace_ip 2 podh_W 3 3 1 lf_W) (Some 1%Z) 1 10 eager lf_up1
    (fun _ => Raise LinAlgError) (fun _ => []) ex_sqrt lf_pod [3; 4] [md_v2; md_v1] md_store None None LinAlgError ex_cw ex_cV)|];
    try reflexivity.
  - repeat constructor.
  - discriminate.
  - apply md_outputs. repeat constructor; lia.
  - unfold modes_made. change (wrap_all (length ex_cw) [1; -2]%Z) with (Ok [1; 0]). cbv iota.
    intros st' r (-> & _ & ms & H1 & H2 & H3). eexists _, ms. do 3 (split; [auto|]).
    intros a d Ha. specialize (H3 a d Ha). destruct a as [|[|]]; [exact H3|exact H3|lia].
Qed.

(** Two processes: with zero outputs all ranks raise ZeroDivisionError, and the direct modes
    then come from vectors 3 and 4. *)
Example C66_bpod_modes_example eager :
  runs podh_space 2 10 eager md_store
    (hbind (BPOD_decomp_left (1 <? 2) (fun _ => Raise LinAlgError) md_bpod [3; 4] [1; 2] 1 0 None None)
       (fun p => BPOD_direct_modes ex_sqrt (fst p) (Some (Cols [1; -2]%Z)) [10; 11] None))
    (fun st' r => exists o, r = Ok o /\ bh_direct o = Some [3; 4] /\ bh_R o = Some ex_V).
Proof.
  eapply runs_mono; [apply (C66_bpod_modes podh_space (wspace_ip 2 podh_W 6 3 1 lf_W) (Some 1%Z) 2 10 eager lf_up2
    (fun _ => Raise LinAlgError) ex_sqrt md_bpod [3; 4] [1; 2] [md_v2; md_v1] [md_v1; md_v2] 1 md_store None None ex_cw ex_V)|];
    try reflexivity; try discriminate; try (repeat constructor; fail).
  - apply md_outputs. repeat constructor; lia.
  - unfold modes_made. change (wrap_all (length ex_cw) [1; -2]%Z) with (Ok [1; 0]). cbv iota.
    intros st' r (-> & _). eexists. repeat split; reflexivity.
Qed.
Example C66_bpod_zero_example eager :
  leaves podh_space 2 10 eager md_store
    (BPOD_decomp_left (1 <? 2) (fun _ => Raise LinAlgError) md_bpod [3; 4] [1; 2] 1 0 None None) ZeroDivisionError
    (BpodObj (Some ex_cV) (Some ex_V) (Some ex_cw) None (Some [3; 4]) (Some [1; 2]) None None).
Proof.
  apply (C66_bpod_zero podh_space (wspace_ip 2 podh_W 6 3 1 lf_W) (Some 1%Z) 2 10 eager lf_up2
    (fun _ => Raise LinAlgError) md_bpod [3; 4] [1; 2] [md_v2; md_v1] [md_v1; md_v2]);
    try discriminate; try (repeat constructor; fail). 
Qed.
(** One process, one input and one output: 2 by 2 Hankel array. *)
Example C66_bpod_example eager : exists o H,
  leaves lf_space 1 10 eager md_store
    (BPOD_decomp_left (1 <? 1) (fun _ => Raise LinAlgError) md_bpod [3; 4] [1; 2] 1 1 None None) LinAlgError o /\
  bh_L o = Some ex_cV /\ bh_direct o = Some [3; 4] /\ bh_Hankel o = Some H /\ nr H = 2 /\ nc H = 2.
Proof.
  destruct (is_ok_ex (Hankel_chunks
    (map (fun i => col_slice 0 1 (row_slice (i * 1) ((i + 1) * 1) (gram lf_space [md_v1; md_v2] (firstn 1 [md_v2; md_v1])))) [0; 1])
    (Some (map (fun j => col_slice (j * 1) ((j + 1) * 1) (gram lf_space (skipn (2 - 1) [md_v1; md_v2]) [md_v2; md_v1])) [0; 1]))))
    as [H EH]; [reflexivity|].
  eexists _, H. split.
  - apply (C66_bpod lf_space (wspace_ip 2 podh_W 3 3 1 lf_W) (Some 1%Z) 1 10 eager lf_up1
      (fun _ => Raise LinAlgError) md_bpod [3; 4] [1; 2] [md_v2; md_v1] [md_v1; md_v2] 1 1 [0; 1] [0; 1] md_store None None H);
      try discriminate; try (repeat constructor; fail); try exact EH; reflexivity.
  - do 3 (split; [reflexivity|]). revert EH. intros [= <-]. split; reflexivity.
Qed.

(** Two processes: two vectors, one advanced vector. *)
Example C66_dmd_modes_example eager :
  runs podh_space 2 10 eager md_store
    (hbind (DMD_decomp_left (1 <? 2) (fun _ => Raise LinAlgError) (fun _ => []) (fun _ => Raise LinAlgError) ex_sqrt
              md_dmd [3; 4] (Some [1]) None None)
       (fun p => DMD_proj_modes false ex_sqrt (fst p) (Some (Cols [1; -2]%Z)) [10; 11] None))
    (fun st' r => exists o, r = Ok o /\ dh_vecs o = Some [3; 4] /\ dh_adv o = Some [1] /\ dh_R o = Some ex_lR).
Proof.
  eapply runs_mono; [apply (C66_dmd_modes podh_space (wspace_ip 2 podh_W 6 3 1 lf_W) (Some 1%Z) 2 10 eager lf_up2
    (fun _ => Raise LinAlgError) (fun _ => []) (fun _ => Raise LinAlgError) ex_sqrt md_dmd [3; 4] [1] [3; 4] [md_v2; md_v1]
    md_store None None 2 ex_lw ex_lR ex_lL ex_E ex_V)|].
  - discriminate.
  - apply md_has.
  - right. split; reflexivity.
  - repeat constructor.
  - lia.
  - apply md_outputs. repeat constructor; lia.
  - unfold modes_made. change (wrap_all (length ex_E) [1; -2]%Z) with (Ok [1; 0]). cbv iota.
    intros st' r (-> & _). eexists. repeat split; reflexivity.
Qed.
Example C66_dmd_count_example eager :
  leaves podh_space 2 10 eager md_store
    (DMD_decomp_left (1 <? 2) (fun _ => Raise LinAlgError) (fun _ => []) (fun _ => Raise LinAlgError) ex_sqrt
       md_dmd [3; 4] (Some [1]) None None) ValueError (set_handles md_dmd (Some [3; 4]) (Some [1])).
Proof.
  apply (C66_dmd_count podh_space (wspace_ip 2 podh_W 6 3 1 lf_W) (Some 1%Z) 2 10 eager lf_up2). discriminate.
Qed.
(** One process: eigenvectors of the new correlation array with those of the former map. *)
Example C66_dmd_example eager : exists o,
  leaves lf_space 1 10 eager md_store
    (DMD_decomp_left (1 <? 1) (fun _ => Ok (ex_cw, ex_cV)) (fun _ => [0; 1]) (fun _ => Raise LinAlgError) ex_sqrt
       md_dmd [3; 4] (Some [1; 2]) (Some (qi 1 0 1000)) None) LinAlgError o /\
  dh_vecs o = Some [3; 4] /\ dh_R o = Some ex_lR /\ exists U, dh_cvecs o = Some U /\ nr U = 2.
Proof.
  destruct (C66_dmd lf_space (wspace_ip 2 podh_W 3 3 1 lf_W) (Some 1%Z) 1 10 eager lf_up1
    (fun _ => Ok (ex_cw, ex_cV)) (fun _ => [0; 1]) (fun _ => Raise LinAlgError) ex_sqrt md_dmd [3; 4] [1; 2]
    [md_v2; md_v1] [md_v1; md_v2] md_store (Some (qi 1 0 1000)) None LinAlgError) as [_ H];
    try discriminate; try (repeat constructor; fail).
  destruct (is_ok_ex (eigh (fun _ => Ok (ex_cw, ex_cV)) (fun _ => [0; 1]) (gram lf_space [md_v2; md_v1] [md_v2; md_v1])
              (Some (qi 1 0 1000)) None true)) as [[vals U] EE]; [vm_compute; reflexivity|].
  assert (HU : nr U = 2 /\ length vals = 2 /\ nc U = 2).
  { split; [|split].
    - transitivity (match eigh (fun _ => Ok (ex_cw, ex_cV)) (fun _ => [0; 1]) (gram lf_space [md_v2; md_v1] [md_v2; md_v1])
              (Some (qi 1 0 1000)) None true with Ok p => nr (snd p) | _ => 0 end); [rewrite EE; reflexivity|vm_compute; reflexivity].
    - transitivity (match eigh (fun _ => Ok (ex_cw, ex_cV)) (fun _ => [0; 1]) (gram lf_space [md_v2; md_v1] [md_v2; md_v1])
              (Some (qi 1 0 1000)) None true with Ok p => length (fst p) | _ => 0 end); [rewrite EE; reflexivity|vm_compute; reflexivity].
    - transitivity (match eigh (fun _ => Ok (ex_cw, ex_cV)) (fun _ => [0; 1]) (gram lf_space [md_v2; md_v1] [md_v2; md_v1])
              (Some (qi 1 0 1000)) None true with Ok p => nc (snd p) | _ => 0 end); [rewrite EE; reflexivity|vm_compute; reflexivity]. }
  destruct HU as (U1 & U2 & U3).
  destruct (DMD_low ex_sqrt vals U (gram lf_space [md_v2; md_v1] [md_v1; md_v2])) as [M|e] eqn:EM.
  2: { exfalso. revert EM. unfold DMD_low.
       rewrite dot_eq by (unfold diag; cbn [nr]; rewrite map_length; lia). cbn [rbind].
       rewrite dot_eq by (cbn [nr nc gram of_lists length]; lia). cbn [rbind].
       rewrite dot_eq by (cbn [nr nc gram of_lists length conj_T transp]; lia). cbn [rbind].
       rewrite dot_eq by (unfold diag, conj_T; cbn [nr nc]; rewrite map_length, U2; symmetry; exact U3). discriminate. }
  eexists. split; [apply (H vals U M)|].
  - exact EE.
  - exact EM.
  - reflexivity.
  - do 2 (split; [reflexivity|]). exists U. split; [reflexivity|exact U1].
Qed.

Definition no_convergence {A} (r : res A) : bool := match r with Raise LinAlgError => true | _ => false end.
Lemma no_convergence_ex {A} (r : res A) : no_convergence r = true -> r = Raise LinAlgError.
Proof. destruct r as [|[]]; try discriminate; reflexivity. Qed.
(** ERA: a second call, with one added to all Markov parameters, fails in LAPACK. *)
Definition lf_era : era QI := match compute_model e_svd e_eigvals e_sqrt (ERA None None) e_nd 1 (Some 2%Z) (Some 2%Z) with
  | Ok p => fst p | Raise _ => ERA None None end.
Definition lf_nd : nd QI := Nd [7] (map (kadd QI (q 1)) e_Markov).
Example C66_era_mixed_example : exists HH o' d,
  compute_model_left e_svd e_eigvals e_sqrt lf_era lf_nd 1 (Some 2%Z) (Some 2%Z) = (o', Raise LinAlgError) /\
  e_Hankel o' = Some HH /\ NdArray.ent (fst HH) 0 0 = q 2 /\
  e_decomp o' = Some d /\ e_decomp lf_era = Some d /\ e_model o' = e_model lf_era /\ e_model lf_era <> None.
Proof.
  destruct (is_ok_ex (assemble_Hankel (match set_Markovs lf_nd with Ok M => M | Raise _ => Arr3 0 0 0 (fun _ => mzero) end)
    (Some 2%Z) (Some 2%Z))) as [HH EA]; [vm_compute; reflexivity|].
  assert (H0 : NdArray.ent (fst HH) 0 0 = q 2).
  { apply keqb_true. injection EA as <-. vm_compute. reflexivity. }
  assert (HD : exists d, e_decomp lf_era = Some d).
  { destruct (e_decomp lf_era) eqn:E; [eauto|]. exfalso.
    assert (G : (match e_decomp lf_era with Some _ => true | None => false end) = true) by (vm_compute; reflexivity).
    rewrite E in G. discriminate. }
  destruct HD as [d Hd].
  destruct (C66_era_mixed e_svd e_eigvals e_sqrt lf_era lf_nd 1 (Some 2%Z) (Some 2%Z)
    (match set_Markovs lf_nd with Ok M => M | Raise _ => Arr3 0 0 0 (fun _ => mzero) end) HH LinAlgError) as (mc' & mo' & E).
  - reflexivity.
  - exact EA.
  - apply no_convergence_ex. injection EA as <-. vm_compute. reflexivity.
  - exists HH, (Era mc' mo' (Some HH) (e_decomp lf_era) (e_model lf_era)), d. split; [exact E|]. cbn [e_Hankel e_decomp e_model].
    do 3 (split; [auto|]). split; [auto|]. split; [auto|].
    assert (G : (match e_model lf_era with Some _ => true | None => false end) = true) by (vm_compute; reflexivity).
    intros Z. rewrite Z in G. clear - G. discriminate G.
Qed.
(** Six samples and mc = mo = 3 are rejected; ten and mc = mo = 4 are not: the loops run
    past the end, after a part of the arrays has been filled. *)
Definition eq_list (l l' : list QI) : bool :=
  (length l =? length l') && forallb (fun p => keqb (fst p) (snd p)) (List.combine l l').
Lemma all_eqb (l l' : list QI) : eq_list l l' = true -> l = l'.
Proof.
  unfold eq_list. intros H. apply andb_prop in H. destruct H as [L H]. apply Nat.eqb_eq in L. revert l' L H.
  induction l as [|x l IH]; intros [|y l'] L H; try discriminate; [reflexivity|]. simpl in H.
  apply andb_prop in H. destruct H as [H1 H2]. f_equal; [apply keqb_true, H1|apply IH; auto].
Qed.
Definition lf_row (o : era QI) (i : nat) : list QI :=
  match e_Hankel o with Some HH => map (fun j => NdArray.ent (fst HH) i j) (seq 0 4) | None => [] end.
Definition lf_check (p : era QI * res (arr QI * arr QI * arr QI)) : bool :=
  match snd p with Raise IndexError => eq_list (lf_row (fst p) 1) [q 3; q 5; q 7; q 9] && eq_list (lf_row (fst p) 2) [q 5; q 7; q 9; q 0]
  | _ => false end.
Example C66_era_kept_example : exists o',
  compute_model_left e_svd e_eigvals e_sqrt lf_era (Nd [10] (map (fun i => q (Z.of_nat i)) (seq 1 10))) 1 (Some 4%Z) (Some 4%Z)
    = (o', Raise IndexError) /\
  e_model o' = e_model lf_era /\ lf_row o' 1 = [q 3; q 5; q 7; q 9] /\ lf_row o' 2 = [q 5; q 7; q 9; q 0].
Proof.
  assert (G : lf_check (compute_model_left e_svd e_eigvals e_sqrt lf_era (Nd [10] (map (fun i => q (Z.of_nat i)) (seq 1 10)))
                1 (Some 4%Z) (Some 4%Z)) = true) by (vm_compute; reflexivity).
  pose proof (fun o' => C66_era_kept e_svd e_eigvals e_sqrt lf_era o' (Nd [10] (map (fun i => q (Z.of_nat i)) (seq 1 10)))
      1 (Some 4%Z) (Some 4%Z) IndexError) as KE.
  revert G KE. generalize (compute_model_left e_svd e_eigvals e_sqrt lf_era (Nd [10] (map (fun i => q (Z.of_nat i)) (seq 1 10)))
    1 (Some 4%Z) (Some 4%Z)).
  intros [o' r]. unfold lf_check. cbn [fst snd]. destruct r as [|[]]; try discriminate. intros G KE.
  apply andb_prop in G. destruct G as [G1 G2]. exists o'. split; [reflexivity|].
  destruct (KE o' eq_refl) as [[H|(A & B & C & _ & H)] _]; [|discriminate].
  split; [exact H|]. split; apply all_eqb; assumption.
Qed.

(** The same call: it stops in row 1 or 2, and what comes after that is zero. *)
Example C66_era_partial_example : exists H H2 r0 c0,
  compute_model_left e_svd e_eigvals e_sqrt lf_era (Nd [10] (map (fun i => q (Z.of_nat i)) (seq 1 10))) 1 (Some 4%Z) (Some 4%Z)
    = (Era (Some 4%Z) (Some 4%Z) (Some (H, H2)) (e_decomp lf_era) (e_model lf_era), Raise IndexError) /\
  r0 < 4 /\ c0 < 4 /\ 5 <= r0 + c0 /\ (forall r c, c < 4 -> earlier r c r0 c0 -> r + c < 5) /\
  NdArray.ent H 1 3 = q 9 /\ NdArray.ent H 3 3 = k0 QI.
Proof.
  destruct (C66_era_partial e_svd e_eigvals e_sqrt lf_era (Nd [10] (map (fun i => q (Z.of_nat i)) (seq 1 10))) 1
    (as_3d 10 1 1 (map (fun i => q (Z.of_nat i)) (seq 1 10))) 4 4)
    as (H & H2 & r0 & c0 & E & _ & _ & _ & _ & Hr & Hc & Ht & Hb & HH); try (cbn [a3_t as_3d]; lia); [reflexivity|].
  cbn [a3_t a3_p a3_m as_3d] in *.
  assert (R : r0 = 2 /\ c0 = 3).
  { assert (A1 : ~ earlier 2 3 r0 c0) by (intros A; pose proof (Hb 2 3 ltac:(lia) A); lia).
    unfold earlier in A1. lia. }
  exists H, H2, r0, c0. split; [exact E|]. split; [exact Hr|]. split; [exact Hc|]. split; [lia|].
  split; [intros r c C1 C2; pose proof (Hb r c C1 C2); lia|]. destruct R as [-> ->].
  split.
  - change (NdArray.ent H 1 3) with (NdArray.ent H (1 * 1 + 0) (3 * 1 + 0)).
    rewrite (proj1 (proj1 (HH 1 3 0 0 ltac:(lia) ltac:(lia) ltac:(lia)) ltac:(left; lia))).
    apply keqb_true. vm_compute. reflexivity.
  - change (NdArray.ent H 3 3) with (NdArray.ent H (3 * 1 + 0) (3 * 1 + 0)).
    apply (proj2 (HH 3 3 0 0 ltac:(lia) ltac:(lia) ltac:(lia))). unfold earlier. lia.
Qed.

(** With two processes the model with a [try] statement takes the same steps. *)
Example C66_same_example el argsort :
  hsame (uncaught (POD_decomp_left true el argsort (POD_new (F := QI)) [1; 2] (Some (qi 1 0 1000)) None))
    (POD_decomp el argsort POD_new [1; 2] (Some (qi 1 0 1000)) None).
Proof. apply C66_same. Qed.

(** An object with eigenvectors of another decomposition and a new one. *)
Example C66_retry_example el argsort :
  POD_decomp el argsort (PodObj (Some [q 4; q 1]) (Some (eye 2)) (Some [7; 8]) (Some (eye 2)) None) [1; 2] None None
  = POD_decomp el argsort (POD_new (F := QI)) [1; 2] None None.
Proof. apply C66_retry. reflexivity. Qed.

Example C66_era_same_example :
  compute_model e_svd e_eigvals e_sqrt lf_era e_nd 1 (Some 2%Z) (Some 2%Z) =
  match compute_model_left e_svd e_eigvals e_sqrt lf_era e_nd 1 (Some 2%Z) (Some 2%Z) with
  | (o', Ok ABC) => Ok (o', ABC)
  | (_, Raise e) => Raise e
  end.
Proof. apply C66_era_same. Qed.

Example C66_era_retry_example :
  compute_model e_svd e_eigvals e_sqrt lf_era e_nd 1 (Some 2%Z) (Some 2%Z)
  = compute_model e_svd e_eigvals e_sqrt (ERA None None) e_nd 1 (Some 2%Z) (Some 2%Z).
Proof. apply C66_era_retry. Qed.

(** Total-least-squares DMD. *)
Definition lf_tls : dmd_obj QI :=
  DmdObj (Some ex_lw) (Some ex_lR) (Some ex_lL) (Some ex_E) (Some ex_V) (Some ex_E) (Some ex_cV) None None None
    (Some [1; 2; 3]) None None None.
Example C66_tls_same_example el argsort eig :
  hsame (uncaught (TLS_decomp_left true el argsort eig ex_sqrt lf_tls [1; 2; 3] None (Some (qi 1 0 1000)) (Some 1)))
    (TLS_decomp el argsort eig ex_sqrt lf_tls [1; 2; 3] None (Some (qi 1 0 1000)) None (Some 1)).
Proof. apply C66_tls_same. Qed.
Example C66_tls_count_example eager :
  leaves podh_space 2 10 eager md_store
    (TLS_decomp_left (1 <? 2) (fun _ => Raise LinAlgError) (fun _ => []) (fun _ => Raise LinAlgError) ex_sqrt
       lf_tls [3; 4] (Some [1]) None None) ValueError (set_handles lf_tls (Some [3; 4]) (Some [1])).
Proof.
  apply (C66_tls_count podh_space (wspace_ip 2 podh_W 6 3 1 lf_W) (Some 1%Z) 2 10 eager lf_up2). discriminate.
Qed.
(** The second decomposition fails: eigenvectors of the new sum of correlation arrays with
    those of the former projected one. *)
Definition lf_gram := gram lf_space [md_v2; md_v1] [md_v2; md_v1].
Definition lf_sum : arr QI := Arr 2 2 (fun i j =>
  kadd QI (NdArray.ent lf_gram i j) (NdArray.ent (gram lf_space [md_v1; md_v2] [md_v1; md_v2]) i j)).
Definition lf_eigh (A : arr QI) : res (list QI * arr QI) :=
  if keqb (NdArray.ent A 0 0) (NdArray.ent lf_sum 0 0) then Ok (ex_cw, ex_cV) else Raise LinAlgError.
Definition lf_eigh_sum := eigh lf_eigh (fun _ => [0; 1]) lf_sum (Some (qi 1 0 1000)) None true.
Definition lf_proj := match lf_eigh_sum with Ok p => TLS_proj_corr (snd p) lf_gram | Raise e => Raise e end.
Example C66_tls_example eager : exists o,
  leaves lf_space 1 10 eager md_store
    (TLS_decomp_left (1 <? 1) lf_eigh (fun _ => [0; 1]) (fun _ => Raise LinAlgError) ex_sqrt
       lf_tls [3; 4] (Some [1; 2]) (Some (qi 1 0 1000)) None) LinAlgError o /\
  dh_vecs o = Some [3; 4] /\ dh_cvecs o = Some ex_V /\
  exists vals U, lf_eigh_sum = Ok (vals, U) /\ dh_svals o = Some vals /\ dh_svecs o = Some U.
Proof.
  destruct (C66_tls lf_space (wspace_ip 2 podh_W 3 3 1 lf_W) (Some 1%Z) 1 10 eager lf_up1
    lf_eigh (fun _ => [0; 1]) (fun _ => Raise LinAlgError) ex_sqrt lf_tls [3; 4] [1; 2]
    [md_v2; md_v1] [md_v1; md_v2] md_store (Some (qi 1 0 1000)) None LinAlgError) as [_ H];
    try discriminate; try (repeat constructor; fail).
  destruct (is_ok_ex lf_eigh_sum) as [[vals U] EE]; [vm_compute; reflexivity|].
  destruct (is_ok_ex lf_proj) as [PC EP]; [vm_compute; reflexivity|].
  assert (EP' : TLS_proj_corr U lf_gram = Ok PC) by (rewrite <- EP; unfold lf_proj; rewrite EE; reflexivity).
  destruct (H vals U EE PC EP') as [H2 _]. eexists. split; [apply H2|].
  - apply no_convergence_ex.
    transitivity (match lf_proj with
                  | Ok PC => no_convergence (eigh lf_eigh (fun _ => [0; 1]) PC (Some (qi 1 0 1000)) None true)
                  | Raise _ => false
                  end); [rewrite EP; reflexivity|vm_compute; reflexivity].
  - do 2 (split; [reflexivity|]). exists vals, U. split; [exact EE|]. split; reflexivity.
Qed.
Lemma lf_tls_has : dmd_has true lf_tls 2 ex_lw ex_lR ex_lL ex_E ex_V ex_cV.
Proof. split; try reflexivity. intros _. split; reflexivity. Qed.
Example C66_tls_modes_example eager :
  runs podh_space 2 10 eager md_store
    (hbind (TLS_decomp_left (1 <? 2) (fun _ => Raise LinAlgError) (fun _ => []) (fun _ => Raise LinAlgError) ex_sqrt
              lf_tls [3; 4] (Some [1]) None None)
       (fun p => DMD_proj_modes true ex_sqrt (fst p) (Some (Cols [1; -2]%Z)) [10; 11] None))
    (fun st' r => exists o, r = Ok o /\ dh_vecs o = Some [3; 4] /\ dh_adv o = Some [1] /\ dh_R o = Some ex_lR).
Proof.
  eapply runs_mono; [apply (C66_tls_modes podh_space (wspace_ip 2 podh_W 6 3 1 lf_W) (Some 1%Z) 2 10 eager lf_up2
    (fun _ => Raise LinAlgError) (fun _ => []) (fun _ => Raise LinAlgError) ex_sqrt lf_tls [3; 4] [1] [3; 4] [md_v2; md_v1]
    md_store None None 2 ex_lw ex_lR ex_lL ex_E ex_V ex_cV)|].
  - discriminate.
  - apply lf_tls_has.
  - right. split; reflexivity.
  - repeat constructor.
  - lia.
  - apply md_outputs. repeat constructor; lia.
  - unfold modes_made. change (wrap_all (length ex_E) [1; -2]%Z) with (Ok [1; 0]). cbv iota.
    intros st' r (-> & _). eexists. repeat split; reflexivity.
Qed.
Example C66_tls_retry_example el argsort eig :
  TLS_decomp el argsort eig ex_sqrt (set_handles lf_tls (Some [3; 4]) (Some [1])) [1; 2] (Some [2; 3]) None None None
  = TLS_decomp el argsort eig ex_sqrt lf_tls [1; 2] (Some [2; 3]) None None None.
Proof. apply C66_tls_retry; [reflexivity|reflexivity|discriminate]. Qed.

(** After a call with advanced vectors. *)
Example C66_sequential_example eager :
  leaves lf_space 1 10 eager md_store
    (TLS_decomp_left (1 <? 1) (fun _ => Raise LinAlgError) (fun _ => []) (fun _ => Raise LinAlgError) ex_sqrt
       (set_handles lf_tls (Some [3; 4]) (Some [1; 2])) [1; 2; 3] None None None) LinAlgError
    (set_corr (set_handles lf_tls (Some [1; 2; 3]) (Some [1; 2]))
       (but_last_col (but_last_row (gram lf_space [md_v1; md_v2; md_v2] [md_v1; md_v2; md_v2])))
       (but_first_col (but_last_row (gram lf_space [md_v1; md_v2; md_v2] [md_v1; md_v2; md_v2])))
       (Some (but_first_col (but_first_row (gram lf_space [md_v1; md_v2; md_v2] [md_v1; md_v2; md_v2]))))).
Proof.
  eapply (C66_sequential lf_space (wspace_ip 2 podh_W 3 3 1 lf_W) (Some 1%Z) 1 10 eager lf_up1
    (fun _ => Raise LinAlgError) (fun _ => []) (fun _ => Raise LinAlgError) ex_sqrt
    (set_handles lf_tls (Some [3; 4]) (Some [1; 2])) [1; 2; 3]); try discriminate; try (repeat constructor; fail); reflexivity.
Qed.

Print Assumptions C66_sequential.
Print Assumptions C66_same.
Print Assumptions C66_pod.
Print Assumptions C66_bpod_zero.
Print Assumptions C66_bpod.
Print Assumptions C66_dmd_count.
Print Assumptions C66_dmd.
Print Assumptions C66_pod_modes.
Print Assumptions C66_bpod_modes.
Print Assumptions C66_dmd_modes.
Print Assumptions C66_retry.
Print Assumptions C66_tls_same.
Print Assumptions C66_tls_count.
Print Assumptions C66_tls.
Print Assumptions C66_tls_modes.
Print Assumptions C66_tls_retry.
Print Assumptions C66_era_same.
Print Assumptions C66_era_kept.
Print Assumptions C66_era_mixed.
Print Assumptions C66_era_partial.
Print Assumptions C66_era_retry.
