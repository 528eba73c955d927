(** Property C65: methods called on objects that lack what they need. *)
From stdpp Require Import gmap list.
From Coq Require Import ZArith Lia.
From Verif Require Import Prelude Field FieldInst Matrix NdArray DecompModel DecompProofs DecompProps PodModel BpodModel DmdModel TlsModel Spmd SpmdFacts
  SpmdLock SpmdAgree ReductionsModel ReductionsProofs InnerProdModel LinCombModel LinCombProofs InnerProdProps HandlesModel
  HandlesProofs HandlesSpace PodHandlesModel BpodHandlesModel DmdHandlesModel DmdHandlesProofs PodHandlesProps DmdCore.
Open Scope nat_scope.

(** ** Specifications *)

(** Every rank raises [e]; nothing is written and no message is sent. *)
Definition raises_everywhere {F : sfield} {A} (h : hprog F A) (e : exn) : Prop :=
  forall V (S : space F V) P tag_ub eager (st : gmap loc V), 0 < P ->
    always_ends tag_ub eager (launch P (fun r => exec P tag_ub S r h) st)
      (fun c => length (procs c) = P /\ all_end (Raise e) c /\ chans c = ∅ /\ store c = st).
(** Rank zero raises [e]; the others wait for its message for ever.  Nothing is written. *)
Definition raises_on_zero {F : sfield} {A} (h : hprog F A) (e : exn) : Prop :=
  forall V (S : space F V) P tag_ub eager (st : gmap loc V), 0 < P ->
    always_ends tag_ub eager (launch P (fun r => exec P tag_ub S r h) st)
      (fun c => length (procs c) = P /\ procs c !! 0 = Some (Fail e) /\ store c = st /\
         forall i, 0 < i < P -> exists k, procs c !! i = Some (Recv 0 1 0 k)).

(** [e] belongs to the first of the attributes that is None. *)
Fixpoint first_unset (l : list (bool * exn)) : option exn :=
  match l with
  | [] => None
  | (true, _) :: l => first_unset l
  | (false, e) :: _ => Some e
  end.
Definition is_set {A} (o : option A) : bool := match o with Some _ => true | None => false end.

Lemma raises_fail {F : sfield} {A} (e : exn) : raises_everywhere (F := F) (A := A) (HFail e) e.
Proof.
  intros V S P tag_ub eager st HP. apply ends_stuck.
  - exact (stuck_failed tag_ub eager P (fun _ => e) ∅ st HP).
  - cbn [procs chans store launch]. rewrite fmap_length, seq_length. split; auto. split; auto.
    intros i p Hp. cbn [procs launch] in Hp. rewrite list_lookup_fmap in Hp. destruct (seq 0 P !! i); [|discriminate].
    simpl in Hp. injection Hp as <-. reflexivity.
Qed.

Lemma raises_call {F : sfield} {A} (e : exn) k : raises_on_zero (F := F) (A := A) (HCall (Raise e) k) e.
Proof.
  intros V S P tag_ub eager st HP.
  set (p := fun r => exec (O := A) P tag_ub S r (HCall (Raise e) k) Ret).
  assert (P0 : p 0 = Fail e) by reflexivity.
  assert (Hp : forall i, 0 < i < P -> exists k', p i = Recv 0 1 0 k').
  { intros i Hi. unfold p. cbn [exec]. unfold bind at 1. unfold call_and_bcast, bind.
    rewrite (proj2 (Nat.eqb_neq i 0)) by lia. rewrite (proj2 (Nat.ltb_lt 1 P)) by lia.
    unfold ret at 1. apply (bcast_blocks P). lia. }
  change (launch P (fun r => exec P tag_ub S r (HCall (Raise e) k)) st) with (conf P p ∅ st).
  clearbody p. apply ends_stuck.
  - intros c' Hs. inversion Hs as [i c0 c1 Hr|ps' ch' st2 Hne Hall]; subst.
    + unfold rank_step in Hr. cbn [procs conf] in Hr. rewrite list_lookup_fmap in Hr.
      destruct (seq 0 P !! i) as [x|] eqn:Ex; cbn in Hr; [|discriminate].
      apply lookup_seq in Ex. destruct Ex as [-> Hx]. cbn [Nat.add] in Hr. destruct i as [|i].
      * rewrite P0 in Hr. discriminate.
      * destruct (Hp (Datatypes.S i) ltac:(lia)) as [k' Hk]. rewrite Hk in Hr. discriminate.
    + destruct P as [|n0]; [lia|]. cbn [seq fmap list_fmap] in Hall. inversion Hall as [|? ? Hb]; subst. rewrite P0 in Hb. exact Hb.
  - split; [cbn; rewrite fmap_length, seq_length; auto|]. split; [|split; [reflexivity|]].
    + rewrite conf_lookup by lia. rewrite P0. reflexivity.
    + intros i Hi. destruct (Hp i Hi) as [k' Hk]. exists k'. rewrite conf_lookup by lia. rewrite Hk. reflexivity.
Qed.

(** One basis vector. *)
Lemma lin_coeffs_one {F : sfield} (C : arr F) n l js : wrap_all (nc C) l = Ok js ->
  exists rows, lin_coeffs 1 n (Arr2 (nr C) (nc C) (to_lists C)) (Some (Cols l)) =
    if (nr C =? 1) && (n =? length l) then Ok rows else Raise ValueError.
Proof.
  intros Ew. eexists. unfold lin_coeffs. change (1 =? 1) with true. cbn [atleast_2d_row].
  unfold take_cols. pose proof (wrap_all_lt _ _ _ Ew) as Hlt. apply wrap_all_map in Ew.
  destruct Ew as [-> L]. cbn [rbind].
  rewrite (res_map_ok _ (fun row => map (fun j => nth j row (k0 F)) js)).
  - cbn [rbind fst snd]. rewrite (Nat.eqb_sym 1), L. destruct (nr C =? 1), (n =? length l); reflexivity.
  - intros row Hrow. apply res_map_ok. intros j Hj. unfold py_nth.
    apply to_lists_row in Hrow. rewrite Forall_forall in Hlt. specialize (Hlt j Hj).
    rewrite (nth_error_nth' _ (k0 F)) by lia. reflexivity.
Qed.
Lemma lin_coeffs_one_bad {F : sfield} (C : arr F) n l e : wrap_all (nc C) l = Raise e ->
  lin_coeffs 1 n (Arr2 (nr C) (nc C) (to_lists C)) (Some (Cols l)) = Raise e.
Proof.
  intros E. unfold lin_coeffs. change (1 =? 1) with true. cbn [atleast_2d_row]. unfold take_cols.
  assert (G : res_map (norm_index (nc C)) l = Raise e).
  { revert E. induction l as [|z l IH]; simpl; [discriminate|]. rewrite norm_wrap.
    destruct (wrap_index (nc C) z); simpl; [|auto]. destruct (wrap_all (nc C) l); [discriminate|].
    intros [= ->]. rewrite IH by auto. reflexivity. }
  rewrite G. reflexivity.
Qed.

Section Classes.
Context {F : sfield}.
Open Scope h_scope.

(** ** POD *)

(** compute_modes and compute_proj_coeffs without a decomposition. *)
Theorem C65_pod (sqrt : F -> F) (o : pod_obj F) idx modes arg e :
  (first_unset [(is_set (ph_eigvals o), TypeError); (is_set (ph_eigvecs o), TypeError)] = Some e ->
   raises_everywhere (POD_compute_modes sqrt o idx modes arg) e) /\
  (first_unset [(is_set (ph_eigvals o), TypeError); (is_set (ph_eigvecs o), AttributeError)] = Some e ->
   raises_everywhere (POD_proj_coeffs sqrt o) e).
Proof.
  destruct o as [E U vs C pc]. unfold POD_compute_modes, POD_proj_coeffs. split.
  - intros He. destruct arg; destruct E, U; simpl in *; try discriminate; injection He as <-; apply raises_fail.
  - intros He. destruct E, U; simpl in *; try discriminate; injection He as <-; apply raises_fail.
Qed.

(** ... and with one, but without vectors: lin_combine is given [[None]]. *)
Theorem C65_pod_no_vectors (sqrt : F -> F) (o : pod_obj F) E U idx modes :
  ph_eigvals o = Some E -> ph_eigvecs o = Some U -> ph_vecs o = None -> nc U = length E ->
  raises_everywhere (POD_compute_modes sqrt o None modes None)
    (if (nr U =? 1) && (length modes =? length E) then AttributeError else ValueError) /\
  raises_everywhere (POD_compute_modes sqrt o (Some (Cols idx)) modes None)
    (match wrap_all (length E) idx with
     | Ok _ => if (nr U =? 1) && (length modes =? length idx) then AttributeError else ValueError
     | Raise e => e
     end).
Proof.
  intros E1 E2 E3 HU.
  set (B := Arr (nr U) (length E) (mmul (length E) (NdArray.ent U) (mdiag (at1 (map (inv_sqrt sqrt) E))))).
  assert (Hd : dot U (diag (map (inv_sqrt sqrt) E)) = Ok B).
  { rewrite dot_eq by (unfold diag; cbn [nr]; rewrite map_length; auto).
    unfold diag. cbn [nc NdArray.ent]. rewrite map_length, HU. reflexivity. }
  unfold POD_compute_modes. rewrite E1, E2, E3. cbn [need hbind]. rewrite Hd. cbn [hlift hbind]. split.
  - unfold lin_coeffs. change (1 =? 1) with true. cbn [atleast_2d_row rbind fst snd]. change (nr B) with (nr U). change (nc B) with (length E).
    rewrite (Nat.eqb_sym 1). destruct (nr U =? 1), (length modes =? length E); cbn [negb andb hlift hbind]; apply raises_fail.
  - destruct (wrap_all (length E) idx) as [js|e] eqn:Ew.
    + destruct (lin_coeffs_one B (length modes) idx js Ew) as [rows ->]. change (nr B) with (nr U).
      destruct ((nr U =? 1) && (length modes =? length idx)); cbn [hlift hbind]; apply raises_fail.
    + rewrite (lin_coeffs_one_bad B (length modes) idx e Ew). cbn [hlift hbind]. apply raises_fail.
Qed.

(** ** BPOD *)

Theorem C65_bpod (sqrt : F -> F) (o : bpod_obj F) idx modes arg e :
  (first_unset [(is_set arg || is_set (bh_direct o), UndefinedError); (is_set (bh_R o), AttributeError);
                (is_set (bh_sing_vals o), TypeError)] = Some e ->
   raises_everywhere (BPOD_direct_modes sqrt o idx modes arg) e) /\
  (first_unset [(is_set arg || is_set (bh_adjoint o), UndefinedError); (is_set (bh_L o), AttributeError);
                (is_set (bh_sing_vals o), TypeError)] = Some e ->
   raises_everywhere (BPOD_adjoint_modes sqrt o idx modes arg) e) /\
  (first_unset [(is_set (bh_sing_vals o), TypeError); (is_set (bh_R o), AttributeError)] = Some e ->
   raises_everywhere (BPOD_direct_coeffs sqrt o) e) /\
  (first_unset [(is_set (bh_sing_vals o), TypeError); (is_set (bh_L o), AttributeError)] = Some e ->
   raises_everywhere (BPOD_adjoint_coeffs sqrt o) e).
Proof.
  destruct o as [L R sv H dv av dc ac].
  unfold BPOD_direct_modes, BPOD_adjoint_modes, BPOD_direct_coeffs, BPOD_adjoint_coeffs.
  repeat split; intros He; destruct arg, L, R, sv, dv, av; simpl in *; try discriminate; injection He as <-; apply raises_fail.
Qed.

(** ** DMD *)

Theorem C65_dmd tls (sqrt : F -> F) (o : dmd_obj F) idx modes arg e :
  let sum_vecs := if tls : bool then [(is_set (dh_svecs o), AttributeError)] else [] in
  (first_unset (sum_vecs ++ [(is_set (dh_cvecs o), AttributeError); (is_set (dh_cvals o), TypeError);
                             (is_set (dh_R o), AttributeError); (is_set (dh_eigvals o), TypeError)]) = Some e ->
   raises_everywhere (DMD_exact_modes tls sqrt o idx modes arg) e) /\
  (first_unset (sum_vecs ++ [(is_set (dh_cvecs o), AttributeError); (is_set (dh_cvals o), TypeError);
                             (is_set (dh_R o), TypeError)]) = Some e ->
   raises_everywhere (DMD_proj_modes tls sqrt o idx modes arg) e) /\
  (first_unset (sum_vecs ++ [(is_set (dh_cvecs o), AttributeError); (is_set (dh_cvals o), TypeError);
                             (is_set (dh_L o), TypeError)]) = Some e ->
   raises_everywhere (DMD_adjoint_modes tls sqrt o idx modes arg) e) /\
  (first_unset [(is_set (dh_L o), AttributeError); (is_set (dh_cvals o), TypeError);
                (is_set (dh_cvecs o), TypeError)] = Some e ->
   raises_everywhere (DMD_spectrum sqrt o) e) /\
  (first_unset [(is_set (dh_L o), AttributeError); (is_set (dh_cvals o), TypeError); (is_set (dh_cvecs o), AttributeError)] = Some e ->
   raises_everywhere (DMD_proj_coeffs tls sqrt o) e) /\
  (forall L E V, dh_L o = Some L -> dh_cvals o = Some E -> dh_cvecs o = Some V -> nc V = length E -> nr L = length E ->
   first_unset (sum_vecs ++ [(is_set (dh_cross o), if tls then AttributeError else TypeError)]) = Some e ->
   raises_everywhere (DMD_proj_coeffs tls sqrt o) e).
Proof.
  destruct o as [w R L E U Es Vs C K G vs adv sp co].
  unfold DMD_exact_modes, DMD_proj_modes, DMD_adjoint_modes, DMD_modes_of, build_exact, build_coeffs, DMD_spectrum, DMD_proj_coeffs.
  split; [|split; [|split; [|split; [|split]]]]; [intros He..|].
  - destruct tls, arg, Vs, U, E, R, w; simpl in *; try discriminate; injection He as <-; apply raises_fail.
  - destruct tls, arg, Vs, U, E, R; simpl in *; try discriminate; injection He as <-; apply raises_fail.
  - destruct tls, arg, Vs, U, E, L; simpl in *; try discriminate; injection He as <-; apply raises_fail.
  - destruct L, E, U; simpl in *; try discriminate; injection He as <-; apply raises_fail.
  - destruct L, E, U; simpl in *; try discriminate; injection He as <-; apply raises_fail.
  - cbn [dh_L dh_cvals dh_cvecs dh_svecs dh_cross]. intros L' E' V' -> -> -> HV HL He. cbn [need hbind].
    rewrite (dot_mul (diag (map sqrt E')) (conj_T V') (length E') (nr V') (length E'))
      by (cbn [diag conj_T nr nc]; rewrite ?map_length; auto). cbn [rbind].
    rewrite (dot_mul (conj_T L') _ (nc L') (nr V') (length E')) by (cbn [conj_T nr nc]; auto). cbn [hlift hbind].
    destruct tls, Vs, K; simpl in *; try discriminate; injection He as <-; apply raises_fail.
Qed.

(** With a decomposition, but vectors that are missing or too few or too many. *)
Theorem C65_dmd_vectors tls (sqrt : F -> F) (o : dmd_obj F) idx modes B :
  (build_exact tls sqrt o = HRet B -> dh_adv o = None ->
   match dh_vecs o with Some v => length v <> nr B + 1 | None => True end ->
   raises_everywhere (DMD_exact_modes tls sqrt o idx modes None) TypeError) /\
  (build_coeffs tls sqrt o (dh_R o) = HRet B -> dh_vecs o = None ->
   raises_everywhere (DMD_proj_modes tls sqrt o idx modes None) TypeError) /\
  (build_coeffs tls sqrt o (dh_R o) = HRet B -> forall v, dh_vecs o = Some v -> length v <> nr B -> length v <> nr B + 1 ->
   raises_everywhere (DMD_proj_modes tls sqrt o idx modes None) ValueError) /\
  (build_coeffs tls sqrt o (dh_L o) = HRet B -> dh_vecs o = None ->
   raises_everywhere (DMD_adjoint_modes tls sqrt o idx modes None) TypeError) /\
  (build_coeffs tls sqrt o (dh_L o) = HRet B -> forall v, dh_vecs o = Some v -> length v <> nr B -> length v <> nr B + 1 ->
   raises_everywhere (DMD_adjoint_modes tls sqrt o idx modes None) ValueError).
Proof.
  unfold DMD_exact_modes, DMD_proj_modes, DMD_adjoint_modes, DMD_modes_of.
  split; [|split; [|split; [|split]]]; intros HB.
  - intros Ha Hv. rewrite HB. cbn [hbind]. rewrite Ha. destruct (dh_vecs o) as [v|]; [|apply raises_fail].
    rewrite (proj2 (Nat.eqb_neq _ _) Hv). apply raises_fail.
  - intros Hv. rewrite HB. cbn [hbind]. rewrite Hv. apply raises_fail.
  - intros v Hv H1 H2. rewrite HB. cbn [hbind]. rewrite Hv. cbn [need hbind].
    rewrite (proj2 (Nat.eqb_neq _ _) H1), (proj2 (Nat.eqb_neq _ _) H2). apply raises_fail.
  - intros Hv. rewrite HB. cbn [hbind]. rewrite Hv. apply raises_fail.
  - intros v Hv H1 H2. rewrite HB. cbn [hbind]. rewrite Hv. cbn [need hbind].
    rewrite (proj2 (Nat.eqb_neq _ _) H1), (proj2 (Nat.eqb_neq _ _) H2). apply raises_fail.
Qed.

(** ** Decomposing without the array to decompose *)

(** The call is made on rank zero only, so only rank zero raises; for TLSqrDMDHandles
    all do, as they add the arrays. *)
Theorem C65_decomposing el argsort eig svd_lapack (sqrt : F -> F) atol rtol mx :
  (forall o : pod_obj F, ph_corr o = None -> raises_on_zero (POD_eigendecomp el argsort o atol rtol) LinAlgError) /\
  (forall o : bpod_obj F, bh_Hankel o = None -> raises_on_zero (BPOD_SVD svd_lapack o atol rtol) LinAlgError) /\
  (forall o : dmd_obj F, dh_corr o = None -> raises_on_zero (DMD_eigendecomp el argsort eig sqrt o atol rtol mx) LinAlgError) /\
  (forall o : dmd_obj F, dh_corr o = None \/ dh_adv_corr o = None ->
   raises_everywhere (TLS_eigendecomp el argsort eig sqrt o atol rtol mx) TypeError).
Proof.
  split; [|split; [|split]].
  - intros o H. unfold POD_eigendecomp. rewrite H. apply raises_call.
  - intros o H. unfold BPOD_SVD. rewrite H. apply raises_call.
  - intros o H. unfold DMD_eigendecomp, eigh_of. rewrite H. apply raises_call.
  - intros o H. unfold TLS_eigendecomp. destruct (dh_corr o), (dh_adv_corr o); cbn [need hbind]; try apply raises_fail.
    destruct H; discriminate.
Qed.

(** The correlation arrays are there (loaded, or assigned), the cross-correlation array is
    not: all ranks raise, after the eigendecompositions have been sent round. *)
Theorem C65_no_cross {V} (S : space F V) limit P tag_ub eager st el argsort eig (sqrt : F -> F) (o : dmd_obj F) C n atol rtol mx :
  ip_space S -> set_up limit P tag_ub S -> dh_cross o = None -> dh_corr o = Some C -> nr C = n -> nc C = n ->
  (forall A, nr A = n -> nc A = n -> exists vals U, eigh el argsort A atol None true = Ok (vals, U) /\ nr U = n /\ nc U = length vals) ->
  runs S P tag_ub eager st (DMD_eigendecomp el argsort eig sqrt o atol rtol mx)
    (fun st' r => st' = st /\ r = Raise AttributeError) /\
  (forall G, dh_adv_corr o = Some G -> nr G = n -> nc G = n ->
   runs S P tag_ub eager st (TLS_eigendecomp el argsort eig sqrt o atol rtol mx)
     (fun st' r => st' = st /\ r = Raise AttributeError)).
Proof.
  intros HS Hup HK HC Cr Cc HE. split.
  - apply (ok_runs S limit); auto. unfold DMD_eigendecomp, eigh_of. rewrite HC, HK.
    destruct (HE C Cr Cc) as (vals & [m k f] & -> & _). unfold bcast_eigh. cbn [hbind rmap ok fst snd].
    eexists. split; [reflexivity|]. unfold pack. cbn [hbind need ok]. split; reflexivity.
  - intros G HG Gr Gc. apply (ok_runs S limit); auto. unfold TLS_eigendecomp, eigh_of. rewrite HC, HG, HK. cbn [need hbind].
    unfold add_arr, same_shape2. rewrite Cr, Cc, Gr, Gc, !Nat.eqb_refl. cbn [andb hlift hbind].
    destruct (HE (Arr n n (madd (NdArray.ent C) (NdArray.ent G))) eq_refl eq_refl) as (vals & [m k f] & -> & Hm & Hk).
    cbn [nr nc] in Hm, Hk. unfold bcast_eigh at 1. cbn [hbind rmap ok fst snd].
    eexists. split; [reflexivity|]. unfold pack. cbn [hbind fst snd nr nc NdArray.ent].
    assert (EP : exists PC, TLS_proj_corr (max_cols mx (length vals) (Arr m k f)) C = Ok PC /\ nr PC = n /\ nc PC = n).
    { assert (Vr : nr (max_cols mx (length vals) (Arr m k f)) = n).
      { unfold max_cols. destruct mx as [x|]; [destruct (x <? _)|]; exact Hm. }
      revert Vr. generalize (max_cols mx (length vals) (Arr m k f)). intros Vs Vr. unfold TLS_proj_corr, onto.
      rewrite dot_eq by reflexivity. cbn [rbind]. rewrite dot_eq by (cbn [nr]; congruence). cbn [rbind].
      rewrite dot_eq by (cbn [nr nc conj_T transp]; congruence). cbn [rbind]. rewrite dot_eq by reflexivity.
      eexists. split; [reflexivity|]. split; [exact Vr|exact Vr]. }
    destruct EP as (PC & -> & Pr & Pc). cbn [hlift hbind].
    destruct (HE PC Pr Pc) as (vals' & [m' k' f'] & -> & _). unfold bcast_eigh. cbn [hbind rmap ok fst snd].
    eexists. split; [reflexivity|]. unfold pack. cbn [hbind need ok]. split; reflexivity.
Qed.

(** ** New objects *)

(** [__init__] (pod.py:241-254, bpod.py:180-197, dmd.py:513-536 and 1664-1691) leaves
    every attribute None, or does not make it. *)
Theorem C65_new :
  (ph_eigvals (POD_new (F := F)) = None /\ ph_eigvecs (POD_new (F := F)) = None /\ ph_vecs (POD_new (F := F)) = None /\
   ph_corr (POD_new (F := F)) = None /\ ph_coeffs (POD_new (F := F)) = None) /\
  (bh_L (BPOD_new (F := F)) = None /\ bh_R (BPOD_new (F := F)) = None /\ bh_sing_vals (BPOD_new (F := F)) = None /\
   bh_Hankel (BPOD_new (F := F)) = None /\ bh_direct (BPOD_new (F := F)) = None /\ bh_adjoint (BPOD_new (F := F)) = None /\
   bh_direct_coeffs (BPOD_new (F := F)) = None /\ bh_adjoint_coeffs (BPOD_new (F := F)) = None) /\
  (forall o, o = DMD_new (F := F) ->
   dh_eigvals o = None /\ dh_R o = None /\ dh_L o = None /\ dh_cvals o = None /\ dh_cvecs o = None /\
   dh_svals o = None /\ dh_svecs o = None /\ dh_corr o = None /\ dh_cross o = None /\ dh_adv_corr o = None /\
   dh_vecs o = None /\ dh_adv o = None /\ dh_spec o = None /\ dh_coeffs o = None).
Proof. repeat split; subst; reflexivity. Qed.

(** So every method that needs one of them raises, whatever it is given. *)
Theorem C65_new_raises tls el argsort eig svd_lapack (sqrt : F -> F) idx modes arg atol rtol mx :
  raises_everywhere (POD_compute_modes sqrt POD_new idx modes arg) TypeError /\
  raises_everywhere (POD_proj_coeffs sqrt (POD_new (F := F))) TypeError /\
  raises_everywhere (BPOD_direct_modes sqrt BPOD_new idx modes arg) (if is_set arg then AttributeError else UndefinedError) /\
  raises_everywhere (BPOD_adjoint_modes sqrt BPOD_new idx modes arg) (if is_set arg then AttributeError else UndefinedError) /\
  raises_everywhere (BPOD_direct_coeffs sqrt (BPOD_new (F := F))) TypeError /\
  raises_everywhere (BPOD_adjoint_coeffs sqrt (BPOD_new (F := F))) TypeError /\
  raises_everywhere (DMD_exact_modes tls sqrt DMD_new idx modes arg) AttributeError /\
  raises_everywhere (DMD_proj_modes tls sqrt DMD_new idx modes arg) AttributeError /\
  raises_everywhere (DMD_adjoint_modes tls sqrt DMD_new idx modes arg) AttributeError /\
  raises_everywhere (DMD_spectrum sqrt (DMD_new (F := F))) AttributeError /\
  raises_everywhere (DMD_proj_coeffs tls sqrt (DMD_new (F := F))) AttributeError /\
  raises_on_zero (POD_eigendecomp el argsort (POD_new (F := F)) atol rtol) LinAlgError /\
  raises_on_zero (BPOD_SVD svd_lapack (BPOD_new (F := F)) atol rtol) LinAlgError /\
  raises_on_zero (DMD_eigendecomp el argsort eig sqrt (DMD_new (F := F)) atol rtol mx) LinAlgError /\
  raises_everywhere (TLS_eigendecomp el argsort eig sqrt (DMD_new (F := F)) atol rtol mx) TypeError.
Proof.
  destruct (C65_decomposing el argsort eig svd_lapack sqrt atol rtol mx) as (D1 & D2 & D3 & D4).
  repeat apply conj.
  - apply C65_pod. reflexivity.
  - apply (C65_pod sqrt POD_new idx modes arg). reflexivity.
  - apply C65_bpod. destruct arg; reflexivity.
  - apply C65_bpod. destruct arg; reflexivity.
  - apply (C65_bpod sqrt BPOD_new idx modes arg). reflexivity.
  - apply (C65_bpod sqrt BPOD_new idx modes arg). reflexivity.
  - apply C65_dmd. destruct tls; reflexivity.
  - apply C65_dmd. destruct tls; reflexivity.
  - apply C65_dmd. destruct tls; reflexivity.
  - apply (C65_dmd tls sqrt DMD_new idx modes arg). reflexivity.
  - apply (C65_dmd tls sqrt DMD_new idx modes arg). reflexivity.
  - apply D1. reflexivity.
  - apply D2. reflexivity.
  - apply D3. reflexivity.
  - apply D4. left. reflexivity.
Qed.


End Classes.

(** ** Examples *)

(** Three processes, vectors that are numbers. *)
Definition un_space : space QI nat := Space QI nat (fun _ _ => k0 QI) Nat.add (fun v _ => v) (fun _ x => Ok x) 9 3 1.
Notation un_run h := (launch 3 (fun r => exec 3 5 un_space r h) {[1 := 7]}).

(** Eigenvalues loaded, eigenvectors not. *)
Definition un_pod : pod_obj QI := PodObj (Some [qi 4 0 1; qi 1 0 1]) None (Some [1]) None None.
Example C65_pod_example eager :
  always_ends 5 eager (un_run (POD_compute_modes (fun x => x) un_pod None [10; 11] None))
    (fun c => length (procs c) = 3 /\ all_end (Raise TypeError) c /\ chans c = ∅ /\ store c = {[1 := 7]}) /\
  always_ends 5 eager (un_run (POD_proj_coeffs (fun x => x) un_pod))
    (fun c => length (procs c) = 3 /\ all_end (Raise AttributeError) c /\ chans c = ∅ /\ store c = {[1 := 7]}).
Proof.
  split.
  - refine (proj1 (C65_pod (fun x => x) un_pod None [10; 11] None TypeError) eq_refl _ un_space 3 5 eager {[1 := 7]} _). lia.
  - refine (proj2 (C65_pod (fun x => x) un_pod None [10; 11] None AttributeError) eq_refl _ un_space 3 5 eager {[1 := 7]} _). lia.
Qed.
(** Two eigenvectors loaded, no vectors given; a third mode asked for; and one eigenvector of one entry. *)
Definition un_pod2 : pod_obj QI := PodObj (Some [qi 4 0 1; qi 1 0 1]) (Some (Arr 2 2 mid)) None None None.
Definition un_pod1 : pod_obj QI := PodObj (Some [qi 4 0 1]) (Some (Arr 1 1 mid)) None None None.
Example C65_pod_no_vectors_example :
  raises_everywhere (POD_compute_modes (fun x => x) un_pod2 (Some (Cols [0; -1]%Z)) [10; 11] None) ValueError /\
  raises_everywhere (POD_compute_modes (fun x => x) un_pod2 (Some (Cols [0; 2]%Z)) [10; 11] None) IndexError /\
  raises_everywhere (POD_compute_modes (fun x => x) un_pod1 None [10] None) AttributeError.
Proof.
  split; [|split].
  - exact (proj2 (C65_pod_no_vectors (fun x => x) un_pod2 _ _ [0; -1]%Z [10; 11] eq_refl eq_refl eq_refl eq_refl)).
  - exact (proj2 (C65_pod_no_vectors (fun x => x) un_pod2 _ _ [0; 2]%Z [10; 11] eq_refl eq_refl eq_refl eq_refl)).
  - exact (proj1 (C65_pod_no_vectors (fun x => x) un_pod1 _ _ [] [10] eq_refl eq_refl eq_refl eq_refl)).
Qed.

Definition un_bpod : bpod_obj QI := BpodObj None (Some (Arr 2 2 mid)) None None None (Some [1]) None None.
Example C65_bpod_example :
  raises_everywhere (BPOD_direct_modes (fun x => x) un_bpod None [10] None) UndefinedError /\
  raises_everywhere (BPOD_direct_modes (fun x => x) un_bpod None [10] (Some [1; 1])) TypeError /\
  raises_everywhere (BPOD_adjoint_modes (fun x => x) un_bpod None [10] None) AttributeError /\
  raises_everywhere (BPOD_direct_coeffs (fun x => x) un_bpod) TypeError.
Proof.
  split; [|split; [|split]].
  - exact (proj1 (C65_bpod (fun x => x) un_bpod None [10] None UndefinedError) eq_refl).
  - exact (proj1 (C65_bpod (fun x => x) un_bpod None [10] (Some [1; 1]) TypeError) eq_refl).
  - exact (proj1 (proj2 (C65_bpod (fun x => x) un_bpod None [10] None AttributeError)) eq_refl).
  - exact (proj1 (proj2 (proj2 (C65_bpod (fun x => x) un_bpod None [10] None TypeError))) eq_refl).
Qed.

(** All but the cross correlation array. *)
Definition un_dmd : dmd_obj QI :=
  DmdObj (Some [qi 1 0 2]) (Some (Arr 1 1 mid)) (Some (Arr 1 1 mid)) (Some [qi 4 0 1]) (Some (Arr 2 1 mid)) None
    (Some (Arr 2 1 mid)) None None None (Some [1; 1; 1; 1]) None None None.
Example C65_dmd_example :
  raises_everywhere (DMD_proj_coeffs false (fun x => x) un_dmd) TypeError /\
  raises_everywhere (DMD_proj_coeffs true (fun x => x) un_dmd) AttributeError /\
  raises_everywhere (DMD_exact_modes true (fun x => x) (DMD_new (F := QI)) None [10] (Some [1])) AttributeError.
Proof.
  split; [|split].
  - exact (proj2 (proj2 (proj2 (proj2 (proj2 (C65_dmd false (fun x => x) un_dmd None [10] None TypeError)))))
             _ _ _ eq_refl eq_refl eq_refl eq_refl eq_refl eq_refl).
  - exact (proj2 (proj2 (proj2 (proj2 (proj2 (C65_dmd true (fun x => x) un_dmd None [10] None AttributeError)))))
             _ _ _ eq_refl eq_refl eq_refl eq_refl eq_refl eq_refl).
  - exact (proj1 (C65_dmd true (fun x => x) DMD_new None [10] (Some [1]) AttributeError) eq_refl).
Qed.
(** Four vectors for coefficients of two. *)
Example C65_dmd_vectors_example tls :
  raises_everywhere (DMD_exact_modes tls (fun x => x) un_dmd None [10] None) TypeError /\
  raises_everywhere (DMD_proj_modes tls (fun x => x) un_dmd None [10] None) ValueError.
Proof.
  split.
  - destruct tls.
    + refine (proj1 (C65_dmd_vectors true (fun x => x) un_dmd None [10] _) eq_refl eq_refl _). discriminate.
    + refine (proj1 (C65_dmd_vectors false (fun x => x) un_dmd None [10] _) eq_refl eq_refl _). discriminate.
  - destruct tls.
    + refine (proj1 (proj2 (proj2 (C65_dmd_vectors true (fun x => x) un_dmd None [10] _))) eq_refl _ eq_refl _ _); discriminate.
    + refine (proj1 (proj2 (proj2 (C65_dmd_vectors false (fun x => x) un_dmd None [10] _))) eq_refl _ eq_refl _ _); discriminate.
Qed.
Example C65_decomposing_example eager :
  always_ends 5 eager (un_run (POD_eigendecomp (fun _ => Ok ([], eye 0)) (fun _ => []) (POD_new (F := QI)) None None))
    (fun c => length (procs c) = 3 /\ procs c !! 0 = Some (Fail LinAlgError) /\ store c = {[1 := 7]} /\
       forall i, 0 < i < 3 -> exists k, procs c !! i = Some (Recv 0 1 0 k)).
Proof.
  refine (proj1 (C65_decomposing _ _ (fun _ => Raise LinAlgError) (fun _ => Raise LinAlgError) (fun x => x) None None None) POD_new eq_refl
            _ un_space 3 5 eager {[1 := 7]} _). lia.
Qed.

(** Both correlation arrays are the identity; the space and processes are those of C19's
    example. *)
Example C65_no_cross_example eager st :
  runs podh_space 2 10 eager st
    (TLS_eigendecomp (fun _ => Ok ([qi 1 0 1; qi 1 0 1], eye 2)) (fun _ => [0; 1]) (fun _ => Raise LinAlgError) (fun x => x)
       (DmdObj None None None None None None None (Some (eye 2)) None (Some (eye 2)) None None None None) None None (Some 1))
    (fun st' r => st' = st /\ r = Raise AttributeError).
Proof.
  assert (G : exists vals U, eigh (fun _ => Ok ([qi 1 0 1; qi 1 0 1], eye 2)) (fun _ => [0; 1]) (eye 2 : arr QI) None None true
    = Ok (vals, U) /\ nr U = 2 /\ nc U = length vals) by (do 2 eexists; split; [reflexivity|split; reflexivity]).
  refine (proj2 (C65_no_cross podh_space (Some 1%Z) 2 10 eager st _ _ _ _
    (DmdObj None None None None None None None (Some (eye 2)) None (Some (eye 2)) None None None None)
    (eye 2) 2 None None (Some 1) podh_ip podh_set_up eq_refl eq_refl eq_refl eq_refl _) (eye 2) eq_refl eq_refl eq_refl).
  intros A _ _. exact G.
Qed.

Example C65_new_example eager :
  dh_spec (DMD_new (F := QI)) = None /\
  always_ends 5 eager (un_run (DMD_spectrum (fun x => x) (DMD_new (F := QI))))
    (fun c => length (procs c) = 3 /\ all_end (Raise AttributeError) c /\ chans c = ∅ /\ store c = {[1 := 7]}).
Proof.
  split; [apply (C65_new (F := QI)); reflexivity|].
  assert (G : raises_everywhere (DMD_spectrum (fun x => x) (DMD_new (F := QI))) AttributeError).
  { apply (C65_new_raises (F := QI) false (fun _ => Raise LinAlgError) (fun _ => []) (fun _ => Raise LinAlgError)
      (fun _ => Raise LinAlgError) (fun x => x) None [] None None None None). }
  apply (G nat un_space 3 5 eager). lia.
Qed.

Print Assumptions C65_pod.
Print Assumptions C65_pod_no_vectors.
Print Assumptions C65_bpod.
Print Assumptions C65_dmd.
Print Assumptions C65_dmd_vectors.
Print Assumptions C65_decomposing.
Print Assumptions C65_no_cross.

Print Assumptions C65_new.
Print Assumptions C65_new_raises.
