(** Property C70: the methods of the handle classes depend on the vectors through their inner
    products alone.  Vectors with the same inner products, in whatever space and on however
    many processes, give the same results, and modes with the same inner products. *)
From stdpp Require Import gmap list.
From Coq Require Import ZArith Lia Field Ring Setoid Morphisms.
From Verif Require Import Prelude Field FieldInst Matrix NdArray DecompModel DecompProofs DecompProps
  VSArraysModel VSArraysProofs PodModel PodProofs PodProps DmdModel DmdProofs DmdCore DmdSnaps TlsModel TlsProofs TlsProps
  Spmd LinCombModel InnerProdProps HandlesModel HandlesProofs HandlesSpace HandlesExamples PodHandlesModel PodHandlesProps
  DmdHandlesModel DmdHandlesProofs DmdHandlesModes DmdHandlesDecomp DmdHandlesProps DmdExamples TlsExamples DmdHandlesExamples DmdSeqProps DmdSeqHandles DmdExactProps DmdPairsHandles GramProofs.
Open Scope nat_scope.
Open Scope k_scope.

(** [h] on any vectors like those of [st], in any space of vectors, on any number of
    processes: the same result or exception [r], the same inner products [g] of all that is
    stored afterwards. *)
Definition same_for_alike {F : sfield} {V A} (S : space F V) (st : gmap loc V) (h : hprog F A) : Prop :=
  exists (r : res A) (g : loc -> loc -> option F),
  forall (V' : Type) (S' : space F V') limit P tag_ub eager st',
    ip_space S' -> set_up limit P tag_ub S' ->
    (forall a b, gram_at S st a b = gram_at S' st' a b) ->
    runs S' P tag_ub eager st' h (fun st2 x => x = r /\ forall a b, gram_at S' st2 a b = g a b).

(** Any method that finds its vectors and whose calls of LAPACK return. *)
Theorem C70_methods {F : sfield} {V A} (S : space F V) (h : hprog F A) st :
  ip_space S -> ok S st h (fun _ _ => True) -> same_for_alike S st h.
Proof.
  intros HS H. destruct (alike_ok S HS h st H) as (r & g & G). exists r, g.
  intros V' S' limit P tag_ub eager st' HS' Hup Ha. apply (ok_runs S' limit); auto.
Qed.

(** Applying a map that keeps inner products to the data changes no result; what is written
    has the same inner products with the images of the data as before with the data. *)
Theorem C70_isometry {F : sfield} {V V' A} (S : space F V) (S' : space F V') (T : V -> V') (h : hprog F A) st
    limit limit' P P' tag_ub tag_ub' eager eager' :
  ip_space S -> ip_space S' -> set_up limit P tag_ub S -> set_up limit' P' tag_ub' S' ->
  (forall u v, ip S' (T u) (T v) = ip S u v) -> ok S st h (fun _ _ => True) ->
  exists (r : res A) (g : loc -> loc -> option F),
    runs S P tag_ub eager st h (fun st2 x => x = r /\ forall a b, gram_at S st2 a b = g a b) /\
    runs S' P' tag_ub' eager' (T <$> st) h (fun st2 x => x = r /\ forall a b, gram_at S' st2 a b = g a b).
Proof.
  intros HS HS' Hup Hup' HT H. destruct (C70_methods S h st HS H) as (r & g & G). exists r, g. split.
  - apply (G V S limit); auto.
  - apply (G V' S' limit'); auto. intros a b. unfold gram_at. rewrite !lookup_fmap.
    destruct (st !! a), (st !! b); simpl; auto. rewrite HT. reflexivity.
Qed.

(** Weights [W = B^* B] are the same as no weights and data multiplied by [B]. *)
Theorem C70_weights {F : sfield} {A} n (W B : mat F) per_node per_proc nodes (h : hprog F A) st
    limit P tag_ub eager eager' :
  hermitian n W -> meq n n W (mmul n (madj B) B) -> set_up limit P tag_ub (wspace n W per_node per_proc nodes) ->
  ok (wspace n W per_node per_proc nodes) st h (fun _ _ => True) ->
  exists (r : res A) (g : loc -> loc -> option F),
    runs (wspace n W per_node per_proc nodes) P tag_ub eager st h
      (fun st2 x => x = r /\ forall a b, gram_at (wspace n W per_node per_proc nodes) st2 a b = g a b) /\
    runs (wspace n mid per_node per_proc nodes) P tag_ub eager' ((fun u i => sum n (fun j => B i j * u j)) <$> st) h
      (fun st2 x => x = r /\ forall a b, gram_at (wspace n mid per_node per_proc nodes) st2 a b = g a b).
Proof.
  intros HW HB Hup H.
  apply (C70_isometry (wspace n W per_node per_proc nodes) (wspace n mid per_node per_proc nodes)
    (fun u i => sum n (fun j => B i j * u j)) h st limit limit); auto.
  - apply wspace_ip; auto.
  - apply wspace_ip. unfold hermitian. apply madj_mid.
  - intros u v. simpl.
    assert (G : meq 1 1 (wip n mid (mmul n B (fun i _ => u i)) (mmul n B (fun i _ => v i)))
                        (wip n W (fun i _ => u i) (fun i _ => v i))).
    { unfold wip. rewrite mmul_id_l, madj_mmul, HB, !mmul_assoc. reflexivity. }
    exact (meq_at _ _ _ _ G O O ltac:(lia) ltac:(lia)).
Qed.

(** PODHandles. *)
Theorem C70_POD {F : sfield} {V} (S : space F V) el argsort sqrt o vecs vs st (t : F) rtol idx modes :
  ip_space S -> holds st vecs vs -> vecs <> [] ->
  length modes = length idx -> NoDup modes -> (forall h, h ∈ vecs -> h ∉ modes) ->
  real t -> kle 0 t -> tol_real rtol ->
  exists C : arr F,
    (nr C = length vs /\ nc C = length vs /\
     forall i j d, i < length vs -> j < length vs -> NdArray.ent C i j = ip S (nth i vs d) (nth j vs d)) /\
    forall w0 V0, el C = Ok (w0, V0) -> eigh_contract C w0 V0 ->
    argsort_contract (map kabs w0) (argsort (map kabs w0)) ->
    (forall e, In e w0 -> klt_p 0 e -> sqrt_ok sqrt e) ->
    same_for_alike S st (POD_session el argsort sqrt o vecs (Some t) rtol idx modes).
Proof.
  intros HS Hst Nv Lm Hnd Hdis Rt Ht Hr.
  destruct (POD_ok S HS el argsort sqrt o vecs vs st t rtol idx modes Hst Nv Lm Hnd Hdis Rt Ht Hr) as (C & HC & H).
  exists C. split; [exact HC|]. intros w0 V0 H1 H2 H3 H4.
  destruct (H w0 V0 H1 H2 H3 H4) as (E & U & pc & atol' & w & _ & _ & _ & _ & _ & _ & G).
  apply C70_methods; auto. eapply ok_mono; [exact G|]. auto.
Qed.

(** DMDHandles. *)
Theorem C70_DMD {F : sfield} {V} (S : space F V) el argsort eig sqrt (o : dmd_obj F) vecs adv xh yh xv yv st t rtol mx
    ei eh pi ph ai ah :
  ip_space S -> handles_data vecs adv xh yh -> holds st xh xv -> holds st yh yv ->
  (adv = None -> dh_adv o = None) -> dmd_outputs vecs adv ei eh pi ph ai ah -> real t -> kle 0 t ->
  exists C, aeq C (gram S xv xv) /\
    forall w0 V0, el C = Ok (w0, V0) -> eigh_contract C w0 V0 ->
      argsort_contract (map kabs w0) (argsort (map kabs w0)) ->
      (forall e, In e w0 -> klt_p 0 e -> sqrt_ok sqrt e) ->
      exists E U M, kept_by (eigh el argsort C (Some t) None true) mx E U /\ nr M = length E /\ nc M = length E /\
        meq (length E) (length E) (NdArray.ent M)
          (low_order sqrt (length xv) mid E (NdArray.ent U) (NdArray.ent (gram S xv yv))) /\
        forall w L0 R, eig M = Ok (w, L0, R) -> eig_contract M w L0 R ->
          (forall i, i < length E -> pairing (length E) L0 R i i <> 0) ->
          same_for_alike S st (DMD_session false el argsort eig sqrt o vecs adv (Some t) rtol mx ei eh pi ph ai ah).
Proof.
  intros HS HD Hx Hy Ho Hout Rt Ht.
  destruct (DMD_ok S HS el argsort eig sqrt o vecs adv xh yh xv yv st t rtol mx ei eh pi ph ai ah HD Hx Hy Ho Hout Rt Ht)
    as (C & HC & H).
  exists C. split; [exact HC|]. intros w0 V0 H1 H2 H3 H4.
  destruct (H w0 V0 H1 H2 H3 H4) as (E & U & w1 & M & G1 & G2 & G3 & G4 & G5 & G).
  exists E, U, M. do 4 (split; [auto|]). intros w L0 R K1 K2 K3.
  destruct (G w L0 R K1 K2 K3) as (L & pc & apc & sp & o' & _ & _ & Q).
  apply C70_methods; auto. eapply ok_mono; [exact Q|]. auto.
Qed.

(** ** Instances: weights 4 and 1, against no weights with the first component doubled *)
Definition c70_root : mat QI := mdiag (at1 [q 2; q 1]).
Definition c70_plain := wspace (F := QI) 2 mid 6 3 1.
Definition c70_scale (u : nat -> QI) : nat -> QI := fun i => sum 2 (fun j => c70_root i j * u j).
Definition c70_session := POD_session (fun _ => Ok (ex_cw, ex_cV)) (fun _ => [0; 1]%nat) ex_sqrt POD_new [1; 2]%nat
  (Some (qi 1 0 1000)) None [1; -2]%Z [10; 11]%nat.

Ltac podh_hyps :=
  first [exact podh_ip | repeat constructor; fail | discriminate | reflexivity
  | apply (bool_decide_unpack (NoDup [10; 11]%nat)); reflexivity
  | intros h Hh; apply (bool_decide_unpack (h ∉ [10; 11]%nat));
    repeat (apply elem_of_cons in Hh; destruct Hh as [->|Hh]; [reflexivity|]); inversion Hh
  | apply keqb_true; vm_compute; reflexivity | left; vm_compute; reflexivity | exact I].

Lemma c70_sort : argsort_contract (map kabs ex_cw) [0; 1]%nat.
Proof.
  split; try reflexivity.
  - repeat constructor; simpl; set_solver.
  - repeat constructor; simpl; lia.
  - intros i j Hij Hj. simpl in Hj. destruct i as [|[|i]]; destruct j as [|[|j]]; try lia;
      try (left; vm_compute; reflexivity); right; reflexivity.
Qed.
Lemma c70_corr (C : arr QI) : nr C = 2%nat -> nc C = 2%nat ->
  (forall i j d, (i < 2)%nat -> (j < 2)%nat ->
     NdArray.ent C i j = ip podh_space (nth i (columns ex_D) d) (nth j (columns ex_D) d)) ->
  eigh_contract C ex_cw ex_cV.
Proof.
  intros Cr Cc HC. apply (eigh_contract_aeq ex_C); [|apply ex_C_contract].
  split; [exact (eq_sym Cr)|]. split; [exact (eq_sym Cc)|]. split. intros i j Hi Hj.
  rewrite (HC i j (fun _ => 0)) by auto. unfold podh_space. rewrite columns_ip by auto.
  apply (meq_at 2 2 (NdArray.ent ex_C) (wip 2 podh_W (NdArray.ent ex_D) (NdArray.ent ex_D))); auto.
  apply meqb_true. vm_compute. reflexivity.
Qed.
Lemma c70_sqrt (e : QI) : In e ex_cw -> klt_p 0 e -> sqrt_ok ex_sqrt e.
Proof. intros [<-|[<-|[]]] _; apply sq_ok_dec; vm_compute; reflexivity. Qed.

Lemma c70_ok : ok podh_space podh_store c70_session (fun _ _ => True).
Proof.
  destruct (POD_ok podh_space podh_ip (fun _ => Ok (ex_cw, ex_cV)) (fun _ => [0; 1]%nat) ex_sqrt POD_new [1; 2]%nat
    (columns ex_D) podh_store (qi 1 0 1000) None [1; -2]%Z [10; 11]%nat) as (C & (Cr & Cc & HC) & H); try podh_hyps.
  destruct (H ex_cw ex_cV) as (E & U & pc & atol' & w & _ & _ & _ & _ & _ & _ & G).
  - reflexivity.
  - apply c70_corr; auto.
  - apply c70_sort.
  - apply c70_sqrt.
  - eapply ok_mono; [exact G|]. auto.
Qed.

Lemma c70_plain_ip : ip_space c70_plain.
Proof. apply wspace_ip. unfold hermitian. apply madj_mid. Qed.
Lemma c70_plain_set_up : set_up (Some 1%Z) 2 10 c70_plain.
Proof. split; [split; [simpl; lia|]; split; [simpl; lia|reflexivity]|simpl; lia]. Qed.
Lemma c70_scale_ip u v : ip c70_plain (c70_scale u) (c70_scale v) = ip podh_space u v.
Proof.
  assert (G : meq 1 1 (wip 2 mid (mmul 2 c70_root (fun i _ => u i)) (mmul 2 c70_root (fun i _ => v i)))
                      (wip 2 podh_W (fun i _ => u i) (fun i _ => v i))).
  { unfold wip. rewrite mmul_id_l, madj_mmul, !mmul_assoc, <- (mmul_assoc 2 1 2 2 (madj c70_root)).
    assert (R : meq 2 2 (mmul 2 (madj c70_root) c70_root) podh_W) by (apply meqb_true; vm_compute; reflexivity).
    rewrite R. reflexivity. }
  exact (meq_at _ _ _ _ G O O ltac:(lia) ltac:(lia)).
Qed.

(** Both runs give the same results and modes with the same inner products. *)
Example C70_methods_example : exists r g, forall eager,
  runs podh_space 2 10 eager podh_store c70_session (fun s x => x = r /\ forall a b, gram_at podh_space s a b = g a b) /\
  runs c70_plain 2 10 eager (c70_scale <$> podh_store) c70_session
    (fun s x => x = r /\ forall a b, gram_at c70_plain s a b = g a b).
Proof.
  destruct (C70_methods podh_space c70_session podh_store podh_ip c70_ok) as (r & g & G).
  exists r, g. intros eager. split; apply (G _ _ (Some 1%Z)); auto using podh_ip, podh_set_up, c70_plain_ip, c70_plain_set_up.
  intros a b. unfold gram_at. rewrite !lookup_fmap. destruct (podh_store !! a), (podh_store !! b); simpl; auto.
  f_equal. symmetry. apply c70_scale_ip.
Qed.
Example C70_isometry_example eager : exists r g,
  runs podh_space 2 10 eager podh_store c70_session (fun s x => x = r /\ forall a b, gram_at podh_space s a b = g a b) /\
  runs c70_plain 2 10 eager (c70_scale <$> podh_store) c70_session
    (fun s x => x = r /\ forall a b, gram_at c70_plain s a b = g a b).
Proof.
  apply (C70_isometry podh_space c70_plain c70_scale c70_session podh_store (Some 1%Z) (Some 1%Z));
    auto using podh_ip, podh_set_up, c70_plain_ip, c70_plain_set_up, c70_ok, c70_scale_ip.
Qed.
Example C70_weights_example eager : exists r g,
  runs podh_space 2 10 eager podh_store c70_session (fun s x => x = r /\ forall a b, gram_at podh_space s a b = g a b) /\
  runs c70_plain 2 10 eager (c70_scale <$> podh_store) c70_session
    (fun s x => x = r /\ forall a b, gram_at c70_plain s a b = g a b).
Proof.
  apply (C70_weights 2 podh_W c70_root 6 3 1 c70_session podh_store (Some 1%Z)).
  - apply meqb_true. vm_compute. reflexivity.
  - apply meqb_true. vm_compute. reflexivity.
  - apply podh_set_up.
  - apply c70_ok.
Qed.
Example C70_POD_example : same_for_alike podh_space podh_store c70_session.
Proof.
  destruct (C70_POD podh_space (fun _ => Ok (ex_cw, ex_cV)) (fun _ => [0; 1]%nat) ex_sqrt POD_new [1; 2]%nat
    (columns ex_D) podh_store (qi 1 0 1000) None [1; -2]%Z [10; 11]%nat) as (C & (Cr & Cc & HC) & H); try podh_hyps.
  apply (H ex_cw ex_cV).
  - reflexivity.
  - apply c70_corr; auto.
  - apply c70_sort.
  - apply c70_sqrt.
Qed.
Example C70_DMD_example : same_for_alike dh_space dh_store
  (DMD_session false dh_el (fun _ => [0; 1]%nat) dh_eig ex_sqrt DMD_new
    [1; 2]%nat (Some [2; 3]%nat) (Some (qi 1 0 8)) None None [0; 1]%Z [10; 11]%nat [0; 1]%Z [12; 15]%nat [-1; -2]%Z [13; 14]%nat).
Proof.
  pose proof dh_holds as Hh.
  destruct (C70_DMD dh_space dh_el (fun _ => [0; 1]%nat) dh_eig ex_sqrt DMD_new
    [1; 2]%nat (Some [2; 3]%nat) [1; 2]%nat [2; 3]%nat (columns (but_last_col ex_seq)) (columns (but_first_col ex_seq))
    dh_store (qi 1 0 8) None None [0; 1]%Z [10; 11]%nat [0; 1]%Z [12; 15]%nat [-1; -2]%Z [13; 14]%nat
    (wspace_ip 2 ex_W1 6 3 1 ex_hermitian)) as (C & AC & H);
    auto using pp_outputs; try (simpl; lia); try real_solve; try le_solve.
  { repeat split; simpl; lia. }
  { exact (holds_removelast _ _ _ Hh). }
  { change (columns (but_first_col ex_seq)) with (tl (columns ex_seq)). inversion Hh; assumption. }
  assert (ECC : aeq ex_C C).
  { apply aeq_sy. eapply aeq_tr; [exact AC|]. eapply aeq_tr; [apply wgram|].
    split; [reflexivity|]. split; [reflexivity|]. apply meqb_true. vm_compute. reflexivity. }
  assert (EL : dh_el C = Ok (ex_cw, ex_cV)).
  { unfold dh_el. rewrite <- (table_extensional _ _ _ ECC). apply table_hit. vm_compute. reflexivity. }
  destruct (H ex_cw ex_cV EL) as (E & U & M & (vals & cvecs & EE & -> & ->) & M1 & M2 & M3 & G).
  { apply (eigh_contract_aeq ex_C); [exact ECC|apply ex_C_contract]. }
  { apply c70_sort. }
  { apply c70_sqrt. }
  change (max_list None vals) with vals in *. change (max_cols None (length vals) cvecs) with cvecs in *.
  destruct (eigh_answer dh_el (fun _ => [0; 1]%nat) C ex_cw ex_cV (Some (qi 1 0 8)) None vals cvecs 2 ex_E (NdArray.ent ex_V) EL EE)
    as [-> Ec].
  { vm_compute. reflexivity. }
  { vm_compute. reflexivity. }
  change (length ex_E) with 2%nat in *. change (length (columns (but_last_col ex_seq))) with 2%nat in *.
  assert (AM : aeq ex_low M).
  { split; [auto|]. split; [auto|]. change (meq 2 2 (NdArray.ent ex_low) (NdArray.ent M)). rewrite M3.
    unfold low_order. change (length ex_E) with 2%nat. rewrite Ec.
    rewrite (proj2 (proj2 (wgram 2 ex_W1 6 3 1 (but_last_col ex_seq) (but_first_col ex_seq)))).
    apply meqb_true. vm_compute. reflexivity. }
  apply (G ex_lw ex_lL ex_lR).
  { unfold dh_eig. rewrite <- (table_extensional _ _ _ AM). apply table_hit. vm_compute. reflexivity. }
  { apply (eig_contract_aeq ex_low); [exact AM|apply ex_low_contract]. }
  { apply ex_low_pairing. }
Qed.

Print Assumptions C70_methods.
Print Assumptions C70_isometry.
Print Assumptions C70_weights.
Print Assumptions C70_POD.
Print Assumptions C70_DMD.
