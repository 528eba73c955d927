(** Property C70 for BPODHandles, TLSqrDMDHandles and LTIGalerkinProjectionHandles. *)
From stdpp Require Import gmap list.
From Coq Require Import ZArith Lia Field Ring Setoid Morphisms.
From Verif Require Import Prelude Field FieldInst Matrix NdArray HankelModel DecompModel DecompProofs DecompProps
  VSArraysModel VSArraysProofs PodModel PodProofs PodProps BpodModel BpodProofs BpodProps
  DmdModel DmdProofs DmdCore DmdSnaps TlsModel TlsProofs TlsProps GalerkinModel GalerkinProps
  Spmd LinCombModel InnerProdProps HandlesModel HandlesProofs HandlesSpace HandlesExamples BpodHandlesModel BpodHandlesProps
  GalerkinHandlesModel GalerkinHandlesProps
  DmdHandlesModel DmdHandlesProofs DmdHandlesModes DmdHandlesDecomp DmdHandlesProps DmdExamples TlsExamples DmdHandlesExamples
  DmdSeqProps DmdSeqHandles DmdExactProps DmdPairsHandles GramProofs GramProps.
Open Scope nat_scope.
Open Scope k_scope.

(** BPODHandles. *)
Theorem C70_BPOD {F : sfield} {V} (S : space F V) lapack sqrt o direct adjoint dv av p q mx my st atol rtol
    di dmodes ai amodes :
  ip_space S -> holds st direct dv -> holds st adjoint av ->
  (0 < p)%nat -> (0 < q)%nat -> (0 < mx)%nat -> (0 < my)%nat ->
  length dv = (mx * p)%nat -> length av = (my * q)%nat ->
  (forall d, block_Hankel p q mx my (fun i j => ip S (nth i av d) (nth j dv d))) ->
  length dmodes = length di -> length amodes = length ai -> NoDup (dmodes ++ amodes) ->
  (forall h, h ∈ direct \/ h ∈ adjoint -> h ∉ dmodes ++ amodes) ->
  tol_real atol -> tol_real rtol ->
  exists H : arr F,
    (nr H = length av /\ nc H = length dv /\
     forall i j d, i < length av -> j < length dv -> NdArray.ent H i j = ip S (nth i av d) (nth j dv d)) /\
    forall U0 S0 Vh0, lapack H = Ok (U0, S0, Vh0) -> svd_contract H U0 S0 Vh0 ->
    (forall i, i < length S0 -> above atol rtol S0 i -> at1 S0 i <> 0 /\ sqrt_ok sqrt (at1 S0 i)) ->
    same_for_alike S st (BPOD_session lapack sqrt o direct adjoint p q atol rtol di dmodes ai amodes).
Proof.
  intros HS Hd Ha Hp Hq Hmx Hmy LD LA HB Ldm Lam Hnd Hdis Rat Rrt.
  destruct (BPOD_ok S HS lapack sqrt o direct adjoint dv av p q mx my st atol rtol di dmodes ai amodes
    Hd Ha Hp Hq Hmx Hmy LD LA HB Ldm Lam Hnd Hdis Rat Rrt) as (H & HH & G).
  exists H. split; [exact HH|]. intros U0 S0 Vh0 H1 H2 H3.
  destruct (G U0 S0 Vh0 H1 H2 H3) as (E & L & R & dc & ac & _ & _ & _ & _ & _ & _ & K).
  apply C70_methods; auto. eapply ok_mono; [exact K|]. auto.
Qed.

(** TLSqrDMDHandles. *)
Theorem C70_TLS {F : sfield} {V} (S : space F V) el argsort eig sqrt (o : dmd_obj F) vecs adv xh yh xv yv st t rtol mx
    ei eh pi ph ai ah :
  ip_space S -> handles_data vecs adv xh yh -> holds st xh xv -> holds st yh yv ->
  (adv = None -> dh_adv o = None) -> dmd_outputs vecs adv ei eh pi ph ai ah -> real t -> kle 0 t ->
  exists Sm, nr Sm = length xv /\ nc Sm = length xv /\
    meq (length xv) (length xv) (NdArray.ent Sm)
      (madd (NdArray.ent (gram S xv xv)) (NdArray.ent (gram S yv yv))) /\
    forall w0 V0, el Sm = Ok (w0, V0) -> eigh_contract Sm w0 V0 ->
      argsort_contract (map kabs w0) (argsort (map kabs w0)) ->
      exists Es Vs PC, kept_by (eigh el argsort Sm (Some t) None true) mx Es Vs /\
        nr PC = length xv /\ nc PC = length xv /\
        meq (length xv) (length xv) (NdArray.ent PC)
          (mmul (length xv) (madj (projection true Vs))
             (mmul (length xv) (NdArray.ent (gram S xv xv)) (projection true Vs))) /\
        forall w0' V0', el PC = Ok (w0', V0') -> eigh_contract PC w0' V0' ->
          argsort_contract (map kabs w0') (argsort (map kabs w0')) ->
          (forall e, In e w0' -> klt_p 0 e -> sqrt_ok sqrt e) ->
          exists E U M, kept_by (eigh el argsort PC (Some t) None true) mx E U /\ nr M = length E /\ nc M = length E /\
            meq (length E) (length E) (NdArray.ent M)
              (low_order sqrt (length xv) (projection true Vs) E (NdArray.ent U) (NdArray.ent (gram S xv yv))) /\
            forall w L0 R, eig M = Ok (w, L0, R) -> eig_contract M w L0 R ->
              (forall i, i < length E -> pairing (length E) L0 R i i <> 0) ->
              same_for_alike S st (DMD_session true el argsort eig sqrt o vecs adv (Some t) rtol mx ei eh pi ph ai ah).
Proof.
  intros HS HD Hx Hy Ho Hout Rt Ht.
  destruct (TLS_ok S HS el argsort eig sqrt o vecs adv xh yh xv yv st t rtol mx ei eh pi ph ai ah HD Hx Hy Ho Hout Rt Ht)
    as (Sm & S1 & S2 & S3 & H).
  exists Sm. do 3 (split; [auto|]). intros w0 V0 H1 H2 H3.
  destruct (H w0 V0 H1 H2 H3) as (Es & Vs & w1 & PC & G1 & _ & G2 & G3 & G4 & G).
  exists Es, Vs, PC. do 4 (split; [auto|]). intros w0' V0' K1 K2 K3 K4.
  destruct (G w0' V0' K1 K2 K3 K4) as (E & U & w1' & M & J1 & _ & J2 & J3 & J4 & J).
  exists E, U, M. do 4 (split; [auto|]). intros w L0 R N1 N2 N3.
  destruct (J w L0 R N1 N2 N3) as (L & pc & apc & sp & o' & _ & _ & Q).
  apply C70_methods; auto. eapply ok_mono; [exact Q|]. auto.
Qed.

(** LTIGalerkinProjectionHandles, any history of calls. *)
Theorem C70_Galerkin {F : sfield} {V} (S : space F V) inv basis adj orth (o : gh F) bv av T st cs :
  ip_space S -> gh_new basis adj orth = Ok o -> basis <> [] ->
  holds st basis bv -> holds st (adj_of basis adj) av ->
  (orth = false -> inv (gram S av bv) = Ok T /\ inv_contract (gram S av bv) T) ->
  (forall c xs, c ∈ cs -> xs ∈ uses c -> xs <> [] /\ exists xv, holds st xs xv) ->
  same_for_alike S st (do_hcalls inv o cs).
Proof.
  intros HS Hn Nb Hb Ha HT HU. destruct (gh_new_ok _ _ _ _ Hn) as [-> L]. apply C70_methods; auto.
  eapply ok_mono; [apply (hcalls_ok S HS inv basis adj orth T bv av st); auto|auto]. repeat split; discriminate.
Qed.

(** ** Instances: the data of the examples for C21, C68 and C32 *)
Example C70_BPOD_example : same_for_alike bpodh_space bpodh_store
  (BPOD_session (fun _ => Ok (bx_U, bx_S, bx_Vh)) ex_sqrt BPOD_new [1; 2]%nat [3; 4]%nat 1 1
     (Some (qi 1 0 10)) None [1; 0]%Z [10; 11]%nat [-2]%Z [12]%nat).
Proof.
  assert (HW : hermitian 2 bpodh_W) by (apply meqb_true; vm_compute; reflexivity).
  assert (HB : block_Hankel 1 1 2 2 (wip 2 bpodh_W (NdArray.ent bx_Y) (NdArray.ent bx_X))).
  { intros i j i' j' a b Hi Hi' Hj Hj' Ha Hb Hs. apply keqb_true.
    destruct a; [|lia]. destruct b; [|lia].
    destruct i as [|[|]], j as [|[|]], i' as [|[|]], j' as [|[|]]; try lia; vm_compute; reflexivity. }
  destruct (C70_BPOD bpodh_space
    (fun _ => Ok (bx_U, bx_S, bx_Vh)) ex_sqrt BPOD_new [1; 2]%nat [3; 4]%nat (columns bx_X) (columns bx_Y)
    1%nat 1%nat 2%nat 2%nat bpodh_store (Some (qi 1 0 10)) None [1; 0]%Z [10; 11]%nat [-2]%Z [12]%nat
    (wspace_ip 2 bpodh_W 6 3 1 HW)) as (H & (Hr & Hc & HH) & G);
    try lia; try reflexivity.
  - repeat constructor.
  - repeat constructor.
  - intros d i j i' j' a b Hi Hi' Hj Hj' Ha Hb Hs. unfold bpodh_space. rewrite !columns_ip by (simpl; lia).
    apply HB; auto.
  - apply (bool_decide_unpack (NoDup [10; 11; 12]%nat)). reflexivity.
  - intros h Hh. apply (bool_decide_unpack (h ∉ [10; 11; 12]%nat)).
    destruct Hh as [Hh|Hh]; repeat (apply elem_of_cons in Hh; destruct Hh as [->|Hh]; [reflexivity|]); inversion Hh.
  - apply keqb_true. vm_compute. reflexivity.
  - apply (G bx_U bx_S bx_Vh).
    + reflexivity.
    + apply bx_contract; auto. split. intros i j Hi Hj.
      rewrite (HH i j (fun _ => 0)) by auto. unfold bpodh_space. rewrite columns_ip by auto. reflexivity.
    + intros i Hi _. change (length bx_S) with 2%nat in Hi. destruct i as [|[|]]; [..|lia].
      all: split; [intros E0; apply (f_equal (fun x => keqb x 0)) in E0; vm_compute in E0; discriminate|].
      all: apply sq_ok_dec; vm_compute; reflexivity.
Qed.

Example C70_TLS_example : same_for_alike dh_space d1_store
  (DMD_session true d1_el d1_sort d1_eig ex_sqrt DMD_new
    [1; 2]%nat None (Some (qi 1 0 8)) None None [0]%Z [10]%nat [0]%Z [11]%nat [-1]%Z [12]%nat).
Proof.
  destruct (C70_TLS dh_space d1_el d1_sort d1_eig ex_sqrt DMD_new [1; 2]%nat None
    [1]%nat [2]%nat (columns d1_x) (columns d1_y) d1_store (qi 1 0 8) None None [0]%Z [10]%nat [0]%Z [11]%nat [-1]%Z [12]%nat
    (wspace_ip 2 ex_W1 6 3 1 ex_hermitian)) as (Sm & S1 & S2 & S3 & H);
    auto using d1_outputs; try (simpl; lia); try real_solve; try le_solve.
  { repeat split; simpl; lia. }
  { repeat constructor. }
  { repeat constructor. }
  change (length (columns d1_x)) with 1%nat in *.
  assert (GX : forall A B i j, (i < nc A)%nat -> (j < nc B)%nat ->
    NdArray.ent (gram dh_space (columns A) (columns B)) i j = wip 2 ex_W1 (NdArray.ent A) (NdArray.ent B) i j).
  { intros A B i j Hi Hj. apply (meq_at _ _ _ _ (proj2 (proj2 (wgram 2 ex_W1 6 3 1 A B))));
      [change (i < length (columns A))%nat|change (j < length (columns B))%nat]; rewrite columns_length; auto. }
  assert (ES : NdArray.ent Sm 0%nat 0%nat = q 21).
  { rewrite (meq_at _ _ _ _ S3 0%nat 0%nat) by lia. unfold madd. rewrite !GX by (simpl; lia).
    apply keqb_true. vm_compute. reflexivity. }
  assert (RS : real (NdArray.ent Sm 0%nat 0%nat)) by (rewrite ES; real_solve).
  destruct (d1_el_ok Sm S1 S2 RS) as [EL HC]. rewrite ES in EL, HC.
  destruct (H _ _ EL HC (d1_sort_ok _)) as (Es & Vs & PC & KB & P1 & P2 & P3 & H'). clear H.
  destruct (d1_eigh Sm (q 21) (qi 1 0 8) Es Vs S1 S2 ES KB) as [-> EVs]; [vm_compute; reflexivity|vm_compute; reflexivity|].
  assert (Q1 : meq 1 1 (projection true Vs) mid).
  { destruct KB as (vals & cvecs & EE & _ & ->). unfold projection.
    assert (NC : nc (max_cols None (length vals) cvecs) = 1%nat).
    { change (nc cvecs = 1%nat). unfold eigh in EE. rewrite EL in EE.
      pose proof (f_equal (rmap (fun p => nc (snd p))) EE) as G. vm_compute in G. injection G as G. auto. }
    rewrite NC, EVs. rewrite madj_mid, mmul_id_l. reflexivity. }
  assert (EP : NdArray.ent PC 0%nat 0%nat = q 4).
  { transitivity (mmul 1 (madj mid) (mmul 1 (wip 2 ex_W1 (NdArray.ent d1_x) (NdArray.ent d1_x)) mid) 0%nat 0%nat).
    - apply (meq_at 1 1 (NdArray.ent PC)); [|lia|lia]. rewrite P3, Q1.
      assert (E0 : meq 1 1 (NdArray.ent (gram dh_space (columns d1_x) (columns d1_x)))
        (wip 2 ex_W1 (NdArray.ent d1_x) (NdArray.ent d1_x))).
      { apply d1_one. apply GX; simpl; lia. }
      rewrite E0. reflexivity.
    - apply keqb_true. vm_compute. reflexivity. }
  assert (RP : real (NdArray.ent PC 0%nat 0%nat)) by (rewrite EP; real_solve).
  destruct (d1_el_ok PC P1 P2 RP) as [EL' HC']. rewrite EP in EL', HC'.
  destruct (H' _ _ EL' HC' (d1_sort_ok _)) as (E & U & M & KB' & M1 & M2 & M3 & G).
  { intros e [<-|[]] _; apply sq_ok_dec; vm_compute; reflexivity. }
  destruct (d1_eigh PC (q 4) (qi 1 0 8) E U P1 P2 EP KB') as [-> EU]; [vm_compute; reflexivity|vm_compute; reflexivity|].
  change (length [q 4]) with 1%nat in *.
  assert (EM : NdArray.ent M 0%nat 0%nat = qi 0 2 1).
  { transitivity (low_order ex_sqrt 1 mid [q 4] mid (wip 2 ex_W1 (NdArray.ent d1_x) (NdArray.ent d1_y)) 0%nat 0%nat).
    - apply (meq_at 1 1 (NdArray.ent M)); [|lia|lia]. rewrite M3. unfold low_order. change (length [q 4]) with 1%nat.
      assert (E0 : meq 1 1 (NdArray.ent (gram dh_space (columns d1_x) (columns d1_y)))
        (wip 2 ex_W1 (NdArray.ent d1_x) (NdArray.ent d1_y))).
      { apply d1_one. apply GX; simpl; lia. }
      rewrite Q1, EU, E0. reflexivity.
    - apply keqb_true. vm_compute. reflexivity. }
  destruct (d1_eig_ok M M1 M2) as [EG HG]. rewrite EM in EG, HG.
  exact (G _ _ _ EG HG d1_pairing).
Qed.

Example C70_Galerkin_example : exists o : gh QI, gh_new [1; 2]%nat (Some [3; 4]%nat) false = Ok o /\
  same_for_alike (wspace (F := QI) 3 gh_W 9 3 1) gh_store
    (do_hcalls g_inv o [GB [6]%nat; GModel [5; 6]%nat [5]%nat (D2 (eye 2)); GA [5; 6]%nat]).
Proof.
  destruct gh_inverse as (T & ET & CT). eexists. split; [reflexivity|].
  assert (HX : holds gh_store [5; 6]%nat (columns g_X)) by (repeat constructor).
  assert (HPhi : holds gh_store [1; 2]%nat (columns g_Phi)) by (repeat constructor).
  assert (HPsi : holds gh_store [3; 4]%nat (columns g_Psi)) by (repeat constructor).
  assert (H6 : holds gh_store [6]%nat [gh_col g_X 1]) by (repeat constructor).
  assert (H5 : holds gh_store [5]%nat [gh_col g_X 0]) by (repeat constructor).
  apply (C70_Galerkin (wspace (F := QI) 3 gh_W 9 3 1) g_inv [1; 2]%nat (Some [3; 4]%nat) false _ (columns g_Phi) (columns g_Psi) T gh_store
      [GB [6]%nat; GModel [5; 6]%nat [5]%nat (D2 (eye 2)); GA [5; 6]%nat] (wspace_ip 3 gh_W 9 3 1 gh_hermitian) eq_refl);
    [discriminate|exact HPhi|exact HPsi|intros _; split; assumption|].
  intros c xs Hc Hxs. apply elem_of_list_In in Hc. apply elem_of_list_In in Hxs.
  destruct Hc as [<-|[<-|[<-|[]]]].
  + destruct Hxs as [<-|[]]. split; [discriminate|eauto].
  + destruct Hxs as [<-|[<-|[]]]; (split; [discriminate|eauto]).
  + destruct Hxs as [<-|[]]. split; [discriminate|eauto].
Qed.

Print Assumptions C70_BPOD.
Print Assumptions C70_TLS.
Print Assumptions C70_Galerkin.
