(** C32: Galerkin projection of linear systems, arrays. *)
From Coq Require Import List Arith Lia Bool ZArith Field Ring Setoid Morphisms.
Import ListNotations.
From Verif Require Import Prelude Field FieldInst Matrix NdArray DecompModel DecompProps VSArraysModel VSArraysProofs PodModel GalerkinModel.
Open Scope nat_scope.
Open Scope k_scope.

(** [R] holds the coordinates in the basis [Phi] (n by r) of the projection of the
    columns of [X] (n by k): the error X - Phi R is orthogonal to the adjoint basis, and
    no other R does that. *)
Record galerkin {F : sfield} (n r k : nat) (W Phi Psi X R : mat F) : Prop := {
  gk_orth : meq r k (wip n W Psi (msub X (mmul r Phi R))) mzero;
  gk_unique : forall R', meq r k (wip n W Psi (msub X (mmul r Phi R'))) mzero -> meq r k R' R
}.

Section Algebra.
Context {F : sfield}.
Add Field Ff_gal : (k_field F).
Implicit Types (W Phi Psi X R G T : mat F).

Lemma wip_sub_r m k n W Psi X Y : meq m k (wip n W Psi (msub X Y)) (msub (wip n W Psi X) (wip n W Psi Y)).
Proof. unfold wip. rewrite mmul_sub_r, mmul_sub_r. reflexivity. Qed.
Lemma orth_iff n r k W Phi Psi X R :
  meq r k (wip n W Psi (msub X (mmul r Phi R))) mzero <-> meq r k (wip n W Psi X) (mmul r (wip n W Psi Phi) R).
Proof. rewrite wip_sub_r, msub_zero, wip_mul_r. reflexivity. Qed.

Lemma galerkin_inv n r k W Phi Psi X G T :
  meq r r G (wip n W Psi Phi) -> meq r r (mmul r T G) mid ->
  galerkin n r k W Phi Psi X (mmul r T (wip n W Psi X)).
Proof.
  intros HG HT. pose proof (left_inverse_right r G T HT) as HT'. split.
  - apply orth_iff. rewrite <- HG, <- mmul_assoc, HT', mmul_id_l. reflexivity.
  - intros R' H. apply orth_iff in H. rewrite H, <- HG, <- mmul_assoc, HT, mmul_id_l. reflexivity.
Qed.
Lemma galerkin_ext n r k W Phi Psi X R R' : meq r k R R' -> galerkin n r k W Phi Psi X R -> galerkin n r k W Phi Psi X R'.
Proof.
  intros E [H1 H2]. split.
  - apply orth_iff. rewrite <- E. apply orth_iff. exact H1.
  - intros R'' H. rewrite <- E. auto.
Qed.

(** Vectors in the span of the basis: exact, whatever the adjoint basis. *)
Theorem C32_exact n r k W Phi Psi X R M :
  galerkin n r k W Phi Psi X R -> meq n k X (mmul r Phi M) -> meq r k R M.
Proof.
  intros [_ HU] HX. symmetry. apply HU. apply orth_iff. rewrite HX, wip_mul_r. reflexivity.
Qed.

(** A basis of a subspace that is mapped to itself: the reduced operator is the
    operator's matrix on the subspace, and so are its powers. *)
Theorem C32_invariant n r W Phi Psi A M Ar :
  galerkin n r r W Phi Psi (mmul n A Phi) Ar -> meq n r (mmul n A Phi) (mmul r Phi M) ->
  meq r r Ar M /\ forall j, meq n r (mmul n (mpow n A j) Phi) (mmul r Phi (mpow r Ar j)).
Proof.
  intros HA HM. assert (E : meq r r Ar M) by (apply (C32_exact n r r W Phi Psi _ _ _ HA HM)).
  split; auto. intros j. apply mpow_intertwine. rewrite E. exact HM.
Qed.

(** If also the inputs act in the subspace, the reduced model has the responses of the
    full model. *)
Theorem C32_response n r p m W Phi Psi A B C M N Ar Br :
  galerkin n r r W Phi Psi (mmul n A Phi) Ar -> galerkin n r p W Phi Psi B Br ->
  meq n r (mmul n A Phi) (mmul r Phi M) -> meq n p B (mmul r Phi N) ->
  forall j, meq m p (mmul n C (mmul n (mpow n A j) B)) (mmul r (mmul n C Phi) (mmul r (mpow r Ar j) Br)).
Proof.
  intros HA HB HM HN j. destruct (C32_invariant n r W Phi Psi A M Ar HA HM) as [_ HP].
  rewrite (C32_exact n r p W Phi Psi B Br N HB HN). rewrite HN.
  rewrite <- (mmul_assoc n p n r (mpow n A j)), HP, !mmul_assoc. reflexivity.
Qed.

(** Biorthonormal bases: the inner products alone. *)
Theorem C32_biorthonormal n r k W Phi Psi X :
  meq r r (wip n W Psi Phi) mid -> galerkin n r k W Phi Psi X (wip n W Psi X).
Proof.
  intros H. eapply galerkin_ext; [|apply (galerkin_inv n r k W Phi Psi X mid mid); [symmetry; exact H|apply mmul_id_l]].
  rewrite mmul_id_l. reflexivity.
Qed.

End Algebra.

Section Arrays.
Context {F : sfield} (inv : arr F -> res (arr F)).
Implicit Types (basis X Y R : arr F) (adj : option (arr F)) (w : option (nd F)) (ws : weights F) (o : gal F).

(** What the constructor leaves. *)
Lemma ga_new_ok basis adj orth w o : ga_new false basis adj orth w = Ok o ->
  exists ws, set_weights w = Ok ws /\
    o = Gal basis (match adj with None => basis | Some a => a end)
          (match adj with None => true | Some _ => false end) orth ws None None None None /\
    forall a, adj = Some a -> nr a = nr basis /\ nc a = nc basis.
Proof.
  unfold ga_new. destruct adj as [a|].
  - destruct (Nat.eqb_spec (nr a) (nr basis)) as [E1|]; [|discriminate].
    destruct (Nat.eqb_spec (nc a) (nc basis)) as [E2|]; [|discriminate]. simpl.
    destruct (set_weights w) as [ws|e]; [|discriminate]. intros [= <-]. exists ws. split; auto. split; auto.
    intros a' [= ->]. auto.
  - destruct (set_weights w) as [ws|e]; [|discriminate]. intros [= <-]. exists ws. split; auto. split; auto. discriminate.
Qed.

(** The constructor's exceptions. *)
Theorem C32_constructor basis adj orth w :
  (forall a, adj = Some a -> nr a <> nr basis \/ nc a <> nc basis -> ga_new false basis adj orth w = Raise ValueError) /\
  ga_new true basis adj orth w = Raise RuntimeError.
Proof.
  split; [|reflexivity]. intros a -> H. simpl.
  destruct (Nat.eqb_spec (nr a) (nr basis)); destruct (Nat.eqb_spec (nc a) (nc basis)); auto. destruct H; contradiction.
Qed.

(** ** Histories *)

(** [o] and [o'] differ at most in the attributes that calls set; a stored projection
    array is the one that would be computed. *)
Definition gram_of (o : gal F) : res (arr F) :=
  rbind (if ga_symmetric o then symm_inner_product_array (ga_weights o) (ga_basis o)
         else inner_product_array (ga_weights o) (ga_adjoint o) (ga_basis o)) (fun G => inv G).
Definition like (o o' : gal F) : Prop :=
  ga_basis o' = ga_basis o /\ ga_adjoint o' = ga_adjoint o /\ ga_symmetric o' = ga_symmetric o /\
  ga_orthonormal o' = ga_orthonormal o /\ ga_weights o' = ga_weights o /\
  forall T, ga_proj o' = Some T -> gram_of o = Ok T.

Lemma get_proj_like o o' : like o o' ->
  snd (get_proj inv o') = gram_of o /\ like o (fst (get_proj inv o')).
Proof.
  intros (H1 & H2 & H3 & H4 & H5 & H6). unfold get_proj.
  destruct (ga_proj o') as [T|] eqn:E; simpl.
  - split; [symmetry; apply H6; reflexivity|]. do 5 (split; [assumption|]). rewrite E. exact H6.
  - rewrite H1, H2, H3, H5. fold (gram_of o). destruct (gram_of o) as [T|e] eqn:EG; simpl.
    + split; auto. do 5 (split; [auto|]). intros T' [= <-]. auto.
    + split; auto. do 5 (split; [auto|]). rewrite E. discriminate.
Qed.

Lemma put_like (put : gal F -> arr F -> gal F) o o' X : put = put_A \/ put = put_B \/ put = put_C -> like o o' -> like o (put o' X).
Proof. intros [-> |[-> | ->]] (H1 & H2 & H3 & H4 & H5 & H6); repeat split; simpl; auto. Qed.

(** What reduce_A and reduce_B return. *)
Definition value (o : gal F) (X : arr F) : res (arr F) :=
  rbind (inner_product_array (ga_weights o) (ga_adjoint o) X)
    (fun R => if ga_orthonormal o then Ok R else rbind (gram_of o) (fun T => dot T R)).

Lemma reduce_like put o o' X : put = put_A \/ put = put_B -> like o o' ->
  snd (reduce inv put o' X) = value o X /\ like o (fst (reduce inv put o' X)) /\
  (put = put_A -> ga_B (fst (reduce inv put o' X)) = ga_B o' /\
     forall R, snd (reduce inv put o' X) = Ok R -> ga_A (fst (reduce inv put o' X)) = Some R) /\
  (put = put_B -> ga_A (fst (reduce inv put o' X)) = ga_A o' /\
     forall R, snd (reduce inv put o' X) = Ok R -> ga_B (fst (reduce inv put o' X)) = Some R).
Proof.
  intros Hput HL. assert (Hput' : put = put_A \/ put = put_B \/ put = put_C) by tauto.
  pose proof HL as (H1 & H2 & H3 & H4 & H5 & H6). unfold reduce, value. rewrite H2, H5.
  destruct (inner_product_array _ _ X) as [R|e]; simpl.
  2:{ split; auto. split; auto. split; intros _; split; auto; discriminate. }
  pose proof (put_like put o o' R Hput' HL) as HL1.
  assert (EO : ga_orthonormal (put o' R) = ga_orthonormal o) by (destruct Hput as [-> | ->]; simpl; auto).
  rewrite EO. destruct (ga_orthonormal o).
  { simpl. split; auto. split; auto. split; intros ->; simpl; split; auto; intros R' [= <-]; auto. }
  pose proof (get_proj_like o (put o' R) HL1) as (G1 & G2).
  assert (G3 : ga_A (fst (get_proj inv (put o' R))) = ga_A (put o' R) /\ ga_B (fst (get_proj inv (put o' R))) = ga_B (put o' R)).
  { unfold get_proj. destruct (ga_proj (put o' R)); [auto|]. destruct (rbind _ _); auto. }
  destruct (get_proj inv (put o' R)) as [o2 [T|e]]; simpl in *; rewrite <- G1; simpl.
  - destruct (dot T R) as [R'|e]; simpl.
    + split; auto. split; [apply put_like; auto|]. destruct G3 as [G3 G4].
      split; intros ->; simpl in *; split; auto; intros R'' [= <-]; auto.
    + split; auto. split; auto. destruct G3 as [G3 G4]. split; intros ->; simpl in *; split; auto; discriminate.
  - split; auto. split; auto. destruct G3 as [G3 G4]. split; intros ->; simpl in *; split; auto; discriminate.
Qed.

Lemma model_like o o' X Y C : like o o' ->
  snd (compute_model inv o' X Y C)
  = rbind (value o X) (fun a => rbind (value o Y) (fun b => Ok (a, b, ndmin2 C))) /\
  like o (fst (compute_model inv o' X Y C)).
Proof.
  intros HL. unfold compute_model, reduce_A, reduce_B.
  destruct (reduce_like put_A o o' X (or_introl eq_refl) HL) as (E1 & L1 & A1 & _).
  destruct (A1 eq_refl) as [_ A1']. clear A1.
  destruct (reduce inv put_A o' X) as [o1 [a|e]]; simpl in *; rewrite <- E1; simpl; [|auto].
  destruct (reduce_like put_B o o1 Y (or_intror eq_refl) L1) as (E2 & L2 & _ & A2).
  destruct (A2 eq_refl) as [A2' A2'']. clear A2.
  destruct (reduce inv put_B o1 Y) as [o2 [b|e]]; simpl in *; rewrite <- E2; simpl; [|auto].
  rewrite A2', (A1' a eq_refl), (A2'' b eq_refl). simpl. split; auto.
Qed.

Lemma like_refl o : ga_proj o = None -> like o o.
Proof. intros H. do 5 (split; [auto|]). rewrite H. discriminate. Qed.

Lemma gcall_like o o' c : like o o' -> ga_proj o = None ->
  snd (do_gcall inv o' c) = snd (do_gcall inv o c) /\ like o (fst (do_gcall inv o' c)).
Proof.
  intros HL HN. pose proof (like_refl o HN) as HR. destruct c as [X|X|C|X Y C]; simpl.
  - destruct (reduce_like put_A o o' X (or_introl eq_refl) HL) as (E1 & L1 & _).
    destruct (reduce_like put_A o o X (or_introl eq_refl) HR) as (E2 & _).
    unfold reduce_A. rewrite E1, E2. auto.
  - destruct (reduce_like put_B o o' X (or_intror eq_refl) HL) as (E1 & L1 & _).
    destruct (reduce_like put_B o o X (or_intror eq_refl) HR) as (E2 & _).
    unfold reduce_B. rewrite E1, E2. auto.
  - split; auto.
  - destruct (model_like o o' X Y C HL) as (E1 & L1). destruct (model_like o o X Y C HR) as (E2 & _).
    rewrite E1, E2. auto.
Qed.

(** In every history of calls on an object, each call returns (or raises) what it does
    on a new object. *)
Theorem C32_history basis adj orth w o cs : ga_new false basis adj orth w = Ok o ->
  snd (do_gcalls inv o cs) = map (fun c => snd (do_gcall inv o c)) cs.
Proof.
  intros H. destruct (ga_new_ok _ _ _ _ _ H) as (ws & _ & -> & _).
  set (o := Gal _ _ _ _ _ _ _ _ _). assert (HN : ga_proj o = None) by reflexivity.
  assert (G : forall cs o', like o o' -> snd (do_gcalls inv o' cs) = map (fun c => snd (do_gcall inv o c)) cs).
  { clear cs. induction cs as [|c cs IH]; intros o' HL; [reflexivity|]. simpl.
    destruct (gcall_like o o' c HL HN) as [E L]. rewrite E, IH by auto. reflexivity. }
  apply G, like_refl, HN.
Qed.

(** compute_model is the three reductions. *)
Theorem C32_model basis adj orth w o X Y C : ga_new false basis adj orth w = Ok o ->
  snd (do_gcall inv o (CallModel X Y C)) =
  rbind (snd (do_gcall inv o (CallA X))) (fun a => rbind (snd (do_gcall inv o (CallB Y))) (fun b => Ok (a ++ b ++ [ndmin2 C]))).
Proof.
  intros H. destruct (ga_new_ok _ _ _ _ _ H) as (ws & _ & -> & _).
  set (o := Gal _ _ _ _ _ _ _ _ _). assert (HR : like o o) by (apply like_refl; reflexivity).
  simpl. destruct (model_like o o X Y C HR) as (E2 & _).
  destruct (reduce_like put_A o o X (or_introl eq_refl) HR) as (E1 & _).
  destruct (reduce_like put_B o o Y (or_intror eq_refl) HR) as (E3 & _).
  unfold reduce_A, reduce_B. rewrite E1, E2, E3. destruct (value o X); simpl; auto. destruct (value o Y); simpl; auto.
Qed.

(** After any history the attributes hold what the next call returns. *)
Theorem C32_attributes basis adj orth w o cs X R : ga_new false basis adj orth w = Ok o ->
  let o' := fst (do_gcalls inv o cs) in
  (snd (reduce_A inv o' X) = Ok R -> ga_A (fst (reduce_A inv o' X)) = Some R /\ ga_B (fst (reduce_A inv o' X)) = ga_B o') /\
  (snd (reduce_B inv o' X) = Ok R -> ga_B (fst (reduce_B inv o' X)) = Some R /\ ga_A (fst (reduce_B inv o' X)) = ga_A o').
Proof.
  intros H. destruct (ga_new_ok _ _ _ _ _ H) as (ws & _ & -> & _).
  set (o := Gal _ _ _ _ _ _ _ _ _). assert (HR : like o o) by (apply like_refl; reflexivity).
  assert (G : forall cs o', like o o' -> like o (fst (do_gcalls inv o' cs))).
  { clear cs. induction cs as [|c cs IH]; intros o' HL; [exact HL|]. simpl. apply IH. apply gcall_like; auto. }
  specialize (G cs o HR). cbv zeta. set (o' := fst _) in *. split; intros E.
  - destruct (reduce_like put_A o o' X (or_introl eq_refl) G) as (_ & _ & A1 & _). destruct (A1 eq_refl). auto.
  - destruct (reduce_like put_B o o' X (or_intror eq_refl) G) as (_ & _ & _ & A1). destruct (A1 eq_refl). auto.
Qed.

(** Each call leaves the attributes of the others alone, also when it raises, and after
    compute_model the attributes are the arrays returned; on any object. *)
Theorem C32_kept (o : gal F) X Y C :
  (let o' := fst (reduce_A inv o X) in ga_B o' = ga_B o /\ ga_C o' = ga_C o) /\
  (let o' := fst (reduce_B inv o X) in ga_A o' = ga_A o /\ ga_C o' = ga_C o) /\
  (let o' := fst (reduce_C o C) in ga_A o' = ga_A o /\ ga_B o' = ga_B o /\ ga_proj o' = ga_proj o) /\
  forall a b c, snd (compute_model inv o X Y C) = Ok (a, b, c) ->
    let o' := fst (compute_model inv o X Y C) in ga_A o' = Some a /\ ga_B o' = Some b /\ ga_C o' = Some c.
Proof.
  assert (GP : forall o1, let o2 := fst (get_proj inv o1) in ga_A o2 = ga_A o1 /\ ga_B o2 = ga_B o1 /\ ga_C o2 = ga_C o1).
  { intros o1. unfold get_proj. destruct (ga_proj o1); [auto|]. destruct (rbind _ _); auto. }
  assert (RA : forall o1 Z, let o2 := fst (reduce_A inv o1 Z) in ga_B o2 = ga_B o1 /\ ga_C o2 = ga_C o1).
  { intros o1 Z. unfold reduce_A, reduce. destruct (inner_product_array _ _ _) as [R|e]; [|auto].
    destruct (ga_orthonormal _); [auto|]. specialize (GP (put_A o1 R)). destruct GP as (_ & G2 & G3).
    destruct (get_proj inv (put_A o1 R)) as [o2 [T|e]]; [|auto]. cbn in G2, G3.
    destruct (dot T R); auto. }
  assert (RB : forall o1 Z, let o2 := fst (reduce_B inv o1 Z) in ga_A o2 = ga_A o1 /\ ga_C o2 = ga_C o1).
  { intros o1 Z. unfold reduce_B, reduce. destruct (inner_product_array _ _ _) as [R|e]; [|auto].
    destruct (ga_orthonormal _); [auto|]. specialize (GP (put_B o1 R)). destruct GP as (G1 & _ & G3).
    destruct (get_proj inv (put_B o1 R)) as [o2 [T|e]]; [|auto]. cbn in G1, G3.
    destruct (dot T R); auto. }
  split; [apply RA|]. split; [apply RB|]. split; [cbn; auto|].
  intros a b c. unfold compute_model.
  destruct (reduce_A inv o X) as [o1 [a1|e]]; [|discriminate].
  destruct (reduce_B inv o1 Y) as [o2 [b1|e]]; [|discriminate].
  unfold reduce_C. cbn [fst snd ga_A ga_B ga_C put_C attr].
  destruct (ga_A o2) as [x|]; [|discriminate]. destruct (ga_B o2) as [y|]; [|discriminate].
  cbn. intros [= <- <- <-]. auto.
Qed.

(** ** Values *)

(** reduce_A and reduce_B compute the Galerkin projection; [X]: A on the basis vectors,
    or B on the standard basis. *)
Theorem C32_arrays basis adj w ws o X : 
  ga_new false basis adj false w = Ok o -> set_weights w = Ok ws -> wfits (nr basis) ws -> nr X = nr basis ->
  let Psi := match adj with None => basis | Some a => a end in
  exists G, nr G = nc basis /\ nc G = nc basis /\
    meq (nc basis) (nc basis) (ent G) (wip (nr basis) (wmat ws) (ent Psi) (ent basis)) /\
    (forall T, inv G = Ok T -> inv_contract G T ->
      exists R, snd (reduce_A inv o X) = Ok R /\ snd (reduce_B inv o X) = Ok R /\
        nr R = nc basis /\ nc R = nc X /\
        galerkin (nr basis) (nc basis) (nc X) (wmat ws) (ent basis) (ent Psi) (ent X) (ent R)) /\
    (forall e, inv G = Raise e -> snd (reduce_A inv o X) = Raise e /\ snd (reduce_B inv o X) = Raise e).
Proof.
  intros H Hws Hw HX Psi. destruct (ga_new_ok _ _ _ _ _ H) as (ws' & Ews & -> & Ha).
  rewrite Hws in Ews. injection Ews as <-. fold Psi.
  assert (Pr : nr Psi = nr basis) by (unfold Psi; destruct adj; [apply Ha; auto|auto]).
  assert (Pc : nc Psi = nc basis) by (unfold Psi; destruct adj; [apply Ha; auto|auto]).
  destruct (ip_ok ws Psi basis) as (G & EG & Gr & Gc & HG); auto; [rewrite Pr; auto|].
  destruct (ip_ok ws Psi X) as (Q & EQ & Qr & Qc & HQ); [congruence|rewrite Pr; auto|].
  rewrite Pr, Pc in *. exists G. do 3 (split; [auto|]).
  set (o := Gal _ _ _ _ _ _ _ _ _). assert (HR : like o o) by (apply like_refl; reflexivity).
  destruct (reduce_like put_A o o X (or_introl eq_refl) HR) as (E1 & _).
  destruct (reduce_like put_B o o X (or_intror eq_refl) HR) as (E2 & _).
  unfold reduce_A, reduce_B. rewrite E1, E2. unfold value. simpl. rewrite EQ. simpl.
  assert (EO : gram_of o = inv G).
  { unfold gram_of. simpl. destruct adj; simpl; unfold symm_inner_product_array, Psi in *; rewrite EG; reflexivity. }
  rewrite EO. split; [|intros e ->; auto].
  intros T ET (T1 & T2 & T3 & T4). rewrite ET. simpl. unfold dot. rewrite T2, Gr, Qr, Nat.eqb_refl.
  eexists. split; [reflexivity|]. split; [reflexivity|]. simpl. split; [congruence|]. split; [auto|].
  rewrite Gr in T4.
  eapply galerkin_ext; [|apply (galerkin_inv (nr basis) (nc basis) (nc X) (wmat ws) (ent basis) (ent Psi) (ent X) (ent G) (ent T) HG T4)].
  rewrite HQ. reflexivity.
Qed.

(** The short cut for orthonormal bases gives the inner products, which are the
    projection when the bases are biorthonormal. *)
Theorem C32_orthonormal basis adj w ws o X :
  ga_new false basis adj true w = Ok o -> set_weights w = Ok ws -> wfits (nr basis) ws -> nr X = nr basis ->
  let Psi := match adj with None => basis | Some a => a end in
  exists R, snd (reduce_A inv o X) = Ok R /\ snd (reduce_B inv o X) = Ok R /\ nr R = nc basis /\ nc R = nc X /\
    meq (nc basis) (nc X) (ent R) (wip (nr basis) (wmat ws) (ent Psi) (ent X)) /\
    (meq (nc basis) (nc basis) (wip (nr basis) (wmat ws) (ent Psi) (ent basis)) mid ->
     galerkin (nr basis) (nc basis) (nc X) (wmat ws) (ent basis) (ent Psi) (ent X) (ent R)).
Proof.
  intros H Hws Hw HX Psi. destruct (ga_new_ok _ _ _ _ _ H) as (ws' & Ews & -> & Ha).
  rewrite Hws in Ews. injection Ews as <-. fold Psi.
  assert (Pr : nr Psi = nr basis) by (unfold Psi; destruct adj; [apply Ha; auto|auto]).
  assert (Pc : nc Psi = nc basis) by (unfold Psi; destruct adj; [apply Ha; auto|auto]).
  destruct (ip_ok ws Psi X) as (Q & EQ & Qr & Qc & HQ); [congruence|rewrite Pr; auto|].
  rewrite Pr, Pc in *. set (o := Gal _ _ _ _ _ _ _ _ _). assert (HR : like o o) by (apply like_refl; reflexivity).
  destruct (reduce_like put_A o o X (or_introl eq_refl) HR) as (E1 & _).
  destruct (reduce_like put_B o o X (or_intror eq_refl) HR) as (E2 & _).
  unfold reduce_A, reduce_B. rewrite E1, E2. unfold value. simpl. rewrite EQ. simpl.
  exists Q. do 5 (split; [auto|]). intros HI.
  eapply galerkin_ext; [symmetry; exact HQ|]. apply C32_biorthonormal. exact HI.
Qed.

(** A failure of the inversion leaves the inner products in the attribute, as if the
    basis were orthonormal. *)
Theorem C32_failed_attribute basis adj w ws o X e : 
  ga_new false basis adj false w = Ok o -> set_weights w = Ok ws -> wfits (nr basis) ws -> nr X = nr basis ->
  (forall G, inv G = Raise e) ->
  exists R, snd (reduce_A inv o X) = Raise e /\ ga_A (fst (reduce_A inv o X)) = Some R /\
    let Psi := match adj with None => basis | Some a => a end in
    meq (nc basis) (nc X) (ent R) (wip (nr basis) (wmat ws) (ent Psi) (ent X)).
Proof.
  intros H Hws Hw HX Hinv. destruct (ga_new_ok _ _ _ _ _ H) as (ws' & Ews & -> & Ha).
  rewrite Hws in Ews. injection Ews as <-. set (Psi := match adj with None => basis | Some a => a end) in *.
  assert (Pr : nr Psi = nr basis) by (unfold Psi; destruct adj; [apply Ha; auto|auto]).
  assert (Pc : nc Psi = nc basis) by (unfold Psi; destruct adj; [apply Ha; auto|auto]).
  destruct (ip_ok ws Psi basis) as (G & EG & _); auto; [rewrite Pr; auto|].
  destruct (ip_ok ws Psi X) as (Q & EQ & Qr & Qc & HQ); [congruence|rewrite Pr; auto|]. rewrite Pr, Pc in *.
  assert (ES : (if match adj with Some _ => false | None => true end
    then symm_inner_product_array ws basis else inner_product_array ws Psi basis) = Ok G).
  { destruct adj; [exact EG|]. exact EG. }
  unfold reduce_A, reduce. cbn [ga_weights ga_adjoint]. rewrite EQ. unfold put_A, get_proj.
  cbn [ga_proj ga_symmetric ga_weights ga_basis ga_adjoint ga_orthonormal].
  rewrite ES. cbn [rbind]. rewrite Hinv. cbn. exists Q. auto.
Qed.

(** standard_basis: the j-th vector selects the j-th column. *)
Theorem C32_standard_basis n (B : mat F) m j : (j < n)%nat ->
  length (standard_basis (F := F) n) = n /\ length (nth j (standard_basis (F := F) n) []) = n /\
  meq m 1 (mmul n B (fun i _ => at1 (nth j (standard_basis n) []) i)) (fun i _ => B i j).
Proof.
  intros Hj. unfold standard_basis.
  assert (E : nth j (map (fun i => map (fun l => mid (F := F) i l) (seq 0 n)) (seq 0 n)) [] = map (fun l => mid j l) (seq 0 n)).
  { rewrite (nth_indep _ [] (map (fun l => mid O l) (seq 0 n))) by (rewrite map_length, seq_length; auto).
    rewrite (map_nth (fun i => map (fun l => mid i l) (seq 0 n))), seq_nth by auto. reflexivity. }
  rewrite E, !map_length, !seq_length. do 2 (split; [auto|]). split. intros i k Hi Hk. unfold mmul.
  pose proof (meq_at _ _ _ _ (mmul_id_r (S i) n B) i j (Nat.lt_succ_diag_r i) Hj) as HI. unfold mmul in HI. rewrite <- HI.
  apply sum_ext. intros l Hl. unfold at1. rewrite (nth_indep _ 0 (mid j O)) by (rewrite map_length, seq_length; auto).
  rewrite (map_nth (fun l => mid j l)), seq_nth by auto. unfold mid. rewrite Nat.eqb_sym. reflexivity.
Qed.


(** reduce_C returns its argument; a one-dimensional one, a number for each basis vector, is
    the row of a system with one output. *)
Theorem C32_C (o : gal F) C : exists R, snd (do_gcall inv o (CallC C)) = Ok [R] /\ ga_C (fst (do_gcall inv o (CallC C))) = Some R /\
  match C with
  | D2 X => R = X
  | D1 l => nr R = 1%nat /\ nc R = length l /\ forall j, (j < length l)%nat -> ent R 0%nat j = at1 l j
  end.
Proof. eexists. do 2 (split; [reflexivity|]). destruct C; simpl; auto. Qed.

End Arrays.

(** ** Examples over the Gaussian rationals *)

(** A 3 by 3 operator with the invariant subspace of the first two coordinates, a
    complex basis of it, and an unrelated adjoint basis; weights 2, 1, 3. *)
Definition g_A : mat QI := ent (of_rows 3 [[q 1; qi 0 1 1; q 5]; [q 2; q 3; q 1]; [q 0; q 0; q 4]]).
Definition g_Phi : arr QI := of_rows 2 [[q 1; qi 0 1 1]; [q 1; q 1]; [q 0; q 0]].
Definition g_Psi : arr QI := of_rows 2 [[q 1; q 0]; [q 0; q 1]; [q 7; qi 0 2 1]].
Definition g_w : option (nd QI) := Some (Nd [3]%nat [q 2; q 1; q 3]).
Definition g_X : arr QI := Arr 3 2 (mmul 3 g_A (ent g_Phi)).
(** [inv] by the formula for 2 by 2 arrays. *)
Definition g_inv (A : arr QI) : res (arr QI) :=
  let d := ent A 0%nat 0%nat * ent A 1%nat 1%nat - ent A 0%nat 1%nat * ent A 1%nat 0%nat in
  if keqb d 0 then Raise LinAlgError
  else Ok (of_rows 2 [[ent A 1%nat 1%nat / d; - ent A 0%nat 1%nat / d]; [- ent A 1%nat 0%nat / d; ent A 0%nat 0%nat / d]]).
(** The operator on the basis. *)
Definition g_M : mat QI := ent (of_rows 2 [[qi 5 (-3) 2; qi 3 1 2]; [qi 5 3 2; qi 3 3 2]]).


(** C32_arrays and C32_invariant: the reduced operator is g_M although the adjoint basis
    leaves the subspace. *)
Example C32_example : exists o R, ga_new false g_Phi (Some g_Psi) false g_w = Ok o /\
  snd (reduce_A g_inv o g_X) = Ok R /\ meq 2 2 (ent R) g_M.
Proof.
  eexists. 
  destruct (C32_arrays g_inv g_Phi (Some g_Psi) g_w (W1 [q 2; q 1; q 3]) _ g_X eq_refl eq_refl) as (G & G1 & G2 & G3 & H & _);
    try reflexivity.
  assert (E : forall i j, (i < 2)%nat -> (j < 2)%nat -> ent G i j = wip 3 (mdiag (at1 [q 2; q 1; q 3])) (ent g_Psi) (ent g_Phi) i j)
    by (intros; apply (meq_at _ _ _ _ G3); auto).
  assert (ET : exists T, g_inv G = Ok T /\ inv_contract G T).
  { unfold g_inv. rewrite !E by lia.
    match goal with |- context [keqb ?d 0] => replace (keqb d 0) with false by (vm_compute; reflexivity) end.
    eexists. split; [reflexivity|]. split; [auto|]. split; [auto|]. split; [congruence|].
    rewrite G1. change (nc g_Phi) with 2%nat.
    rewrite G3 at 1. apply meqb_true. vm_compute. reflexivity. }
  destruct ET as (T & ET & CT). destruct (H T ET CT) as (R & E1 & _ & _ & _ & HG).
  exists R. split; [reflexivity|]. split; [exact E1|].
  apply (C32_invariant 3 2 _ _ _ g_A g_M (ent R) HG). apply meqb_true. vm_compute. reflexivity.
Qed.

(** C32_history: the same call first and last, between them a failing one. *)
Example C32_history_example o : ga_new false g_Phi None false None = Ok o ->
  snd (do_gcalls g_inv o [CallA g_X; CallB (eye 2); CallC (D1 [q 1; q 2]); CallModel g_X g_X (D1 [q 1]); CallA g_X])
  = [snd (do_gcall g_inv o (CallA g_X)); Raise ValueError; Ok [Arr 1 2 (fun _ j => at1 [q 1; q 2] j)];
     snd (do_gcall g_inv o (CallModel g_X g_X (D1 [q 1]))); snd (do_gcall g_inv o (CallA g_X))].
Proof.
  intros H. rewrite (C32_history g_inv _ _ _ _ _ _ H). cbn [map].
  destruct (ga_new_ok _ _ _ _ _ H) as (ws & E & -> & _). injection E as <-. reflexivity.
Qed.

(** C32_orthonormal with an orthonormal complex basis. *)
Definition g_U : arr QI := of_rows 2 [[qi 3 0 5; qi 0 4 5]; [qi 0 4 5; qi 3 0 5]].
Definition g_Y : arr QI := of_rows 1 [[q 5]; [qi 0 10 1]].
(** One output: a row. *)
Example C32_C_example o : exists R, snd (do_gcall (fun _ => Raise LinAlgError) o (CallC (D1 [q 3; qi 0 1 1]))) = Ok [R] /\
  nr R = 1%nat /\ nc R = 2%nat /\ ent R 0%nat 1%nat = qi 0 1 1.
Proof. eexists. split; [reflexivity|]. auto. Qed.

Example C32_orthonormal_example : exists o R, ga_new false g_U None true None = Ok o /\
  snd (reduce_B g_inv o g_Y) = Ok R /\ galerkin 2 2 1 mid (ent g_U) (ent g_U) (ent g_Y) (ent R).
Proof.
  eexists. destruct (C32_orthonormal g_inv g_U None None WNone _ g_Y eq_refl eq_refl I eq_refl)
    as (R & _ & E2 & _ & _ & _ & HG).
  exists R. split; [reflexivity|]. split; [exact E2|]. apply HG. apply meqb_true. vm_compute. reflexivity.
Qed.
(** C32_response: single input in the subspace, output the sum of all entries. *)
Example C32_response_example Ar Br : galerkin 3 2 2 (mdiag (at1 [q 2; q 1; q 3])) (ent g_Phi) (ent g_Psi) (mmul 3 g_A (ent g_Phi)) Ar ->
  galerkin 3 2 1 (mdiag (at1 [q 2; q 1; q 3])) (ent g_Phi) (ent g_Psi) (ent (of_rows 1 [[qi 1 1 1]; [q 2]; [q 0]])) Br ->
  forall j, mmul 3 (fun _ _ => 1) (mmul 3 (mpow 3 g_A j) (ent (of_rows 1 [[qi 1 1 1]; [q 2]; [q 0]]))) O O
    = mmul 2 (mmul 3 (fun _ _ => 1) (ent g_Phi)) (mmul 2 (mpow 2 Ar j) Br) O O.
Proof.
  intros HA HB j. refine (meq_at 1 1 _ _ (C32_response 3 2 1 1 _ _ _ _ _ _ g_M (fun _ _ => q 1) _ _ HA HB _ _ j) O O _ _);
    try lia; apply meqb_true; vm_compute; reflexivity.
Qed.
Example C32_failed_example : exists o R, ga_new false (of_rows 2 [[q 1; q 1]; [q 1; q 1]]) None false None = Ok o /\
  snd (reduce_A (fun _ => Raise LinAlgError) o (eye 2)) = Raise LinAlgError /\
  ga_A (fst (reduce_A (fun _ => Raise LinAlgError) o (eye 2))) = Some R /\ ent R 0%nat 0%nat = q 1.
Proof. do 2 eexists. split; [reflexivity|]. split; [reflexivity|]. split; [reflexivity|]. apply keqb_true. vm_compute. reflexivity. Qed.

(** Bases that are biorthonormal but not orthonormal: the coordinates are inner products
    with the adjoint basis. *)
Example C32_biorthonormal_example :
  galerkin 2 1 1 mid (fun i _ => at1 [q 1; q 3] i) (fun i _ => at1 [q 1; q 0] i) (fun i _ => at1 [q 5; qi 0 1 1] i) (fun _ _ => q 5).
Proof.
  set (Phi := fun i _ : nat => at1 [q 1; q 3] i). set (Psi := fun i _ : nat => at1 [q 1; q 0] i).
  set (X := fun i _ : nat => at1 [q 5; qi 0 1 1] i).
  pose proof (C32_biorthonormal 2 1 1 mid Phi Psi X ltac:(apply meqb_true; vm_compute; reflexivity)) as H.
  assert (E : meq 1 1 (wip 2 mid Psi X) (fun _ _ => q 5)) by (apply meqb_true; vm_compute; reflexivity).
  destruct H as [H1 H2]. split.
  - apply meqb_true. vm_compute. reflexivity.
  - intros R' H. rewrite <- E. apply H2, H.
Qed.
Example C32_constructor_example :
  ga_new false g_Phi (Some g_U) false None = Raise ValueError /\
  ga_new true g_Phi (Some g_Psi) false None = Raise RuntimeError.
Proof.
  split.
  - apply (proj1 (C32_constructor g_Phi (Some g_U) false None) g_U eq_refl). left. discriminate.
  - apply (C32_constructor g_Phi (Some g_Psi) false None).
Qed.
Example C32_model_example : exists o, ga_new false g_Phi (Some g_Psi) false g_w = Ok o /\
  snd (do_gcall g_inv o (CallModel g_X g_X (D1 [q 1]))) =
  rbind (snd (do_gcall g_inv o (CallA g_X))) (fun a => rbind (snd (do_gcall g_inv o (CallB g_X))) (fun b => Ok (a ++ b ++ [ndmin2 (D1 [q 1])]))).
Proof. eexists. split; [reflexivity|]. apply (C32_model g_inv g_Phi (Some g_Psi) false g_w). reflexivity. Qed.
(** A second operator replaces the first in the attribute; the input array stays. *)
Example C32_attributes_example : exists o R, ga_new false g_U None true None = Ok o /\
  let o' := fst (do_gcalls g_inv o [CallB g_Y; CallA (eye 2)]) in
  snd (reduce_A g_inv o' g_U) = Ok R /\ ga_A (fst (reduce_A g_inv o' g_U)) = Some R /\
  ga_B (fst (reduce_A g_inv o' g_U)) = ga_B o'.
Proof.
  assert (E : exists o, ga_new false g_U None true None = Ok o) by (eexists; reflexivity). destruct E as [o E].
  assert (ER : exists R, snd (reduce_A g_inv (fst (do_gcalls g_inv o [CallB g_Y; CallA (eye 2)])) g_U) = Ok R).
  { injection E as <-. eexists. reflexivity. }
  destruct ER as [R ER]. exists o, R. split; [exact E|]. split; [exact ER|].
  apply (C32_attributes g_inv g_U None true None o [CallB g_Y; CallA (eye 2)] g_U R E). exact ER.
Qed.
(** The inverse raises in reduce_B and in reduce_A, with reduce_C between. *)
Example C32_kept_example : exists o b c, ga_new false g_Phi (Some g_Psi) false g_w = Ok o /\
  let raising := fun _ => Raise LinAlgError in
  let o1 := fst (reduce_C (fst (reduce_B raising o g_X)) (D2 g_U)) in
  snd (reduce_A raising o1 g_X) = Raise LinAlgError /\ ga_B o1 = Some b /\ ga_C o1 = Some c /\
  ga_B (fst (reduce_A raising o1 g_X)) = Some b /\ ga_C (fst (reduce_A raising o1 g_X)) = Some c.
Proof.
  eexists. eexists. eexists. split; [reflexivity|]. cbv zeta.
  split; [reflexivity|]. split; [reflexivity|]. split; [reflexivity|].
  destruct (C32_kept (fun _ => Raise LinAlgError) (fst (reduce_C (fst (reduce_B (fun _ => Raise LinAlgError)
    (Gal g_Phi g_Psi false false (W1 [q 2; q 1; q 3]) None None None None) g_X)) (D2 g_U))) g_X g_X (D2 g_U)) as [[H1 H2] _].
  split; [etransitivity; [exact H1|reflexivity]|etransitivity; [exact H2|reflexivity]].
Qed.
Example C32_failed_attribute_example : exists o R, ga_new false g_Phi (Some g_Psi) false g_w = Ok o /\
  snd (reduce_A (fun _ => Raise LinAlgError) o g_X) = Raise LinAlgError /\
  ga_A (fst (reduce_A (fun _ => Raise LinAlgError) o g_X)) = Some R /\
  meq 2 2 (ent R) (wip 3 (mdiag (at1 [q 2; q 1; q 3])) (ent g_Psi) (ent g_X)).
Proof.
  assert (E : exists o, ga_new false g_Phi (Some g_Psi) false g_w = Ok o) by (eexists; reflexivity). destruct E as [o E].
  destruct (C32_failed_attribute (fun _ => Raise LinAlgError) g_Phi (Some g_Psi) g_w (W1 [q 2; q 1; q 3]) o g_X LinAlgError E)
    as (R & H1 & H2 & H3); try reflexivity. exists o, R. auto.
Qed.
(** The second column of an array, as the image of the second unit vector. *)
Example C32_standard_basis_example :
  meq 3 1 (mmul 3 g_A (fun i _ => at1 (nth 1 (standard_basis 3) []) i)) (ent (of_rows 1 [[qi 0 1 1]; [q 3]; [q 0]])).
Proof.
  rewrite (proj2 (proj2 (C32_standard_basis 3 g_A 3 1 ltac:(lia)))). apply meqb_true. vm_compute. reflexivity.
Qed.

Print Assumptions C32_exact.
Print Assumptions C32_invariant.
Print Assumptions C32_response.
Print Assumptions C32_biorthonormal.
Print Assumptions C32_constructor.
Print Assumptions C32_history.
Print Assumptions C32_model.
Print Assumptions C32_attributes.
Print Assumptions C32_kept.
Print Assumptions C32_arrays.
Print Assumptions C32_orthonormal.
Print Assumptions C32_failed_attribute.
Print Assumptions C32_standard_basis.
Print Assumptions C32_C.
