(** Proofs for C48: the arrays of BPOD followed by Galerkin projection, and of ERA. *)
From Coq Require Import List Arith Lia Bool ZArith Field Ring Setoid Morphisms.
Import ListNotations.
From Verif Require Import Prelude Field FieldInst Matrix NdArray HankelModel DecompModel
  DecompProofs DecompProps VSArraysModel VSArraysProofs VSArraysProps PodModel PodProofs BpodModel BpodProofs
  BpodProps EraModel EraProofs EraProps.
Open Scope nat_scope.
Open Scope k_scope.

Section Powers.
Context {F : sfield}.
Implicit Types A : mat F.
Lemma mpow_mul n A a b : meq n n (mpow n (mpow n A a) b) (mpow n A (a * b)%nat).
Proof.
  induction b as [|b IH]; simpl.
  - rewrite Nat.mul_0_r. reflexivity.
  - replace (a * S b)%nat with (a + a * b)%nat by lia. rewrite mpow_add, IH. reflexivity.
Qed.
End Powers.

(** Both reduced systems. R rows and Q columns in the Hankel arrays. *)
Section Reduced.
Context {F : sfield}.
Add Field C48_F : (k_field F).
Variables (n R Q k p m : nat) (A B C X Y W O H H2 L V Phi Psi : mat F) (S s : nat -> F).
Hypothesis HO : meq R n (mmul n (madj Y) W) O.
Hypothesis HH : meq R Q H (mmul n O X).
Hypothesis HH2 : meq R Q H2 (mmul n O (mmul n A X)).
Hypothesis HV : meq R k (mmul Q H V) (mmul k L (mdiag S)).
Hypothesis HL : meq Q k (mmul R (madj H) L) (mmul k V (mdiag S)).
Hypothesis HPhi : meq n k (mmul k Phi (mdiag s)) (mmul Q X V).
Hypothesis HPsi : meq n k (mmul k Psi (mdiag s)) (mmul R Y L).
Hypothesis (Hs : forall i, i < k -> s i * s i = S i) (Hn : forall i, i < k -> s i <> 0)
  (Hr : forall i, i < k -> real (s i)).
Hypothesis (HXB : meq n m X B) (HOC : meq p n O C) (Hm : (m <= Q)%nat) (Hp : (p <= R)%nat).
Let ei := mdiag (fun i => 1 / s i).

Lemma Sreal i : i < k -> real (S i).
Proof. intros Hi. rewrite <- Hs by auto. apply real_mul; auto. Qed.
Lemma eireal i : i < k -> real (1 / s i).
Proof. intros Hi. apply real_div; auto using real_1. Qed.
Lemma s_ei : meq k k (mmul k (mdiag s) ei) mid.
Proof. unfold ei. rewrite mmul_diag_diag. apply mdiag_1. intros. field. auto. Qed.
Lemma ei_S : meq k k (mmul k ei (mdiag S)) (mdiag s).
Proof. unfold ei. rewrite mmul_diag_diag. apply mdiag_ext. intros. rewrite <- Hs by auto. field. auto. Qed.
Lemma S_ei : meq k k (mmul k (mdiag S) ei) (mdiag s).
Proof. unfold ei. rewrite mmul_diag_diag. apply mdiag_ext. intros. rewrite <- Hs by auto. field. auto. Qed.

Lemma Phi_eq : meq n k Phi (mmul Q X (mmul k V ei)).
Proof. rewrite <- mmul_assoc, <- HPhi, mmul_assoc, s_ei, mmul_id_r. reflexivity. Qed.
Lemma Psi_eq : meq n k Psi (mmul R Y (mmul k L ei)).
Proof. rewrite <- mmul_assoc, <- HPsi, mmul_assoc, s_ei, mmul_id_r. reflexivity. Qed.

Lemma against l Z : meq k l (wip n W Psi Z) (mmul k ei (mmul R (madj L) (mmul n O Z))).
Proof.
  unfold wip. rewrite Psi_eq, !madj_mmul. unfold ei. rewrite (madj_diag_real k) by apply eireal.
  rewrite !mmul_assoc. rewrite <- (mmul_assoc R l n n (madj Y) W Z), HO. reflexivity.
Qed.

Lemma reduced_A : meq k k (wip n W Psi (mmul n A Phi))
  (mmul k ei (mmul R (madj L) (mmul Q H2 (mmul k V ei)))).
Proof. rewrite against, HH2, Phi_eq, !mmul_assoc. reflexivity. Qed.

Lemma reduced_B : meq k m (wip n W Psi B) (mmul k (mdiag s) (madj V)).
Proof.
  rewrite <- HXB. apply (meq_sub k Q); auto.
  rewrite against, <- HH.
  assert (E : meq k Q (mmul R (madj L) H) (mmul k (mdiag S) (madj V))).
  { transitivity (madj (mmul R (madj H) L)).
    - rewrite madj_mmul, madj_madj. reflexivity.
    - rewrite HL, madj_mmul, (madj_diag_real k) by apply Sreal. reflexivity. }
  rewrite E, <- mmul_assoc, ei_S. reflexivity.
Qed.

Lemma reduced_C : meq p k (mmul n C Phi) (mmul k L (mdiag s)).
Proof.
  rewrite <- HOC. apply (meq_sub R k); auto.
  rewrite Phi_eq, <- mmul_assoc, <- HH, <- mmul_assoc, HV, mmul_assoc, S_ei. reflexivity.
Qed.
End Reduced.

(** What compute_model returns, for at most as many states as there are singular values. *)
Section Call.
Context {F : sfield} (sl : arr F -> res (arr F * list F * arr F)) (eigvals : arr F -> res (list F)) (sqrt : F -> F).
Lemma era_call self Markovs M mc mo o c H H2 U0 S0 Vh0 n :
  set_Markovs Markovs = Ok M -> assemble_Hankel M mc mo = Ok (H, H2) -> is_Hankel M o c H H2 ->
  (a3_m M <= nc H)%nat -> (a3_p M <= nr H)%nat ->
  sl H = Ok (U0, S0, Vh0) -> svd_contract H U0 S0 Vh0 -> (n <= length S0)%nat ->
  (forall X, exists l, eigvals X = Ok l) ->
  let V := madj (ent Vh0) in let Er := firstn n S0 in
  exists self', compute_model sl eigvals sqrt self Markovs n mc mo = Ok (self',
    (Arr n n (mmul n (mdiag (at1 (map (inv_sqrt sqrt) Er))) (mmul (nr H) (madj (ent U0)) (mmul (nc H) (ent H2)
      (mmul n V (mdiag (at1 (map (inv_sqrt sqrt) Er))))))),
     Arr n (a3_m M) (mmul n (mdiag (at1 (map sqrt Er))) (madj V)),
     Arr (a3_p M) n (mmul n (ent U0) (mdiag (at1 (map sqrt Er)))))).
Proof.
  intros EM EH HH mQ pR HL HC Ln Heig V Er.
  pose proof HH as (H1r & H1c & H2r & H2c & _). rewrite <- H1r in H2r. rewrite <- H1c in H2c. set (k := length S0) in *.
  assert (Esvd : svd sl H None None = Ok (first_cols k U0, S0, first_cols k (conj_T Vh0))).
  { unfold svd. rewrite HL. cbn [rbind fst snd num_kept]. fold k. unfold k at 2. rewrite firstn_all. reflexivity. }
  assert (LE : length Er = n) by (unfold Er; rewrite firstn_length; fold k; lia).
  assert (U0r : nr U0 = nr H) by apply (svd_Ur _ _ _ _ HC).
  assert (U0c : nc U0 = k) by apply (svd_Uc _ _ _ _ HC).
  assert (V0r : nr Vh0 = k) by apply (svd_Vr _ _ _ _ HC).
  assert (V0c : nc Vh0 = nc H) by apply (svd_Vc _ _ _ _ HC).
  set (Ar := Arr n n _). destruct (Heig Ar) as (ev & Eev).
  eexists. unfold compute_model. rewrite EM. cbn [rbind e_mc e_mo]. rewrite EH. cbn [rbind fst snd].
  rewrite Esvd. cbn [rbind fst snd]. fold Er.
  assert (N1 : Nat.min n (Nat.min k k) = n) by lia.
  unfold dot at 1. cbn [nc nr first_cols conj_T diag ent]. rewrite !map_length, LE, V0r, N1, Nat.eqb_refl.
  cbn [rbind]. unfold dot at 1. cbn [nc nr first_cols conj_T diag ent]. rewrite H2c, V0c, Nat.eqb_refl.
  cbn [rbind]. unfold dot at 1. cbn [nc nr first_cols conj_T diag ent]. rewrite U0r, H2r, Nat.eqb_refl.
  cbn [rbind]. unfold dot at 1. cbn [nc nr first_cols conj_T diag ent]. rewrite U0c, !map_length, LE, N1, Nat.eqb_refl.
  cbn [rbind]. unfold dot at 1. cbn [nc nr first_cols conj_T diag ent col_slice]. rewrite !map_length, LE, V0r, N1, Nat.eqb_refl.
  cbn [rbind]. unfold dot at 1. cbn [nc nr first_cols conj_T diag ent row_slice]. rewrite !map_length, LE, U0c, N1, Nat.eqb_refl.
  cbn [rbind]. rewrite U0r, V0c, (Nat.min_l (a3_m M) (nc H)), (Nat.min_l (a3_p M) (nr H)), !Nat.sub_0_r by auto.
  fold V. change (mmul n (mdiag (at1 (map sqrt Er))) (fun i j => madj V i (0 + j)%nat))
    with (mmul n (mdiag (at1 (map sqrt Er))) (madj V)).
  change (mmul n (fun i j => ent U0 (0 + i)%nat j) (mdiag (at1 (map sqrt Er))))
    with (mmul n (ent U0) (mdiag (at1 (map sqrt Er)))).
  fold Ar. rewrite Eev. cbn [rbind]. reflexivity.
Qed.

(** The parts of the decomposition in BPOD's results. *)
Lemma bpod_svd X Y p q di ai wopt atol rtol r :
  BPOD_arrays sl sqrt false X Y p q di ai wopt atol rtol = Ok r ->
  svd sl (b_Hankel r) atol rtol = Ok (b_L r, b_sing_vals r, b_R r).
Proof.
  unfold BPOD_arrays. intros E.
  repeat match goal with
  | E : rbind ?x _ = Ok _ |- _ => destruct x eqn:?; cbn [rbind] in E; [|discriminate]
  end.
  injection E as <-. cbn [b_Hankel b_L b_sing_vals b_R].
  match goal with H : svd _ _ _ _ = Ok ?t |- _ => destruct t as [[? ?] ?] end. assumption.
Qed.
Lemma svd_cols A U0 S0 Vh0 atol rtol U S V :
  sl A = Ok (U0, S0, Vh0) -> svd sl A atol rtol = Ok (U, S, V) ->
  exists k, U = first_cols k U0 /\ V = first_cols k (conj_T Vh0) /\ S = firstn k S0.
Proof.
  intros HL. unfold svd. rewrite HL. cbn [rbind fst snd]. destruct (num_kept atol rtol S0) as [k|]; [|discriminate].
  cbn [rbind]. intros E. injection E as <- <- <-. exists k. auto.
Qed.
End Call.
