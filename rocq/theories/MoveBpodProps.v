(** Property C70 for compute_BPOD_arrays: a change of coordinates of the data and the
    weights changes no singular value and no coefficient, and the modes change with the
    data. The data need not come from impulse responses, and nothing is assumed of LAPACK
    but that it looks at shape and entries. *)
From stdpp Require Import gmap list.
From Coq Require Import ZArith Lia Field Ring Setoid Morphisms.
From Verif Require Import Prelude Field FieldInst Matrix NdArray HankelModel DecompModel DecompProofs DecompProps
  VSArraysModel VSArraysProofs PodModel PodProofs PodProps BpodModel BpodProofs BpodProps DmdModel DmdProofs DmdProps
  TlsModel TlsProofs TlsProps DmdExamples TlsExamples MoveProps.
Open Scope nat_scope.
Open Scope k_scope.

Section Hankel.
Context {F : sfield}.

Lemma hcat_aeq (A A' B B' : arr F) : aeq A A' -> aeq B B' -> nr A = nr B -> aeq (hcat A B) (hcat A' B').
Proof.
  intros (A1 & A2 & A3) (B1 & B2 & B3) E. split; [exact A1|]. split; [simpl; congruence|].
  split. intros i j Hi Hj. cbn [nr nc NdArray.ent hcat vcat] in *. rewrite <- A2. destruct (Nat.ltb_spec j (nc A)); [apply A3; lia|apply B3; lia].
Qed.
Lemma vcat_aeq (A A' B B' : arr F) : aeq A A' -> aeq B B' -> nc A = nc B -> aeq (vcat A B) (vcat A' B').
Proof.
  intros (A1 & A2 & A3) (B1 & B2 & B3) E. split; [simpl; congruence|]. split; [exact A2|].
  split. intros i j Hi Hj. cbn [nr nc NdArray.ent hcat vcat] in *. rewrite <- A1. destruct (Nat.ltb_spec i (nr A)); [apply A3; lia|apply B3; lia].
Qed.
Lemma hstack_aeq (l l' : list (arr F)) : Forall2 aeq l l' -> both aeq (hstack l) (hstack l').
Proof.
  induction 1 as [|A A' l l' HA H IH]; [reflexivity|]. simpl. destruct H as [|B B' l l' HB H]; [exact HA|].
  destruct (hstack (B :: l)) as [C|e], (hstack (B' :: l')) as [C'|e']; cbn [both] in IH; try contradiction; [|exact IH].
  pose proof HA as (A1 & _). pose proof IH as (C1 & _). rewrite <- A1, <- C1.
  destruct (Nat.eqb_spec (nr A) (nr C)); [apply hcat_aeq; auto|reflexivity].
Qed.
Lemma vstack_aeq (l l' : list (arr F)) : Forall2 aeq l l' -> both aeq (vstack l) (vstack l').
Proof.
  induction 1 as [|A A' l l' HA H IH]; [reflexivity|]. simpl. destruct H as [|B B' l l' HB H]; [exact HA|].
  destruct (vstack (B :: l)) as [C|e], (vstack (B' :: l')) as [C'|e']; cbn [both] in IH; try contradiction; [|exact IH].
  pose proof HA as (_ & A1 & _). pose proof IH as (_ & C1 & _). rewrite <- A1, <- C1.
  destruct (Nat.eqb_spec (nc A) (nc C)); [apply vcat_aeq; auto|reflexivity].
Qed.
Lemma np_array_aeq (l l' : list (arr F)) : Forall2 aeq l l' -> both (Forall2 aeq) (np_array l) (np_array l').
Proof.
  intros [|A A' k k' HA H]; [constructor|]. unfold np_array.
  assert (E : forallb (same_shape A') k' = forallb (same_shape A) k).
  { induction H as [|B B' k k' HB H IH]; [reflexivity|]. simpl. rewrite IH.
    destruct HA as (A1 & A2 & _), HB as (B1 & B2 & _). unfold same_shape. rewrite A1, A2, B1, B2. reflexivity. }
  rewrite E. destruct (forallb (same_shape A) k); [|reflexivity]. constructor; auto.
Qed.
Lemma rmapM_both {A B} (Q : B -> B -> Prop) (f f' : A -> res B) l : (forall a, both Q (f a) (f' a)) ->
  both (Forall2 Q) (rmapM f l) (rmapM f' l).
Proof.
  intros H. induction l as [|a l IH]; [constructor|]. simpl.
  eapply bind_both; [apply H|]. intros b b' Hb. eapply bind_both; [exact IH|]. intros bs bs' Hbs. constructor; auto.
Qed.
Lemma Hankel_aeq (a a' b b' : list (arr F)) : Forall2 aeq a a' -> Forall2 aeq b b' ->
  both aeq (Hankel_chunks a (Some b)) (Hankel_chunks a' (Some b')).
Proof.
  intros Ha Hb. unfold Hankel_chunks. cbn [rbind].
  rewrite <- (Forall2_length _ _ _ Ha), <- (Forall2_length _ _ _ Hb).
  eapply bind_both; [apply (rmapM_both aeq)|].
  - intros i. eapply bind_both; [apply np_array_aeq|apply hstack_aeq]. unfold slice.
    repeat first [apply Forall2_take | apply Forall2_drop | apply Forall2_app]; auto.
  - apply vstack_aeq.
Qed.
Lemma row_slice_aeq a b (A A' : arr F) : aeq A A' -> aeq (row_slice a b A) (row_slice a b A').
Proof.
  intros (H1 & H2 & H3). split; [simpl; congruence|]. split; [exact H2|]. split. intros i j Hi Hj. cbn in *. apply H3; lia.
Qed.
Lemma col_slice_aeq a b (A A' : arr F) : aeq A A' -> aeq (col_slice a b A) (col_slice a b A').
Proof.
  intros (H1 & H2 & H3). split; [exact H1|]. split; [simpl; congruence|]. split. intros i j Hi Hj. cbn in *. apply H3; lia.
Qed.
Lemma BPOD_Hankel_aeq p q (A A' B B' : arr F) : aeq A A' -> aeq B B' -> both aeq (BPOD_Hankel p q A B) (BPOD_Hankel p q A' B').
Proof.
  intros HA HB. unfold BPOD_Hankel. pose proof HA as (A1 & _). pose proof HB as (_ & B2 & _). rewrite <- A1, <- B2.
  apply bind_same. intros ri. apply bind_same. intros rj. apply Hankel_aeq.
  - induction ri; constructor; auto using row_slice_aeq, col_slice_aeq.
  - induction rj; constructor; auto using row_slice_aeq, col_slice_aeq.
Qed.
Lemma first_cols_moved n T k (X X' : arr F) : moved n T X X' -> moved n T (first_cols k X) (first_cols k X').
Proof.
  intros (H1 & H2 & H3). split; [exact H1|]. split; [simpl; congruence|]. split. intros i j Hi Hj. cbn in *.
  rewrite (meq_at _ _ _ _ H3) by lia. reflexivity.
Qed.

Record bpod_moved (n : nat) (T : mat F) (r r' : bpod_results F) : Prop := {
  bv_sing_vals : b_sing_vals r' = b_sing_vals r; bv_L : b_L r' = b_L r; bv_R : b_R r' = b_R r;
  bv_dcoeffs : b_direct_coeffs r' = b_direct_coeffs r; bv_acoeffs : b_adjoint_coeffs r' = b_adjoint_coeffs r;
  bv_Hankel : aeq (b_Hankel r) (b_Hankel r');
  bv_direct : moved n T (b_direct r) (b_direct r'); bv_adjoint : moved n T (b_adjoint r) (b_adjoint r')
}.
Theorem C70_BPOD_arrays lapack sqrt dist (X X' Y Y' : arr F) p q di ai wopt wopt' ws ws' T atol rtol :
  extensional lapack -> set_weights wopt = Ok ws -> set_weights wopt' = Ok ws' ->
  keeps (nr X) (nr X') ws ws' T -> nr Y' = nr X' -> moved (nr X) T X X' -> moved (nr X) T Y Y' ->
  both (bpod_moved (nr X) T) (BPOD_arrays lapack sqrt dist X Y p q di ai wopt atol rtol)
    (BPOD_arrays lapack sqrt dist X' Y' p q di ai wopt' atol rtol).
Proof.
  intros He E1 E2 HK HR HX HY. unfold BPOD_arrays. destruct dist; [reflexivity|]. rewrite E1, E2. cbn [rbind].
  eapply bind_both; [apply (ip_moved (nr X) (nr X') ws ws' T); auto using first_cols_moved|]. intros A A' HA.
  eapply bind_both; [apply (ip_moved (nr X) (nr X') ws ws' T); auto|].
  { pose proof HY as (_ & Y2 & _). unfold last_cols. rewrite Y2. apply col_slice_moved; auto; lia. }
  intros B B' HB. eapply bind_both; [apply BPOD_Hankel_aeq; eassumption|]. intros H H' HH.
  assert (EQ : svd lapack H' atol rtol = svd lapack H atol rtol) by (unfold svd; rewrite (He H H' HH); reflexivity).
  rewrite EQ. apply bind_same. intros [[L E] R]. cbn [fst snd]. apply bind_same. intros db.
  eapply bind_both; [apply (lin_moved (nr X) T); eassumption|]. intros M M' [HM _]. apply bind_same. intros ab.
  eapply bind_both; [apply (lin_moved (nr X) T); eassumption|]. intros N N' [HN _]. apply bind_same. intros dc.
  apply bind_same. intros ac. simpl. split; auto.
Qed.
End Hankel.

(** Data in two entries with the weights 1 and 4, moved into three entries without weights. *)
Definition mb_T : mat QI := NdArray.ent (of_rows 2 [[qi 3 0 5; q 0]; [qi 4 0 5; q 0]; [q 0; q 2]]).
Definition mb (X : arr QI) : arr QI := Arr 3 (nc X) (mmul 2 mb_T (NdArray.ent X)).
Definition mb_run (X Y : arr QI) (w : option (nd QI)) := BPOD_arrays (fun _ => Ok (bx_U, bx_S, bx_Vh)) ex_sqrt false X Y 1 1
  None (Some [1; -2]%Z) w (Some (qi 1 0 10)) None.
Example C70_BPOD_arrays_example :
  both (bpod_moved 2 mb_T) (mb_run bx_X bx_Y (Some (Nd [2%nat] bx_w))) (mb_run (mb bx_X) (mb bx_Y) None) /\
  match mb_run (mb bx_X) (mb bx_Y) None with Ok r => b_sing_vals r = [q 4; q 1] /\ nr (b_direct r) = 3%nat | Raise _ => False end.
Proof.
  split; [|vm_compute; split; reflexivity]. unfold mb_run.
  refine (C70_BPOD_arrays _ _ _ bx_X (mb bx_X) bx_Y (mb bx_Y) _ _ _ _ (Some (Nd [2%nat] bx_w)) None (W1 bx_w) WNone mb_T _ _ _ _ _ _ _ _ _);
    try reflexivity.
  - intros A A' _. reflexivity.
  - split; [reflexivity|]. split; [exact I|]. eqb_solve.
  - split; [reflexivity|]. split; reflexivity.
  - split; [reflexivity|]. split; reflexivity.
Qed.

Print Assumptions C70_BPOD_arrays.
