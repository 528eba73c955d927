(** A vector space for examples: the columns of arrays with a weighted inner product. *)
From stdpp Require Import gmap list.
From Coq Require Import ZArith Lia Field Ring.
From Verif Require Import Prelude Field FieldInst Matrix NdArray DecompModel VSArraysModel VSArraysProofs
  Spmd InnerProdProps HandlesModel HandlesProofs HandlesSpace.
Open Scope nat_scope.
Open Scope k_scope.

Section WSpace.
Context {F : sfield} (n : nat) (W : mat F) (per_node per_proc nodes : nat).
Add Field Ff_wspace : (k_field F).

Definition wspace : space F (nat -> F) :=
  Space F (nat -> F) (fun u v => wip n W (fun i _ => u i) (fun i _ => v i) O O)
    (fun u v i => u i + v i) (fun u c i => u i * c) (fun _ x => Ok x) per_node per_proc nodes.

Lemma wspace_ip : hermitian n W -> ip_space wspace.
Proof.
  intros HW. split; simpl; unfold wip, mmul, madj.
  - intros u v w. rewrite <- sum_add. apply sum_ext. intros a _.
    rewrite (sum_ext n (fun b => W a b * (v b + w b)) (fun b => W a b * v b + W a b * w b)) by (intros; ring).
    rewrite sum_add. ring.
  - intros u v c. rewrite <- sum_mul_r. apply sum_ext. intros a _.
    rewrite (sum_ext n (fun b => W a b * (v b * c)) (fun b => W a b * v b * c)) by (intros; ring).
    rewrite sum_mul_r. ring.
  - intros u v. pose proof (wip_adj 1 1 n W (fun i _ => u i) (fun i _ => v i) HW) as H.
    apply (meq_at _ _ _ _ H O O); lia.
  - reflexivity.
Qed.

Lemma wspace_definite : definite n W -> ip_definite wspace.
Proof.
  intros HD w Hw u. assert (Z : forall a, (a < n)%nat -> w a = 0) by (apply HD; exact Hw).
  simpl. unfold wip, mmul, madj. apply sum_0. intros a Ha.
  rewrite sum_0; [ring|]. intros b Hb. rewrite Z by auto. ring.
Qed.

Lemma wspace_adjoint (A Ap : mat F) u v : meq n n (mmul n (madj Ap) W) (mmul n W A) ->
  ip wspace (fun i => sum n (fun j => Ap i j * u j)) v = ip wspace u (fun i => sum n (fun j => A i j * v j)).
Proof.
  intros H. simpl.
  assert (G : meq 1 1 (wip n W (mmul n Ap (fun i _ => u i)) (fun i _ => v i))
                      (wip n W (fun i _ => u i) (mmul n A (fun i _ => v i)))).
  { unfold wip. rewrite madj_mmul, !mmul_assoc, <- (mmul_assoc n 1 n n (madj Ap)), H, mmul_assoc. reflexivity. }
  exact (meq_at _ _ _ _ G O O ltac:(lia) ltac:(lia)).
Qed.

(** The columns of an array, and a store with them at consecutive places. *)
Definition columns (X : arr F) : list (nat -> F) := map (fun j i => NdArray.ent X i j) (seq 0 (nc X)).
Lemma columns_length X : length (columns X) = nc X.
Proof. unfold columns. rewrite map_length, seq_length. reflexivity. Qed.
Lemma columns_ip X Y i j d : (i < nc X)%nat -> (j < nc Y)%nat ->
  ip wspace (nth i (columns X) d) (nth j (columns Y) d) = wip n W (NdArray.ent X) (NdArray.ent Y) i j.
Proof.
  intros Hi Hj. unfold columns.
  rewrite !(nth_indep _ d (fun i => NdArray.ent X i O)) by (rewrite map_length, seq_length; auto).
  rewrite (nth_indep (map _ (seq 0 (nc Y))) _ (fun i => NdArray.ent Y i O)) by (rewrite map_length, seq_length; auto).
  rewrite (map_nth (fun j i => NdArray.ent X i j)), (map_nth (fun j i => NdArray.ent Y i j)), !seq_nth by auto.
  reflexivity.
Qed.
End WSpace.
