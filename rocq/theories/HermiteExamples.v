(** C55: examples, and what the formal derivatives are over the real numbers. *)
From Coq Require Import List Arith Lia Bool ZArith Field Ring Reals Lra.
Import ListNotations.
From Verif Require Import Prelude Field FieldInst Matrix NdArray DecompModel PodModel HermiteModel Poly HermiteProofs HermiteRoots HermiteProps.
Open Scope nat_scope.
Open Scope k_scope.

Definition keq (a b : QR) : bool := if k_dec QR a b then true else false.
Definition qr (a : Z) (d : positive) : QR := Qcanon.Q2Qc (QArith_base.Qmake a d).
Definition ents (A : arr QR) : list (list QR) := map (fun i => map (ent A i) (seq 0 (nc A))) (seq 0 (nr A)).
Fixpoint lists_eq (l m : list (list QR)) : bool :=
  match l, m with
  | [], [] => true
  | a :: l, b :: m => (length a =? length b)%nat && forallb (fun xy => keq (fst xy) (snd xy)) (combine a b) && lists_eq l m
  | _, _ => false
  end.

(** Nodes 0, 1, 3: first and second derivative, and the third, which is zero. *)
Definition ex_x : list QR := [qr 0 1; qr 1 1; qr 3 1].
Lemma ex_x_nodup : NoDup ex_x.
Proof. repeat constructor; simpl; intros H; repeat destruct H as [H|H]; try discriminate; auto. Qed.
Example C55_poldif_constant_example :
  0 < length ex_x /\ NoDup ex_x /\
  exists D1 D2 D3, poldif ex_x (Some 3%nat) None None = Ok [D1; D2; D3] /\
    lists_eq (ents D1) [[qr (-4) 3; qr 3 2; qr (-1) 6]; [qr (-2) 3; qr 1 2; qr 1 6]; [qr 2 3; qr (-3) 2; qr 5 6]] = true /\
    lists_eq (ents D2) [[qr 2 3; qr (-1) 1; qr 1 3]; [qr 2 3; qr (-1) 1; qr 1 3]; [qr 2 3; qr (-1) 1; qr 1 3]] = true /\
    lists_eq (ents D3) (repeat (repeat 0 3) 3) = true.
Proof.
  split; [simpl; lia|]. split; [exact ex_x_nodup|]. eexists _, _, _. split; [reflexivity|].
  split; [vm_compute; reflexivity|]. split; vm_compute; reflexivity.
Qed.

(** Weight 1 + x^2, whose derivatives are 2 x, 2, 0, ... *)
Definition ex_alpha : list QR := [qr 1 1; qr 2 1; qr 10 1].
Definition ex_B : arr QR := of_rows 3 [[qr 0 1; qr 1 1; qr 3 5]; [qr 2 1; qr 1 1; qr 1 5]].
Definition ex_a (k i : nat) : QR :=
  let x := at1 ex_x k in match i with O => 1 + x * x | 1%nat => (1 + 1) * x | 2%nat => 1 + 1 | _ => 0 end.
Example C55_poldif_example :
  0 < length ex_x /\ NoDup ex_x /\ length ex_alpha = length ex_x /\ nc ex_B = length ex_x /\
  (forall k, k < length ex_x -> at1 ex_alpha k <> 0 /\ ex_a k O = at1 ex_alpha k /\
    forall i, i < nr ex_B -> ent ex_B i k = ex_a k (S i) / ex_a k O) /\
  exists D1 D2, poldif ex_x None (Some ex_alpha) (Some ex_B) = Ok [D1; D2] /\
    lists_eq (ents D1) [[qr (-4) 3; qr 3 4; qr (-1) 60]; [qr (-4) 3; qr 3 2; qr 1 30]; [qr 20 3; qr (-15) 2; qr 43 30]] = true.
Proof.
  split; [simpl; lia|]. split; [exact ex_x_nodup|]. split; [reflexivity|]. split; [reflexivity|]. split.
  - intros k Hk. simpl in Hk. 
    assert (E : forall (u v : QR), keq u v = true -> u = v) by (intros u v; unfold keq; destruct (k_dec QR u v); auto; discriminate).
    assert (N : forall (u v : QR), keq u v = false -> u <> v) by (intros u v; unfold keq; destruct (k_dec QR u v); auto; discriminate).
    destruct k as [|[|[|k]]]; [| | |lia].
    all: split; [apply N; vm_compute; reflexivity|]; split; [apply E; vm_compute; reflexivity|].
    all: intros [|[|i]] Hi; [apply E; vm_compute; reflexivity|apply E; vm_compute; reflexivity|simpl in Hi; lia].
  - eexists _, _. split; [reflexivity|]. vm_compute. reflexivity.
Qed.
Example C55_keywords_example :
  poldif ex_x (Some 1%nat) (Some ex_alpha) None = Raise RuntimeError /\ poldif ex_x None (Some ex_alpha) None = Raise RuntimeError /\
  poldif ([] : list QR) (Some 1%nat) None None = Raise ValueError.
Proof. repeat split. Qed.

(** ** Over the real numbers (these use the axioms of Coq's reals) *)

(** [ev] and [deriv] are values and derivatives in the sense of analysis, and [wderiv] gives
    the derivative of exp(-(b y)^2/2) P. *)
Theorem C55_real_deriv (P : list RR) (y : R) :
  derivable_pt_lim (fun t => @ev RR P t) y (@ev RR (deriv P) y).
Proof.
  induction P as [|a P IH].
  - simpl. apply (derivable_pt_lim_const 0%R).
  - apply (derivable_pt_lim_ext (fct_cte (a : R) + (id * fun t => @ev RR P t))%F); [intros t; reflexivity|].
    replace (@ev RR (deriv (a :: P)) y : R) with (0 + (1 * @ev RR P y + id y * @ev RR (deriv P) y))%R.
    + apply derivable_pt_lim_plus; [apply derivable_pt_lim_const|]. apply derivable_pt_lim_mult; [apply derivable_pt_lim_id|exact IH].
    + cbn [deriv]. rewrite ev_padd. cbn [ev]. generalize (@ev RR P y) (@ev RR (deriv P) y). intros u v.
      change (0 + (1 * u + id y * v) = u + (0 + y * v))%R. unfold id. ring.
Qed.
Theorem C55_real_wderiv (b : R) (P : list RR) (y : R) :
  let g t := Rtrigo_def.exp (- (b * t * (b * t)) / (1 + 1)) in
  derivable_pt_lim (fun t => g t * @ev RR P t)%R y (g y * @ev RR (@wderiv RR (b * b)%R P) y)%R.
Proof.
  intros g.
  assert (D1 : derivable_pt_lim g y (g y * (- (b * b) * y))%R).
  { apply (derivable_pt_lim_ext (comp Rtrigo_def.exp (mult_real_fct (- (b * b) / 2) (id * id)))%F).
    - intros t. unfold comp, mult_real_fct, mult_fct, id, g. f_equal. field.
    - replace (g y * (- (b * b) * y))%R with (Rtrigo_def.exp ((mult_real_fct (- (b * b) / 2) (id * id))%F y) * ((- (b * b) / 2) * (1 * id y + id y * 1)))%R.
      + apply derivable_pt_lim_comp; [|apply derivable_pt_lim_exp].
        apply derivable_pt_lim_scal. apply derivable_pt_lim_mult; apply derivable_pt_lim_id.
      + unfold g, mult_real_fct, mult_fct, id. replace (- (b * y * (b * y)) / (1 + 1))%R with (- (b * b) / 2 * (y * y))%R by field. field. }
  replace (g y * @ev RR (@wderiv RR (b * b)%R P) y)%R with (g y * (- (b * b) * y) * @ev RR P y + g y * @ev RR (deriv P) y)%R.
  - apply (derivable_pt_lim_mult g (fun t => @ev RR P t)); [exact D1|apply C55_real_deriv].
  - unfold wderiv. rewrite ev_padd, ev_pscale. cbn [ev]. generalize (@ev RR P y) (@ev RR (deriv P) y). intros u v.
    change (g y * (- (b * b) * y) * u + g y * v = g y * (v + - (b * b) * (0 + y * u)))%R. ring.
Qed.

(** Two nodes: the roots of 4 x^2 - 2. *)
Definition r2_sqrt : RR -> RR := R_sqrt.sqrt.
Definition r2_exp : RR -> RR := Rtrigo_def.exp.
Definition r2_w : list RR := [1%R; (-1)%R].
Definition r2_V : arr RR := @Arr RR 2 2 (fun i j => (if (i =? 1)%nat && (j =? 1)%nat then - (1 / R_sqrt.sqrt 2) else 1 / R_sqrt.sqrt 2)%R).
Definition r2_eigvalsh (_ : arr RR) : res (list RR) := Ok r2_w.
Lemma r2_sqrt_ok i : sqrt_ok r2_sqrt (num i).
Proof.
  assert (H : (0 <= @num RR i)%R).
  { destruct (@num_nonneg RR i) as [H|H]; [apply Rlt_le; apply rlt_spec; exact H|right; exact H]. }
  split; [reflexivity|]. split.
  - destruct (Rle_lt_or_eq_dec 0 (R_sqrt.sqrt (@num RR i)) (R_sqrt.sqrt_pos _)) as [L|E]; [left; apply rlt_spec; exact L|right; exact E].
  - apply R_sqrt.sqrt_sqrt. exact H.
Qed.
Example C55_herdif_example :
  (forall i, sqrt_ok r2_sqrt (num i)) /\ (forall t, r2_exp t <> 0) /\
  r2_eigvalsh (jacobi r2_sqrt 2) = Ok r2_w /\ eigh_contract (jacobi r2_sqrt 2) r2_w r2_V /\
  exists y Ds, herdif r2_sqrt r2_exp r2_eigvalsh 2 1 (1 : RR) = Ok (y, Ds) /\
    y = [(- 1 / R_sqrt.sqrt 2)%R; (1 / R_sqrt.sqrt 2)%R].
Proof.
  split; [exact r2_sqrt_ok|]. split.
  { intros t E. pose proof (exp_pos t) as H. change (Rtrigo_def.exp t = 0%R) in E. lra. }
  split; [reflexivity|].
  assert (S2 : (R_sqrt.sqrt 2 * R_sqrt.sqrt 2 = 2)%R) by (apply R_sqrt.sqrt_sqrt; lra).
  assert (N2 : (R_sqrt.sqrt 2 <> 0)%R) by (intros E; rewrite E in S2; lra).
  assert (S1 : (R_sqrt.sqrt (0 + 1) = 1)%R) by (replace (0 + 1)%R with 1%R by ring; apply R_sqrt.sqrt_1).
  assert (H2 : (1 / R_sqrt.sqrt 2 * (1 / R_sqrt.sqrt 2) = 1 / 2)%R).
  { rewrite <- S2 at 3. field. auto. }
  split.
  - split; try reflexivity.
    + split. intros i j Hi Hj. simpl in Hi, Hj. destruct i as [|[|i]]; [| |lia]; (destruct j as [|[|j]]; [| |lia]);
        unfold mmul, madj, mid, r2_V; cbn; lra.
    + split. intros i j Hi Hj. simpl in Hi, Hj. destruct i as [|[|i]]; [| |lia]; (destruct j as [|[|j]]; [| |lia]);
        unfold mmul, mdiag, r2_V, r2_w, jacobi, r2_sqrt, at1; cbn; rewrite ?S1; lra.
    + repeat constructor.
  - assert (L : klt RR (-1)%R 1%R = true) by (apply rlt_spec; lra).
    assert (HS : np_sort r2_w = [(-1)%R; 1%R]) by (unfold r2_w; cbn [np_sort insert_sorted]; rewrite L; reflexivity).
    unfold herdif, herroots, r2_eigvalsh. cbn [rbind]. rewrite HS. eexists _, _. split; [reflexivity|].
    unfold r2_sqrt. cbn. replace (1 + 1)%R with 2%R by ring. f_equal; [|f_equal]; field; auto.
Qed.
Print Assumptions C55_real_wderiv.
Print Assumptions C55_herdif_example.
Example C55_operator_example :
  exists y Ds A, herdif r2_sqrt r2_exp r2_eigvalsh 2 2 (1 : RR) = Ok (y, Ds) /\
    cgl_operator y Ds 2%R 3%R (1 / 5)%R (-1 / 100)%R = Ok A /\ nr A = 2%nat.
Proof.
  destruct C55_herdif_example as (H1 & H2 & H3 & H4 & _).
  destruct (C55_operator r2_sqrt r2_exp r2_eigvalsh H1 2 2 1 r2_w r2_V 2%R 3%R (1 / 5)%R (-1 / 100)%R) as (y & Ds & A & E1 & E2 & E3); auto.
  { apply one_neq_zero. }
  exists y, Ds, A. split; [exact E1|]. split; [exact E2|]. destruct E3 as (-> & _).
  destruct (C55_herdif r2_sqrt r2_exp r2_eigvalsh H1 2 2 1 r2_w r2_V) as (y' & Ds' & E & L & _); auto.
  { apply one_neq_zero. }
  rewrite E1 in E. inversion E. subst. exact L.
Qed.
