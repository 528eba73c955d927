(** Properties C04 and C07 (inner-product part). *)
From stdpp Require Import gmap list.
From Coq Require Import ZArith Lia.
From Verif Require Import Prelude ParallelModel VecSpaceModel VecSpaceProofs Spmd SpmdFacts
  SpmdLock SpmdEnds ReductionsModel ReductionsProofs InnerProdModel ArrayProofs RingProofs
  TaskProofs InnerProdProofs.
Open Scope nat_scope.

(** Specification: all pairs. *)
Definition all_pairs {V K} (f : V -> V -> K) (rows cols : list V) : list (list K) :=
  map (fun v => map (fun w => f v w) cols) rows.

(** The handles [hs] hold the vectors [vs]. *)
Definition holds {V} (st : gmap loc V) (hs : list loc) (vs : list V) : Prop :=
  Forall2 (fun h v => st !! h = Some v) hs vs.

(** Attributes of a VectorSpaceHandles object made with [max_vecs_per_node =
    limit] by [P] processes on [N] nodes. *)
Definition made_with (limit : option Z) (P N per_node per_proc : nat) : Prop :=
  0 < P /\ 0 < N /\
  handles_init limit (Z.of_nat P) (Z.of_nat N) = (Z.of_nat per_node, Z.of_nat per_proc).

Lemma made_with_facts limit P N per_node per_proc :
  made_with limit P N per_node per_proc -> 2 <= per_proc /\ per_node * N <> 2 * P.
Proof.
  intros (HP & HN & H).
  pose proof (init_three limit (Z.of_nat P) (Z.of_nat N) ltac:(lia) ltac:(lia)) as T.
  rewrite H in T. destruct T as (T1 & T2 & _). lia.
Qed.

(** Zero of the array addition. *)
Definition neutral {K} (zero : K) (add : K -> K -> K) : Prop :=
  (forall x, add zero x = x) /\ (forall x, add x zero = x).

(** * C04 *)

(** General form: [g v w] is what assigning [ip v w] to an element of an array
    typed by the first inner product stores. *)
Theorem C04_stored_values {V K} tag_ub (eager : msg V K -> bool) P N limit per_node per_proc
    zero add conj store_as (ip g : V -> V -> K) st rows cols rv cv v0 w0 :
  made_with limit P N per_node per_proc -> neutral zero add -> P * P - 1 <= tag_ub ->
  holds st rows rv -> holds st cols cv ->
  head rv = Some v0 -> head cv = Some w0 ->
  (forall v w, v ∈ rv -> w ∈ cv ->
     if length cols <? length rows then store_as (ip w0 v0) (ip w v) = Ok (g w v)
     else store_as (ip v0 w0) (ip v w) = Ok (g v w)) ->
  always_ends tag_ub eager
    (launch P (fun r => ip_array P tag_ub zero add conj store_as (Some ip)
                          per_node per_proc N r rows cols) st)
    (fun c => all_return (fun _ a => a =
                if length cols <? length rows then all_pairs (fun v w => conj (g w v)) rv cv
                else all_pairs g rv cv) c /\
              length (procs c) = P /\ store c = st).
Proof.
  intros Hm [Hz1 Hz2] Ht Hr Hc Hv0 Hw0 Hg.
  destruct (made_with_facts _ _ _ _ _ Hm) as [Hpp Hpn]. destruct Hm as (HP & HN & _).
  destruct rv as [|v0' rv]; [discriminate|]. injection Hv0 as ->.
  destruct cv as [|w0' cv]; [discriminate|]. injection Hw0 as ->.
  assert (Nr : rows <> []) by (inversion Hr; congruence).
  assert (Nc : cols <> []) by (inversion Hc; congruence).
  apply ends_readonly; [exact HP| |].
  - intros i Hi. apply puses_ip_array; auto.
  - apply (wp_ip_array P tag_ub eager zero add conj store_as Hz1 Hz2 HP ip g per_node per_proc N
             st rows cols _ _ _ Hr Hc Nr Nc Ht Hpp Hpn).
    + destruct (length cols <? length rows); intros v w Hv Hw; apply Hg; auto.
    + intros b Hb. split; [reflexivity|]. exact Hb.
Qed.

(** Inner products of one scalar type: every rank returns the array of all
    inner products. *)
Theorem C04_inner_product_array {V K} tag_ub (eager : msg V K -> bool) P N limit per_node
    per_proc zero add conj store_as (ip : V -> V -> K) st rows cols rv cv :
  made_with limit P N per_node per_proc -> neutral zero add -> P * P - 1 <= tag_ub ->
  holds st rows rv -> holds st cols cv -> rows <> [] -> cols <> [] ->
  (forall v w v' w', v ∈ rv ++ cv -> w ∈ rv ++ cv -> v' ∈ rv ++ cv -> w' ∈ rv ++ cv ->
     store_as (ip v' w') (ip v w) = Ok (ip v w)) ->
  (length cols < length rows ->
     forall v w, v ∈ rv -> w ∈ cv -> conj (ip w v) = ip v w) ->
  always_ends tag_ub eager
    (launch P (fun r => ip_array P tag_ub zero add conj store_as (Some ip)
                          per_node per_proc N r rows cols) st)
    (fun c => all_return (fun _ a => a = all_pairs ip rv cv) c /\
              length (procs c) = P /\ store c = st).
Proof.
  intros Hm Hz Ht Hr Hc Nr Nc Hty Hsym.
  pose proof (Forall2_length _ _ _ Hr) as Lr. pose proof (Forall2_length _ _ _ Hc) as Lc.
  destruct rv as [|v0 rv'] eqn:Erv; [destruct rows; simpl in *; congruence|].
  destruct cv as [|w0 cv'] eqn:Ecv; [destruct cols; simpl in *; congruence|].
  rewrite <- Erv, <- Ecv in *.
  assert (In0 : v0 ∈ rv /\ w0 ∈ cv) by (rewrite Erv, Ecv; split; left).
  assert (E : (if length cols <? length rows then all_pairs (fun v w => conj (ip w v)) rv cv
               else all_pairs ip rv cv) = all_pairs ip rv cv).
  { destruct (Nat.ltb_spec (length cols) (length rows)) as [Hlt|]; auto.
    apply map_ext_in. intros v Hv. apply map_ext_in. intros w Hw.
    apply Hsym; auto; apply elem_of_list_In; auto. }
  rewrite <- E.
  apply (C04_stored_values tag_ub eager P N limit per_node per_proc zero add conj store_as
           ip ip st rows cols rv cv v0 w0); auto.
  - rewrite Erv. reflexivity.
  - rewrite Ecv. reflexivity.
  - intros v w Hv Hw.
    assert (L : forall x, x ∈ rv -> x ∈ rv ++ cv) by (intros; apply elem_of_app; auto).
    assert (R : forall x, x ∈ cv -> x ∈ rv ++ cv) by (intros; apply elem_of_app; auto).
    destruct In0. destruct (length cols <? length rows); apply Hty; auto.
Qed.

(** No inner product given: RuntimeError on every rank (vectorspace.py:127-132). *)
Theorem C04_no_inner_product {V K} tag_ub (eager : msg V K -> bool) P N per_node per_proc
    zero add conj store_as st rows cols :
  0 < P ->
  always_ends tag_ub eager
    (launch P (fun r => ip_array P tag_ub zero add conj store_as None
                          per_node per_proc N r rows cols) st)
    (fun c => length (procs c) = P /\
       (forall i, i < P -> procs c !! i = Some (Fail RuntimeError)) /\
       chans c = ∅ /\ store c = st).
Proof.
  intros HP. apply (all_fail tag_ub eager P _ st (fun _ _ => True) (fun _ _ => False)); auto.
  - apply separate_readonly.
  - intros i Hi. apply puses_uses. apply puses_ip_array; auto.
  - intros i Hi. apply local_fail_fail.
Qed.

(** An empty list of rows or columns: IndexError on every rank. *)
Theorem C04_empty_lists {V K} tag_ub (eager : msg V K -> bool) P N per_node per_proc
    zero add conj store_as ip st rows cols :
  0 < P -> rows = [] \/ cols = [] ->
  always_ends tag_ub eager
    (launch P (fun r => ip_array P tag_ub zero add conj store_as (Some ip)
                          per_node per_proc N r rows cols) st)
    (fun c => length (procs c) = P /\
       (forall i, i < P -> procs c !! i = Some (Fail IndexError)) /\
       chans c = ∅ /\ store c = st).
Proof.
  intros HP He. apply (all_fail tag_ub eager P _ st (fun _ _ => True) (fun _ _ => False)); auto.
  - apply separate_readonly.
  - intros i Hi. apply puses_uses. apply puses_ip_array; auto.
  - intros i Hi. unfold ip_array. apply local_fail_bind.
    destruct rows as [|h rows].
    + rewrite (proj2 (Nat.ltb_ge _ _)) by (simpl; lia). apply core_no_rows.
    + destruct He as [He|He]; [discriminate|]. subst cols.
      rewrite (proj2 (Nat.ltb_lt _ _)) by (simpl; lia).
      apply local_fail_bind. apply core_no_rows.
Qed.

(** ** Instances *)

(** Gaussian integers, [conj v * w]. *)
Definition gauss : Type := Z * Z.
Definition g_add (x y : gauss) : gauss := (fst x + fst y, snd x + snd y)%Z.
Definition g_conj (x : gauss) : gauss := (fst x, - snd x)%Z.
Definition g_mul (x y : gauss) : gauss :=
  (fst x * fst y - snd x * snd y, fst x * snd y + snd x * fst y)%Z.
Fixpoint g_dot (v w : list gauss) : gauss :=
  match v, w with
  | x :: v, y :: w => g_add (g_mul (g_conj x) y) (g_dot v w)
  | _, _ => (0, 0)%Z
  end.
Lemma g_dot_conj v : forall w, g_conj (g_dot w v) = g_dot v w.
Proof.
  induction v as [|[a b] v IH]; intros [|[c d] w]; try reflexivity. simpl.
  rewrite <- (IH w). destruct (g_dot w v) as [e f]. unfold g_conj, g_add, g_mul. simpl.
  f_equal; lia.
Qed.
Lemma g_neutral : neutral (0, 0)%Z g_add.
Proof. split; intros [a b]; unfold g_add; simpl; f_equal; lia. Qed.

Definition ex_store : gmap loc (list gauss) :=
  {[ 1 := [(1, 2); (0, 1)]%Z; 2 := [(3, 0); (-1, 1)]%Z; 3 := [(0, 0); (2, -5)]%Z;
     4 := [(1, 1); (1, 1)]%Z; 7 := [(0, -1); (4, 4)]%Z ]}.

(** Five rows, two columns (so the transposed array is computed), two processes,
    limit too small. *)
Example C04_example eager :
  always_ends 10 eager
    (launch 2 (fun r => ip_array 2 10 (0, 0)%Z g_add g_conj (fun _ x => Ok x) (Some g_dot)
                          6 3 1 r [1; 2; 3; 4; 7] [2; 3]) ex_store)
    (fun c => all_return (fun _ a => a =
        [[(4, -5); (-5, -2)];
         [(11, 0); (-7, 3)];
         [(-7, -3); (29, 0)];
         [(3, -1); (-3, -7)];
         [(0, 11); (-12, -28)]]%Z) c /\
      length (procs c) = 2 /\ store c = ex_store).
Proof.
  apply (C04_inner_product_array 10 eager 2 1 (Some 1%Z) 6 3 (0, 0)%Z g_add g_conj
           (fun _ x => Ok x) g_dot ex_store [1; 2; 3; 4; 7] [2; 3]
           [[(1, 2); (0, 1)]; [(3, 0); (-1, 1)]; [(0, 0); (2, -5)];
            [(1, 1); (1, 1)]; [(0, -1); (4, 4)]]%Z
           [[(3, 0); (-1, 1)]; [(0, 0); (2, -5)]]%Z).
  - split; [lia|]. split; [lia|]. reflexivity.
  - exact g_neutral.
  - lia.
  - repeat constructor.
  - repeat constructor.
  - discriminate.
  - discriminate.
  - auto.
  - intros _ v w _ _. apply g_dot_conj.
Qed.

Definition ex_rows : list (list gauss) := [[(1, 2); (0, 1)]; [(3, 0); (-1, 1)]; [(0, 0); (2, -5)]]%Z.
(** Only the first real part of each product is kept, as by an array of another type. *)
Example C04_stored_values_example eager :
  always_ends 10 eager
    (launch 2 (fun r => ip_array 2 10 (0, 0)%Z g_add g_conj (fun _ x => Ok (fst x, 0%Z)) (Some g_dot)
                          6 3 1 r [1; 2] [1; 2; 3]) ex_store)
    (fun c => all_return (fun _ a => a = [[(6, 0); (4, 0); (-5, 0)]; [(4, 0); (11, 0); (-7, 0)]]%Z) c /\
      length (procs c) = 2 /\ store c = ex_store).
Proof.
  apply (C04_stored_values 10 eager 2 1 (Some 1%Z) 6 3 (0, 0)%Z g_add g_conj (fun _ x => Ok (fst x, 0%Z)) g_dot
    (fun v w => (fst (g_dot v w), 0%Z)) ex_store [1; 2] [1; 2; 3] (firstn 2 ex_rows) ex_rows
    [(1, 2); (0, 1)]%Z [(1, 2); (0, 1)]%Z).
  - split; [lia|]. split; [lia|]. reflexivity.
  - exact g_neutral.
  - lia.
  - repeat constructor.
  - repeat constructor.
  - reflexivity.
  - reflexivity.
  - reflexivity.
Qed.
Example C04_no_inner_product_example eager :
  always_ends 10 eager
    (launch 2 (fun r => ip_array 2 10 (0, 0)%Z g_add g_conj (fun _ x => Ok x) None 6 3 1 r [1; 2] [1; 2; 3]) ex_store)
    (fun c => procs c !! 1 = Some (Fail RuntimeError) /\ store c = ex_store).
Proof.
  eapply always_ends_mono; [apply (C04_no_inner_product 10 eager 2 1 6 3); lia|].
  intros c (_ & H & _ & Hs). split; [apply H; lia|exact Hs].
Qed.
Example C04_empty_lists_example eager :
  always_ends 10 eager
    (launch 2 (fun r => ip_array 2 10 (0, 0)%Z g_add g_conj (fun _ x => Ok x) (Some g_dot) 6 3 1 r [1; 2] []) ex_store)
    (fun c => procs c !! 0 = Some (Fail IndexError) /\ procs c !! 1 = Some (Fail IndexError)).
Proof.
  eapply always_ends_mono; [apply (C04_empty_lists 10 eager 2 1 6 3); [lia|right; reflexivity]|].
  intros c (_ & H & _). split; apply H; lia.
Qed.

(** Mixed scalar types: an array typed by an integer first inner product
    truncates the others, so "values share one scalar type" is needed. *)
Inductive num := Int (z : Z) | Flt (numer : Z).
(** [Flt n] is the float n/2. *)
Definition num_store (like x : num) : res num :=
  match like, x with
  | Int _, Flt n => Ok (Int (Z.quot n 2))
  | Flt _, Int z => Ok (Flt (2 * z))
  | _, _ => Ok x
  end.
Definition num_add (x y : num) : num :=
  match x, y with
  | Int a, Int b => Int (a + b)
  | Flt a, Flt b => Flt (a + b)
  | Int a, Flt b => if (a =? 0)%Z then Flt b else Flt (2 * a + b)
  | Flt a, Int b => if (b =? 0)%Z then Flt a else Flt (a + 2 * b)
  end%Z.
Definition num_mul (v w : num) : num :=
  match v, w with
  | Int a, Int b => Int (a * b)
  | Int a, Flt b => Flt (a * b)
  | Flt a, Int b => Flt (a * b)
  | Flt a, Flt b => Flt (Z.quot (a * b) 2)
  end.
Theorem C04_mixed_types_refuted eager :
  exists st rows cols, holds st rows [Int 1] /\ holds st cols [Int 1; Flt 1] /\
    (forall v w, num_mul v w = num_mul w v) /\
    always_ends 10 eager
      (launch 1 (fun r => ip_array 1 10 (Int 0) num_add (fun x => x) num_store (Some num_mul)
                            100 100 1 r rows cols) st)
      (fun c => all_return (fun _ a => a = [[Int 1; Int 0]]) c /\
                length (procs c) = 1 /\ store c = st) /\
    all_pairs num_mul [Int 1] [Int 1; Flt 1] = [[Int 1; Flt 1]].
Proof.
  set (g := fun v w : num => match v, w with Int 1, Flt 1 => Int 0 | _, _ => num_mul v w end%Z).
  exists {[ 1 := Int 1; 2 := Int 1; 3 := Flt 1 ]}, [1], [2; 3].
  split; [repeat constructor|]. split; [repeat constructor|]. split.
  { intros [a|a] [b|b]; simpl; f_equal; try lia. f_equal. lia. }
  split; [|reflexivity].
  apply (C04_stored_values 10 eager 1 1 (Some 100%Z) 100 100 (Int 0) num_add (fun x => x)
           num_store num_mul g _ [1] [2; 3] [Int 1] [Int 1; Flt 1] (Int 1) (Int 1)).
  - split; [lia|]. split; [lia|]. reflexivity.
  - split; intros [z|n]; reflexivity || (simpl; f_equal; lia).
  - lia.
  - repeat constructor.
  - repeat constructor.
  - reflexivity.
  - reflexivity.
  - intros v w Hv Hw. apply elem_of_list_singleton in Hv. subst v.
    apply elem_of_cons in Hw. destruct Hw as [->|Hw]; [reflexivity|].
    apply elem_of_list_singleton in Hw. subst w. reflexivity.
Qed.

(** * C07 *)

(** Tags determine the pair, and are below P*P+P-1. *)
Theorem C07_tag_identifies_pair P s d s' d' :
  d < P -> d' < P -> pair_tag P s d = pair_tag P s' d' -> s = s' /\ d = d'.
Proof.
  unfold pair_tag. intros Hd Hd' H.
  assert (s = s'); [|nia].
  destruct (Nat.lt_trichotomy s s') as [L|[E|G]]; auto; nia.
Qed.
Theorem C07_tag_bound P s d : s < P -> d < P -> pair_tag P s d <= P * P + P - 2.
Proof. unfold pair_tag. intros. nia. Qed.
Theorem C07_tag_bound_attained P : 0 < P ->
  pair_tag P (P - 1) (P - 1) = P * P + P - 2 /\ pair_tag P (P - 1) 0 = P * P - 1.
Proof. unfold pair_tag. intros. nia. Qed.

(** When the limit is below P*P-1 the last rank raises in every run. *)
Theorem C07_tag_limit_exceeded {V K} tag_ub (eager : msg V K -> bool) P N limit per_node
    per_proc zero add conj store_as (ip : V -> V -> K) st rows cols rv cv :
  made_with limit P N per_node per_proc -> 1 < P -> tag_ub < P * P - 1 ->
  holds st rows rv -> holds st cols cv -> rows <> [] -> cols <> [] ->
  (forall x y, store_as x y = Ok y) -> neutral zero add ->
  always_ends tag_ub eager
    (launch P (fun r => ip_array P tag_ub zero add conj store_as (Some ip)
                          per_node per_proc N r rows cols) st)
    (fun c => procs c !! (P - 1) = Some (Fail MPIError)).
Proof.
  intros Hm H1 Ht Hr Hc Nr Nc Hst _.
  destruct (made_with_facts _ _ _ _ _ Hm) as [Hpp Hpn]. destruct Hm as (HP & HN & _).
  apply (rank_fails tag_ub eager P _ st (fun _ _ => True) (fun _ _ => False)).
  - lia.
  - apply separate_readonly.
  - intros i Hi. apply puses_uses. apply puses_ip_array; auto.
  - apply (ip_array_tag_fails P tag_ub eager zero add conj store_as HP ip ip per_node per_proc N
             st rows cols rv cv); auto.
    destruct (length cols <? length rows); [destruct cv, rv|destruct rv, cv]; simpl; auto.
Qed.

(** The least limit that MPI guarantees, 32767, is too small from 182 processes on
    and sufficient up to 181. *)
Theorem C07_standard_limit P tag_ub :
  Z.of_nat tag_ub = 32767%Z -> (tag_ub < P * P - 1 <-> 182 <= P).
Proof. intros H. split; intros; nia. Qed.

Example C07_tag_identifies_pair_example : pair_tag 4 2 3 <> pair_tag 4 3 2.
Proof. intros H. apply C07_tag_identifies_pair in H; [destruct H as [H _]; discriminate H|lia..]. Qed.
Example C07_tag_bound_example : pair_tag 4 2 3 <= 18.
Proof. apply (C07_tag_bound 4); lia. Qed.
Example C07_tag_bound_attained_example : pair_tag 4 3 3 = 18 /\ pair_tag 4 3 0 = 15.
Proof. apply (C07_tag_bound_attained 4). lia. Qed.
Example C07_standard_limit_example tag_ub : Z.of_nat tag_ub = 32767%Z -> tag_ub < 182 * 182 - 1 /\ ~ tag_ub < 181 * 181 - 1.
Proof.
  intros H. split; [apply (C07_standard_limit 182 tag_ub H); lia|]. intros G. apply (C07_standard_limit 181 tag_ub H) in G. lia.
Qed.
Example C07_example eager :
  always_ends 7 eager
    (launch 3 (fun r => ip_array 3 7 (0, 0)%Z g_add g_conj (fun _ x => Ok x) (Some g_dot)
                          9 3 1 r [1; 2; 3] [2; 3; 4]) ex_store)
    (fun c => procs c !! 2 = Some (Fail MPIError)).
Proof.
  apply (C07_tag_limit_exceeded 7 eager 3 1 (Some 1%Z) 9 3 (0, 0)%Z g_add g_conj
           (fun _ x => Ok x) g_dot ex_store [1; 2; 3] [2; 3; 4]
           [[(1, 2); (0, 1)]; [(3, 0); (-1, 1)]; [(0, 0); (2, -5)]]%Z
           [[(3, 0); (-1, 1)]; [(0, 0); (2, -5)]; [(1, 1); (1, 1)]]%Z);
    try discriminate; try lia; auto.
  - split; [lia|]. split; [lia|]. reflexivity.
  - repeat constructor.
  - repeat constructor.
  - exact g_neutral.
Qed.

Print Assumptions C04_stored_values.
Print Assumptions C04_inner_product_array.
Print Assumptions C04_no_inner_product.
Print Assumptions C04_empty_lists.
Print Assumptions C04_mixed_types_refuted.
Print Assumptions C07_tag_identifies_pair.
Print Assumptions C07_tag_limit_exceeded.
Print Assumptions C07_standard_limit.
