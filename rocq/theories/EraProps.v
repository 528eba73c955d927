(** C28, C29, C30: the eigensystem realization algorithm. *)
From Coq Require Import List Arith Lia Bool ZArith Field Ring Setoid Morphisms.
Import ListNotations.
From Verif Require Import Prelude Field FieldInst Matrix NdArray DecompModel DecompProofs DecompProps VSArraysModel
  PodModel BpodModel EraModel EraProofs.
Open Scope nat_scope.
Open Scope k_scope.

(** ** C28: the sample format *)

(** Integers as scalars, and what np.round guarantees: the integer nearer than 1/2. *)
Fixpoint of_nat {F : sfield} (n : nat) : F := match n with O => 0 | Datatypes.S n => of_nat n + 1 end.
Definition of_Z {F : sfield} (z : Z) : F :=
  match z with Z0 => 0 | Zpos p => of_nat (Pos.to_nat p) | Zneg p => - of_nat (Pos.to_nat p) end.
Definition round_ok {F : sfield} (round : F -> Z) : Prop :=
  forall (x : F) z, klt_p (kabs (x - of_Z z)) (1 / (1 + 1)) -> round x = z.
(** 0 1 1 2 2 3 ... *)
Definition doubled (n : nat) : list nat := flat_map (fun k => [k; (k + 1)%nat]) (seq 0 (n - 1)).

Lemma doubled_spec n : doubled n = map (fun k => k / 2 + k mod 2)%nat (seq 0 ((n - 1) * 2)).
Proof.
  unfold doubled. generalize (n - 1)%nat. clear n. intros n. induction n as [|n IH]; auto.
  rewrite seq_S, flat_map_app, IH. replace (Datatypes.S n * 2)%nat with (n * 2 + 2)%nat by lia.
  rewrite seq_app, map_app. f_equal. cbn [flat_map app seq map Nat.add].
  rewrite Nat.div_mul, Nat.mod_mul by lia. replace (Datatypes.S (n * 2)) with (1 + n * 2)%nat by lia.
  rewrite Nat.div_add, Nat.mod_add by lia. change (1 / 2)%nat with O. change (1 mod 2)%nat with 1%nat.
  rewrite Nat.add_0_r. reflexivity.
Qed.
Lemma doubled_length n : length (doubled n) = ((n - 1) * 2)%nat.
Proof. rewrite doubled_spec, map_length, seq_length. reflexivity. Qed.
Lemma doubled_nth n k : k < (n - 1) * 2 -> nth k (doubled n) O = (k / 2 + k mod 2)%nat.
Proof.
  intros H. rewrite doubled_spec.
  rewrite (nth_indep _ O ((fun k => k / 2 + k mod 2)%nat O)) by (rewrite map_length, seq_length; lia).
  rewrite (map_nth (fun k => k / 2 + k mod 2)%nat), seq_nth by lia. reflexivity.
Qed.
Lemma doubled_lt n k : k < (n - 1) * 2 -> k / 2 + k mod 2 < n.
Proof.
  intros H. pose proof (Nat.div_mod k 2 ltac:(lia)). pose proof (Nat.mod_upper_bound k 2 ltac:(lia)). lia.
Qed.

Lemma amax1_spec {F : sfield} (l : list F) m : all_real l -> amax1 l = Ok m ->
  real m /\ forall tol : F, real tol -> (klt F tol m = true <-> exists x, In x l /\ klt_p tol x).
Proof.
  destruct l as [|x l]; [discriminate|]. intros HR H. injection H as H.
  assert (G : forall l m0 m, all_real l -> real m0 ->
    fold_left (fun m y : F => if klt F m y then y else m) l m0 = m ->
    real m /\ (forall tol : F, real tol -> (klt F tol m = true <-> klt F tol m0 = true \/ exists x, In x l /\ klt_p tol x))).
  { clear. induction l as [|y l IH]; intros m0 m HR Rm H; simpl in H.
    - subst. split; auto. intros tol Rt. split; auto. intros [|(x & [] & _)]. auto.
    - inversion HR as [|? ? Ry Rl]; subst.
      destruct (klt F m0 y) eqn:E.
      + destruct (IH y _ Rl Ry eq_refl) as [R1 R2]. split; auto. intros tol Rt. rewrite (R2 tol Rt). split.
        * intros [L|(x & I & L)]; right; [exists y|exists x]; simpl; auto.
        * intros [L|(x & [<-|I] & L)]; [left|left; auto|right; eauto].
          apply (lt_trans F tol m0 y); auto.
      + destruct (IH m0 _ Rl Rm eq_refl) as [R1 R2]. split; auto. intros tol Rt. rewrite (R2 tol Rt). split.
        * intros [L|(x & I & L)]; [left; auto|right; exists x; simpl; auto].
        * intros [L|(x & [<-|I] & L)]; [left; auto|left|right; eauto].
          apply not_lt in E; auto. apply (lt_le_trans tol y m0); auto. }
  inversion HR as [|? ? Rx Rl]; subst. destruct (G l x _ Rl Rx eq_refl) as [R1 R2]. split; auto.
  intros tol Rt. rewrite (R2 tol Rt). split.
  - intros [L|(y & I & L)]; [exists x|exists y]; simpl; auto.
  - intros (y & [<-|I] & L); [left; auto|right; eauto].
Qed.
Lemma diffs_nth {F : sfield} (l : list F) k : Datatypes.S k < length l ->
  nth k (diffs l) 0 = at1 l (Datatypes.S k) - at1 l k.
Proof.
  intros H. unfold diffs. destruct l as [|x l]; [simpl in H; lia|].
  assert (L : length (combine (x :: l) l) = length l) by (rewrite combine_length; cbn [length]; lia).
  rewrite (nth_indep _ 0 ((fun p : F * F => snd p - fst p) (0, 0))) by (rewrite map_length; cbn [tl]; rewrite L; simpl in H; lia).
  rewrite (map_nth (fun p : F * F => snd p - fst p)). cbn [tl].
  (* combine_nth wants equal lengths *)
  assert (G : forall (l : list F) (x : F) k, k < length l -> nth k (combine (x :: l) l) (0, 0) = (nth k (x :: l) 0, nth k l 0)).
  { clear. induction l as [|y l IH]; intros x k Hk; simpl in Hk; [lia|]. destruct k as [|k]; [reflexivity|].
    change (nth k (combine (y :: l) l) (0, 0) = (nth k (y :: l) 0, nth k l 0)). apply IH. lia. }
  rewrite G by (simpl in H; lia). reflexivity.
Qed.
Lemma diffs_length {F : sfield} (l : list F) : length (diffs l) = (length l - 1)%nat.
Proof. unfold diffs. rewrite map_length, combine_length. destruct l; cbn [tl length]; lia. Qed.

(** The spacing deviates from the first step by at most [tol]. *)
Definition equally_spaced {F : sfield} (times : list F) (tol : F) : Prop :=
  forall k, Datatypes.S k < length times ->
    kle (kabs (at1 times (Datatypes.S k) - at1 times k - (at1 times 1 - at1 times 0))) tol.

Lemma spaced_dev {F : sfield} (times : list F) (tol : F) : all_real times -> real tol -> 2 <= length times ->
  exists dev, amax1 (map (fun d => kabs (d - (at1 times 1 - at1 times 0))) (diffs times)) = Ok dev /\
    (klt F tol dev = false <-> equally_spaced times tol).
Proof.
  intros HR Rt HL. set (dt := at1 times 1 - at1 times 0).
  assert (Rat : forall i, real (at1 times i)) by (intros; apply all_real_at; auto).
  assert (Rdt : real dt) by (apply real_sub; auto).
  set (l := map (fun d => kabs (d - dt)) (diffs times)).
  assert (LL : length l = (length times - 1)%nat) by (unfold l; rewrite map_length, diffs_length; auto).
  assert (Lk : forall k, Datatypes.S k < length times -> at1 l k = kabs (at1 times (Datatypes.S k) - at1 times k - dt)).
  { intros k Hk. unfold at1 at 1, l. rewrite (nth_indep _ 0 ((fun d => kabs (d - dt)) 0)) by (rewrite map_length, diffs_length; lia).
    rewrite (map_nth (fun d => kabs (d - dt))), diffs_nth by auto. reflexivity. }
  assert (Rl : all_real l).
  { apply Forall_forall. intros x Hx. apply (In_nth _ _ 0) in Hx. destruct Hx as (k & Hk & <-).
    change (real (at1 l k)). rewrite Lk by lia. apply kabs_real. repeat apply real_sub; auto. }
  destruct (amax1 l) as [dev|] eqn:E.
  - exists dev. split; auto. destruct (amax1_spec l dev Rl E) as [Rd Hd]. specialize (Hd tol Rt). split.
    + intros H k Hk. apply not_lt; auto; [apply kabs_real; repeat apply real_sub; auto|].
      fold dt. rewrite <- Lk by auto. destruct (klt F tol (at1 l k)) eqn:Q; auto.
      rewrite (proj2 Hd) in H; [discriminate|]. exists (at1 l k). split; auto. apply nth_In. lia.
    + intros H. destruct (klt F tol dev) eqn:Q; auto. exfalso.
      destruct (proj1 Hd eq_refl) as (x & Hx & Lx). apply (In_nth _ _ 0) in Hx. destruct Hx as (k & Hk & <-).
      change (klt_p tol (at1 l k)) in Lx. specialize (H k ltac:(lia)). fold dt in H. rewrite <- Lk in H by lia.
      apply (lt_not_le tol (at1 l k)); auto. apply all_real_at. auto.
  - exfalso. unfold l in E, LL. destruct (map (fun d => kabs (d - dt)) (diffs times)); [simpl in LL; lia|discriminate].
Qed.

Theorem C28_sampled {F : sfield} (round : F -> Z) times (Markovs : nd F) (tol : F) n p m :
  shape Markovs = [n; p; m] -> length times = n -> 2 <= n -> all_real times -> real tol ->
  equally_spaced times tol ->
  exists steps M, make_sampled_format round times Markovs tol = Ok (steps, M) /\
    length steps = ((n - 1) * 2)%nat /\ a3_t M = ((n - 1) * 2)%nat /\ a3_p M = p /\ a3_m M = m /\
    (* the samples in the order 0 1 1 2 2 3 ..., real parts only *)
    (forall k i j, k < (n - 1) * 2 -> i < p -> j < m ->
       a3 M k i j = kre (at1 (flat Markovs) ((nth k (doubled n) O * p + i) * m + j)%nat)) /\
    (forall k, k < (n - 1) * 2 ->
       nth k steps 0%Z = round ((at1 times (nth k (doubled n) O) - at1 times 0) / (at1 times 1 - at1 times 0))) /\
    (* the time steps are 0 1 1 2 2 3 ... when every time is within half a step *)
    (round_ok round ->
     (forall k, k < n -> klt_p (kabs ((at1 times k - at1 times 0) / (at1 times 1 - at1 times 0) - of_nat k)) (1 / (1 + 1))) ->
     steps = map Z.of_nat (doubled n)).
Proof.
  intros Hsh HL Hn HR Rt Hsp. unfold make_sampled_format. rewrite Hsh, HL, Nat.eqb_refl. cbn [negb].
  assert (E1 : py_nth times 1 = Ok (at1 times 1)).
  { unfold py_nth. rewrite (nth_error_nth' times 0) by lia. reflexivity. }
  assert (E0 : py_nth times 0 = Ok (at1 times 0)).
  { unfold py_nth. rewrite (nth_error_nth' times 0) by lia. reflexivity. }
  rewrite E1, E0. cbn [rbind].
  destruct (spaced_dev times tol HR Rt ltac:(lia)) as (dev & Ed & Hd). rewrite Ed. cbn [rbind].
  rewrite (proj2 Hd Hsp). eexists. eexists. split; [reflexivity|]. cbn [a3_t a3_p a3_m a3].
  rewrite map_length, seq_length. do 4 (split; [auto|]).
  assert (St : forall k, k < (n - 1) * 2 ->
    nth k (map (fun k => nth (k / 2 + k mod 2) (map (fun t => round ((t - at1 times 0) / (at1 times 1 - at1 times 0))) times) 0%Z)
      (seq 0 ((n - 1) * 2))) 0%Z
    = round ((at1 times (nth k (doubled n) O) - at1 times 0) / (at1 times 1 - at1 times 0))).
  { intros k Hk. pose proof (doubled_lt n k Hk) as Hk'.
    set (f := fun k => nth (k / 2 + k mod 2) (map (fun t => round ((t - at1 times 0) / (at1 times 1 - at1 times 0))) times) 0%Z).
    rewrite (nth_indep _ 0%Z (f O)) by (rewrite map_length, seq_length; lia).
    rewrite map_nth, seq_nth by lia. rewrite doubled_nth by auto. unfold f. rewrite Nat.add_0_l.
    set (g := fun t => round ((t - at1 times 0) / (at1 times 1 - at1 times 0))).
    rewrite (nth_indep _ 0%Z (g 0)) by (rewrite map_length; lia). rewrite map_nth. reflexivity. }
  split; [|split; [exact St|]].
  - intros k i j Hk Hi Hj. rewrite doubled_nth by auto. reflexivity.
  - intros Hro Hk. apply (nth_ext _ _ 0%Z 0%Z).
    + rewrite !map_length, seq_length, doubled_length. reflexivity.
    + intros k Hk'. rewrite map_length, seq_length in Hk'. rewrite St by auto.
      rewrite (nth_indep _ 0%Z (Z.of_nat O)) by (rewrite map_length, doubled_length; auto). rewrite map_nth.
      pose proof (doubled_lt n k Hk') as Hlt. rewrite <- (doubled_nth n) in Hlt by auto.
      apply Hro. assert (EZ : forall q, of_Z (Z.of_nat q) = of_nat (F:=F) q).
      { intros [|q]; auto. cbn [Z.of_nat of_Z]. rewrite SuccNat2Pos.id_succ. reflexivity. }
      rewrite EZ. auto.
Qed.
(** The failures. *)
Theorem C28_uneven {F : sfield} (round : F -> Z) times (Markovs : nd F) (tol : F) n p m :
  shape Markovs = [n; p; m] -> length times = n -> 2 <= n -> all_real times -> real tol ->
  ~ equally_spaced times tol -> make_sampled_format round times Markovs tol = Raise ValueError.
Proof.
  intros Hsh HL Hn HR Rt Hsp. unfold make_sampled_format. rewrite Hsh, HL, Nat.eqb_refl. cbn [negb].
  assert (E1 : py_nth times 1 = Ok (at1 times 1)).
  { unfold py_nth. rewrite (nth_error_nth' times 0) by lia. reflexivity. }
  assert (E0 : py_nth times 0 = Ok (at1 times 0)).
  { unfold py_nth. rewrite (nth_error_nth' times 0) by lia. reflexivity. }
  rewrite E1, E0. cbn [rbind].
  destruct (spaced_dev times tol HR Rt ltac:(lia)) as (dev & Ed & Hd). rewrite Ed. cbn [rbind].
  destruct (klt F tol dev) eqn:Q; auto. exfalso. apply Hsp, Hd. reflexivity.
Qed.
Theorem C28_mismatch {F : sfield} (round : F -> Z) times (Markovs : nd F) (tol : F) n p m :
  shape Markovs = [n; p; m] -> length times <> n ->
  make_sampled_format round times Markovs tol = Raise RuntimeError.
Proof.
  intros Hsh HL. unfold make_sampled_format. rewrite Hsh. rewrite (proj2 (Nat.eqb_neq n (length times))) by auto.
  reflexivity.
Qed.
Theorem C28_bad_dims {F : sfield} (round : F -> Z) times (Markovs : nd F) (tol : F) :
  length (shape Markovs) <> 3%nat -> make_sampled_format round times Markovs tol = Raise ValueError.
Proof.
  intros H. unfold make_sampled_format. destruct (shape Markovs) as [|a [|b [|c [|d l]]]]; auto. simpl in H. lia.
Qed.
Theorem C28_short {F : sfield} (round : F -> Z) times (Markovs : nd F) (tol : F) n p m :
  shape Markovs = [n; p; m] -> length times = n -> n < 2 ->
  make_sampled_format round times Markovs tol = Raise IndexError.
Proof.
  intros Hsh HL Hn. unfold make_sampled_format. rewrite Hsh, HL, Nat.eqb_refl. cbn [negb].
  destruct times as [|t [|t' l]]; simpl in HL; try lia; reflexivity.
Qed.

(** ** C29: the Hankel arrays *)

(** Block (r, c) of the arrays is the Markov parameter with index 2 (r + c), resp.
    2 (r + c) + 1. *)
Definition is_Hankel {F : sfield} (M : arr3 F) (o c : nat) (H H2 : arr F) : Prop :=
  nr H = (a3_p M * o)%nat /\ nc H = (a3_m M * c)%nat /\ nr H2 = (a3_p M * o)%nat /\ nc H2 = (a3_m M * c)%nat /\
  forall r r' i j, r < o -> r' < c -> i < a3_p M -> j < a3_m M ->
    ent H (r * a3_p M + i)%nat (r' * a3_m M + j)%nat = kre (a3 M (2 * (r + r'))%nat i j) /\
    ent H2 (r * a3_p M + i)%nat (r' * a3_m M + j)%nat = kre (a3 M (2 * (r + r') + 1)%nat i j).

(** All outcomes for given non-negative sizes: the size check, then the indices. *)
Theorem C29_Hankel {F : sfield} (M : arr3 F) mc mo o c :
  era_sizes (a3_t M) mc mo = (Z.of_nat o, Z.of_nat c) ->
  match assemble_Hankel M mc mo with
  | Ok (H, H2) => (o + c + 2 <= a3_t M)%nat /\ (o = O \/ c = O \/ 2 * (o + c) <= a3_t M + 2)%nat /\
      is_Hankel M o c H H2
  | Raise e => (e = ValueError /\ a3_t M < o + c + 2)%nat \/
      (e = IndexError /\ o + c + 2 <= a3_t M /\ 0 < o /\ 0 < c /\ a3_t M + 2 < 2 * (o + c))%nat
  end.
Proof.
  intros Hsz. unfold assemble_Hankel. rewrite Hsz. cbn [fst snd].
  destruct (Z.ltb_spec (Z.of_nat (a3_t M)) (Z.of_nat o + Z.of_nat c + 2)) as [L|L].
  - left. split; auto. lia.
  - rewrite !(proj2 (Z.ltb_ge _ 0)) by lia. cbn [orb]. rewrite !Nat2Z.id.
    assert (D : (0 < o /\ 0 < c /\ a3_t M + 2 < 2 * (o + c) \/ (0 < o -> 0 < c -> 2 * (o + c) <= a3_t M + 2))%nat) by lia.
    destruct D as [(Ho & Hc & D)|D].
    + rewrite (loop_bad M o c Ho Hc D). cbn [rbind]. right. split; auto. lia.
    + destruct (loop_ok M o c D) as (HH & E & P). rewrite E. cbn [rbind]. split; [lia|]. split; [lia|].
      unfold is_Hankel. cbn [nr nc ent]. rewrite <- !Nat2Z.inj_mul, !Nat2Z.id. do 4 (split; [auto|]).
      intros r r' i j Hr Hr' Hi Hj. apply P; auto.
Qed.
(** A negative number of blocks: ValueError, unless the signals it is multiplied by are
    none; then the arrays are empty. *)
Theorem C29_negative {F : sfield} (M : arr3 F) mc mo o c :
  era_sizes (a3_t M) mc mo = (o, c) -> (o < 0 \/ c < 0)%Z ->
  (((Z.of_nat (a3_t M) < o + c + 2)%Z \/ (o < 0)%Z /\ 0 < a3_p M \/ (c < 0)%Z /\ 0 < a3_m M) ->
   assemble_Hankel M mc mo = Raise ValueError) /\
  ((o + c + 2 <= Z.of_nat (a3_t M))%Z -> ((o < 0)%Z -> a3_p M = O) -> ((c < 0)%Z -> a3_m M = O) ->
   exists H H2, assemble_Hankel M mc mo = Ok (H, H2) /\
     nr H = (a3_p M * Z.to_nat o)%nat /\ nc H = (a3_m M * Z.to_nat c)%nat /\
     nr H2 = nr H /\ nc H2 = nc H /\ (nr H * nc H)%nat = O).
Proof.
  intros Hsz Hn. unfold assemble_Hankel. rewrite Hsz. cbn [fst snd]. split.
  - intros H. destruct (Z.ltb_spec (Z.of_nat (a3_t M)) (o + c + 2)) as [L|L]; auto.
    destruct (Z.ltb_spec (Z.of_nat (a3_p M) * o) 0) as [L1|L1]; auto.
    destruct (Z.ltb_spec (Z.of_nat (a3_m M) * c) 0) as [L2|L2]; auto.
    exfalso. destruct H as [H|[[H H']|[H H']]]; nia.
  - intros Ht Hp Hm. rewrite (proj2 (Z.ltb_ge (Z.of_nat (a3_t M)) (o + c + 2))) by auto.
    assert (L1 : (0 <= Z.of_nat (a3_p M) * o)%Z).
    { destruct (Z.ltb_spec o 0) as [L|L]; [rewrite (Hp L)|]; lia. }
    assert (L2 : (0 <= Z.of_nat (a3_m M) * c)%Z).
    { destruct (Z.ltb_spec c 0) as [L|L]; [rewrite (Hm L)|]; lia. }
    rewrite (proj2 (Z.ltb_ge _ 0) L1), (proj2 (Z.ltb_ge _ 0) L2). cbn [orb].
    assert (E : exists HH, foldM (fun HH row => foldM (Hankel_step M row) (seq 0 (Z.to_nat c)) HH)
           (seq 0 (Z.to_nat o)) (mzero, mzero) = Ok HH).
    { destruct Hn as [L|L].
      - replace (Z.to_nat o) with O by lia. cbn [seq foldM]. eauto.
      - replace (Z.to_nat c) with O by lia. cbn [seq foldM].
        generalize (seq 0 (Z.to_nat o)) as l. intros l. eexists. induction l as [|a l IH]; [reflexivity|].
        cbn [foldM rbind]. apply IH. }
    destruct E as (HH & E). rewrite E. cbn [rbind]. do 2 eexists. split; [reflexivity|].
    cbn [nr nc].
    assert (G : forall n z, ((z < 0)%Z -> n = O) -> Z.to_nat (Z.of_nat n * z) = (n * Z.to_nat z)%nat).
    { intros n z Hz. destruct (Z.ltb_spec z 0) as [L|L]; [rewrite (Hz L); lia|].
      rewrite Z2Nat.inj_mul, Nat2Z.id by lia. reflexivity. }
    rewrite !G by auto. do 4 (split; [reflexivity|]).
    destruct Hn as [L|L]; [rewrite (Hp L)|rewrite (Hm L)]; lia.
Qed.
(** The sizes used: those of the call; the default when either is missing. *)
Theorem C29_sizes {F : sfield} (M : arr3 F) (mc mo : option Z) :
  (forall o c, era_sizes (a3_t M) (Some c) (Some o) = (o, c)) /\
  (mc = None \/ mo = None -> 2 <= a3_t M ->
   exists d, era_sizes (a3_t M) mc mo = (Z.of_nat d, Z.of_nat d) /\ (d = (a3_t M - 2) / 4)%nat).
Proof.
  split; [reflexivity|]. intros Hn Ht. exists ((a3_t M - 2) / 4)%nat. split; auto.
  assert (E : Z.of_nat ((a3_t M - 2) / 4) = ((Z.of_nat (a3_t M) - 2) / 4)%Z).
  { rewrite Nat2Z.inj_div, Nat2Z.inj_sub by auto. reflexivity. }
  unfold era_sizes. rewrite E. destruct Hn as [->| ->]; [destruct mo; reflexivity|reflexivity].
Qed.
(** The default never indexes out of range; without samples it raises ValueError. *)
Theorem C29_default {F : sfield} (M : arr3 F) mc mo : mc = None \/ mo = None ->
  (2 <= a3_t M -> exists H H2, assemble_Hankel M mc mo = Ok (H, H2) /\
     is_Hankel M ((a3_t M - 2) / 4) ((a3_t M - 2) / 4) H H2) /\
  (a3_t M = O -> 0 < a3_p M -> assemble_Hankel M mc mo = Raise ValueError).
Proof.
  intros Hn. split.
  - intros Ht. destruct (proj2 (C29_sizes M mc mo) Hn Ht) as (d & Ed & ->).
    pose proof (C29_Hankel M mc mo _ _ Ed) as G. pose proof (Nat.div_mod (a3_t M - 2) 4 ltac:(lia)) as D.
    set (d := ((a3_t M - 2) / 4)%nat) in *.
    destruct (assemble_Hankel M mc mo) as [[H H2]|e].
    + exists H, H2. split; [auto|]. apply G.
    + exfalso. destruct G as [(_ & G)|(_ & G1 & G2 & G3 & G4)]; lia.
  - intros Ht Hp. unfold assemble_Hankel. assert (E : era_sizes (a3_t M) mc mo = (-1, -1)%Z).
    { unfold era_sizes. rewrite Ht. destruct Hn as [->| ->]; [destruct mo; reflexivity|reflexivity]. }
    rewrite E, Ht. cbn [fst snd]. change (Z.of_nat 0 <? -1 + -1 + 2)%Z with false. cbv iota.
    rewrite (proj2 (Z.ltb_lt (Z.of_nat (a3_p M) * -1) 0)) by lia. reflexivity.
Qed.
(** The default is not maximal: one more block row and column is always accepted (from
    four samples on). *)
Theorem C29_not_maximal {F : sfield} (M : arr3 F) d : 4 <= a3_t M -> Nat.odd (a3_t M) = false ->
  (d = (a3_t M - 2) / 4)%nat ->
  exists H H2, assemble_Hankel M (Some (Z.of_nat (d + 1))) (Some (Z.of_nat (d + 1))) = Ok (H, H2) /\
    is_Hankel M (d + 1) (d + 1) H H2.
Proof.
  intros Ht He ->. set (d := ((a3_t M - 2) / 4)%nat). pose proof (Nat.div_mod (a3_t M - 2) 4 ltac:(lia)) as D.
  pose proof (Nat.mod_upper_bound (a3_t M - 2) 4 ltac:(lia)) as D2. fold d in D.
  assert (Ev : exists q, a3_t M = (2 * q)%nat).
  { apply Nat.even_spec. rewrite <- Nat.negb_odd, He. reflexivity. }
  destruct Ev as (q & Eq).
  assert (D0 : (a3_t M = 4 -> d = 0)%nat) by (intros E; unfold d; rewrite E; reflexivity).
  pose proof (C29_Hankel M (Some (Z.of_nat (d + 1))) (Some (Z.of_nat (d + 1))) (d + 1) (d + 1) eq_refl) as G.
  destruct (assemble_Hankel M _ _) as [[H H2]|e].
  - exists H, H2. split; auto. apply G.
  - exfalso. destruct G as [(_ & G)|(_ & G1 & G2 & G3 & G4)]; lia.
Qed.
(** The size check is neither sufficient nor necessary. *)
Theorem C29_check_refuted {F : sfield} (M : arr3 F) :
  (a3_t M = 10 -> assemble_Hankel M (Some 4%Z) (Some 4%Z) = Raise IndexError)%nat /\
  (a3_t M = 2 -> assemble_Hankel M (Some 1%Z) (Some 1%Z) = Raise ValueError /\
     forall r r', r < 1 -> r' < 1 -> 2 * (r + r') + 1 < a3_t M)%nat.
Proof.
  split.
  - intros Ht. pose proof (C29_Hankel M (Some 4%Z) (Some 4%Z) 4 4 eq_refl) as G. rewrite Ht in G.
    destruct (assemble_Hankel M _ _) as [[H H2]|e]; [exfalso; lia|].
    destruct G as [(_ & G)|(-> & _)]; [exfalso; lia|auto].
  - intros Ht. split; [|intros; lia]. unfold assemble_Hankel. rewrite Ht. reflexivity.
Qed.
(** The constructor's sizes are ignored. *)
Theorem C29_constructor_ignored {F : sfield} sl eigvals (sqrt : F -> F) mc mo Markovs k mc' mo' :
  compute_model sl eigvals sqrt (ERA mc mo) Markovs k mc' mo' =
  compute_model sl eigvals sqrt (ERA None None) Markovs k mc' mo'.
Proof. reflexivity. Qed.

(** The Markov parameters the model works with: one or two missing dimensions are of
    length one, and an odd number of samples loses the last. *)
Theorem C29_Markovs {F : sfield} (Markovs : nd F) :
  match shape Markovs with
  | [] => set_Markovs Markovs = Raise ValueError
  | [a] | [a; _] | [a; _; _] => exists M, set_Markovs Markovs = Ok M /\
      a3_t M = (2 * (a / 2))%nat /\
      a3_p M = nth 1 (shape Markovs) 1%nat /\ a3_m M = nth 2 (shape Markovs) 1%nat /\
      forall t i j, a3 M t i j = at1 (flat Markovs) ((t * a3_p M + i) * a3_m M + j)%nat
  | _ => set_Markovs Markovs = Raise RuntimeError
  end.
Proof.
  assert (P : forall a p m, exists M : arr3 F,
    Ok (if Nat.odd (a3_t (as_3d a p m (flat Markovs)))
        then Arr3 (a3_t (as_3d a p m (flat Markovs)) - 1) p m (a3 (as_3d a p m (flat Markovs)))
        else as_3d a p m (flat Markovs)) = Ok M /\
    a3_t M = (2 * (a / 2))%nat /\ a3_p M = p /\ a3_m M = m /\
    forall t i j, a3 M t i j = at1 (flat Markovs) ((t * a3_p M + i) * a3_m M + j)%nat).
  { intros a p m. cbn [a3_t as_3d]. destruct (Nat.odd a) eqn:E.
    - eexists. split; [reflexivity|]. cbn [a3_t a3_p a3_m a3]. apply Nat.odd_spec in E. destruct E as (q & ->). split; [|auto].
      replace ((2 * q + 1) / 2)%nat with q; [lia|]. apply (Nat.div_unique _ 2 q 1); lia.
    - eexists. split; [reflexivity|]. cbn [a3_t a3_p a3_m a3 as_3d]. assert (E' : Nat.even a = true) by (rewrite <- Nat.negb_odd, E; auto).
      apply Nat.even_spec in E'. destruct E' as (q & ->). split; [|auto]. replace (2 * q / 2)%nat with q; [lia|].
      apply (Nat.div_unique _ 2 q 0); lia. }
  unfold set_Markovs. destruct (shape Markovs) as [|a [|b [|c [|d l]]]]; try reflexivity; apply P.
Qed.

(** ** C30: recovery of the system *)

(** The rows C A^(P r), and the columns A^(P c) B. *)
Definition observability {F : sfield} (n p P : nat) (A C : mat F) : mat F :=
  fun x l => mmul n C (mpow n A (P * (x / p))) (x mod p)%nat l.
Definition controllability {F : sfield} (n m P : nat) (A B : mat F) : mat F :=
  fun l y => mmul n (mpow n A (P * (y / m))) B l (y mod m)%nat.

Section Recovery.
Context {F : sfield}.
Add Field C30_F : (k_field F).
Variables (n p m P o c : nat) (A B C : mat F) (M : arr3 F) (H H2 : arr F).
Hypothesis (Hp : a3_p M = p) (Hm : a3_m M = m) (Pp : (0 < p)%nat) (Pm : (0 < m)%nat).
Hypothesis (HH : is_Hankel M o c H H2).
Hypothesis (HM : forall k, (k < o + c - 1)%nat ->
  meq p m (a3 M (2 * k)%nat) (mmul n C (mmul n (mpow n A (P * k)) B)) /\
  meq p m (a3 M (2 * k + 1)%nat) (mmul n C (mmul n (mpow n A (P * k + 1)) B))).
Hypothesis (HR : forall k i j, (k < 2 * (o + c - 1))%nat -> i < p -> j < m -> real (a3 M k i j)).
Let O := observability n p P A C.
Let K := controllability n m P A B.

Lemma split_index x q b : (0 < q)%nat -> (x < q * b)%nat -> (x / q < b /\ x mod q < q /\ x = x / q * q + x mod q)%nat.
Proof.
  intros Hq Hx. pose proof (Nat.div_mod x q ltac:(lia)). pose proof (Nat.mod_upper_bound x q ltac:(lia)).
  split; [apply Nat.div_lt_upper_bound; lia|]. split; [auto|]. lia.
Qed.
Lemma Hankel_factor : meq (p * o) (m * c) (ent H) (mmul n O K).
Proof.
  split. intros x y Hx Hy. destruct (split_index x p o Pp Hx) as (X1 & X2 & X3).
  destruct (split_index y m c Pm Hy) as (Y1 & Y2 & Y3).
  destruct HH as (_ & _ & _ & _ & HB). rewrite Hp, Hm in HB.
  destruct (HB (x / p) (y / m) (x mod p) (y mod m))%nat as [E _]; auto. rewrite <- X3, <- Y3 in E. rewrite E.
  rewrite kre_real by (apply HR; auto; lia).
  rewrite (meq_at _ _ _ _ (proj1 (HM (x / p + y / m)%nat ltac:(lia))) (x mod p) (y mod m))%nat by auto.
  unfold O, K, observability, controllability, mmul at 4.
  rewrite Nat.mul_add_distr_l.
  assert (G : meq p m (mmul n C (mmul n (mpow n A (P * (x / p) + P * (y / m))) B))
    (mmul n (mmul n C (mpow n A (P * (x / p)))) (mmul n (mpow n A (P * (y / m))) B))).
  { rewrite mpow_add, !mmul_assoc. reflexivity. }
  rewrite (meq_at _ _ _ _ G) by auto. reflexivity.
Qed.
Lemma Hankel2_factor : meq (p * o) (m * c) (ent H2) (mmul n O (mmul n A K)).
Proof.
  split. intros x y Hx Hy. destruct (split_index x p o Pp Hx) as (X1 & X2 & X3).
  destruct (split_index y m c Pm Hy) as (Y1 & Y2 & Y3).
  destruct HH as (_ & _ & _ & _ & HB). rewrite Hp, Hm in HB.
  destruct (HB (x / p) (y / m) (x mod p) (y mod m))%nat as [_ E]; auto. rewrite <- X3, <- Y3 in E. rewrite E.
  rewrite kre_real by (apply HR; auto; lia).
  rewrite (meq_at _ _ _ _ (proj2 (HM (x / p + y / m)%nat ltac:(lia))) (x mod p) (y mod m))%nat by auto.
  assert (G : meq p m (mmul n C (mmul n (mpow n A (P * (x / p + y / m) + 1)) B))
    (mmul n (mmul n C (mpow n A (P * (x / p)))) (mmul n A (mmul n (mpow n A (P * (y / m))) B)))).
  { replace (P * (x / p + y / m) + 1)%nat with (P * (x / p) + (1 + P * (y / m)))%nat by lia.
    rewrite mpow_add, (mpow_add n A 1). simpl (mpow n A 1). rewrite mmul_id_r, !mmul_assoc. reflexivity. }
  rewrite (meq_at _ _ _ _ G) by auto. reflexivity.
Qed.
Lemma O_first : (0 < o)%nat -> meq p n O C.
Proof.
  intros Ho. split. intros i l Hi Hl. unfold O, observability. rewrite Nat.div_small, Nat.mod_small by auto.
  rewrite Nat.mul_0_r. simpl (mpow n A 0). apply (meq_at _ _ _ _ (mmul_id_r p n C) i l Hi Hl).
Qed.
Lemma K_first : (0 < c)%nat -> meq n m K B.
Proof.
  intros Hc. split. intros l j Hl Hj. unfold K, controllability. rewrite Nat.div_small, Nat.mod_small by auto.
  rewrite Nat.mul_0_r. simpl (mpow n A 0). apply (meq_at _ _ _ _ (mmul_id_l n m B) l j Hl Hj).
Qed.
End Recovery.

Lemma C30_realized {F : sfield} sl eigvals (sqrt : F -> F) self Markovs M mc mo o c n p m P (A B C Lo Rc : mat F) :
  (* the data: Markov parameters at the times 0, 1, P, P + 1, 2 P, ... of a system of order n *)
  set_Markovs Markovs = Ok M -> a3_p M = p -> a3_m M = m -> 0 < p -> 0 < m -> 0 < n ->
  era_sizes (a3_t M) mc mo = (Z.of_nat o, Z.of_nat c) ->
  (o + c + 2 <= a3_t M)%nat -> (2 * (o + c) <= a3_t M + 2)%nat ->
  (forall k, (k < o + c - 1)%nat ->
    meq p m (a3 M (2 * k)%nat) (mmul n C (mmul n (mpow n A (P * k)) B)) /\
    meq p m (a3 M (2 * k + 1)%nat) (mmul n C (mmul n (mpow n A (P * k + 1)) B))) ->
  (forall k i j, (k < 2 * (o + c - 1))%nat -> i < p -> j < m -> real (a3 M k i j)) ->
  (* observed and controlled by the rows and columns of the Hankel array *)
  meq n n (mmul (p * o) Lo (observability n p P A C)) mid ->
  meq n n (mmul (m * c) (controllability n m P A B) Rc) mid ->
  exists H H2, assemble_Hankel M mc mo = Ok (H, H2) /\ is_Hankel M o c H H2 /\
    forall U0 S0 Vh0, sl H = Ok (U0, S0, Vh0) -> svd_contract H U0 S0 Vh0 ->
      (forall x, In x S0 -> x <> 0 -> sqrt_ok sqrt x) -> (forall X, exists l, eigvals X = Ok l) ->
      n <= length S0 /\ (forall i, i < length S0 -> (at1 S0 i <> 0 <-> i < n)) /\
      exists self' Ar Br Cr T Ti,
        compute_model sl eigvals sqrt self Markovs n mc mo = Ok (self', (Ar, Br, Cr)) /\
        nr Ar = n /\ nc Ar = n /\ nr Br = n /\ nc Br = m /\ nr Cr = p /\ nc Cr = n /\
        (* a similar system *)
        meq n n (mmul n T Ti) mid /\ meq n n (mmul n Ti T) mid /\
        meq n n (ent Ar) (mmul n T (mmul n A Ti)) /\ meq n m (ent Br) (mmul n T B) /\ meq p n (ent Cr) (mmul n C Ti) /\
        (* in coordinates that make the factors of the Hankel array those of its SVD *)
        meq (p * o) n (mmul n (observability n p P A C) Ti) (mmul n (ent U0) (mdiag (fun i => sqrt (at1 S0 i)))) /\
        meq n (m * c) (mmul n T (controllability n m P A B)) (mmul n (mdiag (fun i => sqrt (at1 S0 i))) (ent Vh0)) /\
        (* so with the same Markov parameters at all times *)
        forall k, meq p m (mmul n (ent Cr) (mmul n (mpow n (ent Ar) k) (ent Br))) (mmul n C (mmul n (mpow n A k) B)).
Proof.
  intros EM Hp Hm Pp Pm Pn Hsz Hs1 Hs2 HM HR HLo HRc.
  pose proof (C29_Hankel M mc mo o c Hsz) as G.
  destruct (assemble_Hankel M mc mo) as [[H H2]|e] eqn:EH.
  2: { exfalso. destruct G as [(_ & G)|(_ & _ & _ & _ & G)]; lia. }
  destruct G as (_ & _ & HH). exists H, H2. split; [auto|]. split; [auto|].
  intros U0 S0 Vh0 HL HC Hsq Heig.
  pose proof HH as (H1r & H1c & H2r & H2c & _). rewrite Hp, Hm in *.
  set (R := (p * o)%nat) in *. set (Q := (m * c)%nat) in *.
  pose proof (Hankel_factor n p m P o c A B C M H H2 Hp Hm Pp Pm HH HM HR) as F1.
  pose proof (Hankel2_factor n p m P o c A B C M H H2 Hp Hm Pp Pm HH HM HR) as F2.
  set (O := observability n p P A C) in *. set (K := controllability n m P A B) in *.
  fold R Q in F1, F2.
  set (k := length S0).
  assert (HU : meq k k (mmul R (madj (ent U0)) (ent U0)) mid).
  { pose proof (svd_U _ _ _ _ HC) as X. rewrite H1r in X. exact X. }
  set (V := madj (ent Vh0)).
  assert (HV : meq k k (mmul Q (madj V) V) mid).
  { pose proof (svd_V _ _ _ _ HC) as X. rewrite H1c in X. exact X. }
  assert (HS : meq R Q (ent H) (mmul k (ent U0) (mmul k (mdiag (at1 S0)) (madj V)))).
  { pose proof (svd_eq _ _ _ _ HC) as X. rewrite H1r, H1c in X. unfold V. rewrite madj_madj. exact X. }
  assert (Hre : forall i, i < k -> real (at1 S0 i)) by (intros; apply all_real_at, (svd_real _ _ _ _ HC)).
  assert (Hnn : forall i, i < k -> kle 0 (at1 S0 i)).
  { intros i Hi. apply (Forall_at (kle 0)); auto. apply (svd_nonneg _ _ _ _ HC). }
  assert (Hde : forall i j, i <= j -> j < k -> kle (at1 S0 j) (at1 S0 i)).
  { intros i j Hij Hj. apply (svd_sorted _ _ _ _ HC); auto. }
  pose proof (rank_len R Q n k (ent H) O K Lo Rc (ent U0) V (at1 S0) F1 HLo HRc HS) as Rl.
  pose proof (fun i => rank_nonzero R Q n k (ent H) O K Lo Rc (ent U0) V (at1 S0) F1 HLo HRc HS Hre Hnn Hde i) as Rn.
  pose proof (fun i => rank_zero R Q n k (ent H) O K (ent U0) V (at1 S0) F1 HU HV HS Hre Hnn Hde i) as Rz.
  split; [exact Rl|]. split.
  { intros i Hi. split; [|apply Rn]. intros N. destruct (Nat.lt_ge_cases i n) as [|L]; auto. exfalso. apply N, Rz; auto. }
  assert (Hsq' : forall i, i < n -> sqrt_ok sqrt (at1 S0 i)).
  { intros i Hi. apply Hsq; [apply nth_In; fold k; lia|auto]. }
  assert (Ro : (n <= R)%nat).
  { destruct (Nat.le_gt_cases n R) as [|L]; auto. exfalso. exact (no_wide n R Lo O L HLo). }
  assert (Rq : (n <= Q)%nat).
  { destruct (Nat.le_gt_cases n Q) as [|L]; auto. exfalso. exact (no_wide n Q K Rc L HRc). }
  assert (Po : (0 < o)%nat) by (unfold R in Ro; nia). assert (Pc : (0 < c)%nat) by (unfold Q in Rq; nia).
  assert (pR : (p <= R)%nat) by (unfold R; nia). assert (mQ : (m <= Q)%nat) by (unfold Q; nia).
  set (ei := mdiag (fun i => 1 / sqrt (at1 S0 i))).
  set (T := mmul n ei (mmul R (madj (ent U0)) O)).
  set (Ti := mmul Q K (mmul n V ei)).
  pose proof (TTi R Q n k (ent H) O K Lo Rc (ent U0) V (at1 S0) F1 HLo HRc HU HV HS Hre Hnn Hde sqrt Hsq') as T1.
  pose proof (TiT R Q n k (ent H) O K Lo Rc (ent U0) V (at1 S0) F1 HLo HRc HU HV HS Hre Hnn Hde sqrt Hsq') as T2.
  pose proof (real_A R Q n O K (ent U0) V (at1 S0) sqrt A (ent H2) F2) as RA.
  pose proof (real_B R Q n k (ent H) O K Lo Rc (ent U0) V (at1 S0) F1 HLo HRc HU HV HS Hre Hnn Hde sqrt Hsq' m mQ) as RB.
  pose proof (real_C R Q n k (ent H) O K Lo Rc (ent U0) V (at1 S0) F1 HLo HRc HU HV HS Hre Hnn Hde sqrt Hsq' p pR) as RC.
  fold ei in T1, T2, RA, RB, RC. fold T Ti in T1, T2, RA, RB, RC.
  (* the call *)
  set (Ud := Arr R k (ent U0)).
  assert (Esvd : svd sl H None None = Ok (first_cols k U0, S0, first_cols k (conj_T Vh0))).
  { unfold svd. rewrite HL. cbn [rbind fst snd num_kept]. fold k. unfold k at 2. rewrite firstn_all. reflexivity. }
  set (Er := firstn n S0).
  assert (LE : length Er = n) by (unfold Er; rewrite firstn_length; fold k; lia).
  assert (U0r : nr U0 = R) by (rewrite (svd_Ur _ _ _ _ HC); auto).
  assert (U0c : nc U0 = k) by apply (svd_Uc _ _ _ _ HC).
  assert (V0r : nr Vh0 = k) by apply (svd_Vr _ _ _ _ HC).
  assert (V0c : nc Vh0 = Q) by (rewrite (svd_Vc _ _ _ _ HC); auto).
  assert (D1 : meq n n (mdiag (at1 (map (inv_sqrt sqrt) Er))) ei).
  { apply mdiag_ext. intros i Hi. rewrite at1_map by lia. unfold Er. rewrite at1_firstn by auto. reflexivity. }
  assert (D2 : meq n n (mdiag (at1 (map sqrt Er))) (mdiag (fun i => sqrt (at1 S0 i)))).
  { apply mdiag_ext. intros i Hi. rewrite at1_map by lia. unfold Er. rewrite at1_firstn by auto. reflexivity. }
  set (Ar := Arr n n (mmul n (mdiag (at1 (map (inv_sqrt sqrt) Er))) (mmul R (madj (ent U0)) (mmul Q (ent H2)
    (mmul n V (mdiag (at1 (map (inv_sqrt sqrt) Er)))))))).
  set (Br := Arr n m (mmul n (mdiag (at1 (map sqrt Er))) (madj V))).
  set (Cr := Arr p n (mmul n (ent U0) (mdiag (at1 (map sqrt Er))))).
  destruct (Heig Ar) as (ev & Eev).
  assert (EC : exists self', compute_model sl eigvals sqrt self Markovs n mc mo = Ok (self', (Ar, Br, Cr))).
  { eexists. unfold compute_model. rewrite EM. cbn [rbind e_mc e_mo]. rewrite EH. cbn [rbind fst snd].
    rewrite Esvd. cbn [rbind fst snd]. fold Er.
    assert (N1 : Nat.min n (Nat.min k k) = n) by lia.
    unfold dot at 1. cbn [nc nr first_cols conj_T diag ent]. rewrite !map_length, LE, V0r, N1, Nat.eqb_refl.
    cbn [rbind]. unfold dot at 1. cbn [nc nr first_cols conj_T diag ent]. rewrite H2c, V0c. fold Q. rewrite Nat.eqb_refl.
    cbn [rbind]. unfold dot at 1. cbn [nc nr first_cols conj_T diag ent]. rewrite U0r, H2r. fold R. rewrite Nat.eqb_refl.
    cbn [rbind]. unfold dot at 1. cbn [nc nr first_cols conj_T diag ent]. rewrite U0c, !map_length, LE, N1, Nat.eqb_refl.
    cbn [rbind]. unfold dot at 1. cbn [nc nr first_cols conj_T diag ent col_slice]. rewrite !map_length, LE, V0r, N1, Nat.eqb_refl.
    cbn [rbind]. unfold dot at 1. cbn [nc nr first_cols conj_T diag ent row_slice]. rewrite !map_length, LE, U0c, N1, Nat.eqb_refl.
    cbn [rbind]. rewrite U0r, V0c, Hp, Hm, (Nat.min_l m Q), (Nat.min_l p R), !Nat.sub_0_r by auto.
    fold V. change (mmul n (mdiag (at1 (map sqrt Er))) (fun i j => madj V i (0 + j)%nat))
      with (mmul n (mdiag (at1 (map sqrt Er))) (madj V)).
    change (mmul n (fun i j => ent U0 (0 + i)%nat j) (mdiag (at1 (map sqrt Er))))
      with (mmul n (ent U0) (mdiag (at1 (map sqrt Er)))).
    fold Ar. rewrite Eev. cbn [rbind]. reflexivity. }
  destruct EC as (self' & EC). exists self', Ar, Br, Cr, T, Ti.
  split; [exact EC|]. do 6 (split; [reflexivity|]). split; [exact T1|]. split; [exact T2|].
  assert (EA : meq n n (ent Ar) (mmul n T (mmul n A Ti))).
  { unfold Ar. cbn [ent]. rewrite D1. exact RA. }
  assert (EB : meq n m (ent Br) (mmul n T B)).
  { unfold Br. cbn [ent]. rewrite D2, RB. pose proof (K_first n m P c A B Pc) as X. fold K in X. rewrite X. reflexivity. }
  assert (ECC : meq p n (ent Cr) (mmul n C Ti)).
  { unfold Cr. cbn [ent]. rewrite D2, RC. pose proof (O_first n p P o A C Po) as X. fold O in X. rewrite X. reflexivity. }
  do 3 (split; [auto|]). split; [|split].
  { symmetry. exact (real_C R Q n k (ent H) O K Lo Rc (ent U0) V (at1 S0) F1 HLo HRc HU HV HS Hre Hnn Hde sqrt Hsq' R (Nat.le_refl R)). }
  { symmetry. pose proof (real_B R Q n k (ent H) O K Lo Rc (ent U0) V (at1 S0) F1 HLo HRc HU HV HS Hre Hnn Hde sqrt Hsq' Q (Nat.le_refl Q)) as X.
    unfold V in X. rewrite madj_madj in X. exact X. }
  intros q.
  apply (similar_Markov n p m A B C T Ti); auto.
Qed.
Theorem C30_Markov_recovered {F : sfield} sl eigvals (sqrt : F -> F) self Markovs M mc mo o c n p m P (A B C Lo Rc : mat F) :
  (* the data: Markov parameters at the times 0, 1, P, P + 1, 2 P, ... of a system of order n *)
  set_Markovs Markovs = Ok M -> a3_p M = p -> a3_m M = m -> 0 < p -> 0 < m -> 0 < n ->
  era_sizes (a3_t M) mc mo = (Z.of_nat o, Z.of_nat c) ->
  (o + c + 2 <= a3_t M)%nat -> (2 * (o + c) <= a3_t M + 2)%nat ->
  (forall k, (k < o + c - 1)%nat ->
    meq p m (a3 M (2 * k)%nat) (mmul n C (mmul n (mpow n A (P * k)) B)) /\
    meq p m (a3 M (2 * k + 1)%nat) (mmul n C (mmul n (mpow n A (P * k + 1)) B))) ->
  (forall k i j, (k < 2 * (o + c - 1))%nat -> i < p -> j < m -> real (a3 M k i j)) ->
  (* observed and controlled by the rows and columns of the Hankel array *)
  meq n n (mmul (p * o) Lo (observability n p P A C)) mid ->
  meq n n (mmul (m * c) (controllability n m P A B) Rc) mid ->
  exists H H2, assemble_Hankel M mc mo = Ok (H, H2) /\ is_Hankel M o c H H2 /\
    forall U0 S0 Vh0, sl H = Ok (U0, S0, Vh0) -> svd_contract H U0 S0 Vh0 ->
      (forall x, In x S0 -> x <> 0 -> sqrt_ok sqrt x) -> (forall X, exists l, eigvals X = Ok l) ->
      n <= length S0 /\ (forall i, i < length S0 -> (at1 S0 i <> 0 <-> i < n)) /\
      exists self' Ar Br Cr T Ti,
        compute_model sl eigvals sqrt self Markovs n mc mo = Ok (self', (Ar, Br, Cr)) /\
        nr Ar = n /\ nc Ar = n /\ nr Br = n /\ nc Br = m /\ nr Cr = p /\ nc Cr = n /\
        (* a similar system *)
        meq n n (mmul n T Ti) mid /\ meq n n (mmul n Ti T) mid /\
        meq n n (ent Ar) (mmul n T (mmul n A Ti)) /\ meq n m (ent Br) (mmul n T B) /\ meq p n (ent Cr) (mmul n C Ti) /\
        (* so with the same Markov parameters at all times *)
        forall k, meq p m (mmul n (ent Cr) (mmul n (mpow n (ent Ar) k) (ent Br))) (mmul n C (mmul n (mpow n A k) B)).
Proof.
  intros EM Hp Hm Pp Pm Pn Hsz Hs1 Hs2 HM HR HLo HRc.
  destruct (C30_realized sl eigvals sqrt self Markovs M mc mo o c n p m P A B C Lo Rc EM Hp Hm Pp Pm Pn Hsz Hs1 Hs2 HM HR HLo HRc)
    as (H & H2 & EH & HH & G).
  exists H, H2. do 2 (split; [auto|]). intros U0 S0 Vh0 G1 G2 G3 G4.
  destruct (G U0 S0 Vh0 G1 G2 G3 G4) as (K1 & K2 & self' & Ar & Br & Cr & T & Ti & K3).
  do 2 (split; [auto|]). exists self', Ar, Br, Cr, T, Ti. decompose [and] K3. repeat (split; [assumption|]). assumption.
Qed.

(** From equally spaced impulse response samples C A^k B, k = 0 ... T - 1, through
    make_sampled_format, with the default number of blocks. *)
Lemma of_3d_at {F : sfield} (M : arr3 F) t i j : t < a3_t M -> i < a3_p M -> j < a3_m M ->
  at1 (flat (of_3d M)) ((t * a3_p M + i) * a3_m M + j)%nat = a3 M t i j.
Proof.
  intros Ht Hi Hj. unfold of_3d. cbn [flat]. set (p := a3_p M) in *. set (m := a3_m M) in *.
  set (f := fun x : nat => a3 M (x / (p * m)) ((x / m) mod p) (x mod m)%nat).
  assert (L0 : (t * p + i + 1 <= a3_t M * p)%nat) by nia.
  assert (L : ((t * p + i) * m + j < a3_t M * p * m)%nat).
  { pose proof (Nat.mul_le_mono_r _ _ m L0). lia. }
  unfold at1. rewrite (nth_indep _ 0 (f O)) by (rewrite map_length, seq_length; auto).
  rewrite map_nth, seq_nth by auto. unfold f. rewrite Nat.add_0_l.
  assert (E1 : (((t * p + i) * m + j) / m = t * p + i)%nat) by (symmetry; apply (Nat.div_unique _ m _ j); nia).
  assert (E2 : (((t * p + i) * m + j) mod m = j)%nat) by (symmetry; apply (Nat.mod_unique _ m (t * p + i)); nia).
  assert (E3 : (((t * p + i) * m + j) / (p * m) = t)%nat) by (symmetry; apply (Nat.div_unique _ (p * m) _ (i * m + j)); nia).
  rewrite E1, E2, E3. f_equal. symmetry. apply (Nat.mod_unique _ p t); nia.
Qed.

Theorem C30_from_samples {F : sfield} sl eigvals (sqrt : F -> F) round times Markovs (tol : F) T n p m (A B C Lo Rc : mat F) :
  shape Markovs = [T; p; m] -> length times = T -> 2 <= T -> all_real times -> real tol ->
  equally_spaced times tol -> 0 < p -> 0 < m -> 0 < n ->
  (forall k i j, k < T -> i < p -> j < m -> real (at1 (flat Markovs) ((k * p + i) * m + j)%nat)) ->
  (forall k i j, k < T -> i < p -> j < m ->
     at1 (flat Markovs) ((k * p + i) * m + j)%nat = mmul n C (mmul n (mpow n A k) B) i j) ->
  let d := ((T - 2) / 2)%nat in
  meq n n (mmul (p * d) Lo (observability n p 1 A C)) mid ->
  meq n n (mmul (m * d) (controllability n m 1 A B) Rc) mid ->
  exists steps M M' H H2, make_sampled_format round times Markovs tol = Ok (steps, M) /\
    set_Markovs (of_3d M) = Ok M' /\ assemble_Hankel M' None None = Ok (H, H2) /\
    is_Hankel M d d H H2 /\
    forall U0 S0 Vh0, sl H = Ok (U0, S0, Vh0) -> svd_contract H U0 S0 Vh0 ->
      (forall x, In x S0 -> x <> 0 -> sqrt_ok sqrt x) -> (forall X, exists l, eigvals X = Ok l) ->
      n <= length S0 /\ (forall i, i < n -> at1 S0 i <> 0) /\
      exists Ar Br Cr, compute_ERA_model sl eigvals sqrt (of_3d M) n = Ok (Ar, Br, Cr) /\
        nr Ar = n /\ nc Ar = n /\ nr Br = n /\ nc Br = m /\ nr Cr = p /\ nc Cr = n /\
        forall k, meq p m (mmul n (ent Cr) (mmul n (mpow n (ent Ar) k) (ent Br))) (mmul n C (mmul n (mpow n A k) B)).
Proof.
  intros Hsh HL HT HR Rt Hsp Pp Pm Pn Hre Hdat d HLo HRc.
  destruct (C28_sampled round times Markovs tol T p m Hsh HL HT HR Rt Hsp) as (steps & M & EM & _ & Mt & Mp & Mm & Ment & _ & _).
  exists steps, M.
  pose proof (C29_Markovs (of_3d M)) as G. cbn [shape of_3d] in G. destruct G as (M' & EM' & Mt' & Mp' & Mm' & Ment').
  cbn [nth] in Mp', Mm'.
  assert (Mt2 : a3_t M' = ((T - 1) * 2)%nat).
  { rewrite Mt', Mt, Nat.div_mul by lia. lia. }
  assert (Ment2 : forall k i j, k < (T - 1) * 2 -> i < p -> j < m -> a3 M' k i j = a3 M k i j).
  { intros k i j Hk Hi Hj. rewrite Ment', Mp', Mm'. apply of_3d_at; lia. }
  assert (Dd : (((T - 1) * 2 - 2) / 4 = d)%nat).
  { unfold d. replace ((T - 1) * 2 - 2)%nat with ((T - 2) * 2)%nat by lia.
    change 4%nat with (2 * 2)%nat. rewrite Nat.div_mul_cancel_r; lia. }
  assert (D2 : (2 * d + 2 <= T)%nat) by (pose proof (Nat.div_mod (T - 2) 2 ltac:(lia)); unfold d; lia).
  destruct (proj2 (C29_sizes M' None None) (or_introl eq_refl) ltac:(lia)) as (d' & Ed & Ed').
  rewrite Mt2, Dd in Ed'. rewrite Ed' in Ed. clear d' Ed'.
  assert (Hval : forall k i j, k < (T - 1) * 2 -> i < p -> j < m ->
    a3 M' k i j = mmul n C (mmul n (mpow n A (k / 2 + k mod 2)) B) i j).
  { intros k i j Hk Hi Hj. rewrite Ment2, Ment, doubled_nth by auto. pose proof (doubled_lt T k Hk).
    rewrite kre_real by (apply Hre; auto). apply Hdat; auto. }
  destruct (C30_Markov_recovered sl eigvals sqrt (ERA None None) (of_3d M) M' None None d d n p m 1 A B C Lo Rc)
    as (H & H2 & EH & HH & Res); try assumption; try lia.
  - intros k Hk. split; (split; intros i j Hi Hj; rewrite Hval by (auto; lia); rewrite Nat.mul_1_l).
    + replace (2 * k / 2 + (2 * k) mod 2)%nat with k; auto.
      rewrite Nat.mul_comm, Nat.div_mul, Nat.mod_mul by lia. lia.
    + replace ((2 * k + 1) / 2 + (2 * k + 1) mod 2)%nat with (k + 1)%nat; auto.
      replace (2 * k + 1)%nat with (1 + k * 2)%nat by lia. rewrite Nat.div_add, Nat.mod_add by lia. reflexivity.
  - intros k i j Hk Hi Hj. rewrite Ment2, Ment by (auto; lia). apply real_kre.
  - exists M', H, H2. split; [auto|]. split; [auto|]. split; [auto|]. split.
    + destruct HH as (h1 & h2 & h3 & h4 & h5). rewrite Mp' , Mm' in *. do 4 (split; [auto|]).
      intros r r' i j Hr Hr' Hi Hj. rewrite <- !Ment2 by lia. apply h5; auto.
    + intros U0 S0 Vh0 HL0 HC Hsq Heig. destruct (Res U0 S0 Vh0 HL0 HC Hsq Heig)
        as (Rl & Rn & self' & Ar & Br & Cr & _ & _ & EC & s1 & s2 & s3 & s4 & s5 & s6 & _ & _ & _ & _ & _ & HMk).
      split; [exact Rl|]. split; [intros i Hi; apply Rn; lia|].
      exists Ar, Br, Cr. unfold compute_ERA_model. rewrite EC. do 7 (split; [auto|]). exact HMk.
Qed.
