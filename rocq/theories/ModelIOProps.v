(** C49: saved reduced-order models can be loaded. *)
From stdpp Require Import gmap list.
From Coq Require Import Lia ZArith.
From Verif Require Import Prelude Spmd SpmdFacts SpmdLock SpmdEnds SpmdAgree ReductionsModel ReductionsProofs.
From Verif Require Import TextModel TextProofs TextProps DerivsProofs DecompIOModel DecompIOProofs DecompIOProps.
From Verif Require Import ModelIOModel ModelIOProofs.
Open Scope nat_scope.

(** [put] by [P] ranks; then each rank loads [files] for itself: every rank gets [results],
    whatever the schedule, and the other files are as before. *)
Definition put_then_load {T I} (read : text -> option T)
    (P : nat) (put : nat -> prog (option (array T I)) text (list (option (array T I))) unit)
    (files : list loc) (results : list (array T I)) : Prop :=
  forall tag_ub eager st,
  always_ends tag_ub eager (launch P (fun i => bind (put i) (fun _ => load_files read files)) st)
    (fun c => all_return (fun _ r => r = map Some results) c /\ length (procs c) = P /\
              forall h, h ∉ files -> store c !! h = st !! h).
(** In every reachable configuration, a rank that has returned finds [files] as [texts]. *)
Definition there_when_returned {T I} (P : nat) (put : nat -> prog (option (array T I)) text unit unit)
    (files : list (loc * text)) : Prop :=
  forall tag_ub eager st n d, steps tag_ub eager n (launch P put st) d ->
  forall i, procs d !! i = Some (Ret tt) -> forall h t, (h, t) ∈ files -> store d !! h = Some t.

Section Props.
Context {T I : Type} (show : T -> text) (read : text -> option T) (bits : I -> T).
Hypothesis Pr : printing show read.
Notation array := (array T I).
Notation loads_as := (loads_as show read bits).
Notation saves a t := (save_array_text show bits a None = Ok t).
Notation reads t b := (load_array_text read t None false = Ok (b : array)).

Lemma texts (l : list (array * loc)) bs : Forall2 (fun x b => loads_as x.1 b) l bs ->
  exists ts, Forall2 (fun x t => saves x.1 t) l ts /\
    Forall2 (fun t b => reads t b) ts bs.
Proof.
  intros H. induction H as [|x b l bs (t & E1 & E2) H (ts & IH1 & IH2)]; [exists []; split; constructor|].
  exists (t :: ts). split; constructor; auto.
Qed.
Lemma put_store_loads (l : list (array * loc)) : forall ts bs st, NoDup l.*2 ->
  Forall2 (fun x t => saves x.1 t) l ts ->
  Forall2 (fun t b => reads t b) ts bs ->
  Forall2 (fun src b => exists t, put_store l ts st !! src = Some t /\ reads t b) l.*2 bs.
Proof.
  induction l as [|[a d] l IH]; intros ts bs st Hnd H1 H2; inversion H1 as [|x t l' ts' E H1']; subst;
    inversion H2 as [|x b ts'' bs' E' H2']; subst; simpl in *; constructor.
  - apply NoDup_cons in Hnd as [Hn Hnd]. exists t. split; auto. rewrite put_store_other by auto. apply lookup_insert.
  - apply NoDup_cons in Hnd as [Hn Hnd]. apply IH; auto.
Qed.

Lemma ends_weaken {M V O} tag_ub (eager : M -> bool) (c : config M V O) (Q Q' : _ -> Prop) :
  (forall d, Q d -> Q' d) -> always_ends tag_ub eager c Q -> always_ends tag_ub eager c Q'.
Proof. intros. eapply always_ends_mono; eauto. Qed.
Lemma galerkin_trip P (l : list (array * loc)) bs : 0 < P -> NoDup l.*2 ->
  Forall2 (fun x b => loads_as x.1 b) l bs ->
  put_then_load read P (fun i => put_reduced_each show bits P i (computed l)) l.*2 bs.
Proof.
  intros HP Hnd H tag_ub eager st. destruct (texts l bs H) as (ts & H1 & H2).
  apply (ends_put_reduced_each show bits tag_ub eager P l ts (fun i _ => load_files read l.*2 Ret) st); auto.
  eapply ends_weaken; [|apply (ends_load_files read tag_ub eager P HP l.*2 (put_store l ts st) bs)].
  - intros c (A1 & A2 & A3). split; auto. split; auto. intros h Hh. rewrite A3. apply put_store_other; auto.
  - apply put_store_loads; auto.
Qed.

Theorem C49_galerkin_model P A B C fA fB fC : 0 < P -> NoDup [fA; fB; fC] ->
  real_array A -> real_array B -> real_array C ->
  put_then_load read P (fun i => galerkin_put_model show bits P i (Some A) (Some B) (Some C) fA fB fC)
    [fA; fB; fC] [by_rows A; by_rows B; by_rows C].
Proof.
  intros HP Hnd HA HB HC. apply (galerkin_trip P [(A, fA); (B, fB); (C, fC)]); auto.
  repeat constructor; apply array_loads; auto.
Qed.

(** No rank goes on before the three files are written, whatever follows. *)
Theorem C49_galerkin_before_return {O} P A B C tA tB tC fA fB fC tag_ub (eager : option array -> bool)
    (k : nat -> unit -> proc (option array) text O) st n d : 1 < P ->
  saves A tA -> saves B tB -> saves C tC ->
  steps tag_ub eager n
    (Config ((fun i => galerkin_put_model show bits P i (Some A) (Some B) (Some C) fA fB fC (k i)) <$> seq 0 P) ∅ st) d ->
  (n < 6 /\ forall i, i < P -> exists k', procs d !! i = Some (Barrier k') \/
     exists dest v, procs d !! i = Some (Put dest v (Barrier k'))) \/
  (exists m, n = 6 + m /\
     steps tag_ub eager m (Config ((fun i => k i tt) <$> seq 0 P) ∅ (<[fC := tC]> (<[fB := tB]> (<[fA := tA]> st)))) d).
Proof.
  intros HP HA HB HC Hs.
  exact (puts_first show bits tag_ub eager P [(A, fA); (B, fB); (C, fC)] [tA; tB; tC] k st n d HP
    ltac:(repeat constructor; auto) Hs).
Qed.

(** An array not computed yet: TypeError on rank zero, where the arrays before it are written;
    the other ranks wait for ever. *)
Theorem C49_galerkin_unset P A B C tA tB fA fB fC tag_ub (eager : option array -> bool) st : 1 < P ->
  let ends a b c st' :=
    always_ends (O := unit) tag_ub eager (launch P (fun i => galerkin_put_model show bits P i a b c fA fB fC) st)
      (fun c => procs c !! 0 = Some (Fail TypeError) /\ store c = st' /\
         forall i, 0 < i < P -> exists k, procs c !! i = Some (Barrier k)) in
  ends None B C st /\
  (saves A tA -> ends (Some A) None C (<[fA := tA]> st)) /\
  (forall B', saves A tA -> saves B' tB -> ends (Some A) (Some B') None (<[fB := tB]> (<[fA := tA]> st))).
Proof.
  intros HP ends. split; [|split].
  - apply (ends_put_reduced_fail show bits tag_ub eager P [] [] None TypeError fA [(B, fB); (C, fC)] st HP);
      auto; constructor.
  - intros HA. apply (ends_put_reduced_fail show bits tag_ub eager P [(A, fA)] [tA] None TypeError fB [(C, fC)] st HP);
      auto; repeat constructor; auto.
  - intros B' HA HB. apply (ends_put_reduced_fail show bits tag_ub eager P [(A, fA); (B', fB)] [tA; tB] None TypeError fC [] st HP);
      auto; repeat constructor; auto.
Qed.

(** ** ERA: every rank writes *)
Lemma zip_fun (l : list (array * loc)) (ts : list text) h v w : NoDup l.*2 -> (h, v) ∈ zip l.*2 ts -> (h, w) ∈ zip l.*2 ts -> v = w.
Proof.
  revert ts. induction l as [|[a d] l IH]; intros [|t ts] Hnd H1 H2; simpl in *; try (inversion H1; fail).
  apply NoDup_cons in Hnd as [Hn Hnd].
  assert (Out : forall u : text, (d, u) ∉ zip l.*2 ts).
  { intros u Hu. apply Hn. apply elem_of_zip_l in Hu. exact Hu. }
  apply elem_of_cons in H1 as [H1|H1]; apply elem_of_cons in H2 as [H2|H2]; simplify_eq; auto.
  - exfalso. eapply Out; eauto.
  - exfalso. eapply Out; eauto.
  - eapply IH; eauto.
Qed.
Lemma saves_L (l : list (array * loc)) ts : Forall2 (fun x t => saves x.1 t) l ts ->
  Forall2 (fun x t => saves x.1 t /\ (x.2, t) ∈ zip l.*2 ts) l ts.
Proof.
  intros H. apply Forall2_same_length_lookup_2; [eapply Forall2_length; eauto|].
  intros i x t Hx Ht. split; [eapply (Forall2_lookup_lr _ _ _ i) in H; eauto|].
  apply elem_of_list_lookup. exists i. apply lookup_zip_with_Some. exists x.2, t. split; auto. split; auto.
  rewrite list_lookup_fmap, Hx. reflexivity.
Qed.

Lemma era_trip P (l : list (array * loc)) bs : 0 < P -> NoDup l.*2 ->
  Forall2 (fun x b => loads_as x.1 b) l bs ->
  put_then_load read P (fun i => put_attrs show bits (computed l)) l.*2 bs.
Proof.
  intros HP Hnd H tag_ub eager st. destruct (texts l bs H) as (ts & H1 & H2).
  set (L := fun h t => (h, t) ∈ zip l.*2 ts).
  eapply (agree_ends tag_ub eager P HP L (zip l.*2 ts) (fun r => r = map Some bs) (fun _ => False)).
  - intros h v w. apply zip_fun; auto.
  - intros i _. unfold bind. apply (agreed_puts show bits _ _ _ _ l ts); [apply saves_L; auto|].
    intros w' Hw _. apply (agreed_loads read _ _ _ _ l.*2 bs).
    + assert (G : forall (l : list (array * loc)) ts bs, Forall2 (fun x t => saves x.1 t) l ts ->
        Forall2 (fun t b => reads t b) ts bs -> (forall x, x ∈ zip l.*2 ts -> x ∈ w') ->
        Forall2 (fun src b => exists t, (src, t) ∈ w' /\ reads t b) l.*2 bs).
      { clear. induction l as [|[a d] l IH]; intros ts bs H1 H2 Hw; inversion H1 as [|x t l' ts' E H1']; subst;
          inversion H2 as [|x b ts'' bs' E' H2']; subst; simpl; constructor.
        - exists t. split; auto. apply Hw. apply elem_of_list_here.
        - apply (IH ts'); auto. intros x Hx. apply Hw. apply elem_of_list_further. auto. }
      apply (G l ts bs); auto.
    + exists 0. apply ag_ret; auto.
  - intros c Hi. destruct (inv_end P HP _ _ _ _ st c Hi) as (E1 & E2 & _ & E4); auto.
    split; auto. split; auto. intros h Hh. destruct (E4 h) as [|(v & Lv & _)]; auto.
    exfalso. apply Hh. apply elem_of_zip_l in Lv. auto.
Qed.
Lemma era_returned P (l : list (array * loc)) ts : 0 < P -> NoDup l.*2 ->
  Forall2 (fun x t => saves x.1 t) l ts ->
  there_when_returned P (fun i => put_attrs show bits (computed l)) (zip l.*2 ts).
Proof.
  intros HP Hnd H tag_ub eager st n d Hs i Hi.
  set (L := fun h t => (h, t) ∈ zip l.*2 ts).
  apply (agree_always tag_ub eager P HP L (zip l.*2 ts) (fun _ => True) (fun _ => False)
    (fun h v w => zip_fun l ts h v w Hnd) st (fun _ => put_attrs show bits (computed l) Ret) n d) in Hi; [apply Hi| |exact Hs].
  intros j _. apply (agreed_puts show bits _ _ _ _ l ts); [apply saves_L; auto|].
  intros w' Hw _. exists 0. apply ag_ret; auto.
Qed.

Theorem C49_era_model P A B C fA fB fC : 0 < P -> NoDup [fA; fB; fC] ->
  real_array A -> real_array B -> real_array C ->
  put_then_load read P (fun i => era_put_model show bits (Some A) (Some B) (Some C) fA fB fC)
    [fA; fB; fC] [by_rows A; by_rows B; by_rows C].
Proof.
  intros HP Hnd HA HB HC. apply (era_trip P [(A, fA); (B, fB); (C, fC)]); auto.
  repeat constructor; apply array_loads; auto.
Qed.
(** The singular values come back as a column. *)
Theorem C49_era_decomp P n sv L R H H2 fs fL fR fH fH2 : 0 < P -> 0 < n -> NoDup [fH; fH2; fL; fs; fR] ->
  real_values n sv -> real_array L -> real_array R -> real_array H -> real_array H2 ->
  put_then_load read P (fun i => era_put_decomp show bits (Some sv) (Some L) (Some R) (Some H) (Some H2) fs fL fR fH fH2)
    [fH; fH2; fL; fs; fR] [by_rows H; by_rows H2; by_rows L; Array [n; 1] false (elems sv); by_rows R].
Proof.
  intros HP Hn Hnd H0 HL HR HH HH2. apply (era_trip P [(H, fH); (H2, fH2); (L, fL); (sv, fs); (R, fR)]); auto.
  repeat constructor; try (apply array_loads; auto). apply values_load; auto.
Qed.
Theorem C49_era_sing_vals P n sv fs : 0 < P -> 0 < n -> real_values n sv ->
  put_then_load read P (fun i => era_put_sing_vals show bits (Some sv) fs) [fs] [Array [n; 1] false (elems sv)].
Proof.
  intros HP Hn H0. apply (era_trip P [(sv, fs)]); auto; [apply NoDup_singleton|].
  repeat constructor. apply values_load; auto.
Qed.
(** There is no barrier, but a rank that has returned has the files. *)
Theorem C49_era_returned P A B C tA tB tC fA fB fC : 0 < P -> NoDup [fA; fB; fC] ->
  saves A tA -> saves B tB -> saves C tC ->
  there_when_returned P (fun i => era_put_model show bits (Some A) (Some B) (Some C) fA fB fC)
    [(fA, tA); (fB, tB); (fC, tC)].
Proof.
  intros HP Hnd HA HB HC. apply (era_returned P [(A, fA); (B, fB); (C, fC)] [tA; tB; tC]); auto.
Qed.
(** A model not computed yet: TypeError on every rank; nothing is written or blocked. *)
Theorem C49_era_unset P B C fA fB fC tag_ub (eager : option array -> bool) st : 0 < P ->
  always_ends (O := unit) tag_ub eager (launch P (fun i => era_put_model show bits None B C fA fB fC) st)
    (fun c => (forall i, i < P -> procs c !! i = Some (Fail TypeError)) /\ chans c = ∅ /\ store c = st).
Proof.
  intros HP.
  eapply (agree_ends tag_ub eager P HP (fun _ _ => False) [] (fun _ => False) (fun e => e = TypeError)).
  - intros h v w [].
  - intros i _. apply (agreed_puts_fail show bits _ _ _ _ [] [] None TypeError fA [(B, fB); (C, fC)]); auto; constructor.
  - intros c Hi. destruct (inv_fail P HP _ _ _ _ st c Hi) as (E1 & E2 & E3); auto.
    split; [|split; auto].
    + intros i Hi'. destruct (E1 i Hi') as (e & -> & ->). reflexivity.
    + apply map_eq. intros h. destruct (E3 h) as [|(v & [] & _)]. auto.
Qed.
(** Ranks with different models write over each other: the file depends on the schedule. *)
Theorem C49_era_race_refuted a0 a1 t0 t1 f tag_ub (eager : option array -> bool) st :
  saves a0 t0 -> saves a1 t1 -> t0 <> t1 ->
  ~ exists st', always_ends (O := unit) tag_ub eager
    (launch 2 (fun i => era_put_sing_vals show bits (Some (if i =? 0 then a0 else a1)) f) st)
    (fun c => store c = st').
Proof.
  intros E0 E1 Ne (st' & n & Hn).
  set (c0 := launch 2 _ st) in Hn.
  assert (EC : c0 = Config [Put f t0 (Ret tt); Put f t1 (Ret tt)] ∅ st).
  { unfold c0, launch, era_put_sing_vals, put_attrs, put_attr, put_array, bind. simpl. rewrite E0, E1. reflexivity. }
  assert (S01 : steps tag_ub eager 2 c0 (Config [Ret tt; Ret tt] ∅ (<[f := t1]> (<[f := t0]> st)))).
  { rewrite EC. eapply steps_S; [apply (step_rank _ _ 0); reflexivity|].
    eapply steps_S; [apply (step_rank _ _ 1); reflexivity|]. apply steps_O. }
  assert (S10 : steps tag_ub eager 2 c0 (Config [Ret tt; Ret tt] ∅ (<[f := t0]> (<[f := t1]> st)))).
  { rewrite EC. eapply steps_S; [apply (step_rank _ _ 1); reflexivity|].
    eapply steps_S; [apply (step_rank _ _ 0); reflexivity|]. apply steps_O. }
  assert (St : forall s, stuck tag_ub eager (Config [Ret tt; Ret tt] ∅ s : config (option array) text unit)).
  { intros s c' Hs. inversion Hs as [i c1 c2 Hr|ps ch st2 Hne Hall]; subst.
    - destruct i as [|[|i]]; discriminate.
    - inversion Hall as [|? ? Hb]; subst. exact Hb. }
  destruct (Hn _ _ S01) as (_ & Q1 & _). destruct (Hn _ _ S10) as (_ & Q2 & _).
  specialize (Q1 (St _)). specialize (Q2 (St _)). simpl in Q1, Q2. rewrite <- Q2 in Q1.
  apply (f_equal (fun m => m !! f)) in Q1. rewrite !lookup_insert in Q1. congruence.
Qed.

(** ** DMD *)
Theorem C49_proj_coeffs P a b fa fb : 0 < P -> fa <> fb -> real_array a -> real_array b ->
  put_then_load read P (fun i => dmd_put_proj_coeffs show bits P i a b fa fb) [fa; fb] [by_rows a; by_rows b].
Proof.
  intros HP Hne Ha Hb tag_ub eager st.
  destruct (array_loads show read bits Pr a Ha) as (t & E1 & E2).
  destruct (array_loads show read bits Pr b Hb) as (u & E3 & E4).
  apply (ends_put_two show bits tag_ub eager P a t b u fa fb (fun i _ => load_files read [fa; fb] Ret) st); auto.
  eapply ends_weaken; [|apply (ends_load_files read tag_ub eager P ltac:(lia) [fa; fb] _ [by_rows a; by_rows b])].
  - intros c (A1 & A2 & A3). split; auto. split; auto. intros h Hh. rewrite A3.
    rewrite !lookup_insert_ne by (intros ->; apply Hh; set_solver). reflexivity.
  - repeat constructor.
    + exists t. rewrite lookup_insert_ne, lookup_insert by auto. auto.
    + exists u. rewrite lookup_insert. auto.
Qed.
(** The put methods that TLSqrDMDHandles inherits but does not support raise on every rank
    and write nothing. *)
Theorem C49_tls_unsupported P dest tag_ub (eager : option array -> bool) st :
  let raises (p : nat -> prog (option array) text unit unit) :=
    always_ends tag_ub eager (launch P p st)
      (fun c => (forall i, i < P -> procs c !! i = Some (Fail NotImplementedError)) /\ chans c = ∅ /\ store c = st) in
  raises (fun i => tls_put_correlation_array_eigvals i dest) /\
  raises (fun i => tls_put_correlation_array_eigvecs i dest).
Proof.
  assert (G : always_ends tag_ub eager (launch P (fun _ => fail NotImplementedError) st : config (option array) text unit)
    (fun c => (forall i, i < P -> procs c !! i = Some (Fail NotImplementedError)) /\ chans c = ∅ /\ store c = st)).
  { apply ends_stuck.
    - intros c' Hs. inversion Hs as [i c0 c1 Hr|ps' ch' st2 Hne Hall]; subst.
      + unfold rank_step in Hr. simpl in Hr. rewrite list_lookup_fmap in Hr.
        destruct (seq 0 P !! i); discriminate.
      + destruct P as [|n0]; [exfalso; apply Hne; reflexivity|]. simpl in Hall. inversion Hall as [|? ? Hb]; subst. exact Hb.
    - split; [|auto]. intros i Hi. unfold launch. simpl. rewrite list_lookup_fmap, lookup_seq_lt by auto. reflexivity. }
  split; exact G.
Qed.

(** A decomposition with one value, saved and loaded, is of no use: np.diag, with which
    compute_modes begins, raises. With more values it is accepted. *)
Theorem C49_loaded_single P eigvals eigvecs f_vals f_vecs tag_ub (eager : option array -> bool) st : 0 < P ->
  real_values 1 eigvals -> real_array eigvecs -> f_vals <> f_vecs ->
  always_ends tag_ub eager (launch P (fun i => bind (pod_put_decomp show bits P i eigvals eigvecs f_vals f_vecs)
      (fun _ => pod_get_decomp read P i f_vals f_vecs)) st)
    (all_return (fun _ r => exists v, r !! 0 = Some (Some v) /\ np_diag v = Raise ValueError)).
Proof.
  intros HP H1 H2 Hf.
  eapply ends_weaken; [|apply (proj1 (C38_pod_single_refuted show read bits Pr P eigvals eigvecs f_vals f_vecs HP H1 H2 Hf))].
  intros c ((A1 & A2) & _). split; auto. intros i p Hp. destruct (A1 i p Hp) as (o & -> & ->). eexists. split; [reflexivity|].
  eexists. split; reflexivity.
Qed.
Theorem C49_loaded_several P n eigvals eigvecs f_vals f_vecs tag_ub (eager : option array -> bool) st : 0 < P -> 2 <= n ->
  real_values n eigvals -> real_array eigvecs -> f_vals <> f_vecs ->
  always_ends tag_ub eager (launch P (fun i => bind (pod_put_decomp show bits P i eigvals eigvecs f_vals f_vecs)
      (fun _ => pod_get_decomp read P i f_vals f_vecs)) st)
    (all_return (fun _ r => exists v, r !! 0 = Some (Some v) /\ np_diag v = Ok [n; n])).
Proof.
  intros HP Hn H1 H2 Hf.
  eapply ends_weaken; [|apply (C38_pod show read bits Pr P n eigvals eigvecs f_vals f_vecs HP Hn H1 H2 Hf)].
  intros c ((A1 & A2) & _). split; auto. intros i p Hp. destruct (A1 i p Hp) as (o & -> & ->). eexists. split; [reflexivity|].
  eexists. split; [reflexivity|]. unfold np_diag, by_rows. simpl. destruct H1 as (-> & _). reflexivity.
Qed.
End Props.

(** ** Examples *)
Definition ex_A : array Z Z := Array [2; 2] false (Floats [1; 2; 3; 4]%Z).
Lemma ex_A_ok : real_array ex_A.
Proof. exists 2, 2. eexists. split; [reflexivity|]. split; [lia|]. split; [lia|]. split; reflexivity. Qed.
Definition ex_text (a : array Z Z) : text := match save_array_text show_Z bits_Z a None with Ok t => t | _ => [] end.
Lemma ex_A_saves : save_array_text show_Z bits_Z ex_A None = Ok (ex_text ex_A).
Proof. vm_compute. reflexivity. Qed.
Lemma ex_vecs_saves : save_array_text show_Z bits_Z ex_vecs None = Ok (ex_text ex_vecs).
Proof. vm_compute. reflexivity. Qed.

Example C49_galerkin_model_example : put_then_load read_Z 3
  (fun i => galerkin_put_model show_Z bits_Z 3 i (Some ex_A) (Some ex_A) (Some ex_vecs) 10 11 12)
  [10; 11; 12] [ex_A; ex_A; Array [3; 2] false (Floats [1; 2; 3; 4; 5; 6]%Z)].
Proof.
  apply (C49_galerkin_model show_Z read_Z bits_Z printing_Z 3 ex_A ex_A ex_vecs);
    first [lia|distinct|apply ex_A_ok|apply ex_vecs_ok].
Qed.
Example C49_galerkin_before_return_example (k : nat -> unit -> proc (option (array Z Z)) text nat) n d :
  steps 10 (fun _ => true) n
    (Config ((fun i => galerkin_put_model show_Z bits_Z 3 i (Some ex_A) (Some ex_A) (Some ex_vecs) 10 11 12 (k i)) <$> seq 0 3) ∅ ∅) d ->
  (n < 6 /\ forall i, i < 3 -> exists k', procs d !! i = Some (Barrier k') \/
     exists dest v, procs d !! i = Some (Put dest v (Barrier k'))) \/
  (exists m, n = 6 + m /\ steps 10 (fun _ => true) m (Config ((fun i => k i tt) <$> seq 0 3) ∅
     (<[12 := ex_text ex_vecs]> (<[11 := ex_text ex_A]> (<[10 := ex_text ex_A]> ∅)))) d).
Proof.
  apply (C49_galerkin_before_return show_Z bits_Z 3 ex_A ex_A ex_vecs); [lia|apply ex_A_saves|apply ex_A_saves|apply ex_vecs_saves].
Qed.
Example C49_galerkin_unset_example :
  always_ends (O := unit) 10 (fun _ : option (array Z Z) => true)
    (launch 3 (fun i => galerkin_put_model show_Z bits_Z 3 i (Some ex_A) None (Some ex_vecs) 10 11 12) ∅)
    (fun c => procs c !! 0 = Some (Fail TypeError) /\ store c = <[10 := ex_text ex_A]> ∅ /\
         forall i, 0 < i < 3 -> exists k, procs c !! i = Some (Barrier k)).
Proof.
  exact (proj1 (proj2 (C49_galerkin_unset show_Z bits_Z 3 ex_A None (Some ex_vecs) (ex_text ex_A) [] 10 11 12 10 _ ∅ ltac:(lia))) ex_A_saves).
Qed.
Example C49_era_model_example : put_then_load read_Z 3
  (fun i => era_put_model show_Z bits_Z (Some ex_A) (Some ex_A) (Some ex_vecs) 10 11 12)
  [10; 11; 12] [ex_A; ex_A; Array [3; 2] false (Floats [1; 2; 3; 4; 5; 6]%Z)].
Proof.
  apply (C49_era_model show_Z read_Z bits_Z printing_Z 3 ex_A ex_A ex_vecs);
    first [lia|distinct|apply ex_A_ok|apply ex_vecs_ok].
Qed.
Example C49_era_decomp_example : put_then_load read_Z 3
  (fun i => era_put_decomp show_Z bits_Z (Some ex_vals) (Some ex_A) (Some ex_vecs) (Some ex_A) (Some ex_A) 10 11 12 13 14)
  [13; 14; 11; 10; 12] [ex_A; ex_A; ex_A; Array [2; 1] false (Floats [5; -3]%Z); Array [3; 2] false (Floats [1; 2; 3; 4; 5; 6]%Z)].
Proof.
  apply (C49_era_decomp show_Z read_Z bits_Z printing_Z 3 2 ex_vals ex_A ex_vecs ex_A ex_A);
    first [lia|distinct|apply ex_A_ok|apply ex_vecs_ok|apply ex_vals_ok].
Qed.
Example C49_era_sing_vals_example : put_then_load read_Z 3
  (fun i => era_put_sing_vals show_Z bits_Z (Some ex_one) 10) [10] [Array [1; 1] false (Floats [5]%Z)].
Proof. apply (C49_era_sing_vals show_Z read_Z bits_Z printing_Z 3 1 ex_one); [lia|lia|apply ex_one_ok]. Qed.
Example C49_era_returned_example : there_when_returned 3
  (fun i => era_put_model show_Z bits_Z (Some ex_A) (Some ex_A) (Some ex_vecs) 10 11 12)
  [(10, ex_text ex_A); (11, ex_text ex_A); (12, ex_text ex_vecs)].
Proof.
  apply (C49_era_returned show_Z bits_Z 3 ex_A ex_A ex_vecs); first [lia|distinct|apply ex_A_saves|apply ex_vecs_saves].
Qed.
Example C49_era_unset_example :
  always_ends (O := unit) 10 (fun _ : option (array Z Z) => true)
    (launch 3 (fun i => era_put_model show_Z bits_Z None (Some ex_A) None 10 11 12) {[11 := []]})
    (fun c => (forall i, i < 3 -> procs c !! i = Some (Fail TypeError)) /\ chans c = ∅ /\ store c = {[11 := []]}).
Proof. apply C49_era_unset; lia. Qed.
Example C49_era_race_example : ~ exists st', always_ends (O := unit) 10 (fun _ : option (array Z Z) => true)
  (launch 2 (fun i => era_put_sing_vals show_Z bits_Z (Some (if i =? 0 then ex_A else ex_vecs)) 10) ∅) (fun c => store c = st').
Proof.
  apply (C49_era_race_refuted show_Z bits_Z ex_A ex_vecs _ _ 10 10 _ ∅ ex_A_saves ex_vecs_saves). vm_compute. discriminate.
Qed.
Example C49_proj_coeffs_example : put_then_load read_Z 3
  (fun i => dmd_put_proj_coeffs show_Z bits_Z 3 i ex_A ex_vecs 10 11)
  [10; 11] [ex_A; Array [3; 2] false (Floats [1; 2; 3; 4; 5; 6]%Z)].
Proof.
  apply (C49_proj_coeffs show_Z read_Z bits_Z printing_Z 3 ex_A ex_vecs); [lia|discriminate|apply ex_A_ok|apply ex_vecs_ok].
Qed.
Example C49_tls_unsupported_example :
  always_ends 10 (fun _ : option (array Z Z) => true) (launch 3 (fun i => tls_put_correlation_array_eigvals i 10) {[11 := []]})
    (fun c => (forall i, i < 3 -> procs c !! i = Some (Fail NotImplementedError)) /\ chans c = ∅ /\ store c = {[11 := []]}).
Proof. exact (proj1 (C49_tls_unsupported 3 10 10 _ {[11 := []]})). Qed.
Example C49_loaded_single_example :
  always_ends 10 (fun _ : option (array Z Z) => true)
    (launch 3 (fun i => bind (pod_put_decomp show_Z bits_Z 3 i ex_one ex_vecs 10 11) (fun _ => pod_get_decomp read_Z 3 i 10 11)) ∅)
    (all_return (fun _ r => exists v, r !! 0 = Some (Some v) /\ np_diag v = Raise ValueError)).
Proof. apply (C49_loaded_single show_Z read_Z bits_Z printing_Z); [lia|apply ex_one_ok|apply ex_vecs_ok|discriminate]. Qed.
Example C49_loaded_several_example :
  always_ends 10 (fun _ : option (array Z Z) => true)
    (launch 3 (fun i => bind (pod_put_decomp show_Z bits_Z 3 i ex_vals ex_vecs 10 11) (fun _ => pod_get_decomp read_Z 3 i 10 11)) ∅)
    (all_return (fun _ r => exists v, r !! 0 = Some (Some v) /\ np_diag v = Ok [2; 2])).
Proof. apply (C49_loaded_several show_Z read_Z bits_Z printing_Z); [lia|lia|apply ex_vals_ok|apply ex_vecs_ok|discriminate]. Qed.

Print Assumptions C49_galerkin_model.
Print Assumptions C49_galerkin_before_return.
Print Assumptions C49_galerkin_unset.
Print Assumptions C49_era_model.
Print Assumptions C49_era_decomp.
Print Assumptions C49_era_sing_vals.
Print Assumptions C49_era_returned.
Print Assumptions C49_era_unset.
Print Assumptions C49_era_race_refuted.
Print Assumptions C49_proj_coeffs.
Print Assumptions C49_tls_unsupported.
Print Assumptions C49_loaded_single.
Print Assumptions C49_loaded_several.
