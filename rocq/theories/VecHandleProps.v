(** C11: handles subtract the current base vector. *)
From Coq Require Import List Arith Lia Bool ZArith.
Import ListNotations.
From Verif Require Import Prelude VecHandleModel.

Section Props.
Context {V K D : Type} (E : env V K D).

(** The vector a handle stands for: what is stored, minus the base handle's vector,
    scaled; no cache. *)
Fixpoint value (w : world V K D) (h : handle K) : res V :=
  rbind (raw_get E w h) (fun v =>
    match (match h with InMemory _ b _ | ArrayText _ b _ _ | Pickle _ b _ => b end) with
    | None => scaled E (scale_of h) v
    | Some b => rbind (value w b) (fun bv => rbind (vsub E v bv) (scaled E (scale_of h)))
    end).

(** Induction on handles through their bases. *)
Lemma handle_ind' (P : handle K -> Prop) :
  (forall h, (forall b, base_of h = Some b -> P b) -> P h) -> forall h, P h.
Proof.
  intros H. fix IH 1. intros [i [b|] s|p [b|] s c|p [b|] s]; apply H; simpl; intros b' [= <-]; apply IH.
Qed.
Lemma value_eq w h : value w h = rbind (raw_get E w h) (fun v =>
    match base_of h with
    | None => scaled E (scale_of h) v
    | Some b => rbind (value w b) (fun bv => rbind (vsub E v bv) (scaled E (scale_of h)))
    end).
Proof. destruct h; reflexivity. Qed.
Lemma get_eq h w : get E h w = match raw_get E w h with
  | Raise e => (w, Raise e)
  | Ok v =>
      match base_of h with
      | None => (w, scaled E (scale_of h) v)
      | Some b =>
          match cached E w b with
          | Some bv => (w, rbind (vsub E v bv) (scaled E (scale_of h)))
          | None =>
              match get E b w with
              | (w', Raise e) => (w', Raise e)
              | (w', Ok bv) => (set_cache w' b bv, rbind (vsub E v bv) (scaled E (scale_of h)))
              end
          end
      end
  end.
Proof. destruct h; reflexivity. Qed.

(** The base of a handle, its base's base and so on. *)
Fixpoint bases (h : handle K) : list (handle K) :=
  match (match h with InMemory _ b _ | ArrayText _ b _ _ | Pickle _ b _ => b end) with
  | Some b => b :: bases b
  | None => []
  end.
Lemma bases_eq h : bases h = match base_of h with Some b => b :: bases b | None => [] end.
Proof. destruct h; reflexivity. Qed.

(** The value depends on the places of the handle and of its bases only. *)
Definition same_at (w w' : world V K D) (p : place) : Prop :=
  match p with PMem i => mem w' i = mem w i | PFile q => file w' q = file w q end.
Lemma value_same w w' h : (forall b, In b (h :: bases h) -> same_at w w' (place_of b)) -> value w' h = value w h.
Proof.
  induction h as [h IH] using handle_ind'. intros H. rewrite !value_eq.
  assert (ER : raw_get E w' h = raw_get E w h).
  { specialize (H h (or_introl eq_refl)). destruct h; simpl in *; unfold read_file; rewrite H; auto. }
  rewrite ER. destruct (raw_get E w h) as [v|e]; simpl; auto.
  rewrite bases_eq in H. destruct (base_of h) as [b|] eqn:Eb; auto.
  rewrite (IH b eq_refl); auto. intros c Hc. apply H. right. exact Hc.
Qed.

(** [get] changes the cache only. *)
Lemma get_world h : forall w, mem (fst (get E h w)) = mem w /\ file (fst (get E h w)) = file w.
Proof.
  induction h as [h IH] using handle_ind'. intros w. rewrite get_eq.
  destruct (raw_get E w h) as [v|e]; auto. destruct (base_of h) as [b|] eqn:Eb; auto.
  destruct (cached E w b); auto. specialize (IH b eq_refl w). destruct (get E b w) as [w' [bv|e]]; auto.
Qed.

(** The cache is right: the cached vector is the cached handle's, and that handle is one
    of [B]. *)
Definition cache_ok (B : handle K -> Prop) (w : world V K D) : Prop :=
  forall b v, cache w = Some (b, v) -> B b /\ value w b = Ok v.

(** Handles in [B] that compare equal stand for the same vector. *)
Definition faithful (B : handle K -> Prop) : Prop :=
  forall w b c, B b -> B c -> handle_eqb E w b c = true -> value w b = value w c.

Lemma get_value B h : forall w, faithful B -> cache_ok B w -> (forall b, In b (bases h) -> B b) ->
  snd (get E h w) = value w h /\ cache_ok B (fst (get E h w)).
Proof.
  induction h as [h IH] using handle_ind'. intros w HF HC HB. rewrite get_eq, value_eq.
  destruct (raw_get E w h) as [v|e]; simpl; auto.
  rewrite bases_eq in HB. destruct (base_of h) as [b|] eqn:Eb; simpl; auto.
  unfold cached. destruct (cache w) as [[c cv]|] eqn:Ec.
  - destruct (HC c cv Ec) as [Bc Vc]. destruct (handle_eqb E w b c) eqn:Ee.
    + rewrite (HF w b c (HB b (or_introl eq_refl)) Bc Ee), Vc. simpl. auto.
    + destruct (IH b eq_refl w HF HC) as [G1 G2]; [intros; apply HB; right; auto|].
      pose proof (get_world b w) as [M1 M2].
      destruct (get E b w) as [w' [bv|e]]; simpl in *; rewrite <- G1; simpl; auto.
      split; auto. intros b' v' [= <- <-]. split; [apply HB; left; auto|].
      rewrite (value_same w); [auto|]. intros x _. destruct (place_of x); simpl; congruence.
  - destruct (IH b eq_refl w HF HC) as [G1 G2]; [intros; apply HB; right; auto|].
    pose proof (get_world b w) as [M1 M2].
    destruct (get E b w) as [w' [bv|e]]; simpl in *; rewrite <- G1; simpl; auto.
    split; auto. intros b' v' [= <- <-]. split; [apply HB; left; auto|].
    rewrite (value_same w); [auto|]. intros x _. destruct (place_of x); simpl; congruence.
Qed.

(** The vectors that a history should return. *)
Fixpoint values (ops : list (op V K)) (w : world V K D) : list (res V) :=
  match ops with
  | [] => []
  | Get h :: ops => value w h :: values ops w
  | Put h v :: ops => values ops (fst (put E h v w))
  end.

(** No base is written after it was used: [used] are the bases used so far. *)
Fixpoint bases_kept (used : list (handle K)) (ops : list (op V K)) : Prop :=
  match ops with
  | [] => True
  | Get h :: ops => bases_kept (bases h ++ used) ops
  | Put h _ :: ops => ~ In (place_of h) (map place_of used) /\ bases_kept used ops
  end.
(** All bases in a history. *)
Definition is_base (ops : list (op V K)) (b : handle K) : Prop := exists h, In (Get h) ops /\ In b (bases h).

Lemma bases_trans h : forall b c, In b (bases h) -> In c (bases b) -> In c (bases h).
Proof.
  induction h as [h IH] using handle_ind'. intros b c Hb Hc. rewrite (bases_eq h) in *.
  destruct (base_of h) as [b'|]; [|destruct Hb]. destruct Hb as [<-|Hb]; right; [exact Hc|].
  exact (IH b' eq_refl b c Hb Hc).
Qed.

Lemma put_same h v w p : p <> place_of h -> same_at w (fst (put E h v w)) p.
Proof.
  intros Hp. destruct h as [i b s|q b s c|q b s]; simpl in *.
  - destruct p as [j|q]; simpl; auto. unfold upd. destruct (Nat.eqb_spec j i) as [->|]; auto. contradiction.
  - destruct (text_save E v); simpl; [|destruct p; simpl; auto].
    destruct p as [j|q']; simpl; auto. unfold upd. destruct (Nat.eqb_spec q' q) as [->|]; auto. contradiction.
  - destruct (pickle_dump E v); simpl; [|destruct p; simpl; auto].
    destruct p as [j|q']; simpl; auto. unfold upd. destruct (Nat.eqb_spec q' q) as [->|]; auto. contradiction.
Qed.
Lemma put_cache h v w : cache (fst (put E h v w)) = cache w.
Proof. destruct h; simpl; try destruct (text_save E v); try destruct (pickle_dump E v); auto. Qed.

(** Every history from a fresh cache in which no base is written after it was used, and
    bases that compare equal stand for the same vector: each get returns the current
    value. *)
Theorem C11_current_base ops w :
  cache w = None -> bases_kept [] ops -> faithful (is_base ops) ->
  snd (run E ops w) = values ops w.
Proof.
  intros Hn HK HF. set (B := is_base ops) in *.
  assert (HB : forall h, In (Get h) ops -> forall b, In b (bases h) -> B b) by (intros h Hh b Hb; exists h; auto).
  clearbody B.
  assert (G : forall used w, cache_ok B w ->
    (forall b v, cache w = Some (b, v) -> incl (b :: bases b) used) -> bases_kept used ops ->
    snd (run E ops w) = values ops w); [|apply (G [] w); auto; intros b v Eb; rewrite Hn in Eb; discriminate].
  clear Hn HK w. induction ops as [|[h|h v] ops IH]; intros used w HC HU HK; simpl in *; auto.
  - destruct (get_value B h w HF HC) as [G1 G2]; [apply HB; auto|]. rewrite G1. f_equal.
    rewrite (IH ltac:(intros; eapply HB; eauto) (bases h ++ used)); auto.
    + destruct (get_world h w) as [M1 M2]. clear -M1 M2. 
      assert (VV : forall ops w w', mem w' = mem w -> file w' = file w -> values ops w' = values ops w).
      { clear. induction ops as [|[h|h v] ops IH]; intros w w' M1 M2; simpl; auto.
        - f_equal; [|auto]. apply value_same. intros b _. destruct (place_of b); simpl; congruence.
        - apply IH; destruct h; simpl; try destruct (text_save E v); try destruct (pickle_dump E v); simpl; congruence. }
      apply VV; auto.
    + intros b v Eb. 
      assert (GC : forall h w b v, cache (fst (get E h w)) = Some (b, v) -> cache w = Some (b, v) \/ In b (bases h)).
      { clear. induction h as [h IH] using handle_ind'. intros w b v. rewrite get_eq, bases_eq.
        destruct (raw_get E w h); simpl; auto. destruct (base_of h) as [c|] eqn:Ec; simpl; auto.
        destruct (cached E w c); simpl; auto. specialize (IH c eq_refl w b v).
        destruct (get E c w) as [w' [bv|e]]; simpl in *.
        - intros [= <- <-]. auto.
        - intros Hc. destruct (IH Hc); auto. }
      destruct (GC h w b v Eb) as [Ho|Ho].
      * intros x Hx. apply in_or_app. right. apply (HU b v Ho x Hx).
      * intros x [<-|Hx]; apply in_or_app; left; [auto|eapply bases_trans; eauto].
  - destruct HK as [HK1 HK2]. apply (IH ltac:(intros; eapply HB; eauto) used); auto.
    + intros b u Eb. rewrite put_cache in Eb. destruct (HC b u Eb) as [Bb Vb]. split; auto.
      rewrite <- Vb. apply value_same. intros c Hc. apply put_same. intros Ep. apply HK1.
      rewrite <- Ep. apply in_map. apply (HU b u Eb). exact Hc.
    + intros b u Eb. rewrite put_cache in Eb. eauto.
Qed.

(** A condition on the handles alone: bases without base and scale of their own, text
    files read in one way; vectors that compare equal are equal. *)
Definition plain (B : handle K -> Prop) : Prop :=
  (forall b, B b -> base_of b = None /\ scale_of b = None) /\
  (forall p b s c b' s' c', B (ArrayText p b s c) -> B (ArrayText p b' s' c') -> c = c').
Theorem C11_plain (B : handle K -> Prop) : plain B -> (forall u v, veq E u v = true -> u = v) -> faithful B.
Proof.
  intros [H1 H2] HV w b c Hb Hc He. destruct (H1 b Hb) as [B1 B2]. destruct (H1 c Hc) as [C1 C2].
  rewrite !value_eq, B1, B2, C1, C2.
  destruct b as [i bb sb|p bb sb ib|p bb sb]; destruct c as [j bc sc|p' bc sc ic|p' bc sc]; simpl in *; try discriminate.
  - rewrite (HV _ _ He). reflexivity.
  - apply Nat.eqb_eq in He as <-. rewrite (H2 _ _ _ _ _ _ _ Hb Hc). reflexivity.
  - apply Nat.eqb_eq in He as <-. reflexivity.
Qed.
(** Also when all handles on one file have the same base and scale, and no in-memory
    handle is a base. *)
Theorem C11_one_per_file (B : handle K -> Prop) :
  (forall b c, B b -> B c -> place_of b = place_of c -> b = c) -> (forall i b s, ~ B (InMemory i b s)) -> faithful B.
Proof.
  intros H1 H2 w b c Hb Hc He. rewrite (H1 b c); auto.
  destruct b as [i bb sb|p bb sb ib|p bb sb]; destruct c as [j bc sc|p' bc sc ic|p' bc sc]; simpl in *; try discriminate;
    try (exfalso; eapply H2; eauto; fail); apply Nat.eqb_eq in He; congruence.
Qed.

(** What a put leaves for a get of the same handle, without base and scale. *)
Theorem C11_put_get h v w : base_of h = None -> scale_of h = None ->
  (forall c d, h = ArrayText (match place_of h with PFile p => p | PMem i => i end) None None c ->
     text_save E v = Ok d -> text_load E c d = Ok v) ->
  (forall d, pickle_dump E v = Ok d -> pickle_load E d = Ok v) ->
  snd (put E h v w) = Ok tt -> snd (get E h (fst (put E h v w))) = Ok v.
Proof.
  intros Hb Hs HT HP Hput. rewrite get_eq, Hb, Hs.
  destruct h as [i b s|p b s c|p b s]; simpl in *; subst b s.
  - unfold upd. rewrite Nat.eqb_refl. reflexivity.
  - destruct (text_save E v) as [d|e] eqn:Ed; [|discriminate]. simpl. unfold read_file. simpl.
    unfold upd. rewrite Nat.eqb_refl. simpl. rewrite (HT c d eq_refl eq_refl). reflexivity.
  - destruct (pickle_dump E v) as [d|e] eqn:Ed; [|discriminate]. simpl. unfold read_file. simpl.
    unfold upd. rewrite Nat.eqb_refl. simpl. rewrite (HP d eq_refl). reflexivity.
Qed.

(** What happens when the cached handle compares equal: its cached vector is used,
    whatever is stored now. *)
Theorem C11_cached h b c cv v w : base_of h = Some b -> cache w = Some (c, cv) -> handle_eqb E w b c = true ->
  raw_get E w h = Ok v -> get E h w = (w, rbind (vsub E v cv) (scaled E (scale_of h))).
Proof. intros Hb Hc He Hr. rewrite get_eq, Hr, Hb. unfold cached. rewrite Hc, He. reflexivity. Qed.

(** A file that is missing: OSError from get, whatever the base, and from a handle whose
    base it is unless that base is in the cache; the cache stays. *)
Theorem C11_missing h p w : place_of h = PFile p -> file w p = None ->
  get E h w = (w, Raise OSError) /\
  forall h' v, base_of h' = Some h -> raw_get E w h' = Ok v ->
    (forall c cv, cache w = Some (c, cv) -> handle_eqb E w h c = false) -> get E h' w = (w, Raise OSError).
Proof.
  intros Hp Hf. assert (G : get E h w = (w, Raise OSError)).
  { rewrite get_eq. destruct h; simpl in *; [discriminate|..]; injection Hp as ->; unfold read_file; rewrite Hf; reflexivity. }
  split; [exact G|]. intros h' v Hb Hr Hc. rewrite get_eq, Hr, Hb. unfold cached.
  destruct (cache w) as [[c cv]|]; [rewrite (Hc c cv eq_refl)|]; rewrite G; reflexivity.
Qed.

End Props.

(** ** Examples with integers as vectors *)
Definition zenv : env Z Z Z :=
  Env (fun a b => Ok (a - b)%Z) (fun a c => Ok (a * c)%Z) Z.eqb (fun v => Ok v) (fun _ d => Ok d) (fun v => Ok v) (fun d => Ok d).
Definition zworld : world Z Z Z := World (fun i => Z.of_nat i) (fun p => Some (Z.of_nat (10 * p))) None.

(** Two bases, one with a base of its own, puts of other handles in between. *)
Definition zb1 : handle Z := ArrayText 1 None None false.
Definition zb2 : handle Z := Pickle 2 (Some zb1) (Some 3%Z).
Definition zh1 : handle Z := InMemory 7 (Some zb2) (Some 2%Z).
Definition zh2 : handle Z := ArrayText 4 (Some zb1) None true.
Definition zops : list (op Z Z) := [Get zh1; Put zh2 100%Z; Get zh2; Put zh1 50%Z; Get zh1; Get zb2; Get zh2].
Example C11_missing_example :
  let w := World (mem zworld) (fun p => if (p =? 1)%nat then None else Some 5%Z) None in
  get zenv zh2 w = (w, Raise OSError) /\ get zenv (InMemory 7 (Some zb1) None) w = (w, Raise OSError).
Proof.
  intros w. destruct (C11_missing zenv zb1 1 w eq_refl eq_refl) as [_ H].
  split; eapply H; try reflexivity; discriminate.
Qed.
Example C11_example : snd (run zenv zops zworld) = values zenv zops zworld /\
  values zenv zops zworld = [Ok (-46); Ok 90; Ok 40; Ok 30; Ok 90]%Z.
Proof.
  split; [|reflexivity]. apply C11_current_base; [reflexivity| |].
  - simpl. intuition discriminate.
  - apply C11_one_per_file.
    + assert (HB : forall b, is_base zops b -> b = zb1 \/ b = zb2).
      { intros b (h & Hh & Hb). simpl in Hh. destruct Hh as [Hh|[Hh|[Hh|[Hh|[Hh|[Hh|[Hh|[]]]]]]]]; try discriminate;
          injection Hh as <-; simpl in Hb; unfold zb1, zb2 in *; intuition congruence. }
      intros b c Hb Hc. destruct (HB b Hb) as [-> | ->]; destruct (HB c Hc) as [-> | ->]; auto; discriminate.
    + intros i b s (h & Hh & Hb). simpl in Hh. destruct Hh as [Hh|[Hh|[Hh|[Hh|[Hh|[Hh|[Hh|[]]]]]]]]; try discriminate;
        injection Hh as <-; simpl in Hb; unfold zb1, zb2 in Hb; intuition discriminate.
Qed.
(** In-memory bases without base or scale: C11_plain. *)
Definition zm (i : nat) : handle Z := InMemory i None None.
Example C11_plain_example : let ops := [Get (InMemory 5 (Some (zm 1)) None); Get (InMemory 6 (Some (zm 2)) (Some 2%Z)); Put (zm 5) 9%Z;
    Get (InMemory 5 (Some (zm 1)) None)] in
  snd (run zenv ops zworld) = values zenv ops zworld.
Proof.
  intros ops. apply C11_current_base; [reflexivity| |].
  - simpl. intuition discriminate.
  - apply C11_plain; [|intros u v Huv; apply Z.eqb_eq, Huv]. split.
    + intros b (h & Hh & Hb). simpl in Hh. destruct Hh as [Hh|[Hh|[Hh|[Hh|[]]]]]; try discriminate; injection Hh as <-;
        simpl in Hb; destruct Hb as [<-|[]]; auto.
    + intros p b s c b' s' c' (h & Hh & Hb). simpl in Hh. destruct Hh as [Hh|[Hh|[Hh|[Hh|[]]]]]; try discriminate; injection Hh as <-;
        simpl in Hb; destruct Hb as [Hb|[]]; discriminate.
Qed.

(** A file that did not hold this vector before. *)
Example C11_put_get_example : snd (get zenv (ArrayText 3 None None true) (fst (put zenv (ArrayText 3 None None true) 17%Z zworld))) = Ok 17%Z /\
  snd (get zenv (ArrayText 3 None None true) zworld) = Ok 30%Z.
Proof. split; [|reflexivity]. apply C11_put_get; auto; simpl; congruence. Qed.
(** A cached vector that differs from the stored one. *)
Example C11_cached_example : let w := World (mem zworld) (file zworld) (Some (Pickle 1 None None, 5%Z)) in
  snd (get zenv (InMemory 7 (Some (Pickle 1 None None)) (Some 3%Z)) w) = Ok 6%Z /\
  value zenv w (InMemory 7 (Some (Pickle 1 None None)) (Some 3%Z)) = Ok (-9)%Z.
Proof.
  intros w. split; [|reflexivity].
  rewrite (C11_cached zenv _ (Pickle 1 None None) (Pickle 1 None None) 5%Z 7%Z); reflexivity.
Qed.

(** A base that is written after its first use: the old base vector is subtracted. *)
Theorem C11_stale_refuted : exists (E : env Z Z Z) ops w, cache w = None /\ faithful E (is_base ops) /\
  snd (run E ops w) <> values E ops w.
Proof.
  exists zenv, [Get (InMemory 5 (Some (Pickle 1 None None)) None); Put (Pickle 1 None None) 3%Z;
          Get (InMemory 5 (Some (Pickle 1 None None)) None)], zworld.
  split; [reflexivity|]. split; [|discriminate].
  apply C11_one_per_file.
  - intros b c (h & Hh & Hb) (h' & Hh' & Hb') _. simpl in Hh, Hh'.
    destruct Hh as [Hh|[Hh|[Hh|[]]]]; try discriminate; destruct Hh' as [Hh'|[Hh'|[Hh'|[]]]]; try discriminate;
      injection Hh as <-; injection Hh' as <-; simpl in *; destruct Hb as [<-|[]]; destruct Hb' as [<-|[]]; auto.
  - intros i b s (h & Hh & Hb). simpl in Hh. destruct Hh as [Hh|[Hh|[Hh|[]]]]; try discriminate;
      injection Hh as <-; simpl in Hb; destruct Hb as [Hb|[]]; discriminate.
Qed.
(** Two bases that are one file with different scales: the second handle gets the first
    one's base; no put at all. *)
Theorem C11_equal_refuted : exists (E : env Z Z Z) h h' w, cache w = None /\
  snd (run E [Get h; Get h'] w) <> values E [Get h; Get h'] w /\ bases_kept (V := Z) [] [Get h; Get h'].
Proof.
  exists zenv, (InMemory 5 (Some (Pickle 1 None None)) None), (InMemory 5 (Some (Pickle 1 None (Some 2%Z))) None), zworld.
  split; [reflexivity|]. split; [discriminate|exact I].
Qed.
(** In-memory bases with equal vectors but different bases of their own. *)
Theorem C11_equal_memory_refuted : exists (E : env Z Z Z) h h' w, cache w = None /\ (forall u v, veq E u v = true <-> u = v) /\
  snd (run E [Get h; Get h'] w) <> values E [Get h; Get h'] w.
Proof.
  exists zenv, (InMemory 5 (Some (InMemory 1 None None)) None), (InMemory 5 (Some (InMemory 1 (Some (InMemory 3 None None)) None)) None), zworld.
  split; [reflexivity|]. split; [intros; apply Z.eqb_eq|discriminate].
Qed.

Print Assumptions C11_current_base.
Print Assumptions C11_plain.
Print Assumptions C11_one_per_file.
Print Assumptions C11_put_get.
Print Assumptions C11_cached.
Print Assumptions C11_missing.
Print Assumptions C11_stale_refuted.
Print Assumptions C11_equal_refuted.
Print Assumptions C11_equal_memory_refuted.
