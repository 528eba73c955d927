(** Model of the parallel programs in /repo/modred/examples that use handles, as main
    programs in the sense of MainModel.v.

    Simplified: the store holds what [get] returns, so a base vector and a scale are
    already applied to the data saved; printing, creating the output directory, sanity
    checks (C35) and saving arrays in files (C38, C49) are left out; the object made by
    a constructor is a value. *)
From stdpp Require Import gmap list.
From Coq Require Import ZArith.
From Verif Require Import Prelude Field Matrix NdArray DecompModel Spmd ReductionsModel InnerProdModel LinCombModel HandlesModel VSArraysModel PodHandlesModel
  BpodHandlesModel
  DmdHandlesModel GalerkinModel GalerkinHandlesModel MainModel.
Open Scope nat_scope.

Section Model.
Context {F : sfield} {V : Type} (sp : space F V).

(** [for snap in snapshots: snap.put(...)], tutorial_ex4.py:27-28, tutorial_ex5.py:27-28,
    tutorial_ex6.py:31-32, rom_ex2.py:40-42. *)
Definition puts (hs : list loc) (vs : list V) : list (act V) := zip_with Save hs vs.

(** tutorial_ex5.py:26-43: save the data, POD, modes, and the array of inner products of
    the modes by a new vector space object [sp2]. *)
Definition tutorial_ex5 (sp2 : space F V) el argsort (sqrt : F -> F) vecs vs atol rtol idx modes : main F V (arr F) :=
  MActs (rank_zero (puts vecs vs))
    (MDo sp (POD_decomp el argsort POD_new vecs atol rtol) (fun o =>
     MDo sp (POD_compute_modes sqrt o (Some (Cols idx)) modes None) (fun _ =>
     MDo sp2 (symm_inner_products modes) MRet))).

(** tutorial_ex6.py:42-43: [np.nonzero(np.cumsum(s / np.sum(s)) > c)[0][0] + 1]; with c = 0.9. *)
Fixpoint cumsum (acc : F) (l : list F) : list F :=
  match l with [] => [] | x :: l => kadd F acc x :: cumsum (kadd F acc x) l end.
Fixpoint nonzero (i : nat) (l : list bool) : list nat :=
  match l with [] => [] | b :: l => if b then i :: nonzero (S i) l else nonzero (S i) l end.
Definition num_modes (c : F) (s : list F) : res nat :=
  let normed := map (fun x => kdiv F x (foldl (kadd F) (k0 F) s)) s in
  match nonzero 0 (map (fun x => klt F c x) (cumsum (k0 F) normed)) with
  | [] => Raise IndexError
  | i :: _ => Ok (i + 1)
  end.

(** tutorial_ex6.py:30-50: save the data, BPOD, as many modes as the singular values
    suggest; [dh], [ah] make the handles of the modes from their numbers. *)
Definition tutorial_ex6 lapack (sqrt : F -> F) direct dv adjoint av p q atol rtol (c : F) (dh ah : nat -> loc)
    : main F V (list F * nat) :=
  MActs (rank_zero (puts (direct ++ adjoint) (dv ++ av)))
    (MDo sp (BPOD_decomp lapack BPOD_new direct adjoint p q atol rtol) (fun o =>
     match bh_sing_vals o with
     | None => MFail TypeError
     | Some s =>
         match num_modes c s with
         | Raise e => MFail e
         | Ok n =>
             MDo sp (BPOD_direct_modes sqrt o (Some (Cols (map Z.of_nat (seq 0 n)))) (map dh (seq 0 n)) None) (fun o =>
             MDo sp (BPOD_adjoint_modes sqrt o (Some (Cols (map Z.of_nat (seq 0 n)))) (map ah (seq 0 n)) None) (fun _ =>
             MRet (s, n)))
         end
     end)).

(** rom_ex2.py:39-50: save modes and the action of the operators on them, then reduce.
    C_on_basis_vecs is an array in memory. *)
Definition rom_ex2 (inv : arr F -> res (arr F)) basis bv adj av As xv Bs yv (C : data F)
    : main F V (arr F * arr F * arr F) :=
  MActs (rank_zero (puts (basis ++ adj ++ As ++ Bs) (bv ++ av ++ xv ++ yv)))
    match gh_new basis (Some adj) false with
    | Raise e => MFail e
    | Ok o => MDo sp (gh_compute_model inv o As Bs C) (fun r => MRet (snd r))
    end.

(** tutorial_ex4.py:26-34, 40-43, DMD; with all kinds of modes, the spectrum and the
    coefficients besides the exact modes. *)
Definition tutorial_ex4 el argsort eig (sqrt : F -> F) vecs vs atol rtol mx ei eh pi ph ai ah
    : main F V (dmd_obj F * nd F * (arr F * arr F)) :=
  MActs (rank_zero (puts vecs vs))
    (MDo sp (DMD_decomp el argsort eig sqrt DMD_new vecs None atol rtol mx) (fun o =>
     MDo sp (o <== DMD_exact_modes false sqrt o (Some (Cols ei)) eh None ;
             o <== DMD_proj_modes false sqrt o (Some (Cols pi)) ph None ;
             o <== DMD_adjoint_modes false sqrt o (Some (Cols ai)) ah None ;
             r <== DMD_spectrum sqrt o ;
             r' <== DMD_proj_coeffs false sqrt (fst r) ;
             HRet (fst r', snd r, snd r'))%h MRet)).

(** The workflow of rom_ex2.py without ready-made data: POD modes of the snapshots, then
    rank [owner a] applies the operator to the modes [a] it owns and saves the results in
    [images], then Galerkin projection on the orthonormal modes. *)
Definition applies (A : V -> V) (owner : nat -> nat) (src dst : list loc) (r : nat) : list (act V) :=
  zip_with (Apply A) (map (fun i => nth i src 0) (filter (fun i => owner i = r) (seq 0 (length src))))
                     (map (fun i => nth i dst 0) (filter (fun i => owner i = r) (seq 0 (length src)))).
Definition pod_galerkin (A : V -> V) (owner : nat -> nat) inv el argsort (sqrt : F -> F) vecs vs atol rtol idx modes images
    : main F V (arr F) :=
  MActs (rank_zero (puts vecs vs))
    (MDo sp (POD_decomp el argsort POD_new vecs atol rtol) (fun o =>
     MDo sp (POD_compute_modes sqrt o (Some (Cols idx)) modes None) (fun _ =>
     MActs (applies A owner modes images)
       match gh_new modes None true with
       | Raise e => MFail e
       | Ok g => MDo sp (gh_reduce_A inv g images) (fun r => MRet (snd r))
       end))).

End Model.

(** Every rank saves data and reads one vector, with no barrier between: the start of
    tutorial_ex3.py (23-29) when more than one process runs it, as runall.py:11-14 does. *)
Definition unsynced {F : sfield} {V} (l : list (act V)) (h : loc) : prog (msg V F) V V V :=
  (for_loop l tt (fun a _ => do_act a) ;;; get h)%prog.

(** [if not os.path.isdir(out_dir): os.makedirs(out_dir)], tutorial_ex3.py:10-11,
    tutorial_ex4.py:11-12, tutorial_ex5.py:11-12, tutorial_ex6.py:12-13, rom_ex2.py:11-12,
    run by every rank.  makedirs raises if the directory exists. *)
Inductive dir_pc := DTest | DMake | DDone | DFailed.
Inductive dir_step : list dir_pc * bool -> list dir_pc * bool -> Prop :=
| dir_test ps i ex : ps !! i = Some DTest -> dir_step (ps, ex) (<[i := if ex then DDone else DMake]> ps, ex)
| dir_make ps i ex : ps !! i = Some DMake -> dir_step (ps, ex) (<[i := if ex then DFailed else DDone]> ps, true).
Inductive dir_runs (c : list dir_pc * bool) : list dir_pc * bool -> Prop :=
| dir_start : dir_runs c c
| dir_more c1 c2 : dir_runs c c1 -> dir_step c1 c2 -> dir_runs c c2.
