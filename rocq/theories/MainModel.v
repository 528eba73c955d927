(** Main programs, such as those of /repo/modred/examples: rank zero saves data and all
    ranks meet at a barrier, then methods of the classes are called one after another,
    each reading what was saved before. *)
From stdpp Require Import gmap list.
From Verif Require Import Prelude Field Matrix NdArray Spmd ReductionsModel InnerProdModel HandlesModel.
Open Scope nat_scope.

(** What a rank does by itself with handles: [h.put(v)], as in
    examples/tutorial_ex4.py:26-28, or [dst.put(f(src.get()))], for instance the action of
    a linear operator on a mode. *)
Inductive act (V : Type) : Type :=
| Save (h : loc) (v : V)
| Apply (f : V -> V) (src dst : loc).
Arguments Save {V} h v.
Arguments Apply {V} f src dst.

(** [MActs acts k]: rank r does [acts r], then all call parallel.barrier.
    [MDo sp h k]: every rank calls a method of an object whose vec_space is [sp]. *)
Inductive main (F : sfield) (V A : Type) : Type :=
| MRet (a : A)
| MFail (e : exn)
| MDo (X : Type) (sp : space F V) (h : hprog F X) (k : X -> main F V A)
| MActs (acts : nat -> list (act V)) (k : main F V A).
Arguments MRet {F V A} a.
Arguments MFail {F V A} e.
Arguments MDo {F V A X} sp h k.
Arguments MActs {F V A} acts k.

(** [if parallel.is_rank_zero(): ...], examples/tutorial_ex4.py:26-29,
    tutorial_ex5.py:26-29, tutorial_ex6.py:30-33, rom_ex2.py:39-43. *)
Definition rank_zero {V} (l : list (act V)) : nat -> list (act V) := fun r => if r =? 0 then l else [].

Section Exec.
Context {F : sfield} {V : Type} (P tag_ub : nat).
Open Scope prog_scope.

Definition do_act {O} (a : act V) : prog (msg V F) V O unit :=
  match a with
  | Save h v => put h v
  | Apply f src dst => x <- get src ;; put dst (f x)
  end.
Definition do_acts {O} (l : list (act V)) : prog (msg V F) V O unit :=
  for_loop l tt (fun a _ => do_act a) ;;; barrier P.

(** The program of a rank. *)
Fixpoint exec_main {O A : Type} (rank : nat) (m : main F V A) : prog (msg V F) V O A :=
  match m with
  | MRet a => ret a
  | MFail e => fail e
  | MDo sp h k => x <- exec P tag_ub sp rank h ;; exec_main rank (k x)
  | MActs acts k => do_acts (acts rank) ;;; exec_main rank k
  end.

End Exec.
