(** How the handle classes act.  PODHandles, BPODHandles, DMDHandles,
    TLSqrDMDHandles and LTIGalerkinProjectionHandles work on vectors only through
    [self.vec_space] (compute_inner_product_array, compute_symm_inner_product_array,
    lin_combine) and share results through [parallel.call_and_bcast]; all else is
    arithmetic that every rank repeats.  A method body is written with these four
    operations ([hprog]); [exec] is the program that a rank runs. *)
From stdpp Require Import gmap list.
From Coq Require Import ZArith.
From Verif Require Import Prelude Field Matrix NdArray DecompModel ParallelModel Spmd
  ReductionsModel InnerProdModel SymmModel LinCombModel.
Open Scope nat_scope.

(** A two-dimensional array as the list of its rows, and back. *)
Definition to_lists {F : sfield} (A : arr F) : list (list F) :=
  map (fun i => map (fun j => NdArray.ent A i j) (seq 0 (nc A))) (seq 0 (nr A)).
Definition of_lists {F : sfield} (m n : nat) (a : list (list F)) : arr F :=
  Arr m n (fun i j => nth j (nth i a []) (k0 F)).

Inductive hprog (F : sfield) (A : Type) : Type :=
| HRet (a : A)
| HFail (e : exn)
(* self.vec_space.compute_inner_product_array(rows, cols) *)
| HIp (rows cols : list loc) (k : arr F -> hprog F A)
(* self.vec_space.compute_symm_inner_product_array(vecs) *)
| HSymm (vecs : list loc) (k : arr F -> hprog F A)
(* parallel.call_and_bcast(f, ...): [call] is what f returns, a tuple of arrays *)
| HCall (call : res (list (item F))) (k : list (item F) -> hprog F A)
(* self.vec_space.lin_combine(sums, basis, coeff, coeff_array_col_indices=idx) *)
| HLin (sums basis : list loc) (coeff : arr F) (idx : option col_index) (k : hprog F A).
Arguments HRet {F A} a.
Arguments HFail {F A} e.
Arguments HIp {F A} rows cols k.
Arguments HSymm {F A} vecs k.
Arguments HCall {F A} call k.
Arguments HLin {F A} sums basis coeff idx k.

Fixpoint hbind {F A B} (h : hprog F A) (f : A -> hprog F B) : hprog F B :=
  match h with
  | HRet a => f a
  | HFail e => HFail e
  | HIp rows cols k => HIp rows cols (fun a => hbind (k a) f)
  | HSymm vecs k => HSymm vecs (fun a => hbind (k a) f)
  | HCall call k => HCall call (fun a => hbind (k a) f)
  | HLin sums basis coeff idx k => HLin sums basis coeff idx (hbind k f)
  end.

Declare Scope h_scope.
Delimit Scope h_scope with h.
Notation "x <== m ; k" := (hbind m (fun x => k))
  (at level 100, m at next level, right associativity) : h_scope.

Section Ops.
Context {F : sfield}.

(** Arithmetic that may raise. *)
Definition hlift {A} (r : res A) : hprog F A :=
  match r with Ok a => HRet a | Raise e => HFail e end.
(** Using an attribute that is still None raises [e]. *)
Definition need {A} (e : exn) (o : option A) : hprog F A :=
  match o with Some a => HRet a | None => HFail e end.

Definition inner_products (rows cols : list loc) : hprog F (arr F) := HIp rows cols HRet.
Definition symm_inner_products (vecs : list loc) : hprog F (arr F) := HSymm vecs HRet.
Definition combine (sums basis : list loc) (coeff : arr F) (idx : option col_index)
    : hprog F unit := HLin sums basis coeff idx (HRet tt).

(** Calls that are broadcast, with their results packed in a tuple and unpacked. *)
Definition pack (A : arr F) : item F := IArr (nr A) (nc A) (NdArray.ent A).
Definition bcast_eigh (r : res (list F * arr F)) : hprog F (list F * arr F) :=
  HCall (rmap (fun x => [IVec (fst x); pack (snd x)]) r) (fun l =>
    match l with [IVec w; IArr m n f] => HRet (w, Arr m n f) | _ => HFail TypeError end).
Definition bcast_svd (r : res (arr F * list F * arr F)) : hprog F (arr F * list F * arr F) :=
  HCall (rmap (fun x => [pack (fst (fst x)); IVec (snd (fst x)); pack (snd x)]) r) (fun l =>
    match l with
    | [IArr m n f; IVec w; IArr m' n' f'] => HRet (Arr m n f, w, Arr m' n' f')
    | _ => HFail TypeError
    end).
Definition bcast_eig (r : res (list F * arr F * arr F)) : hprog F (list F * arr F * arr F) :=
  HCall (rmap (fun x => [IVec (fst (fst x)); pack (snd (fst x)); pack (snd x)]) r) (fun l =>
    match l with
    | [IVec w; IArr m n f; IArr m' n' f'] => HRet (w, Arr m n f, Arr m' n' f')
    | _ => HFail TypeError
    end).
Definition bcast_arr (r : res (arr F)) : hprog F (arr F) :=
  HCall (rmap (fun x => [pack x]) r) (fun l =>
    match l with [IArr m n f] => HRet (Arr m n f) | _ => HFail TypeError end).

End Ops.

(** What a VectorSpaceHandles object holds, vectorspace.py:93-125, and the vectors'
    operations; [store_as] is NumPy's assignment to an array element
    (InnerProdModel.v). *)
Record space (F : sfield) (V : Type) := Space {
  ip : V -> V -> F; vadd : V -> V -> V; smul : V -> F -> V;
  store_as : F -> F -> res F;
  per_node : nat; per_proc : nat; num_nodes : nat
}.
Arguments ip {F V}. Arguments vadd {F V}. Arguments smul {F V}. 
Arguments store_as {F V}. Arguments per_node {F V}. Arguments per_proc {F V}.
Arguments num_nodes {F V}.

(** [x == 0]. *)
Definition test_zero {F : sfield} (x : F) : bool := if k_dec F x (k0 F) then true else false.

Section Exec.
Context {F : sfield} {V : Type} (P tag_ub : nat) (S : space F V).
Open Scope prog_scope.

(** The program of rank [rank]. *)
Fixpoint exec {O A : Type} (rank : nat) (h : hprog F A) : prog (msg V F) V O A :=
  match h with
  | HRet a => ret a
  | HFail e => fail e
  | HIp rows cols k =>
      a <- ip_array P tag_ub (k0 F) (kadd F) (kconj F) (store_as S) (Some (ip S))
             (per_node S) (per_proc S) (num_nodes S) rank rows cols ;;
      exec rank (k (of_lists (length rows) (length cols) a))
  | HSymm vecs k =>
      a <- symm_array P tag_ub (k0 F) (kadd F) (kconj F) test_zero (store_as S) (Some (ip S))
             (per_node S) (per_proc S) (num_nodes S) rank vecs ;;
      exec rank (k (of_lists (length vecs) (length vecs) a))
  | HCall call k =>
      m <- call_and_bcast P MNone rank (lift (rmap MTup call)) ;;
      match m with MTup l => exec rank (k l) | _ => fail TypeError end
  | HLin sums basis coeff idx k =>
      lin_combine P (vadd S) (smul S) (per_node S) (per_proc S) (num_nodes S) rank sums basis
        (Arr2 (nr coeff) (nc coeff) (to_lists coeff)) idx ;;;
      exec rank k
  end.

End Exec.
