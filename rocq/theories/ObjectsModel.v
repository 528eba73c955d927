(** lin_combine, /repo/modred/vectorspace.py:824-1066, with vectors as objects.

    LinCombModel.v has vectors as values.  Here variables, lists of vectors and in-memory
    handles refer to vector objects; two references may be to the same object, and
    [sum_layers[i] += sum_layer] changes the object that [sum_layers[i]] refers to, as it
    does for NumPy arrays.  Each rank has its own objects; a message carries a pickled
    copy.  Progress messages and timings are left out. *)
From stdpp Require Import gmap list.
From Verif Require Import Prelude ParallelModel Spmd ReductionsModel InnerProdModel LinCombModel.
Open Scope nat_scope.

(** The objects of a rank: their present values, and the number of the next one.  Objects
    that nothing refers to are kept; no program can tell. *)
Record heap (V : Type) := Heap { vals : gmap nat V; fresh : nat }.
Arguments Heap {V} vals fresh.
Arguments vals {V} h.
Arguments fresh {V} h.

Section Progs.
(** [V] values of vectors, [W] what a handle holds. *)
Context {M V W O : Type}.
Notation proc := (proc M W O).

(** Programs that read and change the rank's objects. *)
Definition oprog (A : Type) : Type := heap V -> (A -> heap V -> proc) -> proc.
Definition oret {A} (a : A) : oprog A := fun s k => k a s.
Definition obind {A B} (m : oprog A) (f : A -> oprog B) : oprog B :=
  fun s k => m s (fun a s' => f a s' k).
(** A program that uses no objects. *)
Definition oplain {A} (p : prog M W O A) : oprog A := fun s k => p (fun a => k a s).
Definition olift {A} (r : res A) : oprog A := oplain (lift r).
(** A new object. *)
Definition alloc (v : V) : oprog nat := fun s k =>
  k (fresh s) (Heap (<[fresh s := v]> (vals s)) (S (fresh s))).
(** The value of an object; the exception does not occur, references being to objects
    that exist. *)
Definition deref (r : nat) : oprog V := fun s k =>
  match vals s !! r with Some v => k v s | None => Fail UndefinedError end.
(** Changing an object. *)
Definition modify (r : nat) (v : V) : oprog unit := fun s k =>
  k tt (Heap (<[r := v]> (vals s)) (fresh s)).

Fixpoint ofor {A T} (l : list A) (t : T) (body : A -> T -> oprog T) : oprog T :=
  match l with
  | [] => oret t
  | x :: l' => obind (body x t) (fun t' => ofor l' t' body)
  end.
Fixpoint omap_prog {A B} (f : A -> oprog B) (l : list A) : oprog (list B) :=
  match l with
  | [] => oret []
  | x :: l' => obind (f x) (fun y => obind (omap_prog f l') (fun ys => oret (y :: ys)))
  end.
End Progs.

Declare Scope oprog_scope.
Delimit Scope oprog_scope with oprog.
Notation "x <- m ;; k" := (obind m (fun x => k))
  (at level 100, m at next level, right associativity) : oprog_scope.
Notation "' pat <- m ;; k" := (obind m (fun x => match x with pat => k end))
  (at level 100, pat pattern, m at next level, right associativity) : oprog_scope.
Notation "m ;;; k" := (obind m (fun _ => k))
  (at level 100, right associativity) : oprog_scope.
Open Scope oprog_scope.

(** ** Handles *)

(** How [handle.get()] makes a reference from what the handle holds, and what
    [handle.put(vec)] puts there. *)
Record handles (M V W O : Type) := Handles {
  load : W -> @oprog M V W O nat;
  save : nat -> @oprog M V W O W
}.
Arguments load {M V W O} h.
Arguments save {M V W O} h.

(** Handles of files, VecHandleArrayText and VecHandlePickle, /repo/modred/vectors.py:89-132:
    [get] makes a new object, [put] writes its value. *)
Definition file_handles {M V O} : handles M V V O := Handles M V V O alloc deref.

(** VecHandleInMemory without base vector and scale, /repo/modred/vectors.py:26-34, 58-80:
    [get] returns the very object of the attribute [vec], [put] sets the attribute to the
    object. *)
Definition memory_handles {M V O} : handles M V nat O := Handles M V nat O oret oret.

Section Model.
Context {V W K O : Type}.
Context (P : nat).
Notation msg := (msg V K).
Notation oprog := (@oprog msg V W O).
Context (H : handles msg V W O).
Context (vadd : V -> V -> V) (smul : V -> K -> V) (two : K).
(** Whether [x * c] is a new object; otherwise it is [x] itself. *)
Context (mul_new : V -> K -> bool).
(** Whether [x += y] changes [x]; otherwise it makes the sum as a new object. *)
Context (in_place : bool).
(** Whether [x += y] is possible: NumPy raises UFuncTypeError, a TypeError, when the sum
    has a type that cannot be stored in [x], such as complex in real. *)
Context (can_add : V -> V -> bool).

(** [handle.get()], [handle.put(vec)]. *)
Definition oget (h : loc) : oprog nat := w <- oplain (get h) ;; load H w.
Definition oput (h : loc) (r : nat) : oprog unit := w <- save H r ;; oplain (put h w).

(** [x * c] and [x += y], of which the result is assigned to the target. *)
Definition omul (r : nat) (c : K) : oprog nat :=
  x <- deref r ;;
  if mul_new x c then alloc (smul x c) else oret r.
Definition oiadd (r r' : nat) : oprog nat :=
  x <- deref r ;;
  y <- deref r' ;;
  if can_add x y then
    if in_place then modify r (vadd x y) ;;; oret r
    else alloc (vadd x y)
  else olift (Raise TypeError).

(** [swap], vectorspace.py:1025-1030: the message has the values of the vectors, receiving
    it makes new objects. *)
Definition oswap (rank dest source : nat) (payload : list nat * list nat)
    : oprog (list nat * list nat) :=
  vs <- omap_prog deref (fst payload) ;;
  let m := MVecs vs (snd payload) in
  oplain (isend dest 0 (pair_tag P rank dest) m) ;;;
  x <- oplain (recv source 0 (pair_tag P source rank)) ;;
  oplain (wait dest 0 (pair_tag P rank dest) m) ;;;
  vs <- olift (unpack_vecs x) ;;
  rs <- omap_prog alloc (fst vs) ;;
  oret (rs, snd vs).

(** [ring], vectorspace.py:996-1047. *)
Definition oring {T} (rank : nat) (fetch : oprog (list nat * list nat))
    (compute : list nat * list nat -> T -> oprog T) (acc : T) : oprog T :=
  '(acc, _) <-
    ofor (seq 0 P) (acc, ([], [])) (fun pass_index s =>
      payload <-
        (if pass_index =? 0 then fetch
         else
           let dest := (rank + 1) mod P in
           let source := (rank + P - 1) mod P in
           payload <- oswap rank dest source (snd s) ;;
           oplain (barrier P) ;;;
           oret payload) ;;
      acc <- compute payload (fst s) ;;
      oret (acc, payload)) ;;
  oret acc.

(** [add_layers], vectorspace.py:1038-1047. *)
Definition oadd_layers (coeff : list (list K)) (start_sum end_sum : nat)
    (basis : list nat * list nat) (layers : list (option nat)) : oprog (list (option nat)) :=
  ofor (seq start_sum (end_sum - start_sum)) layers (fun sum_index layers =>
    ofor (zip (seq 0 (length (fst basis))) (fst basis)) layers
      (fun '(basis_index, basis_vec) layers =>
        i <- olift (py_nth (snd basis) basis_index) ;;
        c <- olift (get_entry coeff i sum_index) ;;
        sum_layer <- omul basis_vec c ;;
        old <- olift (py_nth layers (sum_index - start_sum)) ;;
        new <- match old with
               | None => oret sum_layer
               | Some r => oiadd r sum_layer
               end ;;
        oret (<[sum_index - start_sum := Some new]> layers))).

(** [put_sums], vectorspace.py:1057-1060. *)
Definition oput_sums (sums : list loc) (start_sum end_sum : nat) (layers : list (option nat))
    : oprog unit :=
  ofor (seq start_sum (end_sum - start_sum)) tt (fun sum_index _ =>
    h <- olift (py_nth sums sum_index) ;;
    layer <- olift (py_nth layers (sum_index - start_sum)) ;;
    match layer with
    | Some r => oput h r
    | None => olift (Raise TypeError)
    end).

(** [test_vec + 2. * test_vec], vectorspace.py:906-908, 912-919. *)
Definition otest (h : loc) : oprog unit :=
  r <- oget h ;;
  r' <- omul r two ;;
  x <- deref r ;;
  y <- deref r' ;;
  _ <- alloc (vadd x y) ;;
  oret tt.

(** [lin_core], vectorspace.py:905-1066. *)
Definition olin_core (per_node per_proc N rank : nat) (sums basis : list loc)
    (coeff : list (list K)) : oprog unit :=
  let num_bases := length basis in
  let num_sums := length sums in
  h <- olift (py_nth basis 0) ;;
  otest h ;;;
  otest h ;;;
  olift (if per_node * N =? 2 * P then Raise ZeroDivisionError else Ok tt) ;;;
  let sums_per_chunk := per_proc - 1 in
  let basis_tasks := find_assignments P (seq 0 num_bases) None in
  let sum_tasks := find_assignments P (seq 0 num_sums) None in
  let num_basis_get_iters := ceil_div (list_maximum (map length basis_tasks)) 1 in
  let num_sum_put_iters :=
    ceil_div (list_maximum (map length sum_tasks)) sums_per_chunk in
  let my_basis := nth rank basis_tasks [] in
  let my_sums := nth rank sum_tasks [] in
  ofor (seq 0 num_sum_put_iters) tt (fun sum_put_index _ =>
    let bounds := chunk_bounds my_sums sum_put_index sums_per_chunk in
    let start_sum := fst bounds in
    let end_sum := snd bounds in
    layers <- ofor (seq 0 num_basis_get_iters) (replicate (end_sum - start_sum) None)
      (fun basis_get_index layers =>
        let bounds := chunk_bounds my_basis basis_get_index 1 in
        let start_basis := fst bounds in
        let end_basis := snd bounds in
        oring rank
          (vs <- omap_prog oget (slice start_basis end_basis basis) ;;
           oret (vs, seq start_basis (end_basis - start_basis)))
          (oadd_layers coeff start_sum end_sum)
          layers) ;;
    oput_sums sums start_sum end_sum layers) ;;;
  oplain (barrier P).

(** [lin_combine], vectorspace.py:824-1066. *)
Definition olin_combine (per_node per_proc N rank : nat) (sums basis : list loc)
    (coeff : coeffs K) (idx : option col_index) : oprog unit :=
  a <- olift (lin_coeffs (length basis) (length sums) coeff idx) ;;
  olin_core per_node per_proc N rank sums basis a.

End Model.

(** The program that a rank runs from the objects [s]; it returns its objects at the end. *)
Definition with_objects {M V W} (m : @oprog M V W (heap V) unit) (s : heap V)
    : prog M W (heap V) (heap V) :=
  fun k => m s (fun _ s' => k s').
