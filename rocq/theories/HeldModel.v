(** The vector objects that a rank keeps in memory while it runs
    compute_inner_product_array, compute_symm_inner_product_array and lin_combine of
    /repo/modred/vectorspace.py:223-1066.

    The programs below are those of InnerProdModel.v, SymmModel.v and LinCombModel.v
    with the assignments to the local variables that refer to vectors written out, and
    with a note [Held n] wherever vectors have just been made, [n] being the number of
    different vector objects that the variables refer to at that moment (CPython frees
    an object as soon as nothing refers to it).  A vector is made by [handle.get()], by
    unpickling a received message and by vector arithmetic.  Not counted: the copies
    inside MPI's buffers of messages under way, what [get], [put], [inner_product] and
    the arithmetic of the vector class make for themselves, and the vectors of the
    caller. *)
From stdpp Require Import gmap list.
From Verif Require Import Prelude ParallelModel Spmd ReductionsModel InnerProdModel SymmModel LinCombModel.
Open Scope nat_scope.

(** A rank's remaining program as in Spmd.v, with notes. *)
Section Notes.
Context {M V O : Type}.
Inductive mproc : Type :=
| MRet (o : O)
| MFail (e : exn)
| MIsend (dst ctx tag : nat) (m : M) (k : mproc)
| MRecv (src ctx tag : nat) (k : M -> mproc)
| MWait (dst ctx tag : nat) (m : M) (k : mproc)
| MBarrier (k : mproc)
| MGet (h : loc) (k : V -> mproc)
| MPut (h : loc) (v : V) (k : mproc)
| Held (n : nat) (k : mproc).

(** A program without notes run before the rest [k]. *)
Fixpoint graft {A} (p : Spmd.proc M V A) (k : A -> mproc) : mproc :=
  match p with
  | Ret a => k a
  | Fail e => MFail e
  | Isend dst ctx tag m p => MIsend dst ctx tag m (graft p k)
  | Recv src ctx tag f => MRecv src ctx tag (fun m => graft (f m) k)
  | Wait dst ctx tag m p => MWait dst ctx tag m (graft p k)
  | Barrier p => MBarrier (graft p k)
  | Get h f => MGet h (fun v => graft (f v) k)
  | Put h v p => MPut h v (graft p k)
  end.
End Notes.
Arguments mproc : clear implicits.

(** The local variables that refer to vectors, with the names they have in
    compute_inner_product_array (vectorspace.py:344-477); the other two functions have
    variables with the same roles:
    [RowVec] row_vec, test_vec, test_vec_burn; [ColVec] col_vec, basis_vec,
    test_vec_3, test_vec_burn_3; [RowVecs] row_vecs; [ColVecs] col_vecs, basis_vecs;
    [Sent] col_vecs_send, basis_vecs_send; [Received] col_vecs_recv, basis_vecs_recv;
    [Layer] sum_layer.  [New] is the value of the expression being evaluated, not yet
    assigned. *)
Inductive var := RowVec | ColVec | RowVecs | ColVecs | Sent | Received | Layer | New.
Global Instance var_eq_dec : EqDecision var.
Proof. solve_decision. Defined.
Definition all_vars : list var :=
  [RowVec; ColVec; RowVecs; ColVecs; Sent; Received; Layer; New].

(** The vector objects each variable refers to, in the order of its list; those of
    sum_layers (vectorspace.py:974, None before the first layer); the number of the next
    object. *)
Record mem := Mem { refs : var -> list nat; layer_refs : list (option nat); next : nat }.

Definition set_ref (x : var) (l : list nat) (s : mem) : mem :=
  Mem (fun y => if decide (y = x) then l else refs s y) (layer_refs s) (next s).
Definition set_layers (l : list (option nat)) (s : mem) : mem :=
  Mem (refs s) l (next s).

(** All references, and the number of different objects they refer to. *)
Definition references (s : mem) : list nat :=
  flat_map (refs s) all_vars ++ omap id (layer_refs s).
Definition held (s : mem) : nat := length (remove_dups (references s)).

(** Nothing in memory: at the call. *)
Definition no_vectors : mem := Mem (fun _ => []) [] 0.

Section Progs.
Context {M V O : Type}.
Notation mproc := (mproc M V O).

(** Programs that read and change the memory. *)
Definition mprog (A : Type) : Type := mem -> (A -> mem -> mproc) -> mproc.
Definition mret {A} (a : A) : mprog A := fun s k => k a s.
Definition mbind {A B} (m : mprog A) (f : A -> mprog B) : mprog B :=
  fun s k => m s (fun a s' => f a s' k).
(** A program that makes no vectors. *)
Definition plain {A} (p : Spmd.prog M V A A) : mprog A :=
  fun s k => graft (p Ret) (fun a => k a s).
Definition mlift {A} (r : res A) : mprog A := plain (lift r).
(** [n] vectors are made, as further items of the value of [x]. *)
Definition make (x : var) (n : nat) : mprog unit := fun s k =>
  let s' := set_ref x (refs s x ++ seq (next s) n) (Mem (refs s) (layer_refs s) (next s + n)) in
  Held (held s') (k tt s').
(** [x = y]. *)
Definition assign (x y : var) : mprog unit := fun s k => k tt (set_ref x (refs s y) s).
(** [del x], and [x] no longer referring to vectors. *)
Definition del (x : var) : mprog unit := fun s k => k tt (set_ref x [] s).
(** [x = y[a:b]]. *)
Definition assign_slice (x y : var) (a b : nat) : mprog unit := fun s k =>
  k tt (set_ref x (slice a b (refs s y)) s).
(** Assigning the value just made. *)
Definition assign_new (x : var) : mprog unit := mbind (assign x New) (fun _ => del New).
(** [sum_layers = [None] * n]; [del sum_layers]. *)
Definition init_layers (n : nat) : mprog unit := fun s k => k tt (set_layers (replicate n None) s).
Definition del_layers : mprog unit := fun s k => k tt (set_layers [] s).
(** [sum_layers[i] = x]. *)
Definition assign_layer (i : nat) (x : var) : mprog unit := fun s k =>
  k tt (set_layers (<[i := head (refs s x)]> (layer_refs s)) s).

Fixpoint mfor {A T} (l : list A) (t : T) (body : A -> T -> mprog T) : mprog T :=
  match l with
  | [] => mret t
  | x :: l' => mbind (body x t) (fun t' => mfor l' t' body)
  end.

(** [handle.get()], one more item of the value being built. *)
Definition mget (h : loc) : mprog V := fun s k =>
  MGet h (fun v => make New 1 s (fun _ s' => k v s')).
Fixpoint mget_list (l : list loc) : mprog (list V) :=
  match l with
  | [] => mret []
  | h :: l' => mbind (mget h) (fun v => mbind (mget_list l') (fun vs => mret (v :: vs)))
  end.
End Progs.

Declare Scope mprog_scope.
Delimit Scope mprog_scope with mprog.
Notation "x <- m ;; k" := (mbind m (fun x => k))
  (at level 100, m at next level, right associativity) : mprog_scope.
Notation "' pat <- m ;; k" := (mbind m (fun x => match x with pat => k end))
  (at level 100, pat pattern, m at next level, right associativity) : mprog_scope.
Notation "m ;;; k" := (mbind m (fun _ => k))
  (at level 100, right associativity) : mprog_scope.
Open Scope mprog_scope.

(** Number of vectors in a message. *)
Definition vec_count {V K} (m : msg V K) : nat :=
  match m with MVecs vs _ => length vs | _ => 0 end.

Section Model.
Context {V K O : Type}.
Context (P tag_ub : nat).
Notation msg := (msg V K).
Notation mprog := (@mprog msg V O).
Notation arr := (list (list K)).
Context (zero : K) (add : K -> K -> K) (conj : K -> K) (is_zero : K -> bool).
Context (store_as : K -> K -> res K).

(** [comm.recv]: makes the vectors of the message. *)
Definition mrecv (src ctx tag : nat) : mprog msg := fun s k =>
  MRecv src ctx tag (fun m => make New (vec_count m) s (fun _ s' => k m s')).

(** [swap], vectorspace.py:438-443, 673-677, 755-760, 1025-1030, the value received
    being assigned to col_vecs_recv. *)
Definition mswap (rank dest source : nat) (payload : list V * list nat)
    : mprog (list V * list nat) :=
  let m := MVecs (fst payload) (snd payload) in
  plain (isend dest 0 (pair_tag P rank dest) m) ;;;
  x <- mrecv source 0 (pair_tag P source rank) ;;
  assign_new Received ;;;
  plain (wait dest 0 (pair_tag P rank dest) m) ;;;
  mlift (unpack_vecs x).

(** [ring], vectorspace.py:416-447, 721-763, 996-1033: [fetch] builds the list to be
    assigned to col_vecs. *)
Definition mring {T} (rank : nat) (fetch : mprog (list V * list nat))
    (compute : list V * list nat -> T -> mprog T) (acc : T) : mprog T :=
  del Received ;;;
  '(acc, _) <-
    mfor (seq 0 P) (acc, ([], [])) (fun pass_index s =>
      payload <-
        (if pass_index =? 0 then
           payload <- fetch ;;
           assign_new ColVecs ;;;
           mret payload
         else
           let dest := (rank + 1) mod P in
           let source := (rank + P - 1) mod P in
           assign Sent ColVecs ;;;
           payload <- mswap rank dest source (snd s) ;;
           plain (barrier P) ;;;
           assign ColVecs Received ;;;
           mret payload) ;;
      acc <- compute payload (fst s) ;;
      mret (acc, payload)) ;;
  mret acc.

(** [get_slice]. *)
Definition mget_slice (handles : list loc) (a b : nat) : mprog (list V) :=
  mget_list (slice a b handles).

(** What the double loops of vectorspace.py:451-458, 681-689, 769-777 leave in the loop
    variable col_vec: the last of col_vecs if there are any rows and any columns, and
    otherwise what it was.  (Nothing is made between its assignments.) *)
Definition visit (num_rows : nat) : mprog unit := fun s k =>
  k tt (if 0 <? num_rows then
          match last (refs s ColVecs) with
          | Some x => set_ref ColVec [x] s
          | None => s
          end
        else s).

(** [ip_block]. *)
Definition mip_block (ip : V -> V -> K) (like : K) (start_row end_row : nat)
    (row_vecs : list V) (cols : list V * list nat) (a : arr) : mprog arr :=
  a <- mlift (ip_block store_as ip like start_row end_row row_vecs cols a) ;;
  visit (end_row - start_row) ;;;
  mret a.

(** [burn], vectorspace.py:344-374. *)
Definition mburn (ip : V -> V -> K) (per_node N : nat) (rows cols : list loc) : mprog K :=
  h <- mlift (py_nth rows 0) ;;
  _ <- mget h ;;
  assign_new RowVec ;;;
  h' <- mlift (py_nth cols 0) ;;
  w <- mget h' ;;
  assign_new ColVec ;;;
  v <- mget h ;;
  assign_new RowVec ;;;
  x <- (if per_node * N =? 2 * P then plain (fail ZeroDivisionError) else mret (ip v w)) ;;
  del RowVec ;;;
  del ColVec ;;;
  mret x.

(** [ip_array_core], vectorspace.py:343-484. *)
Definition mip_array_core (ip : V -> V -> K) (per_node per_proc N rank : nat)
    (rows cols : list loc) : mprog arr :=
  let num_rows := length rows in
  let num_cols := length cols in
  let rows_per_chunk := per_proc - 1 in
  let cols_per_chunk := 1 in
  let row_tasks := find_assignments P (seq 0 num_rows) None in
  let col_tasks := find_assignments P (seq 0 num_cols) None in
  let num_row_get_loops :=
    ceil_div (list_maximum (map length row_tasks)) rows_per_chunk in
  let num_col_get_loops :=
    ceil_div (list_maximum (map length col_tasks)) cols_per_chunk in
  let my_rows := nth rank row_tasks [] in
  let my_cols := nth rank col_tasks [] in
  like <- mburn ip per_node N rows cols ;;
  a <- mfor (seq 0 num_row_get_loops) (zeros zero num_rows num_cols)
    (fun row_get_index a =>
       let bounds := chunk_bounds my_rows row_get_index rows_per_chunk in
       let start_row := fst bounds in
       let end_row := snd bounds in
       row_vecs <- mget_slice rows start_row end_row ;;
       assign_new RowVecs ;;;
       a <- mfor (seq 0 num_col_get_loops) a (fun col_get_index a =>
         let bounds := chunk_bounds my_cols col_get_index cols_per_chunk in
         let start_col := fst bounds in
         let end_col := snd bounds in
         a <- mring rank
           (col_vecs <- mget_slice cols start_col end_col ;;
            mret (col_vecs, seq start_col (end_col - start_col)))
           (fun payload a =>
              if 0 <? length row_vecs then
                mip_block ip like start_row end_row row_vecs payload a
              else mret a)
           a ;;
         del ColVecs ;;;
         mret a) ;;
       del RowVecs ;;;
       mret a) ;;
  plain (sum_over_procs P tag_ub add rank a).

(** [ip_array], vectorspace.py:223-492. *)
Definition mip_array (inner_product : option (V -> V -> K))
    (per_node per_proc N rank : nat) (rows cols : list loc) : mprog arr :=
  match inner_product with
  | None => plain (fail RuntimeError)
  | Some ip =>
      a <-
        (if length cols <? length rows then
           a <- mip_array_core ip per_node per_proc N rank cols rows ;;
           mret (conj_transpose zero conj (length rows) a)
         else mip_array_core ip per_node per_proc N rank rows cols) ;;
      plain (barrier P) ;;;
      mret a
  end.

(** [square_sets], vectorspace.py:618-706. *)
Definition msquare_sets (ip : V -> V -> K) (like : K) (rank active max_num_to_send : nat)
    (tasks : list nat) (row_vecs : list V) (a : arr) : mprog arr :=
  mfor (seq 0 (ceil_div (active - 1) 2)) a (fun set_index a =>
    let dest_rank := (rank + set_index + 1) mod active in
    let source_rank := (rank + active - (set_index + 1)) mod active in
    mfor (seq 0 max_num_to_send) a (fun send_index a =>
      a <-
        (if 0 <? length tasks then
           let start_col := send_index in
           let end_col := Nat.min (start_col + 1) (length tasks) in
           assign_slice Sent RowVecs start_col end_col ;;;
           payload <- mswap rank dest_rank source_rank
             (slice start_col end_col row_vecs, slice start_col end_col tasks) ;;
           assign ColVecs Received ;;;
           mip_block ip like (first_of tasks) (last_of tasks + 1) row_vecs payload a
         else mret a) ;;
      plain (barrier P) ;;;
      mret a)).

(** [rectangle], vectorspace.py:708-791. *)
Definition mrectangle (ip : V -> V -> K) (like : K) (rank end_row : nat) (vecs : list loc)
    (tasks : list nat) (row_vecs : list V) (a : arr) : mprog arr :=
  mfor (py_range end_row (length vecs) P) a (fun start_col a =>
    let end_col := Nat.min (start_col + P) (length vecs) in
    let cols := nth rank (find_assignments P (seq start_col (end_col - start_col)) None) [] in
    mring rank
      (if 0 <? length cols then
         vs <- mget_slice vecs (first_of cols) (last_of cols + 1) ;;
         mret (vs, seq (first_of cols) (last_of cols + 1 - first_of cols))
       else mret ([], []))
      (fun payload a =>
         if 0 <? length tasks then
           mip_block ip like (first_of tasks) (last_of tasks + 1) row_vecs payload a
         else mret a)
      a).

(** [row_chunk], vectorspace.py:582-795; col_vecs is not deleted at its end. *)
Definition mrow_chunk (ip : V -> V -> K) (like : K) (per_proc rank : nat) (vecs : list loc)
    (start_row : nat) (a : arr) : mprog arr :=
  let end_row := Nat.min (length vecs) (start_row + (per_proc - 1) * P) in
  let tasks_all := find_assignments P (seq start_row (end_row - start_row)) None in
  let active := length (filter (fun t => busy t = true) tasks_all) in
  let tasks := nth rank tasks_all [] in
  row_vecs <-
    (if 0 <? length tasks then mget_slice vecs (first_of tasks) (last_of tasks + 1)
     else mret []) ;;
  assign_new RowVecs ;;;
  a <-
    (if 0 <? length tasks then
       if consecutive tasks then
         mlift (triangle store_as ip like (first_of tasks) (last_of tasks + 1) row_vecs a)
       else plain (fail ValueError)
     else mret a) ;;
  a <- msquare_sets ip like rank active
         (ceil_div (list_maximum (map length tasks_all)) 1) tasks row_vecs a ;;
  a <- mrectangle ip like rank end_row vecs tasks row_vecs a ;;
  del RowVecs ;;;
  mret a.

(** [symm_array], vectorspace.py:495-821. *)
Definition msymm_array (inner_product : option (V -> V -> K))
    (per_node per_proc N rank : nat) (vecs : list loc) : mprog arr :=
  match inner_product with
  | None => plain (fail RuntimeError)
  | Some ip =>
      let n := length vecs in
      h <- mlift (py_nth vecs 0) ;;
      _ <- mget h ;;
      assign_new RowVec ;;;
      v <- mget h ;;
      assign_new RowVec ;;;
      (if per_node * N =? 2 * P then plain (fail ZeroDivisionError) else mret tt) ;;;
      let like := ip v v in
      del RowVec ;;;
      a <- mfor (py_range 0 n ((per_proc - 1) * P)) (zeros zero n n)
             (fun start_row a => mrow_chunk ip like per_proc rank vecs start_row a) ;;
      a <- plain (sum_over_procs P tag_ub add rank a) ;;
      plain (barrier P) ;;;
      mret (symmetrize zero add conj is_zero n a)
  end.

Context (vadd : V -> V -> V) (smul : V -> K -> V).
(** Whether [sum_layers[i] += sum_layer] changes the object in place, as for NumPy
    arrays, or makes the sum as a new object, as for classes that only define
    [__add__]. *)
Context (in_place : bool).

(** [add_layers], vectorspace.py:1038-1047. *)
Definition madd_layers (coeff : list (list K)) (start_sum end_sum : nat)
    (basis : list V * list nat) (layers : list (option V)) : mprog (list (option V)) :=
  mfor (seq start_sum (end_sum - start_sum)) layers (fun sum_index layers =>
    mfor (zip (seq 0 (length (fst basis))) (fst basis)) layers (fun '(basis_index, basis_vec) layers =>
      assign_slice ColVec ColVecs basis_index (basis_index + 1) ;;;
      i <- mlift (py_nth (snd basis) basis_index) ;;
      c <- mlift (get_entry coeff i sum_index) ;;
      make New 1 ;;;
      assign_new Layer ;;;
      old <- mlift (py_nth layers (sum_index - start_sum)) ;;
      let layer := smul basis_vec c in
      match old with
      | None => assign_layer (sum_index - start_sum) Layer
      | Some _ =>
          if in_place then mret tt
          else
            make New 1 ;;;
            assign_layer (sum_index - start_sum) New ;;;
            del New
      end ;;;
      mret (<[sum_index - start_sum :=
              Some match old with None => layer | Some s => vadd s layer end]> layers))).

(** [test_vec + 2. * test_vec], vectorspace.py:906-908, 912-919. *)
Definition mtest (h : loc) : mprog V :=
  v <- mget h ;;
  assign_new RowVec ;;;
  make New 1 ;;;
  make ColVec 1 ;;;
  del New ;;;
  del RowVec ;;;
  del ColVec ;;;
  mret v.

(** [lin_core], vectorspace.py:905-1066; basis_vecs and sum_layer are not deleted. *)
Definition mlin_core (per_node per_proc N rank : nat) (sums basis : list loc)
    (coeff : list (list K)) : mprog unit :=
  let num_bases := length basis in
  let num_sums := length sums in
  h <- mlift (py_nth basis 0) ;;
  _ <- mtest h ;;
  _ <- mtest h ;;
  (if per_node * N =? 2 * P then plain (fail ZeroDivisionError) else mret tt) ;;;
  let sums_per_chunk := per_proc - 1 in
  let basis_tasks := find_assignments P (seq 0 num_bases) None in
  let sum_tasks := find_assignments P (seq 0 num_sums) None in
  let num_basis_get_iters := ceil_div (list_maximum (map length basis_tasks)) 1 in
  let num_sum_put_iters :=
    ceil_div (list_maximum (map length sum_tasks)) sums_per_chunk in
  let my_basis := nth rank basis_tasks [] in
  let my_sums := nth rank sum_tasks [] in
  mfor (seq 0 num_sum_put_iters) tt (fun sum_put_index _ =>
    let bounds := chunk_bounds my_sums sum_put_index sums_per_chunk in
    let start_sum := fst bounds in
    let end_sum := snd bounds in
    init_layers (end_sum - start_sum) ;;;
    layers <- mfor (seq 0 num_basis_get_iters) (replicate (end_sum - start_sum) None)
      (fun basis_get_index layers =>
        let bounds := chunk_bounds my_basis basis_get_index 1 in
        let start_basis := fst bounds in
        let end_basis := snd bounds in
        mring rank
          (vs <- mget_slice basis start_basis end_basis ;;
           mret (vs, seq start_basis (end_basis - start_basis)))
          (madd_layers coeff start_sum end_sum)
          layers) ;;
    plain (put_sums sums start_sum end_sum layers) ;;;
    del_layers) ;;;
  plain (barrier P).

(** [lin_combine], vectorspace.py:824-1066. *)
Definition mlin_combine (per_node per_proc N rank : nat) (sums basis : list loc)
    (coeff : coeffs K) (idx : option col_index) : mprog unit :=
  a <- mlift (lin_coeffs (length basis) (length sums) coeff idx) ;;
  mlin_core per_node per_proc N rank sums basis a.

End Model.

(** ** What the notes mean *)
Section Meaning.
Context {M V O : Type}.
Notation proc := (proc M V O).
Notation mproc := (mproc M V O).
(** [m] without its notes is [p]. *)
Inductive erases : mproc -> proc -> Prop :=
| er_ret o : erases (MRet o) (Ret o)
| er_fail e : erases (MFail e) (Fail e)
| er_isend dst ctx tag x m p : erases m p -> erases (MIsend dst ctx tag x m) (Isend dst ctx tag x p)
| er_recv src ctx tag m p : (forall x, erases (m x) (p x)) -> erases (MRecv src ctx tag m) (Recv src ctx tag p)
| er_wait dst ctx tag x m p : erases m p -> erases (MWait dst ctx tag x m) (Wait dst ctx tag x p)
| er_barrier m p : erases m p -> erases (MBarrier m) (Barrier p)
| er_get h m p : (forall v, erases (m v) (p v)) -> erases (MGet h m) (Get h p)
| er_put h v m p : erases m p -> erases (MPut h v m) (Put h v p)
| er_held n m p : erases m p -> erases (Held n m) p.

End Meaning.

(** One action of the rank, whatever it reads and whatever message of at most one vector
    it receives; sending and reading may fail. *)
Inductive mstep {V K O} : mproc (msg V K) V O -> mproc (msg V K) V O -> Prop :=
| ms_isend dst ctx tag x m : mstep (MIsend dst ctx tag x m) m
| ms_no_send dst ctx tag x m : mstep (MIsend dst ctx tag x m) (MFail MPIError)
| ms_recv src ctx tag m x : vec_count x <= 1 -> mstep (MRecv src ctx tag m) (m x)
| ms_wait dst ctx tag x m : mstep (MWait dst ctx tag x m) m
| ms_barrier m : mstep (MBarrier m) m
| ms_get h m v : mstep (MGet h m) (m v)
| ms_no_get h m : mstep (MGet h m) (MFail OSError)
| ms_put h v m : mstep (MPut h v m) m
| ms_held n m : mstep (Held n m) m.

(** What the rank does when run by itself, each read giving [v] and the messages [ms]
    arriving in this order: the notes, and the vectors in each message it sends. *)
Fixpoint follow {V K O} (v : V) (ms : list (msg V K)) (p : mproc (msg V K) V O)
    : list nat * list (msg V K) :=
  match p with
  | MRet _ | MFail _ => ([], [])
  | MIsend _ _ _ m k => let '(a, b) := follow v ms k in (a, m :: b)
  | MRecv _ _ _ k => match ms with m :: ms' => follow v ms' (k m) | [] => ([], []) end
  | MWait _ _ _ _ k | MBarrier k | MPut _ _ k => follow v ms k
  | MGet _ k => follow v ms (k v)
  | Held n k => let '(a, b) := follow v ms k in (n :: a, b)
  end.
