(** Model of save_array_text and load_array_text, /repo/modred/util.py:48-123, down to the
    characters of the file, with np.savetxt and np.loadtxt.

    Arrays hold floats, complexes or integers.  [T] are the floating-point numbers, [I] the
    integers; [show] is the format '%.18e', [read] is float(), [bits] reinterprets the bits
    of an integer as a float ([array.view(float)] of an int64 array).  Not modelled: other
    element types (view(float) of them is another reinterpretation), delimiters of more than
    one character, compressed files, and the opening of the file. *)
From Coq Require Import List Arith Lia Bool Ascii.
Import ListNotations.
From Verif Require Import Prelude.
Open Scope nat_scope.

Definition text := list ascii.
Definition newline : ascii := Ascii.ascii_of_nat 10.
Definition space : ascii := Ascii.ascii_of_nat 32.
Definition hash : ascii := "#"%char.
Definition percent : ascii := "%"%char.
(** White space: \t \n \v \f \r and blank. *)
Definition is_space (c : ascii) : bool :=
  let n := Ascii.nat_of_ascii c in ((9 <=? n) && (n <=? 13)) || (n =? 32).

(** [l] in pieces of [n]. *)
Fixpoint chunks {A} (m n : nat) (l : list A) : list (list A) :=
  match m with
  | O => []
  | S m => firstn n l :: chunks m n (skipn n l)
  end.
(** [d.join(l)]. *)
Fixpoint join {A} (d : A) (l : list (list A)) : list A :=
  match l with
  | [] => []
  | [x] => x
  | x :: l => x ++ d :: join d l
  end.
(** [t.split(d)] for a class of delimiters: every delimiter separates. *)
Fixpoint split {A} (is_delim : A -> bool) (t : list A) : list (list A) :=
  match t with
  | [] => [[]]
  | c :: t =>
      if is_delim c then [] :: split is_delim t
      else match split is_delim t with
           | w :: ws => (c :: w) :: ws
           | [] => [[c]]
           end
  end.
(** The part of a line before a comment. *)
Fixpoint cut_comment (t : text) : text :=
  match t with
  | [] => []
  | c :: t => if Ascii.eqb c hash then [] else c :: cut_comment t
  end.

(** All results of a list, or the first exception. *)
Fixpoint all_ok {A} (l : list (res A)) : res (list A) :=
  match l with
  | [] => Ok []
  | Raise e :: _ => Raise e
  | Ok a :: l => match all_ok l with Ok r => Ok (a :: r) | Raise e => Raise e end
  end.

Section Model.
Context {T I : Type} (show : T -> text) (read : text -> option T) (bits : I -> T).

(** The elements of an array in C order, by element type. *)
Inductive elements := Floats (l : list T) | Complexes (l : list (T * T)) | Ints (l : list I).
(** Shape, whether the memory layout is Fortran's, and elements. *)
Record array := Array { dims : list nat; fortran : bool; elems : elements }.
Definition num_elems (e : elements) : nat :=
  match e with Floats l => length l | Complexes l => length l | Ints l => length l end.

(** [z.view(float)]: real and imaginary parts in turn; [l.view(complex)]. *)
Definition interleave (l : list (T * T)) : list T := flat_map (fun z => [fst z; snd z]) l.
Fixpoint pairs (l : list T) : list (T * T) :=
  match l with
  | a :: b :: l => (a, b) :: pairs l
  | _ => []
  end.

(** [np.array(array)], and [atleast_2d_col] for one dimension: util.py:78-82. *)
Definition as_2d (a : array) : res array :=
  match dims a with
  | [n] => Ok (Array [n; 1] (fortran a) (elems a))
  | [] | [_; _] => Ok a
  | _ => Raise RuntimeError
  end.
(** [array.view(float)], util.py:88-89: the elements and the number of columns.  To change
    the element size, the last axis must be contiguous in memory. *)
Definition view_float (a : array) : res (array) :=
  match elems a, dims a with
  | Floats l, _ => Ok a
  | Ints l, _ => Ok (Array (dims a) (fortran a) (Floats (map bits l)))
  | Complexes l, [m; n] =>
      if fortran a && (1 <? m) && (1 <? n) then Raise ValueError
      else Ok (Array [m; n * 2] false (Floats (interleave l)))
  | Complexes l, _ => Raise ValueError
  end.

(** One row of np.savetxt: [format % tuple(row) + newline] where
    [format = delimiter.join(ncol * ['%.18e'])]; a delimiter '%' spoils the format. *)
Definition save_row (d : ascii) (row : list T) : res text :=
  if Ascii.eqb d percent && (1 <? length row) then Raise TypeError
  else Ok (join d (map show row) ++ [newline]).
(** [np.savetxt(file, X, delimiter)], default delimiter a blank. *)
Definition savetxt (delimiter : option ascii) (a : array) : res text :=
  match dims a, elems a with
  | [m; n], Floats l =>
      let d := match delimiter with Some d => d | None => space end in
      match all_ok (map (save_row d) (chunks m n l)) with
      | Ok rows => Ok (concat rows)
      | Raise e => Raise e
      end
  | _, _ => Raise ValueError
  end.

(** save_array_text, util.py:48-89: the text written. *)
Definition save_array_text (a : array) (delimiter : option ascii) : res text :=
  match as_2d a with
  | Raise e => Raise e
  | Ok b => match view_float b with Raise e => Raise e | Ok c => savetxt delimiter c end
  end.

(** The fields of a line of np.loadtxt: without delimiter, words between white space; with
    one, what it separates; an empty line has no fields. *)
Definition fields (delimiter : option ascii) (line : text) : list text :=
  match delimiter with
  | None => filter (fun w => negb (length w =? 0)) (split is_space line)
  | Some d => match line with [] => [] | _ => split (Ascii.eqb d) line end
  end.
Definition read_row (ws : list text) : res (list T) :=
  all_ok (map (fun w => match read w with Some x => Ok x | None => Raise ValueError end) ws).
(** [np.loadtxt(file, delimiter=delimiter, ndmin=2)]: comments and lines without fields are
    skipped; all lines must have as many fields as the first one; an empty file gives
    shape (0, 1). *)
Definition loadtxt (delimiter : option ascii) (t : text) : res (nat * nat * list T) :=
  let rows := filter (fun ws => negb (length ws =? 0))
                (map (fun line => fields delimiter (cut_comment line)) (split (Ascii.eqb newline) t)) in
  match rows with
  | [] => Ok (0, 1, [])
  | row :: _ =>
      if forallb (fun r => length r =? length row) rows then
        match all_ok (map read_row rows) with
        | Ok xs => Ok (length rows, length row, concat xs)
        | Raise e => Raise e
        end
      else Raise ValueError
  end.

(** load_array_text, util.py:92-123. *)
Definition load_array_text (t : text) (delimiter : option ascii) (is_complex : bool) : res array :=
  match loadtxt delimiter t with
  | Raise e => Raise e
  | Ok (m, n, l) =>
      if is_complex then
        if n mod 2 =? 0 then Ok (Array [m; n / 2] false (Complexes (pairs l)))
        else Raise ValueError
      else Ok (Array [m; n] false (Floats l))
  end.

End Model.
Arguments array : clear implicits.
Arguments elements : clear implicits.
