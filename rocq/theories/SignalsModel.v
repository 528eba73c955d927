(** Model of get_file_list, load_signals and load_multiple_signals, /repo/modred/util.py:126-138
    and 494-561, on the text files of TextModel.v. *)
From Coq Require Import List Arith Lia Bool Ascii.
Import ListNotations.
From Verif Require Import Prelude TextModel.
Open Scope nat_scope.

(** [a == b] for strings. *)
Fixpoint text_eqb (a b : text) : bool :=
  match a, b with
  | [], [] => true
  | x :: a, y :: b => Ascii.eqb x y && text_eqb a b
  | _, _ => false
  end.
(** [f[-k:]]: the last [k] characters (all of them if there are fewer), but [f[-0:]] is all
    of [f]. *)
Definition from_end (k : nat) (f : text) : text :=
  if k =? 0 then f else skipn (length f - k) f.

(** util.py:126-138; [listdir] is what os.listdir returns.  The printed warning is not
    modelled. *)
Definition get_file_list (listdir : list text) (file_extension : option text) : list text :=
  match file_extension with
  | Some ext => filter (fun f => text_eqb (from_end (length ext) f) ext) listdir
  | None => listdir
  end.

Section Signals.
(** [close x y] is np.isclose for two numbers, [open] the contents of the files. *)
Context {T : Type} (read : text -> option T) (close : T -> T -> bool).
Context {path : Type} (open : path -> res text).

(** A 2-D array by rows. *)
Definition rows_of (m n : nat) (l : list T) : list (list T) := chunks m n l.

(** util.py:494-521: the times, the signals by rows and their number of columns. *)
Definition load_signals (delimiter : option ascii) (p : path) : res (list T * list (list T) * nat) :=
  match open p with
  | Raise e => Raise e
  | Ok t =>
    match loadtxt read delimiter t with
    | Raise e => Raise e
    | Ok (m, n, l) =>
        if n - 1 =? 0 then Raise ValueError
        else Ok (concat (map (firstn 1) (rows_of m n l)), map (skipn 1) (rows_of m n l), n - 1)
    end
  end.

(** [np.allclose(a, b)] for 1-D arrays: equal lengths, or one element against all. *)
Definition allclose (a b : list T) : res bool :=
  match a, b with
  | [x], _ => Ok (forallb (close x) b)
  | _, [y] => Ok (forallb (fun x => close x y) a)
  | _, _ =>
      if length a =? length b then Ok (forallb (fun '(x, y) => close x y) (combine a b))
      else Raise ValueError
  end.

(** The assignment [all_signals[k] = signals] into [nt] rows and [ns] columns: axes of
    length one are repeated, other lengths must agree. *)
Definition stretch {A} (n : nat) (l : list A) : res (list A) :=
  if length l =? n then Ok l
  else match l with [x] => Ok (repeat x n) | _ => Raise ValueError end.
Definition assign_rows (nt ns : nat) (signals : list (list T)) : res (list (list T)) :=
  match all_ok (map (stretch ns) signals) with
  | Raise e => Raise e
  | Ok rows => stretch nt rows
  end.

(** The loop util.py:553-559. *)
Fixpoint load_rest (delimiter : option ascii) (times : list T) (ns : nat) (paths : list path) : res (list (list (list T))) :=
  match paths with
  | [] => Ok []
  | p :: paths =>
    match load_signals delimiter p with
    | Raise e => Raise e
    | Ok (times_read, signals, _) =>
      match allclose times_read times with
      | Raise e => Raise e
      | Ok false => Raise ValueError
      | Ok true =>
        match assign_rows (length times) ns signals with
        | Raise e => Raise e
        | Ok block =>
          match load_rest delimiter times ns paths with
          | Raise e => Raise e
          | Ok blocks => Ok (block :: blocks)
          end
        end
      end
    end
  end.
(** util.py:524-561; [signal_paths[0]] of an empty list is an IndexError.  The file of the
    first path is read twice and may not change in between. *)
Definition load_multiple_signals (delimiter : option ascii) (paths : list path) : res (list T * list (list (list T))) :=
  match paths with
  | [] => Raise IndexError
  | p :: _ =>
    match load_signals delimiter p with
    | Raise e => Raise e
    | Ok (times, signals, ns) =>
      match load_rest delimiter times ns paths with
      | Raise e => Raise e
      | Ok blocks => Ok (times, blocks)
      end
    end
  end.

End Signals.
