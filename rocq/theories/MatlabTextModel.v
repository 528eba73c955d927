(** Model of the MATLAB functions for text files, /repo/matlab/save_mat_text.m and
    load_mat_text.m, down to the characters of the file.

    [T] are the finite floating-point numbers; [show] is the format '%.16e', [read] how
    MATLAB's load reads a number.  Entries of matrices are listed row by row, rows and
    columns are numbered from zero.  The text is that of the closed file: save_mat_text
    never closes it. *)
From Coq Require Import List Arith Lia Bool Ascii.
Import ListNotations.
From Verif Require Import Prelude TextModel.
Open Scope nat_scope.

Section Model.
Context {T : Type} (zero : T) (is_zero : T -> bool) (show : T -> text) (read : text -> option T).

(** MATLAB matrices: rows, columns, entries; [isreal] tells the two apart. *)
Inductive matrix := RealMat (m n : nat) (l : list T) | ComplexMat (m n : nat) (l : list (T * T)).
(** [mat(r+1, c+1)] of a matrix with [n] columns. *)
Definition entry {X} (x0 : X) (n : nat) (l : list X) (r c : nat) : X := nth (r * n + c) l x0.
(** The matrix with [m] rows, [n] columns and entries [f r c]. *)
Definition tabulate {X} (m n : nat) (f : nat -> nat -> X) : list X :=
  flat_map (fun r => map (f r) (seq 0 n)) (seq 0 m).

(** mat_write, save_mat_text.m:5-17: for complex data the odd columns (numbered from one)
    hold real parts, the even ones imaginary parts. *)
Definition mat_write (a : matrix) : nat * nat * list T :=
  match a with
  | RealMat m n l => (m, n, l)
  | ComplexMat m n l => (m, 2 * n, tabulate m (2 * n) (fun r c =>
      let z := entry (zero, zero) n l r (c / 2) in if Nat.even c then fst z else snd z))
  end.
(** save_mat_text, save_mat_text.m:19-26: each number but the last of a row is followed by
    the delimiter.  Delimiters are single characters other than '%' and '\', which mean
    something else in a format.  A row without columns has no last entry: an error. *)
Definition save_mat_text (a : matrix) (delimiter : ascii) : res text :=
  let '(m, n, l) := mat_write a in
  if (0 <? m) && (n =? 0) then Raise IndexError else
  Ok (flat_map (fun row =>
        flat_map (fun col => show (entry zero n l row col) ++ [delimiter]) (seq 0 (n - 1)) ++
        show (entry zero n l row (n - 1)) ++ [newline]) (seq 0 m)).

(** MATLAB's load of a text file: numbers separated by blanks, tabs, commas or semicolons,
    as many in every line; lines that begin with '%' are comments.  Without any numbers
    the result is not specified here (an error). *)
Definition is_separator (c : ascii) : bool :=
  Ascii.eqb c space || Ascii.eqb c (Ascii.ascii_of_nat 9) || Ascii.eqb c ","%char || Ascii.eqb c ";"%char.
Definition is_remark (line : text) : bool :=
  match line with c :: _ => Ascii.eqb c percent | [] => false end.
Definition load_ascii (t : text) : res (nat * nat * list T) :=
  let lines := filter (fun line => negb (is_remark line)) (split (Ascii.eqb newline) t) in
  let rows := filter (fun ws => negb (length ws =? 0))
                (map (fun line => filter (fun w => negb (length w =? 0)) (split is_separator line)) lines) in
  match rows with
  | [] => Raise OSError
  | row :: _ =>
      if forallb (fun r => length r =? length row) rows then
        match all_ok (map (read_row read) rows) with
        | Ok xs => Ok (length rows, length row, concat xs)
        | Raise e => Raise e
        end
      else Raise ValueError
  end.
(** Arithmetic leaves no zero imaginary parts: if all are zero, the result is real. *)
Definition narrow (m n : nat) (l : list (T * T)) : matrix :=
  if forallb (fun z => is_zero (snd z)) l then RealMat m n (map fst l) else ComplexMat m n l.
(** load_mat_text, load_mat_text.m. *)
Definition load_mat_text (t : text) (is_complex : bool) : res matrix :=
  match load_ascii t with
  | Raise e => Raise e
  | Ok (m, n, l) =>
      if is_complex then
        if n mod 2 =? 0 then
          Ok (narrow m (n / 2) (tabulate m (n / 2) (fun r c => (entry zero n l r (2 * c), entry zero n l r (2 * c + 1)))))
        else Raise ValueError
      else Ok (RealMat m n l)
  end.
End Model.
Arguments matrix : clear implicits.
