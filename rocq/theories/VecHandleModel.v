(** Model of VecHandle, VecHandleInMemory, VecHandleArrayText and VecHandlePickle,
    /repo/modred/vectors.py:14-134, in one process.

    Vectors are values: in-place changes of a vector after it was put or got are not
    modelled.  Handle objects never change their base or scale (vectors.py:20-22 is the only
    assignment), so a handle is a tree; an in-memory handle is known by its object
    identity [id], under which its vector is kept. *)
From Coq Require Import List Arith Lia Bool.
Import ListNotations.
From Verif Require Import Prelude.

(** Places where vectors are kept: in-memory handle objects and files. *)
Inductive place := PMem (id : nat) | PFile (path : nat).

Section Model.
(** [V]: vectors, with None for a handle without vector; [K]: scales; [D]: contents of files. *)
Context {V K D : Type}.

(** A handle and its base handle, scale and, for text files, is_complex:
    vectors.py:20-22, 68-70, 91-95, 116-118. *)
Inductive handle :=
| InMemory (id : nat) (base : option handle) (scale : option K)
| ArrayText (path : nat) (base : option handle) (scale : option K) (is_complex : bool)
| Pickle (path : nat) (base : option handle) (scale : option K).

Definition base_of (h : handle) : option handle :=
  match h with InMemory _ b _ | ArrayText _ b _ _ | Pickle _ b _ => b end.
Definition scale_of (h : handle) : option K :=
  match h with InMemory _ _ s | ArrayText _ _ s _ | Pickle _ _ s => s end.
Definition place_of (h : handle) : place :=
  match h with InMemory i _ _ => PMem i | ArrayText p _ _ _ | Pickle p _ _ => PFile p end.

(** What the class and the vectors supply: subtraction and scaling, which may raise;
    equality of vectors, util.smart_eq (util.py:165-174); text files (util.py:48-123) and
    pickle. *)
Record env := Env {
  vsub : V -> V -> res V;
  vscale : V -> K -> res V;
  veq : V -> V -> bool;
  text_save : V -> res D; text_load : bool -> D -> res V;
  pickle_dump : V -> res D; pickle_load : D -> res V
}.

(** The vectors of in-memory handles, the files, and the class attributes
    cached_base_vec_handle and cached_base_vec (vectors.py:16-17). *)
Record world := World {
  mem : nat -> V;
  file : nat -> option D;
  cache : option (handle * V)
}.

Definition upd {A} (f : nat -> A) (i : nat) (a : A) : nat -> A := fun j => if (j =? i)%nat then a else f j.
Definition set_cache (w : world) (b : handle) (v : V) : world := World (mem w) (file w) (Some (b, v)).

Section Ops.
Variable E : env.

Definition read_file (w : world) (p : nat) : res D :=
  match file w p with Some d => Ok d | None => Raise OSError end.

(** _get, vectors.py:73-75, 98-100, 120-124. *)
Definition raw_get (w : world) (h : handle) : res V :=
  match h with
  | InMemory i _ _ => Ok (mem w i)
  | ArrayText p _ _ c => rbind (read_file w p) (text_load E c)
  | Pickle p _ _ => rbind (read_file w p) (pickle_load E)
  end.

(** __scale_vec, vectors.py:59-63. *)
Definition scaled (s : option K) (v : V) : res V :=
  match s with Some c => vscale E v c | None => Ok v end.

(** __eq__, vectors.py:83-86, 108-111, 131-134. *)
Definition handle_eqb (w : world) (h h' : handle) : bool :=
  match h, h' with
  | InMemory i _ _, InMemory j _ _ => veq E (mem w i) (mem w j)
  | ArrayText p _ _ _, ArrayText p' _ _ _ => (p =? p')%nat
  | Pickle p _ _, Pickle p' _ _ => (p =? p')%nat
  | _, _ => false
  end.

(** [self.__base_vec_handle == VecHandle.cached_base_vec_handle] with the vector
    that is used then; a fresh cache holds None, which equals no handle. *)
Definition cached (w : world) (b : handle) : option V :=
  match cache w with
  | Some (c, v) => if handle_eqb w b c then Some v else None
  | None => None
  end.

(** get, vectors.py:25-40: the world afterwards, with the new cache, and the vector. *)
Fixpoint get (h : handle) (w : world) {struct h} : world * res V :=
  match raw_get w h with
  | Raise e => (w, Raise e)
  | Ok v =>
      match (match h with InMemory _ b _ | ArrayText _ b _ _ | Pickle _ b _ => b end) with
      | None => (w, scaled (scale_of h) v)
      | Some b =>
          match cached w b with
          | Some bv => (w, rbind (vsub E v bv) (scaled (scale_of h)))
          | None =>
              match get b w with
              | (w', Raise e) => (w', Raise e)
              | (w', Ok bv) => (set_cache w' b bv, rbind (vsub E v bv) (scaled (scale_of h)))
              end
          end
      end
  end.

(** put, vectors.py:43-46, 78-80, 103-104, 126-128; the cache is not touched. *)
Definition put (h : handle) (v : V) (w : world) : world * res unit :=
  match h with
  | InMemory i _ _ => (World (upd (mem w) i v) (file w) (cache w), Ok tt)
  | ArrayText p _ _ _ =>
      match text_save E v with
      | Ok d => (World (mem w) (upd (file w) p (Some d)) (cache w), Ok tt)
      | Raise e => (w, Raise e)
      end
  | Pickle p _ _ =>
      match pickle_dump E v with
      | Ok d => (World (mem w) (upd (file w) p (Some d)) (cache w), Ok tt)
      | Raise e => (w, Raise e)
      end
  end.

(** A history: gets and puts, whose exceptions are caught, with the vectors got. *)
Inductive op := Get (h : handle) | Put (h : handle) (v : V).
Fixpoint run (ops : list op) (w : world) : world * list (res V) :=
  match ops with
  | [] => (w, [])
  | Get h :: ops => let p := get h w in let q := run ops (fst p) in (fst q, snd p :: snd q)
  | Put h v :: ops => run ops (fst (put h v w))
  end.

End Ops.
End Model.
Arguments handle : clear implicits.
Arguments env : clear implicits.
Arguments world : clear implicits.
Arguments op : clear implicits.
