(** Model of standard_basis and LTIGalerkinProjectionArrays,
    /repo/modred/ltigalerkinproj.py:11-21, 76-107, 123-296.  The put_* methods (83-107)
    are calls from rank zero followed by a barrier, ReductionsModel.v. *)
From Coq Require Import List Arith Lia Bool ZArith.
Import ListNotations.
From Verif Require Import Prelude Field Matrix NdArray VSArraysModel.
Open Scope nat_scope.

Section Model.
Context {F : sfield}.
Open Scope k_scope.
Open Scope res_scope.

(** standard_basis, ltigalerkinproj.py:11-21: the rows of the identity array. *)
Definition standard_basis (num_dims : nat) : list (list F) :=
  map (fun i => map (fun j => mid i j) (seq 0 num_dims)) (seq 0 num_dims).

(** C_on_basis_vecs is one- or two-dimensional. *)
Inductive data := D1 (l : list F) | D2 (A : arr F).
(** [np.array(C, ndmin=2)]: a one-dimensional array becomes one row. *)
Definition ndmin2 (d : data) : arr F :=
  match d with D1 l => Arr 1 (length l) (fun _ j => at1 l j) | D2 A => A end.

(** The attributes of LTIGalerkinProjectionBase (76-81) and
    LTIGalerkinProjectionArrays (160-177); put_array is left out. *)
Record gal := Gal {
  ga_basis : arr F; ga_adjoint : arr F; ga_symmetric : bool; ga_orthonormal : bool;
  ga_weights : weights F;
  ga_proj : option (arr F);
  ga_A : option (arr F); ga_B : option (arr F); ga_C : option (arr F)
}.

(** LTIGalerkinProjectionArrays.__init__, 156-177. *)
Definition ga_new (distributed : bool) (basis : arr F) (adjoint : option (arr F)) (orthonormal : bool)
    (w : option (nd F)) : res gal :=
  if distributed then Raise RuntimeError
  else match adjoint with
  | None =>
      ws <-? set_weights w ;
      Ok (Gal basis basis true orthonormal ws None None None None)
  | Some adj =>
      if ((nr adj =? nr basis) && (nc adj =? nc basis))%nat then
        ws <-? set_weights w ;
        Ok (Gal basis adj false orthonormal ws None None None None)
      else Raise ValueError
  end.

(** Assignments to attributes. *)
Definition put_proj (o : gal) (T : arr F) : gal :=
  Gal (ga_basis o) (ga_adjoint o) (ga_symmetric o) (ga_orthonormal o) (ga_weights o) (Some T) (ga_A o) (ga_B o) (ga_C o).
Definition put_A (o : gal) (X : arr F) : gal :=
  Gal (ga_basis o) (ga_adjoint o) (ga_symmetric o) (ga_orthonormal o) (ga_weights o) (ga_proj o) (Some X) (ga_B o) (ga_C o).
Definition put_B (o : gal) (X : arr F) : gal :=
  Gal (ga_basis o) (ga_adjoint o) (ga_symmetric o) (ga_orthonormal o) (ga_weights o) (ga_proj o) (ga_A o) (Some X) (ga_C o).
Definition put_C (o : gal) (X : arr F) : gal :=
  Gal (ga_basis o) (ga_adjoint o) (ga_symmetric o) (ga_orthonormal o) (ga_weights o) (ga_proj o) (ga_A o) (ga_B o) (Some X).

Section Inv.
(** [inv]: numpy.linalg.inv. *)
Variable inv : arr F -> res (arr F).

(** _get_proj_array, 252-262.  A method gives the object it leaves behind, also when it
    raises, and its value. *)
Definition get_proj (o : gal) : gal * res (arr F) :=
  match ga_proj o with
  | Some T => (o, Ok T)
  | None =>
      match (G <-? (if ga_symmetric o then symm_inner_product_array (ga_weights o) (ga_basis o)
                    else inner_product_array (ga_weights o) (ga_adjoint o) (ga_basis o)) ;
             inv G) with
      | Ok T => (put_proj o T, Ok T)
      | Raise e => (o, Raise e)
      end
  end.

(** reduce_A (180-196) and reduce_B (199-234) differ in the attribute that is set,
    once before the projection and once after. *)
Definition reduce (put : gal -> arr F -> gal) (o : gal) (X : arr F) : gal * res (arr F) :=
  match inner_product_array (ga_weights o) (ga_adjoint o) X with
  | Raise e => (o, Raise e)
  | Ok R =>
      let o := put o R in
      if ga_orthonormal o then (o, Ok R)
      else match get_proj o with
      | (o, Raise e) => (o, Raise e)
      | (o, Ok T) =>
          match dot T R with
          | Raise e => (o, Raise e)
          | Ok R' => (put o R', Ok R')
          end
      end
  end.
Definition reduce_A := reduce put_A.
Definition reduce_B := reduce put_B.
(** reduce_C, 237-249. *)
Definition reduce_C (o : gal) (C : data) : gal * res (arr F) := (put_C o (ndmin2 C), Ok (ndmin2 C)).

(** The value of an attribute; it is set when this is used. *)
Definition attr (x : option (arr F)) : res (arr F) :=
  match x with Some a => Ok a | None => Raise AttributeError end.

(** compute_model, 265-296: returns the three attributes. *)
Definition compute_model (o : gal) (X Y : arr F) (C : data) : gal * res (arr F * arr F * arr F) :=
  match reduce_A o X with
  | (o, Raise e) => (o, Raise e)
  | (o, Ok _) =>
      match reduce_B o Y with
      | (o, Raise e) => (o, Raise e)
      | (o, Ok _) =>
          match reduce_C o C with
          | (o, Raise e) => (o, Raise e)
          | (o, Ok _) =>
              (o, a <-? attr (ga_A o) ; b <-? attr (ga_B o) ; c <-? attr (ga_C o) ; Ok (a, b, c))
          end
      end
  end.

(** ** A history of calls on one object *)
Inductive gcall := CallA (X : arr F) | CallB (X : arr F) | CallC (C : data) | CallModel (X Y : arr F) (C : data).
(** What a call returns: the reduced arrays. *)
Definition one (p : gal * res (arr F)) : gal * res (list (arr F)) := (fst p, rmap (fun a => [a]) (snd p)).
Definition do_gcall (o : gal) (c : gcall) : gal * res (list (arr F)) :=
  match c with
  | CallA X => one (reduce_A o X)
  | CallB X => one (reduce_B o X)
  | CallC C => one (reduce_C o C)
  | CallModel X Y C =>
      let p := compute_model o X Y C in
      (fst p, rmap (fun t => [fst (fst t); snd (fst t); snd t]) (snd p))
  end.
(** Calls one after the other; exceptions are caught between them. *)
Fixpoint do_gcalls (o : gal) (cs : list gcall) : gal * list (res (list (arr F))) :=
  match cs with
  | [] => (o, [])
  | c :: cs =>
      let p := do_gcall o c in
      let q := do_gcalls (fst p) cs in
      (fst q, snd p :: snd q)
  end.

End Inv.
End Model.
Arguments gal : clear implicits.
Arguments data : clear implicits.
Arguments gcall : clear implicits.
