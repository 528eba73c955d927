(** Numbers of type float64 and complex128, as NumPy adds and multiplies them: IEEE 754
    binary64, rounding to nearest even, by the standard library's SpecFloat.

    Simplified: -0 and 0 are one number ([x == y] does not tell them apart); all NaNs are
    one number.  Used where rounding matters: C63, for /repo/modred/vectorspace.py:223-492,
    495-821, 824-1066. *)
From Coq Require Import ZArith Bool List SpecFloat.
Import ListNotations.
Open Scope bool_scope.

(** Not -0. *)
Definition one_zero (x : spec_float) : bool := match x with S754_zero true => false | _ => true end.
Record double := Double { bits : spec_float; bits_ok : one_zero bits = true }.

Definition fold_zero (x : spec_float) : spec_float := match x with S754_zero _ => S754_zero false | _ => x end.
Lemma fold_zero_ok x : one_zero (fold_zero x) = true.
Proof. destruct x; reflexivity. Qed.
Definition of_bits (x : spec_float) : double := Double (fold_zero x) (fold_zero_ok x).

(** [0.], [x + y], [x * y], [-x], [x == 0]. *)
Definition d_zero : double := of_bits (S754_zero false).
Definition d_add (x y : double) : double := of_bits (SFadd 53 1024 (bits x) (bits y)).
Definition d_mul (x y : double) : double := of_bits (SFmul 53 1024 (bits x) (bits y)).
Definition d_opp (x : double) : double := of_bits (SFopp (bits x)).
Definition d_is_zero (x : double) : bool := match bits x with S754_zero _ => true | _ => false end.

(** An integer as a float, rounded. *)
Definition d_of_Z (n : Z) : double := of_bits (binary_normalize 53 1024 n 0 false).

(** complex128: pairs. *)
Definition z_add (x y : double * double) : double * double := (d_add (fst x) (fst y), d_add (snd x) (snd y)).
Definition z_conj (x : double * double) : double * double := (fst x, d_opp (snd x)).
Definition z_zero : double * double := (d_zero, d_zero).
Definition z_is_zero (x : double * double) : bool := d_is_zero (fst x) && d_is_zero (snd x).
