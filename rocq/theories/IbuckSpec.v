(** Vocabulary for C10 in IEEE-754 arithmetic. *)
From Coq Require Import ZArith Reals.
From Flocq Require Import BinarySingleNaN.
From Verif Require Import IeeeModel IbuckModel.
Local Open Scope R_scope.

(** a finite value from [lo] to [hi] *)
Definition within {p e} (lo hi : R) (x : binary_float p e) : Prop := is_finite x = true /\ lo <= B2R x <= hi.
(** pow maps relative scores in (0,1] and exponents that are not negative to [0,1] *)
Definition pow_in_unit (p : powered) : Prop :=
  match p with PowF p => within 0 1 p | PowD p => within 0 1 p end.
Definition pow_one (p : powered) : Prop :=
  match p with PowF p => within 1 1 p | PowD p => within 1 1 p end.
(** squared distances: not below zero, possibly infinite or NaN *)
Definition not_negative (d : g64) : Prop := Bltb d (B754_zero false) = false.
