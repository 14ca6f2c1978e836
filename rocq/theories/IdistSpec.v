(** Vocabulary for C103. *)
From Coq Require Import ZArith Reals.
From Flocq Require Import Core BinarySingleNaN.
From Verif Require Import IeeeModel.
Local Open Scope R_scope.

Definition finite64 (x : g64) : Prop := is_finite x = true.
Definition val (x : g64) : R := B2R x.
(** [x] is [y] up to a relative error of 2^-[k] *)
Definition rel_close (k : Z) (x y : R) : Prop := Rabs (x - y) <= bpow radix2 (- k) * Rabs y.
(** [m] is the double nearest to 10^-6: 4722366482869645 * 2^-72 *)
Definition is_micro (m : R) : Prop := m = 4722366482869645 / 4722366482869645213696.
