(** Vocabulary for C102. *)
From Coq Require Import ZArith Reals.
From Flocq Require Import BinarySingleNaN.
From Verif Require Import IeeeModel StampModel.
Local Open Scope R_scope.

(** a time stamp as messages carry it *)
Definition well_formed (s : stamp) : Prop := (0 <= sec s < 2 ^ 32)%Z /\ (0 <= nsec s < 1000000000)%Z.
(** nanoseconds since the epoch *)
Definition nanos (s : stamp) : Z := (sec s * 1000000000 + nsec s)%Z.
(** the filter time as a number of seconds *)
Definition seconds (t : g64) : R := B2R t.
(** rounding to an integer, up to 2^-20, of the numbers of nanoseconds in a second *)
Definition rounds (rd : g64 -> Z) : Prop :=
  forall v, is_finite v = true -> 0 <= seconds v <= 1000000000 -> Rabs (IZR (rd v) - seconds v) <= / 2 + / 2 ^ 20.
(** and monotone *)
Definition monotone (rd : g64 -> Z) : Prop :=
  forall v w, is_finite v = true -> is_finite w = true -> seconds v <= seconds w -> (rd v <= rd w)%Z.
