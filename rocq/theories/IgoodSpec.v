(** Vocabulary for C01 and C04 in IEEE-754 arithmetic. *)
From Coq Require Import List ZArith Reals.
From Flocq Require Import BinarySingleNaN.
From Verif Require Import IeeeModel StatModel.
Local Open Scope R_scope.

(** a finite double between 0 and 1 *)
Definition proper (x : g64) : Prop := is_finite x = true /\ 0 <= B2R x <= 1.
(** an int that is at least one *)
Definition positive_int (z : Z) : Prop := (1 <= z <= 2147483647)%Z.
(** configured ranges are such ints *)
Definition int_ranges (o : op) : Prop := match o with OpRanges a b c => positive_int a /\ positive_int b /\ positive_int c | _ => True end.
(** thresholds in the order the program expects *)
Definition thresholds (upper lower : g64) : Prop := is_finite upper = true /\ is_finite lower = true /\ 0 <= B2R lower <= B2R upper /\ B2R upper < 1.
