(** Vocabulary for C85. *)
From Coq Require Import Reals.
From Verif Require Import Geo DistModel FiltModel CoordModel ElemModel.
Local Open Scope R_scope.

(** the element can tell its bearing, and it is the unit vector [n] given by the rotation [Q] *)
Definition has_bearing (e : elem) (Q : M3) : Prop := exists s, com_nor (el_co e) = Some (s, true) /\ nor_ s = Q /\ is_rot Q.
(** size of the bearing part of an increment *)
Definition turn (v : V3) : R := sqrt (vx v ^ 2 + vy v ^ 2).
