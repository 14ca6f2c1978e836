(** Vocabulary for the floats in the messages. *)
From Coq Require Import ZArith Reals List String.
From Flocq Require Import Core Binary Bits.
From Verif Require Import Geo MsgModel MsgSpec.
Import ListNotations.
Local Open Scope R_scope.

(** what a subscriber that knows the field to be a float reads *)
Definition reads (m : cloud) (i : nat) (name : string) : option binary32 := option_map b32_of_bits (get m i name 0).
Definition value (f : binary32) : R := B2R 24 128 f.
Definition a_number (f : binary32) : Prop := is_finite 24 128 f = true.
Definition not_a_number (f : binary32) : Prop := is_nan 24 128 f = true.
(** the largest float *)
Definition largest : R := 16777215 * powerRZ 2 104.
(** the floating point fields of a valid feature and the values they stand for *)
Definition published (v : point) : list (string * R) :=
  [("x", vx (v_pos v)); ("y", vy (v_pos v)); ("z", vz (v_pos v)); ("b_x", vx (v_bea v)); ("b_y", vy (v_bea v)); ("b_z", vz (v_bea v));
   ("d", v_dis v); ("c_d", v_dcov v);
   ("c_00", vx (r0 (v_cov v))); ("c_01", vy (r0 (v_cov v))); ("c_02", vz (r0 (v_cov v)));
   ("c_11", vy (r1 (v_cov v))); ("c_12", vz (r1 (v_cov v))); ("c_22", vz (r2 (v_cov v)))]%string.
(** relative error half a unit of the 24th bit, below the normal range half of the smallest float *)
Definition close (f : binary32) (r : R) : Prop := a_number f /\ Rabs (value f - r) <= Rmax (Rabs r / 2 ^ 24) (/ 2 ^ 150).
Definition semidefinite3 (c : M3) : Prop := forall u, 0 <= dot u (mv c u).
(** the landmark covariance a subscriber puts together from its upper triangle *)
Definition read_cov (m : cloud) (i : nat) : option M3 :=
  match reads m i "c_00", reads m i "c_01", reads m i "c_02", reads m i "c_11", reads m i "c_12", reads m i "c_22" with
  | Some a, Some b, Some c, Some d, Some e, Some f => Some (from_upper (value a) (value b) (value c) (value d) (value e) (value f))
  | _, _, _, _, _, _ => None
  end.
(** all entries of [c] are at most [b] in magnitude *)
Definition entries_bounded (c : M3) (b : R) : Prop := forall i j, Rabs (ment c i j) <= b.
