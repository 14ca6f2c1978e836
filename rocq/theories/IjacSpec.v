(** What it means that a matrix of doubles is a Jacobian. *)
From Coq Require Import Reals.
From Flocq Require Import Core BinarySingleNaN.
From Verif Require Import IeeeModel IcamModel IcamSpec IbackModel.
Local Open Scope R_scope.

(** the double [j] is the slope of [f] at [a], up to [eps] *)
Definition slope_within (eps : R) (f : R -> R) (a : R) (j : g64) : Prop :=
  is_finite j = true /\ exists d, derivable_pt_lim f a d /\ Rabs (val64 j - d) <= eps.
(** [j] is the matrix of partial derivatives of the planar map [f] at [x], [y], up to [eps] in each entry *)
Definition jacobian_within (eps : R) (f : R -> R -> R * R) (x y : R) (j : mat64) : Prop :=
  slope_within eps (fun t => fst (f t y)) x (m00 j) /\ slope_within eps (fun t => fst (f x t)) y (m01 j) /\
  slope_within eps (fun t => snd (f t y)) x (m10 j) /\ slope_within eps (fun t => snd (f x t)) y (m11 j).
(** not in the disc where the double-sphere and equidistant models leave points alone *)
Definition off_centre (x y : g64) : Prop := / 2 ^ 26 < Rabs (val64 x) \/ / 2 ^ 26 < Rabs (val64 y).
