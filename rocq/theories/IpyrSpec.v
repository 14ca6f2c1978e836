(** Vocabulary for the single-precision version of C29. *)
From Coq Require Import List ZArith Reals.
From Flocq Require Import Core BinarySingleNaN.
From Verif Require Import IeeeModel IeeeSpec.
Local Open Scope R_scope.

(** the warped patch of edge [e] extends over at least [d] pixels in both image directions *)
Definition extends (e : nat) (ident : bool) (w : fwarp) (d : R) : Prop :=
  if ident then d <= INR e - 1
  else d <= (Rabs (real (fw00 w)) + Rabs (real (fw01 w))) * (INR e - 1) /\
       d <= (Rabs (real (fw10 w)) + Rabs (real (fw11 w))) * (INR e - 1).
(** the extent the check needs: a quarter of a pixel with half-sampled levels, five quarters with cv::pyrDown *)
Definition extent_needed (usecv : bool) : R := if usecv then 5 / 4 else 1 / 4.

(** where a position [c] of level 0 lies on level [l]: pixel (i,j) of a half-sampled level covers the 2^l x 2^l block of its
    source pixels; with cv::pyrDown its centre lies on the centre of pixel (2^l i, 2^l j) *)
Definition on_level (usecv : bool) (l : nat) (c : R) : R := if usecv then (c - / 2) / 2 ^ l + / 2 else c / 2 ^ l.
