(** Vocabulary for the single-precision versions of C22 and C23. *)
From Coq Require Import ZArith Reals.
From Flocq Require Import Core BinarySingleNaN.
From Verif Require Import IeeeModel.
Local Open Scope R_scope.

(** the real number a finite float stands for *)
Definition real (x : f32) : R := B2R x.
Definition number (x : f32) : Prop := is_nan x = false.
Definition finite (x : f32) : Prop := is_finite x = true.

(** image with 8-bit intensities and edges of at most [m] pixels *)
Definition image_within (m : Z) (im : bimage) : Prop := (0 <= bcols im <= m)%Z /\ (0 <= brows im <= m)%Z.
Definition bytes (im : bimage) : Prop :=
  forall u v, (0 <= u < bcols im)%Z -> (0 <= v < brows im)%Z -> (0 <= bpix im u v <= 255)%Z.

(** exact bilinear interpolation of the pixel grid *)
Definition interp (im : bimage) (u v : R) : R :=
  let i := Zfloor u in let j := Zfloor v in let s := u - IZR i in let t := v - IZR j in
  (1 - s) * (1 - t) * IZR (bpix im i j) + s * (1 - t) * IZR (bpix im (i + 1)%Z j)
  + (1 - s) * t * IZR (bpix im i (j + 1)%Z) + s * t * IZR (bpix im (i + 1)%Z (j + 1)%Z).

(** edge of the extracted patch *)
Definition patch_edge (n : nat) (border : bool) : nat := if border then (n + 2)%nat else n.
(** exact image position of patch pixel (x,y): the centre of the patch plus the warped offset of the
    pixel from the middle of a patch of edge [e], minus half a pixel *)
Definition spot (ident : bool) (w : fwarp) (cx cy : f32) (e x y : nat) : R * R :=
  let dx := INR x - (INR e - 1) / 2 in let dy := INR y - (INR e - 1) / 2 in
  if ident then (real cx + dx - 1 / 2, real cy + dy - 1 / 2)
  else (real cx + (real (fw00 w) * dx + real (fw01 w) * dy) - 1 / 2,
        real cy + (real (fw10 w) * dx + real (fw11 w) * dy) - 1 / 2).
