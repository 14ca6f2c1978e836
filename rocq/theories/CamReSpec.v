(** Where the reprojection error of a back-projected pixel is stated. *)
From Coq Require Import Reals.
From Verif Require Import CamModel CamSpec.
Local Open Scope R_scope.

(** the points between the last guess and the corrected one *)
Definition on_segment (g du : vec2) (t : R) : vec2 := (fst g + t * fst du, snd g + t * snd du).
(** normalised image coordinates of a field of view of 90 degrees *)
Definition in_square (i : vec2) : Prop := -1 <= fst i <= 1 /\ -1 <= snd i <= 1.
(** size of the distortion coefficients of the radial-tangential model *)
Definition coefficients (k : camera) : R := Rabs (k1 k) + Rabs (k2 k) + Rabs (k3 k) + Rabs (p1 k) + Rabs (p2 k).
(** every entry of the matrix is at most [w] in size *)
Definition entries_at_most (w : R) (m : mat2) : Prop := let '(a, b, c, d) := m in Rabs a <= w /\ Rabs b <= w /\ Rabs c <= w /\ Rabs d <= w.
Definition minus2 (m m' : mat2) : mat2 := let '(a, b, c, d) := m in let '(a', b', c', d') := m' in (a - a', b - b', c - c', d - d').
Definition det2 (m : mat2) : R := let '(a, b, c, d) := m in a * d - b * c.
(** [g] is a guess whose distorted image is within the tolerance of the normalised pixel, [du] its Newton correction *)
Definition last_guess (k : camera) (c g du : vec2) : Prop :=
  let y := ((fst c - cx k) / fx k, (snd c - cy k) / fy k) in let yt := distort k g in
  (fst y - fst yt) * (fst y - fst yt) + (snd y - snd yt) * (snd y - snd yt) <= tolerance /\
  (let '(a, b, p, q) := snd (distort_J k g) in a * fst du + b * snd du = fst y - fst yt /\ p * fst du + q * snd du = snd y - snd yt).
