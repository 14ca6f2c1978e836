(** The Jacobian of the projection in doubles, against the derivative of the projection over the reals. *)
From Coq Require Import Reals.
From Flocq Require Import Core BinarySingleNaN.
From Verif Require Import IeeeModel IcamModel IcamSpec IbackModel CamModel CamSpec IpjacModel.
Local Open Scope R_scope.

(** the camera over the reals with the same calibration *)
Definition real_camera (c : camera64) : camera :=
  {| ctype := match c_model c with Radtan64 => RADTAN | Equidist64 => EQUIDIST | DoubleSphere64 => DS end;
     k1 := val64 (c_k1 c); k2 := val64 (c_k2 c); k3 := val64 (c_k3 c); k4 := val64 (c_k4 c); p1 := val64 (c_p1 c); p2 := val64 (c_p2 c);
     fx := val64 (c_fx c); fy := val64 (c_fy c); cx := val64 (c_cx c); cy := val64 (c_cy c) |}.
(** a direction within two focal lengths of the optical axis, about of unit length *)
Definition usual_bearing (vx vy vz : g64) : Prop :=
  at_most 2 vx /\ at_most 2 vy /\ at_most 2 vz /\ / 4 <= val64 vz /\ Rabs (val64 vx) <= 2 * val64 vz /\ Rabs (val64 vy) <= 2 * val64 vz.
(** clear of the disc around the optical axis where the double-sphere and equidistant models take a short cut *)
Definition off_axis (vx vy vz : g64) : Prop := / 2 ^ 25 * val64 vz <= Rabs (val64 vx) \/ / 2 ^ 25 * val64 vz <= Rabs (val64 vy).
(** well inside that disc *)
Definition on_axis (vx vy vz : g64) : Prop := Rabs (val64 vx) <= / 2 ^ 28 * val64 vz /\ Rabs (val64 vy) <= / 2 ^ 28 * val64 vz.
(** a coordinate off by at most two ulps of one *)
Definition ulp_off (a : R) (x : g64) : Prop := Rabs (a - val64 x) <= / 2 ^ 51.
(** a double within [eps] of a real *)
Definition near64 (eps : R) (j : g64) (a : R) : Prop := is_finite j = true /\ Rabs (val64 j - a) <= eps.
(** [j] is the derivative of [f] at [v], up to [eps] in each entry *)
Definition jacobian23_within (eps : R) (f : vec3 -> vec2) (v : vec3) (j : mat64_23) : Prop :=
  exists a b c d e g, jacobian3_at f v ((a, b, c), (d, e, g)) /\
    near64 eps (j00 j) a /\ near64 eps (j01 j) b /\ near64 eps (j02 j) c /\ near64 eps (j10 j) d /\ near64 eps (j11 j) e /\ near64 eps (j12 j) g.
(** a direction in the tangent plane: a column of a basis with entries of at most one *)
Definition unit_column (m : g64 * g64 * g64) : Prop := let '(u1, u2, u3) := m in at_most 1 u1 /\ at_most 1 u2 /\ at_most 1 u3.
(** moving from [v] with velocity [al] times the first plus [be] times the second column moves [f] with velocity [j] times ([al], [be]),
    up to [eps] in each entry of [j] *)
Definition tangent_within (eps : R) (f : vec3 -> vec2) (v : vec3) (m1 m2 : g64 * g64 * g64) (j : mat64) : Prop :=
  let '(x0, y0, z0) := v in let '(u1, u2, u3) := m1 in let '(w1, w2, w3) := m2 in
  exists a b d e, near64 eps (m00 j) a /\ near64 eps (m01 j) b /\ near64 eps (m10 j) d /\ near64 eps (m11 j) e /\
  forall (x y z : R -> R) t al be, x t = x0 -> y t = y0 -> z t = z0 ->
    derivable_pt_lim x t (al * val64 u1 + be * val64 w1) -> derivable_pt_lim y t (al * val64 u2 + be * val64 w2) -> derivable_pt_lim z t (al * val64 u3 + be * val64 w3) ->
    derivable_pt_lim (fun s => fst (f (x s, y s, z s))) t (a * al + b * be) /\ derivable_pt_lim (fun s => snd (f (x s, y s, z s))) t (d * al + e * be).
