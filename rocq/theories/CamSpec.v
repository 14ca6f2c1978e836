(** Vocabulary for the camera properties (C16-C20). *)
From Coq Require Import Reals.
From Verif Require Import CamModel.
Local Open Scope R_scope.

(** [J] is the derivative of [f] at [i] along every differentiable curve through [i] (which contains
    all partial derivatives: take the coordinate lines). *)
Definition jacobian_at (f : vec2 -> vec2) (i : vec2) (J : mat2) : Prop :=
  let '(a, b, c, d) := J in
  forall (u v : R -> R) t u' v', u t = fst i -> v t = snd i ->
  derivable_pt_lim u t u' -> derivable_pt_lim v t v' ->
  derivable_pt_lim (fun s => fst (f (u s, v s))) t (a * u' + b * v') /\
  derivable_pt_lim (fun s => snd (f (u s, v s))) t (c * u' + d * v').

(** points where the distortion formula is smooth: not on the border of the small-radius shortcut
    and, for the double sphere, not on its singularity *)
Definition regular (k : camera) (i : vec2) : Prop :=
  let r2 := fst i * fst i + snd i * snd i in
  match ctype k with
  | RADTAN => True
  | EQUIDIST => sqrt r2 <> r_min
  | DS => r2 < r2_min \/ (r2_min < r2 /\ ds_den k r2 <> 0)
  end.

Definition no_distortion (k : camera) : Prop :=
  match ctype k with
  | RADTAN => k1 k = 0 /\ k2 k = 0 /\ k3 k = 0 /\ p1 k = 0 /\ p2 k = 0
  | EQUIDIST => False
  | DS => k1 k = 0 /\ k2 k = 0
  end.

Definition scale3 (s : R) (v : vec3) : vec3 := let '(x, y, z) := v in (s * x, s * y, s * z).
Definition norm3 (v : vec3) : R := let '(x, y, z) := v in sqrt (x * x + y * y + z * z).
Definition depth (v : vec3) : R := let '(x, y, z) := v in z.

(** pixel as a total function (only used where the projection succeeds) *)
Definition pixel (k : camera) (v : vec3) : vec2 :=
  match bearing_to_pixel k v with Some c => c | None => (0, 0) end.

Definition jacobian3_at (f : vec3 -> vec2) (v : vec3) (J : mat23) : Prop :=
  let '(x0, y0, z0) := v in
  let '((a, b, c), (d, e, g)) := J in
  forall (x y z : R -> R) t x' y' z', x t = x0 -> y t = y0 -> z t = z0 ->
  derivable_pt_lim x t x' -> derivable_pt_lim y t y' -> derivable_pt_lim z t z' ->
  derivable_pt_lim (fun s => fst (f (x s, y s, z s))) t (a * x' + b * y' + c * z') /\
  derivable_pt_lim (fun s => snd (f (x s, y s, z s))) t (d * x' + e * y' + g * z').

(** full formula of the equidistant scaling, without the shortcut *)
Definition equidist_scale (k : camera) (r : R) : R := thd_of k (atan r) / r.
