(** Vocabulary for the properties of scene objects and of the view. *)
From Coq Require Import List ZArith Reals Bool Arith.
From Verif Require Import Geo SceneModel.
Import ListNotations.

(** primitives a mode takes its indices in groups of *)
Definition group (m : gl_mode) : nat :=
  match m with GL_TRIANGLES => 3 | GL_LINES => 2 | GL_LINE_STRIP => 1 | GL_POINTS => 1 end.

(** the shape-building calls *)
Definition builds (a : scene_op) : Prop :=
  match a with
  | MakeCubeFull _ | MakeTetrahedron _ | MakeCubeMesh _ | MakeLine _ | MakePoints _
  | MakeCoordinateFrame _ | MakeRectangle _ _ | MakeTexturedRectangle _ _
  | MakeGroundPlane _ _ | MakeGroundPlaneMesh _ _ => True
  | Prolonge _ | Clear | SetColorFull | CalcNormals | AllocateBuffer => False
  end.

Fixpoint triples {A} (l : list A) : list (A * A * A) :=
  match l with a :: b :: c :: l' => (a, b, c) :: triples l' | _ => [] end.
Fixpoint pairs {A} (l : list A) : list (A * A) :=
  match l with a :: b :: l' => (a, b) :: pairs l' | _ => [] end.

(** what reaches the screen: the positions in the vertex buffer named by the drawn indices *)
Definition drawn_points (o : scene_object) : list V3 :=
  match drawn o with Some is => map (fun i => nth i (o_vbo o) v0) is | None => [] end.
Definition drawn_triangles (o : scene_object) : list (V3 * V3 * V3) := triples (drawn_points o).
Definition drawn_segments (o : scene_object) : list (V3 * V3) := pairs (drawn_points o).

(** normal direction of a triangle by the right-hand rule *)
Definition tri_normal (t : V3 * V3 * V3) : V3 :=
  let '(a, b, c) := t in cross (vsub b a) (vsub c a).
Definition tri_edges (t : V3 * V3 * V3) : list (V3 * V3) :=
  let '(a, b, c) := t in [(a, b); (b, c); (c, a)].

(** a closed surface without boundary: with every directed edge the reverse edge occurs *)
Definition closed (ts : list (V3 * V3 * V3)) : Prop :=
  forall a b, In (a, b) (flat_map tri_edges ts) -> In (b, a) (flat_map tri_edges ts).

(** a corner of the axis-parallel cube with edge length [l] centred at the origin *)
Definition cube_vertex (l : R) (p : V3) : Prop :=
  (vx p = l / 2 \/ vx p = - (l / 2))%R /\ (vy p = l / 2 \/ vy p = - (l / 2))%R /\
  (vz p = l / 2 \/ vz p = - (l / 2))%R.
(** corners differing in exactly one coordinate *)
Definition cube_edge (l : R) (p q : V3) : Prop :=
  cube_vertex l p /\ cube_vertex l q /\
  ((vx p <> vx q /\ vy p = vy q /\ vz p = vz q) \/
   (vx p = vx q /\ vy p <> vy q /\ vz p = vz q) \/
   (vx p = vx q /\ vy p = vy q /\ vz p <> vz q)).

(** the surface of that cube *)
Definition on_cube (l : R) (p : V3) : Prop :=
  (Rabs (vx p) <= l / 2 /\ Rabs (vy p) <= l / 2 /\ Rabs (vz p) <= l / 2 /\
   (Rabs (vx p) = l / 2 \/ Rabs (vy p) = l / 2 \/ Rabs (vz p) = l / 2))%R.
(** the corners of the tetrahedron of size [l]; it is regular up to rounding of sqrt(1/2) to 0.707 *)
Definition tetra_vertex (l : R) (k : nat) : V3 :=
  match k with
  | O => (l / 2, 0, - (707 / 1000 * l / 2)) | 1%nat => (- (l / 2), 0, - (707 / 1000 * l / 2))
  | 2%nat => (0, l / 2, 707 / 1000 * l / 2) | _ => (0, - (l / 2), 707 / 1000 * l / 2)
  end%R.

(** [p] is a convex combination of the corners *)
Definition in_triangle (t : V3 * V3 * V3) (p : V3) : Prop :=
  let '(a, b, c) := t in
  exists u v w : R, (0 <= u /\ 0 <= v /\ 0 <= w /\ u + v + w = 1)%R /\
    p = vadd (vscale u a) (vadd (vscale v b) (vscale w c)).
Definition on_segment (s : V3 * V3) (p : V3) : Prop :=
  exists u : R, (0 <= u <= 1)%R /\ p = vadd (vscale (1 - u) (fst s)) (vscale u (snd s)).
