(** Model of rovio::SceneObject and of the matrices of rovio::Scene (/repo/src/Scene.cpp,
    /repo/include/rovio/Scene.hpp). Coordinates are real numbers; colours, normals, textures and line
    widths are left out. An operation that throws or has undefined behaviour is [None]. *)
From Coq Require Import List ZArith Reals Bool.
From Verif Require Import Geo.
Import ListNotations.

Inductive gl_mode := GL_TRIANGLES | GL_LINES | GL_LINE_STRIP | GL_POINTS.

(** vertices_, indices_, mode_, mbCullFace_ and the two buffers VBO_ and IBO_ of the graphics library *)
Record scene_object := {
  o_vertices : list V3;
  o_indices : list nat;
  o_vbo : list V3;
  o_ibo : list nat;
  o_mode : gl_mode;
  o_cull : bool }.

(** constructor, Scene.cpp lines 5-20 *)
Definition object_init : scene_object :=
  {| o_vertices := []; o_indices := []; o_vbo := []; o_ibo := []; o_mode := GL_TRIANGLES; o_cull := true |}.

(** lines 35-40 *)
Definition allocate_buffer (o : scene_object) : scene_object :=
  {| o_vertices := o_vertices o; o_indices := o_indices o; o_vbo := o_vertices o; o_ibo := o_indices o;
     o_mode := o_mode o; o_cull := o_cull o |}.
(** lines 153-156 *)
Definition clear (o : scene_object) : scene_object :=
  {| o_vertices := []; o_indices := []; o_vbo := o_vbo o; o_ibo := o_ibo o;
     o_mode := o_mode o; o_cull := o_cull o |}.
Definition push_vertex (v : V3) (o : scene_object) : scene_object :=
  {| o_vertices := o_vertices o ++ [v]; o_indices := o_indices o; o_vbo := o_vbo o; o_ibo := o_ibo o;
     o_mode := o_mode o; o_cull := o_cull o |}.
Definition push_index (i : nat) (o : scene_object) : scene_object :=
  {| o_vertices := o_vertices o; o_indices := o_indices o ++ [i]; o_vbo := o_vbo o; o_ibo := o_ibo o;
     o_mode := o_mode o; o_cull := o_cull o |}.
Definition set_mode (m : gl_mode) (o : scene_object) : scene_object :=
  {| o_vertices := o_vertices o; o_indices := o_indices o; o_vbo := o_vbo o; o_ibo := o_ibo o;
     o_mode := m; o_cull := o_cull o |}.
Definition set_cull (b : bool) (o : scene_object) : scene_object :=
  {| o_vertices := o_vertices o; o_indices := o_indices o; o_vbo := o_vbo o; o_ibo := o_ibo o;
     o_mode := o_mode o; o_cull := b |}.
Definition push_vertices (vs : list V3) (o : scene_object) : scene_object :=
  fold_left (fun o v => push_vertex v o) vs o.
Definition push_indices (is : list nat) (o : scene_object) : scene_object :=
  fold_left (fun o i => push_index i o) is o.

(** integer vectors for the corner tables *)
Definition Z3 : Type := Z * Z * Z.
Definition z_at (v : Z3) (i : nat) : Z :=
  match v with (a, b, c) => match i with O => a | S O => b | _ => c end end.
Definition z_unit (i : nat) : Z3 :=
  match i with O => (1, 0, 0)%Z | S O => (0, 1, 0)%Z | _ => (0, 0, 1)%Z end.
Definition z_cross (a b : Z3) : Z3 :=
  let '(a0, a1, a2) := a in let '(b0, b1, b2) := b in
  (a1 * b2 - a2 * b1, a2 * b0 - a0 * b2, a0 * b1 - a1 * b0)%Z.
Definition z_comb (p q r : Z) (a b c : Z3) : Z3 :=
  let '(a0, a1, a2) := a in let '(b0, b1, b2) := b in let '(c0, c1, c2) := c in
  (p * a0 + q * b0 + r * c0, p * a1 + q * b1 + r * c1, p * a2 + q * b2 + r * c2)%Z.
Definition v_of (s : R) (a : Z3) : V3 :=
  let '(a0, a1, a2) := a in (IZR a0 * s, IZR a1 * s, IZR a2 * s)%R.

(** CalcNormals, lines 267-287: every index triple and the vertices it names are read. The normals
    computed are left out. *)
Fixpoint triples_readable (nv : nat) (is : list nat) : bool :=
  match is with
  | [] => true
  | a :: b :: c :: is' => (a <? nv) && (b <? nv) && (c <? nv) && triples_readable nv is'
  | _ => false
  end%nat.
Definition calc_normals (o : scene_object) : option scene_object :=
  if triples_readable (length (o_vertices o)) (o_indices o) then Some o else None.

(** makeCubeFull, lines 41-75. One face: lines 56-68; [count] is the number of vertices before it. *)
Definition cube_corner (i z x j : nat) : Z3 :=
  let y := Nat.modulo (x + j + z + 1) 2 in
  z_comb (2 * Z.of_nat z - 1) (2 * Z.of_nat x - 1) (2 * Z.of_nat y - 1)
    (z_unit i) (z_unit (Nat.modulo (i + 1) 3)) (z_cross (z_unit i) (z_unit (Nat.modulo (i + 1) 3))).
Definition cube_face (l : R) (i z count : nat) (o : scene_object) : scene_object :=
  push_indices [count; count + 2; count + 1; count; count + 3; count + 2]%nat
    (push_vertices (map (fun xj => v_of (/ 2 * l) (cube_corner i z (fst xj) (snd xj)))
                      [(0, 0); (0, 1); (1, 0); (1, 1)]%nat) o).
Definition cube_faces (l : R) (o : scene_object) : scene_object :=
  snd (fold_left (fun (s : nat * scene_object) iz =>
         (fst s + 4, cube_face l (fst iz) (snd iz) (fst s) (snd s))%nat)
         [(0, 0); (0, 1); (1, 0); (1, 1); (2, 0); (2, 1)]%nat (O, clear o)).
Definition make_cube_full (l : R) (o : scene_object) : option scene_object :=
  option_map (fun o => set_cull true (set_mode GL_TRIANGLES (allocate_buffer o)))
    (calc_normals (cube_faces l o)).

(** makeTetrahedron, lines 76-99; corners in units of 1/1000 *)
Definition tetra_corner (k : nat) : Z3 :=
  match k with
  | O => (1000, 0, -707)%Z | 1%nat => (-1000, 0, -707)%Z | 2%nat => (0, 1000, 707)%Z
  | _ => (0, -1000, 707)%Z
  end.
Definition tetra_face (l : R) (i count : nat) (o : scene_object) : scene_object :=
  push_indices [count + 0 + Nat.modulo i 2; count + 1 - Nat.modulo i 2; count + 2]%nat
    (push_vertices (map (fun j => v_of (/ 1000 * / 2 * l) (tetra_corner (Nat.modulo (i + j) 4)))
                      [0; 1; 2]%nat) o).
Definition tetra_faces (l : R) (o : scene_object) : scene_object :=
  snd (fold_left (fun (s : nat * scene_object) i =>
         (fst s + 3, tetra_face l i (fst s) (snd s))%nat) [0; 1; 2; 3]%nat (O, clear o)).
Definition make_tetrahedron (l : R) (o : scene_object) : option scene_object :=
  option_map (fun o => set_cull true (set_mode GL_TRIANGLES (allocate_buffer o)))
    (calc_normals (tetra_faces l o)).

(** makeCubeMesh, lines 100-119; mbCullFace_ keeps its value *)
Definition mesh_corner (x y z : nat) : Z3 :=
  (2 * Z.of_nat x - 1, 2 * Z.of_nat y - 1, 2 * Z.of_nat z - 1)%Z.
Definition cube_mesh_vertices : list Z3 :=
  flat_map (fun x => flat_map (fun y => map (fun z => mesh_corner x y z) [0; 1]%nat) [0; 1]%nat) [0; 1]%nat.
Definition cube_mesh_indices : list nat :=
  flat_map (fun i => flat_map (fun j =>
    let a := Nat.modulo (j * Nat.pow 2 i) 7 in [a; a + Nat.pow 2 (Nat.modulo (i + 2) 3)]%nat)
    [0; 1; 2; 3]%nat) [0; 1; 2]%nat.
Definition make_cube_mesh (l : R) (o : scene_object) : scene_object :=
  set_mode GL_LINES (allocate_buffer
    (push_indices cube_mesh_indices (push_vertices (map (v_of (/ 2 * l)) cube_mesh_vertices) (clear o)))).

(** prolonge, lines 139-152 *)
Definition prolonge (ps : list V3) (o : scene_object) : scene_object :=
  let s := length (o_vertices o) in
  allocate_buffer (fold_left (fun o ip => push_index (s + fst ip) (push_vertex (snd ip) o))%nat
    (combine (seq 0 (length ps)) ps) o).

(** makeLine, makePoints, lines 120-138 *)
Definition make_line (ps : list V3) (o : scene_object) : scene_object :=
  set_mode GL_LINE_STRIP (prolonge ps (clear o)).
Definition make_points (ps : list V3) (o : scene_object) : scene_object :=
  set_mode GL_POINTS (prolonge ps (clear o)).

(** makeCoordinateFrame, lines 157-177; vertices_[i*2], vertices_[i*2+1] exist when coloured *)
Definition make_coordinate_frame (l : R) (o : scene_object) : scene_object :=
  set_mode GL_LINES (allocate_buffer
    (fold_left (fun o i => push_index (i * 2 + 1) (push_vertex (v_of l (z_unit i))
                            (push_index (i * 2) (push_vertex v0 o))))%nat [0; 1; 2]%nat (clear o))).

(** makeRectangle, lines 178-195; makeTexturedRectangle, lines 196-207, only recolours its 4 vertices *)
Definition make_rectangle (x y : R) (o : scene_object) : scene_object :=
  set_cull false (set_mode GL_TRIANGLES (allocate_buffer
    (push_indices [0; 1; 2; 3; 1; 2]%nat
      (push_vertices [(- / 2 * x, - / 2 * y, 0); (/ 2 * x, - / 2 * y, 0); (- / 2 * x, / 2 * y, 0);
                      (/ 2 * x, / 2 * y, 0)]%R (clear o))))).
Definition make_textured_rectangle (x y : R) (o : scene_object) : option scene_object :=
  let o' := make_rectangle x y o in
  if (3 <? length (o_vertices o'))%nat then Some (allocate_buffer o') else None.

(** makeGroundPlane, lines 208-239. One tile: lines 216-233. *)
Definition plane_tile (l : R) (N : Z) (x y count : nat) (o : scene_object) : scene_object :=
  let corner := vadd (- / 2 * l * IZR N, - / 2 * l * IZR N, 0)%R (l * INR x, l * INR y, 0)%R in
  push_indices [count + 0; count + 1; count + 2; count + 3; count + 1; count + 2]%nat
    (push_vertices (map (fun ij => vadd corner (l * INR (fst ij), l * INR (snd ij), 0)%R)
                      [(0, 0); (0, 1); (1, 0); (1, 1)]%nat) o).
Definition plane_tiles (n : nat) : list (nat * nat) :=
  flat_map (fun x => map (fun y => (x, y)) (seq 0 n)) (seq 0 n).
Definition plane_faces (l : R) (N : Z) (o : scene_object) : scene_object :=
  snd (fold_left (fun (s : nat * scene_object) xy =>
         (fst s + 4, plane_tile l N (fst xy) (snd xy) (fst s) (snd s))%nat)
         (plane_tiles (Z.to_nat N)) (O, clear o)).
Definition make_ground_plane (l : R) (N : Z) (o : scene_object) : scene_object :=
  set_cull false (set_mode GL_TRIANGLES (allocate_buffer (plane_faces l N o))).

(** makeGroundPlaneMesh, lines 240-257; reserve of a negative number throws *)
Definition mesh_line (l : R) (N : Z) (i : nat) (o : scene_object) : scene_object :=
  let g := (- / 2 * l * IZR N, - / 2 * l * IZR N, 0)%R in
  push_indices [i * 4 + 0; i * 4 + 1; i * 4 + 2; i * 4 + 3]%nat
    (push_vertices [vadd g (l * INR i, 0, 0)%R; vadd g (l * INR i, l * IZR N, 0)%R;
                    vadd g (0, l * INR i, 0)%R; vadd g (l * IZR N, l * INR i, 0)%R] o).
Definition make_ground_plane_mesh (l : R) (N : Z) (o : scene_object) : option scene_object :=
  if (4 * (N + 1) <? 0)%Z then None
  else Some (set_mode GL_LINES (allocate_buffer
    (fold_left (fun o i => mesh_line l N i o) (seq 0 (Z.to_nat (N + 1))) (clear o)))).

(** the public operations; setColorFull (lines 258-263) changes colours and allocates *)
Inductive scene_op :=
| MakeCubeFull (l : R) | MakeTetrahedron (l : R) | MakeCubeMesh (l : R)
| MakeLine (ps : list V3) | MakePoints (ps : list V3) | Prolonge (ps : list V3)
| Clear | MakeCoordinateFrame (l : R) | MakeRectangle (x y : R) | MakeTexturedRectangle (x y : R)
| MakeGroundPlane (l : R) (N : Z) | MakeGroundPlaneMesh (l : R) (N : Z)
| SetColorFull | CalcNormals | AllocateBuffer.

Definition scene_step (o : scene_object) (a : scene_op) : option scene_object :=
  match a with
  | MakeCubeFull l => make_cube_full l o
  | MakeTetrahedron l => make_tetrahedron l o
  | MakeCubeMesh l => Some (make_cube_mesh l o)
  | MakeLine ps => Some (make_line ps o)
  | MakePoints ps => Some (make_points ps o)
  | Prolonge ps => Some (prolonge ps o)
  | Clear => Some (clear o)
  | MakeCoordinateFrame l => Some (make_coordinate_frame l o)
  | MakeRectangle x y => Some (make_rectangle x y o)
  | MakeTexturedRectangle x y => make_textured_rectangle x y o
  | MakeGroundPlane l N => Some (make_ground_plane l N o)
  | MakeGroundPlaneMesh l N => make_ground_plane_mesh l N o
  | SetColorFull => Some (allocate_buffer o)
  | CalcNormals => calc_normals o
  | AllocateBuffer => Some (allocate_buffer o)
  end.

Fixpoint scene_run (o : scene_object) (l : list scene_op) : option scene_object :=
  match l with
  | [] => Some o
  | a :: l' => match scene_step o a with Some o' => scene_run o' l' | None => None end
  end.

(** RenderSceneCB, line 424: glDrawElements(mode_, indices_.size(), GL_UNSIGNED_INT, 0) reads that many
    indices from the index buffer and the vertices they name from the vertex buffer *)
Definition drawn (o : scene_object) : option (list nat) :=
  if (length (o_indices o) <=? length (o_ibo o))%nat then Some (firstn (length (o_indices o)) (o_ibo o))
  else None.
