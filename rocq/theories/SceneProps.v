(** C51: scene geometry. *)
From Coq Require Import List ZArith Reals Bool Arith Lia Lra.
From Verif Require Import Geo SceneModel SceneSpec SceneProofs SceneGeo SceneGeo2.
Import ListNotations.

(** After any sequence of calls that ends normally everything a draw call reads exists: as many indices in
    the index buffer as are drawn, and for each of them a vertex in the vertex buffer. *)
Theorem C51_drawn_indices_name_vertices : forall ops o,
  scene_run object_init ops = Some o ->
  exists is, drawn o = Some is /\ is = o_indices o /\ Forall (fun i => i < length (o_vbo o)) is.
Proof.
  intros ops o H. pose proof (reach_fine ops o H) as F. exists (o_indices o).
  split; [now apply fine_drawn|]. split; [reflexivity|].
  apply Forall_forall. intros i Hi. now apply fine_vbo.
Qed.
Print Assumptions C51_drawn_indices_name_vertices.

(** The only calls that do not end normally. *)
Theorem C51_failing_calls : forall ops o a,
  scene_run object_init ops = Some o ->
  scene_step o a = None <->
  (a = CalcNormals /\ Nat.modulo (length (o_indices o)) 3 <> 0) \/
  (exists l N, a = MakeGroundPlaneMesh l N /\ (N < -1)%Z).
Proof. intros ops o a H. apply step_fails. now apply (reach_fine ops). Qed.
Print Assumptions C51_failing_calls.

(** Every shape consists of whole triangles or line segments. *)
Theorem C51_shapes_are_whole : forall o a o', builds a -> scene_step o a = Some o' ->
  Nat.modulo (length (o_indices o')) (group (o_mode o')) = 0.
Proof. exact builds_whole. Qed.
Print Assumptions C51_shapes_are_whole.

(** Prolonging draws the old points followed by the new ones; a line or point set starts from nothing. *)
Theorem C51_prolonging_appends : forall ops o ps,
  scene_run object_init ops = Some o ->
  drawn_points (prolonge ps o) = drawn_points o ++ ps /\ o_mode (prolonge ps o) = o_mode o /\
  drawn_points (make_line ps o) = ps /\ o_mode (make_line ps o) = GL_LINE_STRIP /\
  drawn_points (make_points ps o) = ps /\ o_mode (make_points ps o) = GL_POINTS.
Proof.
  intros ops o ps H. pose proof (reach_fine ops o H) as F.
  split; [now apply prolonge_points|].
  split. { unfold prolonge. cbn [allocate_buffer o_mode]. generalize (combine (seq 0 (length ps)) ps).
           intro l. generalize (length (o_vertices o)). clear. revert o.
           induction l as [|x l IH]; intros o n; cbn [fold_left]; [reflexivity|]. rewrite IH. reflexivity. }
  split. { change (drawn_points (prolonge ps (clear o)) = ps). now rewrite prolonge_points by apply fine_clear. }
  split; [reflexivity|]. split; [|reflexivity].
  change (drawn_points (prolonge ps (clear o)) = ps). now rewrite prolonge_points by apply fine_clear.
Qed.
Print Assumptions C51_prolonging_appends.

(** The full cube: its triangles cover exactly the surface of the cube, with outward normals. *)
Theorem C51_cube_surface : forall l o, (0 < l)%R ->
  exists o', make_cube_full l o = Some o' /\ o_mode o' = GL_TRIANGLES /\
    length (drawn_triangles o') = 12 /\
    (forall p, (exists t, In t (drawn_triangles o') /\ in_triangle t p) <-> on_cube l p) /\
    Forall (fun t => 0 < dot (tri_normal t) (fst (fst t)))%R (drawn_triangles o') /\
    closed (drawn_triangles o').
Proof.
  intros l o Hl. destruct (cube_triangles l o) as (o' & A & B & C). exists o'. rewrite C.
  assert (Hh : (0 < / 2 * l)%R) by lra.
  split; [exact A|]. split; [exact B|]. split; [now rewrite map_length|].
  split; [|split; [apply outward; [apply out_cube | exact Hh] | apply closed_scale, closed_cube]].
  intros [[x y] z]. unfold on_cube, vx, vy, vz. cbn [fst snd].
  replace (l / 2)%R with (/ 2 * l)%R by lra. split.
  - intros (t & Ht & Hp). apply in_map_iff in Ht. destruct Ht as (t' & <- & Ht).
    exact (cube_only _ _ _ Hh Ht Hp).
  - intros (X & Y & Z & Q). destruct (cover_cube _ x y z Hh X Y Z Q) as (t & Ht & Hp).
    eexists. split; [apply in_map; exact Ht | exact Hp].
Qed.
Print Assumptions C51_cube_surface.

(** The tetrahedron: a closed surface with outward normals, one triangle per three corners. *)
Theorem C51_tetrahedron_surface : forall l o, (0 < l)%R ->
  exists o', make_tetrahedron l o = Some o' /\ o_mode o' = GL_TRIANGLES /\
    length (drawn_triangles o') = 4 /\
    (forall i j k, In (i, j, k) [(0, 1, 2); (0, 1, 3); (0, 2, 3); (1, 2, 3)] ->
       exists t, In t (drawn_triangles o') /\
         same_corners t (tetra_vertex l i) (tetra_vertex l j) (tetra_vertex l k)) /\
    Forall (fun t => 0 < dot (tri_normal t) (fst (fst t)))%R (drawn_triangles o') /\
    closed (drawn_triangles o').
Proof.
  intros l o Hl. destruct (tetra_triangles l o) as (o' & A & B & C). exists o'. rewrite C.
  split; [exact A|]. split; [exact B|]. split; [now rewrite map_length|].
  split; [|split; [apply outward; [apply out_tetra | lra] | apply closed_scale, closed_tetra]].
  assert (E : tri_tetra = [(tetra_corner 0, tetra_corner 1, tetra_corner 2); (tetra_corner 2, tetra_corner 1, tetra_corner 3);
    (tetra_corner 2, tetra_corner 3, tetra_corner 0); (tetra_corner 0, tetra_corner 3, tetra_corner 1)])
    by (vm_compute; reflexivity).
  rewrite E. cbn [map map3]. rewrite !tetra_vertex_eq by lia.
  intros i j k H. cbn [In] in H.
  destruct H as [H|[H|[H|[H|[]]]]]; injection H as <- <- <-;
    [exists (tetra_vertex l 0, tetra_vertex l 1, tetra_vertex l 2)
    |exists (tetra_vertex l 0, tetra_vertex l 3, tetra_vertex l 1)
    |exists (tetra_vertex l 2, tetra_vertex l 3, tetra_vertex l 0)
    |exists (tetra_vertex l 2, tetra_vertex l 1, tetra_vertex l 3)];
    (split; [cbn [In]; tauto | intro p; cbn [In]; tauto]).
Qed.
Print Assumptions C51_tetrahedron_surface.

(** The cube mesh draws the twelve edges, each once. *)
Theorem C51_cube_mesh_edges : forall l o, (0 < l)%R ->
  o_mode (make_cube_mesh l o) = GL_LINES /\ length (drawn_segments (make_cube_mesh l o)) = 12 /\
  forall p q, (In (p, q) (drawn_segments (make_cube_mesh l o)) \/ In (q, p) (drawn_segments (make_cube_mesh l o)))
    <-> cube_edge l p q.
Proof.
  intros l o H. split; [reflexivity|]. split; [apply cube_mesh_count|]. intros p q. now apply cube_mesh_edges.
Qed.
Print Assumptions C51_cube_mesh_edges.

(** Rectangle and ground plane cover exactly the named area, from both sides. *)
Theorem C51_rectangle_area : forall x y o (p : V3), (0 < x)%R -> (0 < y)%R ->
  o_mode (make_rectangle x y o) = GL_TRIANGLES /\ o_cull (make_rectangle x y o) = false /\
  ((exists t, In t (drawn_triangles (make_rectangle x y o)) /\ in_triangle t p) <->
   (Rabs (vx p) <= x / 2 /\ Rabs (vy p) <= y / 2 /\ vz p = 0)%R).
Proof. intros. split; [reflexivity|]. split; [reflexivity|]. now apply rectangle_cover. Qed.
Print Assumptions C51_rectangle_area.

Theorem C51_ground_plane_area : forall l N o (p : V3), (0 < l)%R -> (0 < N)%Z ->
  o_mode (make_ground_plane l N o) = GL_TRIANGLES /\ o_cull (make_ground_plane l N o) = false /\
  ((exists t, In t (drawn_triangles (make_ground_plane l N o)) /\ in_triangle t p) <->
   (Rabs (vx p) <= l * IZR N / 2 /\ Rabs (vy p) <= l * IZR N / 2 /\ vz p = 0)%R).
Proof. intros. split; [reflexivity|]. split; [reflexivity|]. now apply plane_cover. Qed.
Print Assumptions C51_ground_plane_area.

(** The mesh draws the N+1 grid lines in each direction; the frame its three axes. *)
Theorem C51_ground_plane_mesh_lines : forall l N o o', make_ground_plane_mesh l N o = Some o' ->
  o_mode o' = GL_LINES /\
  forall s, In s (drawn_segments o') <->
    exists i : nat, (Z.of_nat i <= N)%Z /\
      let h := (l * IZR N / 2)%R in let c := (l * INR i - h)%R in
      (s = ((c, - h, 0), (c, h, 0)) \/ s = ((- h, c, 0), (h, c, 0)))%R.
Proof.
  intros l N o o' H. split.
  { unfold make_ground_plane_mesh in H. destruct (4 * (N + 1) <? 0)%Z; [discriminate|].
    apply some_inj in H. subst. reflexivity. }
  intro s. rewrite (mesh_segments _ _ _ _ H), in_flat_map. cbv zeta. split.
  - intros (i & Hi & Hs). apply in_seq in Hi. exists i. split; [lia|].
    destruct Hs as [<-|[<-|[]]]; [now left | now right].
  - intros (i & Hi & Hs). exists i. split; [apply in_seq; lia|].
    destruct Hs as [->| ->]; [now left | right; now left].
Qed.
Print Assumptions C51_ground_plane_mesh_lines.

Theorem C51_coordinate_frame_axes : forall l o,
  o_mode (make_coordinate_frame l o) = GL_LINES /\
  drawn_segments (make_coordinate_frame l o) =
    [((0, 0, 0), (l, 0, 0)); ((0, 0, 0), (0, l, 0)); ((0, 0, 0), (0, 0, l))]%R.
Proof. intros. split; [reflexivity | apply frame_segments]. Qed.
Print Assumptions C51_coordinate_frame_axes.

(** A textured rectangle is a rectangle. *)
Theorem C51_textured_rectangle : forall x y o, make_textured_rectangle x y o = Some (make_rectangle x y o).
Proof. exact make_textured_some. Qed.
Print Assumptions C51_textured_rectangle.

(** a session with every kind of call; computing normals of a line fails unless its length is a multiple
    of three *)
Example scene_session : exists o,
  scene_run object_init [MakeCubeFull 2; SetColorFull; Clear; MakeLine [v0; v0]; Prolonge [v0]; CalcNormals;
    MakeGroundPlaneMesh 1 10; MakeTetrahedron 1; MakeTexturedRectangle 1 1] = Some o /\
  length (o_indices o) = 6.
Proof.
  cbn [scene_run scene_step]. destruct (make_cube_full_some 2 object_init) as (o1 & -> & _).
  cbn [scene_run scene_step].
  assert (E : calc_normals (prolonge [v0] (make_line [v0; v0] (clear (allocate_buffer o1)))) <> None)
    by (cbn; discriminate).
  destruct (calc_normals _) as [o2|]; [clear E|contradiction].
  cbn [make_ground_plane_mesh Z.add Z.mul Z.ltb Z.compare Pos.add Pos.mul Pos.succ].
  destruct (make_tetrahedron_some 1 (set_mode GL_LINES (allocate_buffer
      (fold_left (fun o i => mesh_line 1 10 i o) (seq 0 (Z.to_nat 11)) (clear o2))))) as (o3 & E3 & _).
  rewrite E3. rewrite make_textured_some. eexists. split; [reflexivity | apply make_rectangle_len].
Qed.
Example calc_normals_of_a_line : scene_run object_init [MakeLine [v0; v0]; CalcNormals] = None.
Proof. reflexivity. Qed.
Example negative_mesh : scene_run object_init [MakeGroundPlaneMesh 1 (-2)] = None.
Proof. reflexivity. Qed.
