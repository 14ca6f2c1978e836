From Coq Require Import List ZArith Reals Bool Arith Lia Lra.
From Verif Require Import Geo SceneModel SceneSpec.
Import ListNotations.

Lemma push_vertices_v vs : forall o, o_vertices (push_vertices vs o) = o_vertices o ++ vs.
Proof.
  unfold push_vertices. induction vs as [|v vs IH]; intro o; cbn [fold_left].
  - now rewrite app_nil_r.
  - rewrite IH. cbn [push_vertex o_vertices]. now rewrite <- app_assoc.
Qed.
Lemma push_vertices_i vs : forall o, o_indices (push_vertices vs o) = o_indices o.
Proof. unfold push_vertices. induction vs as [|v vs IH]; intro o; cbn [fold_left]; auto. rewrite IH. reflexivity. Qed.
Lemma push_indices_i vs : forall o, o_indices (push_indices vs o) = o_indices o ++ vs.
Proof.
  unfold push_indices. induction vs as [|v vs IH]; intro o; cbn [fold_left].
  - now rewrite app_nil_r.
  - rewrite IH. cbn [push_index o_indices]. now rewrite <- app_assoc.
Qed.
Lemma push_indices_v vs : forall o, o_vertices (push_indices vs o) = o_vertices o.
Proof. unfold push_indices. induction vs as [|v vs IH]; intro o; cbn [fold_left]; auto. rewrite IH. reflexivity. Qed.

(** invariant between calls: indices name vertices; the buffers hold what is drawn *)
Definition named (o : scene_object) : Prop :=
  Forall (fun i => i < length (o_vertices o)) (o_indices o).
Definition synced (o : scene_object) : Prop :=
  o_indices o = [] \/ (o_ibo o = o_indices o /\ o_vbo o = o_vertices o).
Definition fine (o : scene_object) : Prop := named o /\ synced o.

Lemma fine_init : fine object_init.
Proof. split; [constructor | now left]. Qed.
Lemma fine_alloc o : named o -> fine (allocate_buffer o).
Proof. intro H. split; [exact H | right; auto]. Qed.
Lemma named_clear o : named (clear o).
Proof. constructor. Qed.
Lemma fine_clear o : fine (clear o).
Proof. split; [constructor | now left]. Qed.
Lemma fine_mode m o : fine o -> fine (set_mode m o).
Proof. intro H; exact H. Qed.
Lemma fine_cull b o : fine o -> fine (set_cull b o).
Proof. intro H; exact H. Qed.

Lemma named_push vs is o :
  named o -> Forall (fun i => i < length (o_vertices o) + length vs) is ->
  named (push_indices is (push_vertices vs o)).
Proof.
  unfold named. intros H1 H2.
  rewrite push_indices_i, push_indices_v, push_vertices_v, push_vertices_i, app_length.
  apply Forall_app. split; [|exact H2].
  eapply Forall_impl; [|exact H1]. cbn; intros; lia.
Qed.
Lemma push_len vs is o :
  length (o_vertices (push_indices is (push_vertices vs o))) = length (o_vertices o) + length vs.
Proof. now rewrite push_indices_v, push_vertices_v, app_length. Qed.
Lemma push_ilen vs is o :
  length (o_indices (push_indices is (push_vertices vs o))) = length (o_indices o) + length is.
Proof. now rewrite push_indices_i, push_vertices_i, app_length. Qed.

Lemma prolonge_loop s ps : forall k o,
  length (o_vertices o) = s + k ->
  let o' := fold_left (fun o ip => push_index (s + fst ip) (push_vertex (snd ip) o))
              (combine (seq k (length ps)) ps) o in
  o_vertices o' = o_vertices o ++ ps /\ o_indices o' = o_indices o ++ seq (s + k) (length ps).
Proof.
  induction ps as [|p ps IH]; intros k o H; cbn.
  - now rewrite !app_nil_r.
  - destruct (IH (S k) (push_index (s + k) (push_vertex p o))) as [A B].
    { cbn. rewrite app_length. cbn. lia. }
    rewrite A, B. cbn. rewrite <- !app_assoc. cbn. now rewrite Nat.add_succ_r.
Qed.
Lemma prolonge_v ps o : o_vertices (prolonge ps o) = o_vertices o ++ ps.
Proof. unfold prolonge. cbn [allocate_buffer o_vertices]. apply (prolonge_loop (length (o_vertices o)) ps 0 o). lia. Qed.
Lemma prolonge_i ps o : o_indices (prolonge ps o) = o_indices o ++ seq (length (o_vertices o)) (length ps).
Proof.
  unfold prolonge. cbn [allocate_buffer o_indices].
  destruct (prolonge_loop (length (o_vertices o)) ps 0 o) as [_ B]; [lia|].
  rewrite B. now rewrite Nat.add_0_r.
Qed.
Lemma named_prolonge ps o : named o -> fine (prolonge ps o).
Proof.
  intro H. split.
  - unfold named. rewrite prolonge_v, prolonge_i, app_length. apply Forall_app. split.
    + eapply Forall_impl; [|exact H]. cbn; intros; lia.
    + apply Forall_forall. intros i Hi. apply in_seq in Hi. lia.
  - right. split; reflexivity.
Qed.

(** loops with a running vertex counter *)
Lemma counted_loop {A} (nv ni : nat) (f : A -> nat -> scene_object -> scene_object)
  (Hn : forall a c o, named o -> length (o_vertices o) = c -> named (f a c o))
  (Hv : forall a c o, length (o_vertices (f a c o)) = length (o_vertices o) + nv)
  (Hi : forall a c o, length (o_indices (f a c o)) = length (o_indices o) + ni) :
  forall l c o, named o -> length (o_vertices o) = c ->
  let r := fold_left (fun (s : nat * scene_object) a => (fst s + nv, f a (fst s) (snd s))) l (c, o) in
  named (snd r) /\ length (o_vertices (snd r)) = c + nv * length l /\
  length (o_indices (snd r)) = length (o_indices o) + ni * length l.
Proof.
  induction l as [|a l IH]; intros c o H1 H2; cbn.
  - split; [exact H1|]. split; lia.
  - destruct (IH (c + nv) (f a c o)) as (P & Q & S).
    + now apply Hn.
    + rewrite Hv. lia.
    + cbn in P, Q, S |- *. split; [exact P|]. split; [rewrite Q; lia|]. rewrite S, Hi. lia.
Qed.

Lemma in_small (l : list nat) n : forallb (fun i => i <? n) l = true -> Forall (fun i => i < n) l.
Proof. intro H. apply Forall_forall. intros i Hi. apply Nat.ltb_lt. revert i Hi. now apply forallb_forall. Qed.

Lemma cube_faces_ok l o :
  named (cube_faces l o) /\ length (o_vertices (cube_faces l o)) = 24 /\ length (o_indices (cube_faces l o)) = 36.
Proof.
  apply (counted_loop 4 6 (fun iz c o => cube_face l (fst iz) (snd iz) c o)).
  - intros a c o' H1 H2. unfold cube_face. apply named_push; [exact H1|]. cbn [map length].
    repeat constructor; lia.
  - intros. unfold cube_face. now rewrite push_len.
  - intros. unfold cube_face. now rewrite push_ilen.
  - apply named_clear.
  - reflexivity.
Qed.
Lemma tetra_faces_ok l o :
  named (tetra_faces l o) /\ length (o_vertices (tetra_faces l o)) = 12 /\ length (o_indices (tetra_faces l o)) = 12.
Proof.
  apply (counted_loop 3 3 (fun i c o => tetra_face l i c o)).
  - intros a c o' H1 H2. unfold tetra_face. apply named_push; [exact H1|]. cbn [map length].
    pose proof (Nat.mod_upper_bound a 2). repeat constructor; lia.
  - intros. unfold tetra_face. now rewrite push_len.
  - intros. unfold tetra_face. now rewrite push_ilen.
  - apply named_clear.
  - reflexivity.
Qed.

Lemma triples_readable_spec nv : forall k is, length is <= k ->
  Forall (fun i => i < nv) is ->
  triples_readable nv is = (Nat.modulo (length is) 3 =? 0).
Proof.
  induction k as [|k IH]; intros is Hk H.
  - destruct is; [reflexivity | cbn in Hk; lia].
  - destruct is as [|a [|b [|c is]]]; try reflexivity.
    inversion H as [|? ? Ha H']; subst. inversion H' as [|? ? Hb H'']; subst.
    inversion H'' as [|? ? Hc H3]; subst. cbn [triples_readable].
    rewrite (proj2 (Nat.ltb_lt _ _) Ha), (proj2 (Nat.ltb_lt _ _) Hb), (proj2 (Nat.ltb_lt _ _) Hc).
    cbn [andb]. rewrite IH; [|cbn in Hk; lia|exact H3].
    replace (length (a :: b :: c :: is)) with (length is + 1 * 3) by (cbn; lia).
    now rewrite Nat.mod_add by lia.
Qed.
Lemma calc_normals_spec o : named o ->
  calc_normals o = if Nat.modulo (length (o_indices o)) 3 =? 0 then Some o else None.
Proof. intro H. unfold calc_normals. now rewrite (triples_readable_spec _ (length (o_indices o))). Qed.

Lemma finish_shape n x : named x -> length (o_indices x) = n -> Nat.modulo n 3 = 0 ->
  let f := fun o => set_cull true (set_mode GL_TRIANGLES (allocate_buffer o)) in
  option_map f (calc_normals x) = Some (f x) /\ fine (f x) /\ length (o_indices (f x)) = n.
Proof.
  intros H L M f. rewrite calc_normals_spec by exact H. rewrite L, M.
  split; [reflexivity|]. split; [|exact L]. apply fine_cull, fine_mode, fine_alloc, H.
Qed.
Lemma make_cube_full_some l o : exists o',
  make_cube_full l o = Some o' /\ fine o' /\ length (o_indices o') = 36 /\ o_mode o' = GL_TRIANGLES.
Proof.
  destruct (cube_faces_ok l o) as (H & _ & L).
  destruct (finish_shape 36 _ H L eq_refl) as (A & B & C).
  eexists. split; [exact A|]. split; [exact B|]. split; [exact C|reflexivity].
Qed.
Lemma make_tetrahedron_some l o : exists o',
  make_tetrahedron l o = Some o' /\ fine o' /\ length (o_indices o') = 12 /\ o_mode o' = GL_TRIANGLES.
Proof.
  destruct (tetra_faces_ok l o) as (H & _ & L).
  destruct (finish_shape 12 _ H L eq_refl) as (A & B & C).
  eexists. split; [exact A|]. split; [exact B|]. split; [exact C|reflexivity].
Qed.
Lemma make_cube_mesh_fine l o : fine (make_cube_mesh l o).
Proof.
  apply fine_mode, fine_alloc, named_push; [apply named_clear|]. cbn [clear o_vertices length].
  apply in_small. rewrite map_length. vm_compute. reflexivity.
Qed.
Lemma make_cube_mesh_len l o : length (o_indices (make_cube_mesh l o)) = 24.
Proof. unfold make_cube_mesh. cbn [set_mode allocate_buffer o_indices]. rewrite push_ilen. reflexivity. Qed.
Lemma make_coordinate_frame_fine l o : fine (make_coordinate_frame l o).
Proof. apply fine_mode, fine_alloc. unfold named. cbn. repeat constructor; lia. Qed.
Lemma make_rectangle_fine x y o : fine (make_rectangle x y o).
Proof. apply fine_cull, fine_mode, fine_alloc, named_push; [apply named_clear|]. cbn. repeat constructor; lia. Qed.
Lemma make_rectangle_vlen x y o : length (o_vertices (make_rectangle x y o)) = 4.
Proof. unfold make_rectangle. cbn [set_cull set_mode allocate_buffer o_vertices]. rewrite push_len. reflexivity. Qed.
Lemma realloc z b m :
  allocate_buffer (set_cull b (set_mode m (allocate_buffer z))) = set_cull b (set_mode m (allocate_buffer z)).
Proof. reflexivity. Qed.
Lemma make_rectangle_alloc x y o : allocate_buffer (make_rectangle x y o) = make_rectangle x y o.
Proof. apply realloc. Qed.
Lemma make_textured_some x y o : make_textured_rectangle x y o = Some (make_rectangle x y o).
Proof.
  unfold make_textured_rectangle. cbv zeta. rewrite make_rectangle_vlen, make_rectangle_alloc. reflexivity.
Qed.
Lemma make_rectangle_len x y o : length (o_indices (make_rectangle x y o)) = 6.
Proof. unfold make_rectangle. cbn [set_cull set_mode allocate_buffer o_indices]. rewrite push_ilen. reflexivity. Qed.

Lemma plane_faces_ok l N o :
  named (plane_faces l N o) /\
  length (o_vertices (plane_faces l N o)) = 4 * length (plane_tiles (Z.to_nat N)) /\
  length (o_indices (plane_faces l N o)) = 6 * length (plane_tiles (Z.to_nat N)).
Proof.
  apply (counted_loop 4 6 (fun xy c o => plane_tile l N (fst xy) (snd xy) c o)).
  - intros a c o' H1 H2. unfold plane_tile. apply named_push; [exact H1|]. cbn [map length].
    repeat constructor; lia.
  - intros. unfold plane_tile. now rewrite push_len.
  - intros. unfold plane_tile. now rewrite push_ilen.
  - apply named_clear.
  - reflexivity.
Qed.
Lemma make_ground_plane_fine l N o : fine (make_ground_plane l N o).
Proof.
  destruct (plane_faces_ok l N o) as (H & _). apply fine_cull, fine_mode, fine_alloc, H.
Qed.

Lemma mesh_loop l N : forall n k o, named o -> length (o_vertices o) = 4 * k ->
  let o' := fold_left (fun o i => mesh_line l N i o) (seq k n) o in
  named o' /\ length (o_vertices o') = 4 * (k + n) /\
  length (o_indices o') = length (o_indices o) + 4 * n.
Proof.
  induction n as [|n IH]; intros k o H1 H2; cbn [seq fold_left].
  - split; [exact H1|]. split; lia.
  - destruct (IH (S k) (mesh_line l N k o)) as (P & Q & S).
    + unfold mesh_line. apply named_push; [exact H1|]. rewrite H2. cbn [length].
      repeat constructor; lia.
    + unfold mesh_line. rewrite push_len. cbn [length]. lia.
    + split; [exact P|]. split; [rewrite Q; lia|]. rewrite S. unfold mesh_line. rewrite push_ilen. cbn [length]. lia.
Qed.

Local Strategy 100 [make_cube_full make_tetrahedron make_cube_mesh make_line make_points prolonge clear
  make_coordinate_frame make_rectangle make_textured_rectangle make_ground_plane make_ground_plane_mesh
  allocate_buffer calc_normals].
Lemma some_inj {A} (a b : A) : Some a = Some b -> b = a.
Proof. congruence. Qed.
Lemma some_none {A} (a : A) : Some a = None -> False.
Proof. discriminate. Qed.
Ltac sinj H :=
  lazymatch type of H with
  | Some ?a = Some ?b => apply some_inj in H; subst
  | Some _ = None => destruct (some_none _ H)
  end.

Lemma step_fine o a o' : fine o -> scene_step o a = Some o' -> fine o'.
Proof.
  intros [HN HS] H. destruct a; cbn [scene_step] in H; try sinj H.
  - destruct (make_cube_full_some l o) as (o2 & E & F & _). rewrite E in H. sinj H. exact F.
  - destruct (make_tetrahedron_some l o) as (o2 & E & F & _). rewrite E in H. sinj H. exact F.
  - apply make_cube_mesh_fine.
  - apply fine_mode, named_prolonge, named_clear.
  - apply fine_mode, named_prolonge, named_clear.
  - now apply named_prolonge.
  - apply fine_clear.
  - apply make_coordinate_frame_fine.
  - apply make_rectangle_fine.
  - rewrite make_textured_some in H. sinj H. apply make_rectangle_fine.
  - apply make_ground_plane_fine.
  - unfold make_ground_plane_mesh in H. destruct (4 * (N + 1) <? 0)%Z; [discriminate|]. sinj H.
    apply fine_mode, fine_alloc. apply (mesh_loop l N _ 0); [apply named_clear | reflexivity].
  - now apply fine_alloc.
  - rewrite calc_normals_spec in H by exact HN. destruct (_ =? 0); [|discriminate]. sinj H. now split.
  - now apply fine_alloc.
Qed.
Lemma run_fine ops : forall o o', fine o -> scene_run o ops = Some o' -> fine o'.
Proof.
  induction ops as [|a ops IH]; intros o o' H E; cbn in E.
  - now injection E as <-.
  - destruct (scene_step o a) as [o1|] eqn:E1; [|discriminate].
    eapply IH; [eapply step_fine; eassumption | exact E].
Qed.
Lemma reach_fine ops o : scene_run object_init ops = Some o -> fine o.
Proof. apply run_fine, fine_init. Qed.

Lemma fine_drawn o : fine o -> drawn o = Some (o_indices o).
Proof.
  intros [_ [H|[H _]]]; unfold drawn; rewrite H; [reflexivity|].
  now rewrite Nat.leb_refl, firstn_all.
Qed.
Lemma fine_vbo o i : fine o -> In i (o_indices o) -> i < length (o_vbo o) /\ o_vbo o = o_vertices o.
Proof.
  intros [HN [H|[_ H]]] Hi; [rewrite H in Hi; destruct Hi|].
  rewrite H. split; [|reflexivity]. unfold named in HN. rewrite Forall_forall in HN. now apply HN.
Qed.

Lemma step_fails o a : fine o ->
  scene_step o a = None <->
  (a = CalcNormals /\ Nat.modulo (length (o_indices o)) 3 <> 0) \/
  (exists l N, a = MakeGroundPlaneMesh l N /\ (N < -1)%Z).
Proof.
  intros [HN HS]. split.
  - intro H. destruct a; cbn [scene_step] in H; try sinj H.
    + destruct (make_cube_full_some l o) as (o2 & E & _). congruence.
    + destruct (make_tetrahedron_some l o) as (o2 & E & _). congruence.
    + rewrite make_textured_some in H. sinj H.
    + right. exists l, N. split; [reflexivity|]. unfold make_ground_plane_mesh in H.
      destruct (Z.ltb_spec (4 * (N + 1)) 0); [lia | discriminate].
    + left. split; [reflexivity|]. rewrite calc_normals_spec in H by exact HN.
      destruct (Nat.eqb_spec (Nat.modulo (length (o_indices o)) 3) 0); [discriminate | assumption].
  - intros [[-> H]|(l & N & -> & H)]; cbn [scene_step].
    + rewrite calc_normals_spec by exact HN. now rewrite (proj2 (Nat.eqb_neq _ _) H).
    + unfold make_ground_plane_mesh. rewrite (proj2 (Z.ltb_lt (4 * (N + 1)) 0)); [reflexivity | lia].
Qed.

Lemma builds_whole o a o' : builds a -> scene_step o a = Some o' ->
  Nat.modulo (length (o_indices o')) (group (o_mode o')) = 0.
Proof.
  intros B H. destruct a; try contradiction B; cbn [scene_step] in H; try sinj H.
  - destruct (make_cube_full_some l o) as (o2 & E & _ & L & M). rewrite E in H. sinj H. now rewrite L, M.
  - destruct (make_tetrahedron_some l o) as (o2 & E & _ & L & M). rewrite E in H. sinj H. now rewrite L, M.
  - rewrite make_cube_mesh_len. reflexivity.
  - apply Nat.mod_1_r.
  - apply Nat.mod_1_r.
  - reflexivity.
  - rewrite make_rectangle_len. reflexivity.
  - rewrite make_textured_some in H. sinj H. rewrite make_rectangle_len. reflexivity.
  - unfold make_ground_plane. destruct (plane_faces_ok l N o) as (_ & _ & L).
    cbn [set_cull set_mode allocate_buffer o_indices o_mode group] in *. rewrite L.
    rewrite (Nat.mul_comm 6). apply Nat.mod_divide; [lia|]. exists (2 * length (plane_tiles (Z.to_nat N))). lia.
  - unfold make_ground_plane_mesh in H. destruct (4 * (N + 1) <? 0)%Z; [discriminate|]. sinj H.
    destruct (mesh_loop l N (Z.to_nat (N + 1)) 0 (clear o)) as (_ & _ & L); [apply named_clear|reflexivity|].
    cbn [set_mode allocate_buffer o_indices o_mode group]. rewrite L. cbn [clear o_indices length Nat.add].
    apply Nat.mod_divide; [lia|]. exists (2 * Z.to_nat (N + 1)). lia.
Qed.
