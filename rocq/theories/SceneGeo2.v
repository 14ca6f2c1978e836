From Coq Require Import List ZArith Reals Bool Arith Lia Lra.
From Verif Require Import Geo SceneModel SceneSpec SceneProofs SceneGeo.
Import ListNotations.
Local Open Scope R_scope.

(** two triangles over one diagonal make a parallelogram *)
Definition par (c e1 e2 p : V3) : Prop :=
  exists s t, 0 <= s <= 1 /\ 0 <= t <= 1 /\ p = vadd c (vadd (vscale s e1) (vscale t e2)).
Lemma two_triangles (c e1 e2 p : V3) :
  par c e1 e2 p <->
  in_triangle (c, vadd c e1, vadd c e2) p \/ in_triangle (vadd c (vadd e1 e2), vadd c e1, vadd c e2) p.
Proof.
  split.
  - intros (s & t & Hs & Ht & ->). destruct (Rle_dec (s + t) 1) as [C|C].
    + left. exists (1 - s - t), s, t. split; [lra|]. veq.
    + right. exists (s + t - 1), (1 - t), (1 - s). split; [lra|]. veq.
  - intros [(u & v & w & H & ->)|(u & v & w & H & ->)].
    + exists v, w. split; [lra|]. split; [lra|].
      replace u with (1 - v - w) by lra. veq.
    + exists (u + v), (u + w). split; [lra|]. split; [lra|].
      replace w with (1 - u - v) by lra. veq.
Qed.

(** cube mesh *)
Definition seg_cube : list (Z3 * Z3) := pairs (map (fun i => nth i cube_mesh_vertices z0) cube_mesh_indices).
Lemma cube_mesh_segments l o :
  drawn_segments (make_cube_mesh l o) =
  map (fun e => (v_of (/ 2 * l) (fst e), v_of (/ 2 * l) (snd e))) seg_cube.
Proof.
  unfold drawn_segments. rewrite fine_points by apply make_cube_mesh_fine.
  unfold make_cube_mesh. cbn [set_mode allocate_buffer o_vertices o_indices].
  rewrite push_indices_v, push_vertices_v, push_indices_i, push_vertices_i. cbn [clear o_vertices o_indices app].
  rewrite pick_map. eapply pairs_map. reflexivity.
Qed.
Lemma seg_cube_eq : seg_cube = ltac:(let x := eval vm_compute in seg_cube in exact x).
Proof. vm_compute. reflexivity. Qed.
Lemma cube_mesh_edges l o (p q : V3) : 0 < l ->
  (In (p, q) (drawn_segments (make_cube_mesh l o)) \/ In (q, p) (drawn_segments (make_cube_mesh l o)))
  <-> cube_edge l p q.
Proof.
  intro Hl. rewrite cube_mesh_segments, seg_cube_eq. cbn [map fst snd v_of In].
  unfold v_of. destruct p as [[x y] z], q as [[x' y'] z'].
  unfold cube_edge, cube_vertex, vx, vy, vz. cbn [fst snd]. split.
  - intro H. destruct H as [H|H]; repeat (destruct H as [H|H]; [injection H; intros; subst; lra|]); contradiction.
  - intros ((Hx & Hy & Hz) & (Hx' & Hy' & Hz') & H).
    assert (A : forall u v w u' v' w' : R, u = x -> v = y -> w = z -> u' = x' -> v' = y' -> w' = z' ->
      ((u, v, w), (u', v', w')) = ((x, y, z), (x', y', z'))) by (intros; subst; reflexivity).
    assert (B : forall u v w u' v' w' : R, u = x' -> v = y' -> w = z' -> u' = x -> v' = y -> w' = z ->
      ((u, v, w), (u', v', w')) = ((x', y', z'), (x, y, z))) by (intros; subst; reflexivity).
    destruct H as [(H1 & H2 & H3)|[(H1 & H2 & H3)|(H1 & H2 & H3)]];
      destruct Hx as [Hx|Hx]; destruct Hy as [Hy|Hy]; destruct Hz as [Hz|Hz];
      destruct Hx' as [Hx'|Hx']; try (exfalso; lra);
      destruct Hy' as [Hy'|Hy']; try (exfalso; lra);
      destruct Hz' as [Hz'|Hz']; try (exfalso; lra);
    first
      [ left; repeat (first [left; apply A; lra | right]); fail
      | right; repeat (first [left; apply B; lra | right]); fail ].
Qed.
Lemma cube_mesh_count l o : length (drawn_segments (make_cube_mesh l o)) = 12%nat.
Proof. rewrite cube_mesh_segments, map_length. reflexivity. Qed.

(** tetrahedron: one triangle for each choice of three corners *)
Definition same_corners (t : V3 * V3 * V3) (a b c : V3) : Prop :=
  let '(x, y, z) := t in forall p, In p [x; y; z] <-> In p [a; b; c].
Lemma tetra_vertex_eq l k : (k < 4)%nat -> v_of (/ 1000 * / 2 * l) (tetra_corner k) = tetra_vertex l k.
Proof.
  intro H. destruct k as [|[|[|[|k]]]]; [| | | |lia]; unfold tetra_corner, tetra_vertex, v_of;
    (f_equal; [f_equal|]); try (rewrite Rmult_0_l; reflexivity); field.
Qed.

(** rectangle *)
Lemma rectangle_triangles x y o :
  drawn_triangles (make_rectangle x y o) =
  let a := (- / 2 * x, - / 2 * y, 0) in let b := (/ 2 * x, - / 2 * y, 0) in
  let c := (- / 2 * x, / 2 * y, 0) in let d := (/ 2 * x, / 2 * y, 0) in [(a, b, c); (d, b, c)].
Proof.
  unfold drawn_triangles. rewrite fine_points by apply make_rectangle_fine.
  unfold make_rectangle. cbn [set_cull set_mode allocate_buffer o_vertices o_indices].
  rewrite push_indices_v, push_vertices_v, push_indices_i, push_vertices_i. reflexivity.
Qed.
Lemma rectangle_cover x y o (p : V3) : 0 < x -> 0 < y ->
  (exists t, In t (drawn_triangles (make_rectangle x y o)) /\ in_triangle t p) <->
  Rabs (vx p) <= x / 2 /\ Rabs (vy p) <= y / 2 /\ vz p = 0.
Proof.
  intros Hx Hy. rewrite rectangle_triangles. cbv zeta. cbn [In].
  set (c := (- / 2 * x, - / 2 * y, 0) : V3).
  assert (E1 : (/ 2 * x, - / 2 * y, 0) = vadd c (x, 0, 0)).
  { unfold c, vadd, vx, vy, vz; cbn [fst snd]. apply f_equal2; [apply f_equal2|]; field. }
  assert (E2 : (- / 2 * x, / 2 * y, 0) = vadd c (0, y, 0)).
  { unfold c, vadd, vx, vy, vz; cbn [fst snd]. apply f_equal2; [apply f_equal2|]; field. }
  assert (E3 : (/ 2 * x, / 2 * y, 0) = vadd c (vadd (x, 0, 0) (0, y, 0))).
  { unfold c, vadd, vx, vy, vz; cbn [fst snd]. apply f_equal2; [apply f_equal2|]; field. }
  rewrite E1, E2, E3. transitivity (par c (x, 0, 0) (0, y, 0) p).
  - rewrite two_triangles. split.
    + intros (t & [<-|[<-|[]]] & H); [now left | now right].
    + intros [H|H]; eexists; (split; [|exact H]); [now left | right; now left].
  - unfold par, c. destruct p as [[px py] pz]. unfold vadd, vscale, vx, vy, vz. cbn [fst snd]. split.
    + intros (s & t & Hs & Ht & H). injection H as -> -> ->.
      split; [|split; [|ring]]; apply Rabs_le; nra.
    + intros (A & B & ->).
      assert (A' : - (x / 2) <= px <= x / 2) by (unfold Rabs in A; destruct (Rcase_abs px); lra).
      assert (B' : - (y / 2) <= py <= y / 2) by (unfold Rabs in B; destruct (Rcase_abs py); lra).
      exists ((px + x / 2) / x), ((py + y / 2) / y).
      assert (Q : forall a b, 0 < b -> 0 <= a <= b -> 0 <= a / b <= 1).
      { intros a b Hb Ha. split; [apply Rmult_le_pos; [lra|left; now apply Rinv_0_lt_compat]|].
        apply (Rmult_le_reg_r b); [lra|]. unfold Rdiv. rewrite Rmult_assoc, Rinv_l by lra. lra. }
      split; [apply Q; lra|]. split; [apply Q; lra|].
      apply f_equal2; [apply f_equal2|]; field; lra.
Qed.

(** coordinate frame *)
Lemma frame_segments l o :
  drawn_segments (make_coordinate_frame l o) =
  [((0, 0, 0), (l, 0, 0)); ((0, 0, 0), (0, l, 0)); ((0, 0, 0), (0, 0, l))].
Proof.
  unfold drawn_segments. rewrite fine_points by apply make_coordinate_frame_fine.
  unfold make_coordinate_frame. cbn [set_mode allocate_buffer o_vertices o_indices fold_left push_index push_vertex
    clear app map nth Nat.mul Nat.add pairs]. unfold v0, v_of, z_unit.
  repeat (f_equal; try ring).
Qed.

(** ground plane *)
Definition tile_tri (l : R) (N : Z) (xy : nat * nat) : list (V3 * V3 * V3) :=
  let c := vadd (- / 2 * l * IZR N, - / 2 * l * IZR N, 0) (l * INR (fst xy), l * INR (snd xy), 0) in
  let q := fun i j : nat => vadd c (l * INR i, l * INR j, 0) in
  [(q 0%nat 0%nat, q 0%nat 1%nat, q 1%nat 0%nat); (q 1%nat 1%nat, q 0%nat 1%nat, q 1%nat 0%nat)].

Lemma triples_app {A} : forall k (a b : list A), (length a <= k)%nat -> Nat.modulo (length a) 3 = O ->
  triples (a ++ b) = triples a ++ triples b.
Proof.
  induction k as [|k IH]; intros a b H M.
  - destruct a; [reflexivity | cbn in H; lia].
  - destruct a as [|x [|y [|z a]]]; try discriminate M; [reflexivity|].
    cbn [app triples]. f_equal. apply IH; [cbn in H; lia|].
    refine (eq_trans _ M). replace (length (x :: y :: z :: a)) with (length a + 1 * 3)%nat by (cbn; lia).
    symmetry. apply Nat.mod_add. lia.
Qed.
Lemma pairs_app {A} : forall k (a b : list A), (length a <= k)%nat -> Nat.modulo (length a) 2 = O ->
  pairs (a ++ b) = pairs a ++ pairs b.
Proof.
  induction k as [|k IH]; intros a b H M.
  - destruct a; [reflexivity | cbn in H; lia].
  - destruct a as [|x [|y a]]; try discriminate M; [reflexivity|].
    cbn [app pairs]. f_equal. apply IH; [cbn in H; lia|].
    refine (eq_trans _ M). replace (length (x :: y :: a)) with (length a + 1 * 2)%nat by (cbn; lia).
    symmetry. apply Nat.mod_add. lia.
Qed.

Definition pick (o : scene_object) : list V3 := map (fun i => nth i (o_vertices o) v0) (o_indices o).
Lemma pick_push vs is o : named o ->
  pick (push_indices is (push_vertices vs o)) =
  pick o ++ map (fun i => nth i (o_vertices o ++ vs) v0) is.
Proof.
  intro H. unfold pick. rewrite push_indices_v, push_vertices_v, push_indices_i, push_vertices_i, map_app.
  f_equal. apply map_ext_in. intros i Hi. unfold named in H. rewrite Forall_forall in H. apply app_nth1. now apply H.
Qed.
Lemma nth_off {A} (a b : list A) d k : nth (length a + k) (a ++ b) d = nth k b d.
Proof. rewrite app_nth2_plus. reflexivity. Qed.

Lemma pick_tile l N x y c o : named o -> length (o_vertices o) = c ->
  triples (pick (plane_tile l N x y c o)) = triples (pick o) ++ tile_tri l N (x, y) \/
  Nat.modulo (length (o_indices o)) 3 <> O.
Proof.
  intros H L. destruct (Nat.eq_dec (Nat.modulo (length (o_indices o)) 3) 0) as [M|M]; [left|now right].
  unfold plane_tile. rewrite pick_push by exact H. cbn [map fst snd].
  subst c. rewrite !nth_off. cbn [nth].
  erewrite triples_app; [|reflexivity|unfold pick; rewrite map_length; exact M].
  reflexivity.
Qed.
Lemma plane_loop l N : forall ts c o, named o -> length (o_vertices o) = c ->
  Nat.modulo (length (o_indices o)) 3 = O ->
  triples (pick (snd (fold_left (fun (s : nat * scene_object) xy =>
         (fst s + 4, plane_tile l N (fst xy) (snd xy) (fst s) (snd s))%nat) ts (c, o)))) =
  triples (pick o) ++ flat_map (tile_tri l N) ts.
Proof.
  induction ts as [|[x y] ts IH]; intros c o H L M; cbn [fold_left flat_map].
  - now rewrite app_nil_r.
  - cbn [fst snd]. rewrite IH.
    + rewrite app_assoc. f_equal. destruct (pick_tile l N x y c o H L) as [E|E]; [exact E | contradiction].
    + unfold plane_tile. apply named_push; [exact H|]. cbn [map length]. repeat constructor; lia.
    + unfold plane_tile. rewrite push_len. cbn [map length]. lia.
    + unfold plane_tile. rewrite push_ilen. cbn [length].
      replace (length (o_indices o) + 6)%nat with (length (o_indices o) + 2 * 3)%nat by lia.
      now rewrite Nat.mod_add by lia.
Qed.
Lemma plane_triangles l N o :
  drawn_triangles (make_ground_plane l N o) = flat_map (tile_tri l N) (plane_tiles (Z.to_nat N)).
Proof.
  unfold drawn_triangles. rewrite fine_points by apply make_ground_plane_fine.
  unfold make_ground_plane. cbn [set_cull set_mode allocate_buffer o_vertices o_indices].
  change (triples (pick (plane_faces l N o)) = flat_map (tile_tri l N) (plane_tiles (Z.to_nat N))).
  unfold plane_faces. rewrite plane_loop; [reflexivity | apply named_clear | reflexivity | reflexivity].
Qed.

Lemma cell n : forall t, 0 <= t <= INR n -> (0 < n)%nat -> exists k, (k < n)%nat /\ INR k <= t <= INR k + 1.
Proof.
  induction n as [|n IH]; intros t H Hn; [lia|].
  destruct (Rle_dec (INR n) t) as [C|C].
  - exists n. split; [lia|]. rewrite S_INR in H. lra.
  - destruct n as [|n]; [cbn in C; lra|].
    destruct (IH t) as (k & Hk & Q); [lra|lia|]. exists k. split; [lia | exact Q].
Qed.
Lemma tile_cover l N x y (p : V3) :
  (exists t, In t (tile_tri l N (x, y)) /\ in_triangle t p) <->
  par (- / 2 * l * IZR N + l * INR x, - / 2 * l * IZR N + l * INR y, 0) (0, l, 0) (l, 0, 0) p.
Proof.
  rewrite two_triangles. unfold tile_tri. cbv zeta. cbn [fst snd In].
  set (c := vadd (- / 2 * l * IZR N, - / 2 * l * IZR N, 0) (l * INR x, l * INR y, 0)).
  assert (C : (- / 2 * l * IZR N + l * INR x, - / 2 * l * IZR N + l * INR y, 0) = c).
  { unfold c, vadd, vx, vy, vz; cbn [fst snd]. apply f_equal2; [apply f_equal2|]; ring. }
  rewrite C. clearbody c.
  assert (Q00 : vadd c (l * INR 0, l * INR 0, 0) = c).
  { destruct c as [[c1 c2] c3]; unfold vadd, vx, vy, vz; cbn [fst snd INR]. apply f_equal2; [apply f_equal2|]; ring. }
  assert (Q01 : vadd c (l * INR 0, l * INR 1, 0) = vadd c (0, l, 0)).
  { destruct c as [[c1 c2] c3]; unfold vadd, vx, vy, vz; cbn [fst snd INR]. apply f_equal2; [apply f_equal2|]; ring. }
  assert (Q10 : vadd c (l * INR 1, l * INR 0, 0) = vadd c (l, 0, 0)).
  { destruct c as [[c1 c2] c3]; unfold vadd, vx, vy, vz; cbn [fst snd INR]. apply f_equal2; [apply f_equal2|]; ring. }
  assert (Q11 : vadd c (l * INR 1, l * INR 1, 0) = vadd c (vadd (0, l, 0) (l, 0, 0))).
  { destruct c as [[c1 c2] c3]; unfold vadd, vx, vy, vz; cbn [fst snd INR]. apply f_equal2; [apply f_equal2|]; ring. }
  rewrite Q00, Q01, Q10, Q11. split.
  - intros (t & [<-|[<-|[]]] & H); [now left | now right].
  - intros [H|H]; eexists; (split; [|exact H]); [now left | right; now left].
Qed.
Lemma plane_cover l N o (p : V3) : 0 < l -> (0 < N)%Z ->
  (exists t, In t (drawn_triangles (make_ground_plane l N o)) /\ in_triangle t p) <->
  Rabs (vx p) <= l * IZR N / 2 /\ Rabs (vy p) <= l * IZR N / 2 /\ vz p = 0.
Proof.
  intros Hl HN. rewrite plane_triangles.
  assert (EN : INR (Z.to_nat N) = IZR N) by (rewrite INR_IZR_INZ, Z2Nat.id by lia; reflexivity).
  transitivity (exists x y : nat, (x < Z.to_nat N)%nat /\ (y < Z.to_nat N)%nat /\
    par (- / 2 * l * IZR N + l * INR x, - / 2 * l * IZR N + l * INR y, 0) (0, l, 0) (l, 0, 0) p).
  - split.
    + intros (t & Ht & H). apply in_flat_map in Ht. destruct Ht as ([x y] & Hxy & Ht).
      unfold plane_tiles in Hxy. apply in_flat_map in Hxy. destruct Hxy as (x' & Hx & Hy).
      apply in_map_iff in Hy. destruct Hy as (y' & E & Hy). injection E as -> ->.
      apply in_seq in Hx. apply in_seq in Hy. exists x, y. split; [lia|]. split; [lia|].
      apply tile_cover. eauto.
    + intros (x & y & Hx & Hy & H). apply tile_cover in H. destruct H as (t & Ht & H).
      exists t. split; [|exact H]. apply in_flat_map. exists (x, y). split; [|exact Ht].
      unfold plane_tiles. apply in_flat_map. exists x. split; [apply in_seq; lia|].
      apply in_map_iff. exists y. split; [reflexivity | apply in_seq; lia].
  - destruct p as [[px py] pz]. unfold par, vadd, vscale, vx, vy, vz. cbn [fst snd]. split.
    + intros (x & y & Hx & Hy & s & t & Hs & Ht & H). injection H as -> -> ->.
      assert (Bx : 0 <= INR x <= IZR N - 1).
      { split; [apply pos_INR|]. rewrite <- EN. apply lt_INR in Hx. apply INR_lt in Hx.
        assert (INR (S x) <= INR (Z.to_nat N)) by (apply le_INR; lia). rewrite S_INR in H. lra. }
      assert (By : 0 <= INR y <= IZR N - 1).
      { split; [apply pos_INR|]. rewrite <- EN. apply lt_INR in Hy. apply INR_lt in Hy.
        assert (INR (S y) <= INR (Z.to_nat N)) by (apply le_INR; lia). rewrite S_INR in H. lra. }
      split; [|split; [|ring]]; apply Rabs_le.
      * assert (0 <= l * (INR x + t) <= l * IZR N) by (split; [apply Rmult_le_pos; lra | apply Rmult_le_compat_l; lra]). lra.
      * assert (0 <= l * (INR y + s) <= l * IZR N) by (split; [apply Rmult_le_pos; lra | apply Rmult_le_compat_l; lra]). lra.
    + intros (A & B & ->).
      assert (A' : - (l * IZR N / 2) <= px <= l * IZR N / 2) by (unfold Rabs in A; destruct (Rcase_abs px); lra).
      assert (B' : - (l * IZR N / 2) <= py <= l * IZR N / 2) by (unfold Rabs in B; destruct (Rcase_abs py); lra).
      assert (Q : forall a, - (l * IZR N / 2) <= a <= l * IZR N / 2 -> 0 <= a / l + IZR N / 2 <= INR (Z.to_nat N)).
      { intros a Ha. rewrite EN. split; apply (Rmult_le_reg_r l); try lra;
          rewrite Rmult_plus_distr_r; unfold Rdiv; rewrite (Rmult_assoc a), Rinv_l by lra; lra. }
      destruct (cell (Z.to_nat N) _ (Q px A')) as (x & Hx & Cx); [lia|].
      destruct (cell (Z.to_nat N) _ (Q py B')) as (y & Hy & Cy); [lia|].
      exists x, y. split; [exact Hx|]. split; [exact Hy|].
      exists (py / l + IZR N / 2 - INR y), (px / l + IZR N / 2 - INR x).
      split; [lra|]. split; [lra|]. apply f_equal2; [apply f_equal2|]; field; lra.
Qed.

(** ground plane mesh *)
Definition grid_pair (l : R) (N : Z) (i : nat) : list (V3 * V3) :=
  let h := l * IZR N / 2 in let c := l * INR i - h in
  [((c, - h, 0), (c, h, 0)); ((- h, c, 0), (h, c, 0))].
Lemma mesh_segs l N : forall n k o, named o -> length (o_vertices o) = (4 * k)%nat ->
  Nat.modulo (length (o_indices o)) 2 = O ->
  pairs (pick (fold_left (fun o i => mesh_line l N i o) (seq k n) o)) =
  pairs (pick o) ++ flat_map (grid_pair l N) (seq k n).
Proof.
  induction n as [|n IH]; intros k o H L M; cbn [seq fold_left flat_map].
  - now rewrite app_nil_r.
  - rewrite IH.
    + rewrite app_assoc. f_equal. unfold mesh_line. rewrite pick_push by exact H. cbn [map].
      replace (k * 4 + 0)%nat with (length (o_vertices o) + 0)%nat by lia.
      replace (k * 4 + 1)%nat with (length (o_vertices o) + 1)%nat by lia.
      replace (k * 4 + 2)%nat with (length (o_vertices o) + 2)%nat by lia.
      replace (k * 4 + 3)%nat with (length (o_vertices o) + 3)%nat by lia.
      rewrite !nth_off. cbn [nth].
      erewrite pairs_app; [|reflexivity|unfold pick; rewrite map_length; exact M].
      f_equal. cbn [pairs]. unfold grid_pair, vadd, vx, vy, vz. cbn [fst snd].
      repeat (f_equal; try field).
    + unfold mesh_line. apply named_push; [exact H|]. rewrite L. cbn [length]. repeat constructor; lia.
    + unfold mesh_line. rewrite push_len. cbn [length]. lia.
    + unfold mesh_line. rewrite push_ilen. cbn [length].
      replace (length (o_indices o) + 4)%nat with (length (o_indices o) + 2 * 2)%nat by lia.
      now rewrite Nat.mod_add by lia.
Qed.
Lemma mesh_segments l N o o' : make_ground_plane_mesh l N o = Some o' ->
  drawn_segments o' = flat_map (grid_pair l N) (seq 0 (Z.to_nat (N + 1))).
Proof.
  intro H.
  assert (F : fine o') by (apply (step_fine (clear o) (MakeGroundPlaneMesh l N)); [apply fine_clear | exact H]).
  unfold drawn_segments. rewrite fine_points by exact F. unfold make_ground_plane_mesh in H.
  destruct (4 * (N + 1) <? 0)%Z; [discriminate|]. apply some_inj in H. subst o'.
  cbn [set_mode allocate_buffer o_vertices o_indices].
  refine (eq_trans (mesh_segs l N _ 0 (clear o) (named_clear o) eq_refl eq_refl) _). reflexivity.
Qed.

(** prolonging *)
Lemma prolonge_points ps o : fine o -> drawn_points (prolonge ps o) = drawn_points o ++ ps.
Proof.
  intro F. destruct F as [HN HS].
  rewrite (fine_points (prolonge ps o)) by now apply named_prolonge.
  rewrite (fine_points o) by now split.
  rewrite prolonge_v, prolonge_i, map_app. f_equal.
  - apply map_ext_in. intros i Hi. apply app_nth1. unfold named in HN. rewrite Forall_forall in HN. now apply HN.
  - clear. generalize (o_vertices o). intro vs.
    enough (G : forall a b, map (fun i => nth i (a ++ b) v0) (seq (length a) (length b)) = b) by apply G.
    clear. intros a b. revert a. induction b as [|x b IH]; intro a; [reflexivity|].
    cbn [length seq map]. f_equal.
    + replace (length a) with (length a + 0)%nat by lia. now rewrite nth_off.
    + replace (a ++ x :: b) with ((a ++ [x]) ++ b) by (rewrite <- app_assoc; reflexivity).
      rewrite <- (IH (a ++ [x])) at 2. rewrite app_length. cbn [length].
      replace (length a + 1)%nat with (S (length a)) by lia. reflexivity.
Qed.
