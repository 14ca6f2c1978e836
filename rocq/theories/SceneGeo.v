From Coq Require Import List ZArith Reals Bool Arith Lia Lra.
From Verif Require Import Geo SceneModel SceneSpec SceneProofs.
Import ListNotations.

Definition z_face (iz : nat * nat) : list Z3 :=
  map (fun xj => cube_corner (fst iz) (snd iz) (fst xj) (snd xj)) [(0, 0); (0, 1); (1, 0); (1, 1)].
Definition z_cube : list Z3 :=
  flat_map z_face [(0, 0); (0, 1); (1, 0); (1, 1); (2, 0); (2, 1)].
Definition face_idx (c : nat) : list nat := [c; c + 2; c + 1; c; c + 3; c + 2].
Definition idx_cube : list nat := flat_map face_idx [0; 4; 8; 12; 16; 20].
Definition z_tetra : list Z3 :=
  flat_map (fun i => map (fun j => tetra_corner (Nat.modulo (i + j) 4)) [0; 1; 2]) [0; 1; 2; 3].
Definition idx_tetra : list nat :=
  flat_map (fun i => [3 * i + 0 + Nat.modulo i 2; 3 * i + 1 - Nat.modulo i 2; 3 * i + 2]) [0; 1; 2; 3].

Lemma cube_face_eq l i z c o :
  o_vertices (cube_face l i z c o) = o_vertices o ++ map (v_of (/ 2 * l)) (z_face (i, z)) /\
  o_indices (cube_face l i z c o) = o_indices o ++ face_idx c.
Proof.
  unfold cube_face. rewrite push_indices_v, push_vertices_v, push_indices_i, push_vertices_i.
  split; [|reflexivity]. unfold z_face. rewrite map_map. reflexivity.
Qed.
Lemma tetra_face_eq l i c o :
  o_vertices (tetra_face l i c o) =
    o_vertices o ++ map (v_of (/ 1000 * / 2 * l)) (map (fun j => tetra_corner (Nat.modulo (i + j) 4)) [0; 1; 2]) /\
  o_indices (tetra_face l i c o) = o_indices o ++ [c + 0 + Nat.modulo i 2; c + 1 - Nat.modulo i 2; c + 2].
Proof.
  unfold tetra_face. rewrite push_indices_v, push_vertices_v, push_indices_i, push_vertices_i.
  split; [|reflexivity]. rewrite map_map. reflexivity.
Qed.
Lemma cube_faces_eq l o :
  o_vertices (cube_faces l o) = map (v_of (/ 2 * l)) z_cube /\ o_indices (cube_faces l o) = idx_cube.
Proof.
  unfold cube_faces. cbn [fold_left fst snd].
  split.
  - repeat rewrite (fun i z c o => proj1 (cube_face_eq l i z c o)). cbn [clear o_vertices app].
    rewrite <- !map_app. f_equal.
  - repeat rewrite (fun i z c o => proj2 (cube_face_eq l i z c o)). reflexivity.
Qed.
Lemma tetra_faces_eq l o :
  o_vertices (tetra_faces l o) = map (v_of (/ 1000 * / 2 * l)) z_tetra /\ o_indices (tetra_faces l o) = idx_tetra.
Proof.
  unfold tetra_faces. cbn [fold_left fst snd].
  split.
  - repeat rewrite (fun i c o => proj1 (tetra_face_eq l i c o)). cbn [clear o_vertices app].
    rewrite <- !map_app. f_equal.
  - repeat rewrite (fun i c o => proj2 (tetra_face_eq l i c o)). reflexivity.
Qed.

Lemma fine_points o : fine o -> drawn_points o = map (fun i => nth i (o_vertices o) v0) (o_indices o).
Proof.
  intro H. unfold drawn_points. rewrite fine_drawn by exact H.
  apply map_ext_in. intros i Hi. destruct (fine_vbo o i H Hi) as [_ E]. now rewrite E.
Qed.

Definition z0 : Z3 := (0, 0, 0)%Z.
Lemma v_of_0 s : v_of s z0 = v0.
Proof. unfold v_of, z0, v0. rewrite Rmult_0_l. reflexivity. Qed.
Lemma pick_map s T is :
  map (fun i => nth i (map (v_of s) T) v0) is = map (v_of s) (map (fun i => nth i T z0) is).
Proof. rewrite map_map. apply map_ext. intro i. rewrite <- (v_of_0 s). apply map_nth. Qed.
Definition map3 {A B} (f : A -> B) (t : A * A * A) : B * B * B :=
  let '(a, b, c) := t in (f a, f b, f c).
Lemma triples_map {A B} (f : A -> B) : forall k l, length l <= k -> triples (map f l) = map (map3 f) (triples l).
Proof.
  induction k as [|k IH]; intros l H.
  - destruct l; [reflexivity | cbn in H; lia].
  - destruct l as [|a [|b [|c l]]]; try reflexivity. cbn. f_equal. apply IH. cbn in H. lia.
Qed.
Lemma pairs_map {A B} (f : A -> B) : forall k l, length l <= k ->
  pairs (map f l) = map (fun p => (f (fst p), f (snd p))) (pairs l).
Proof.
  induction k as [|k IH]; intros l H.
  - destruct l; [reflexivity | cbn in H; lia].
  - destruct l as [|a [|b l]]; try reflexivity. cbn. f_equal. apply IH. cbn in H. lia.
Qed.

Definition tri_cube : list (Z3 * Z3 * Z3) := triples (map (fun i => nth i z_cube z0) idx_cube).
Definition tri_tetra : list (Z3 * Z3 * Z3) := triples (map (fun i => nth i z_tetra z0) idx_tetra).

Lemma finish_triangles x T s is n :
  o_vertices x = map (v_of s) T -> o_indices x = is ->
  named x -> length (o_indices x) = n -> Nat.modulo n 3 = 0 ->
  exists o', option_map (fun o => set_cull true (set_mode GL_TRIANGLES (allocate_buffer o))) (calc_normals x) = Some o' /\
    o_mode o' = GL_TRIANGLES /\
    drawn_triangles o' = map (map3 (v_of s)) (triples (map (fun i => nth i T z0) is)).
Proof.
  intros HV HI H L M. destruct (finish_shape n x H L M) as (A & B & C).
  eexists. split; [exact A|]. split; [reflexivity|].
  unfold drawn_triangles. rewrite fine_points by exact B.
  cbn [set_cull set_mode allocate_buffer o_vertices o_indices]. rewrite HV, HI, pick_map.
  eapply triples_map. reflexivity.
Qed.
Lemma cube_triangles l o : exists o', make_cube_full l o = Some o' /\ o_mode o' = GL_TRIANGLES /\
  drawn_triangles o' = map (map3 (v_of (/ 2 * l))) tri_cube.
Proof.
  destruct (cube_faces_ok l o) as (H & _ & L). destruct (cube_faces_eq l o) as [A B].
  exact (finish_triangles _ _ _ _ 36 A B H L eq_refl).
Qed.
Lemma tetra_triangles l o : exists o', make_tetrahedron l o = Some o' /\ o_mode o' = GL_TRIANGLES /\
  drawn_triangles o' = map (map3 (v_of (/ 1000 * / 2 * l))) tri_tetra.
Proof.
  destruct (tetra_faces_ok l o) as (H & _ & L). destruct (tetra_faces_eq l o) as [A B].
  exact (finish_triangles _ _ _ _ 12 A B H L eq_refl).
Qed.

(** integer versions *)
Definition z_sub (a b : Z3) : Z3 := z_comb 1 (-1) 0 a b z0.
Definition z_dot (a b : Z3) : Z :=
  let '(a0, a1, a2) := a in let '(b0, b1, b2) := b in (a0 * b0 + a1 * b1 + a2 * b2)%Z.
Definition z_out (t : Z3 * Z3 * Z3) : Z :=
  let '(a, b, c) := t in z_dot (z_cross (z_sub b a) (z_sub c a)) a.
Lemma outward_scale s t :
  dot (tri_normal (map3 (v_of s) t)) (fst (fst (map3 (v_of s) t))) = (s * s * s * IZR (z_out t))%R.
Proof.
  destruct t as [[[[a0 a1] a2] [[b0 b1] b2]] [[c0 c1] c2]].
  unfold z_out, z_dot, z_cross, z_sub, z_comb, z0, map3, tri_normal, v_of, dot, cross, vsub, vx, vy, vz.
  cbn [fst snd]. rewrite ?plus_IZR, ?minus_IZR, ?mult_IZR, ?plus_IZR, ?minus_IZR, ?mult_IZR,
    ?plus_IZR, ?minus_IZR, ?mult_IZR. ring.
Qed.
Lemma out_cube : forallb (fun t => 0 <? z_out t)%Z tri_cube = true.
Proof. vm_compute. reflexivity. Qed.
Lemma out_tetra : forallb (fun t => 0 <? z_out t)%Z tri_tetra = true.
Proof. vm_compute. reflexivity. Qed.
Lemma outward ts s : forallb (fun t => 0 <? z_out t)%Z ts = true -> (0 < s)%R ->
  Forall (fun t => 0 < dot (tri_normal t) (fst (fst t)))%R (map (map3 (v_of s)) ts).
Proof.
  intros H Hs. apply Forall_forall. intros t Ht. apply in_map_iff in Ht. destruct Ht as (z & <- & Hz).
  rewrite outward_scale. rewrite forallb_forall in H. specialize (H z Hz). apply Z.ltb_lt in H.
  apply IZR_lt in H. repeat apply Rmult_lt_0_compat; assumption.
Qed.

Definition z_edges (t : Z3 * Z3 * Z3) : list (Z3 * Z3) := let '(a, b, c) := t in [(a, b); (b, c); (c, a)].
Definition z3_eqb (a b : Z3) : bool :=
  let '(a0, a1, a2) := a in let '(b0, b1, b2) := b in ((a0 =? b0) && (a1 =? b1) && (a2 =? b2))%Z.
Lemma z3_eqb_eq a b : z3_eqb a b = true -> a = b.
Proof.
  destruct a as [[a0 a1] a2], b as [[b0 b1] b2]. cbn. rewrite !andb_true_iff, !Z.eqb_eq.
  intros [[-> ->] ->]. reflexivity.
Qed.
Definition z_closed (ts : list (Z3 * Z3 * Z3)) : bool :=
  let es := flat_map z_edges ts in
  forallb (fun e => existsb (fun f => z3_eqb (fst f) (snd e) && z3_eqb (snd f) (fst e)) es) es.
Lemma edges_map s ts : flat_map tri_edges (map (map3 (v_of s)) ts) =
  map (fun e => (v_of s (fst e), v_of s (snd e))) (flat_map z_edges ts).
Proof.
  induction ts as [|[[a b] c] ts IH]; [reflexivity|]. cbn [map flat_map]. rewrite map_app, IH. reflexivity.
Qed.
Lemma closed_scale s ts : z_closed ts = true -> closed (map (map3 (v_of s)) ts).
Proof.
  intros H a b. rewrite edges_map. intro Hi. apply in_map_iff in Hi. destruct Hi as (e & E & He).
  unfold z_closed in H. rewrite forallb_forall in H. specialize (H e He). apply existsb_exists in H.
  destruct H as (f & Hf & Q). apply andb_true_iff in Q. destruct Q as [Q1 Q2].
  apply z3_eqb_eq in Q1, Q2. apply in_map_iff. exists f. split; [|exact Hf].
  rewrite Q1, Q2. injection E as <- <-. reflexivity.
Qed.
Lemma closed_cube : z_closed tri_cube = true. Proof. vm_compute. reflexivity. Qed.
Lemma closed_tetra : z_closed tri_tetra = true. Proof. vm_compute. reflexivity. Qed.

Local Open Scope R_scope.
Lemma in_dec_true t : existsb (fun q => z3_eqb (fst (fst q)) (fst (fst t)) && z3_eqb (snd (fst q)) (snd (fst t)) && z3_eqb (snd q) (snd t)) tri_cube = true -> In t tri_cube.
Proof.
  intro H. apply existsb_exists in H. destruct H as ([[a b] c] & Hi & Q). destruct t as [[a' b'] c']. cbn [fst snd] in Q.
  apply andb_true_iff in Q. destruct Q as [Q Q3]. apply andb_true_iff in Q. destruct Q as [Q1 Q2].
  apply z3_eqb_eq in Q1, Q2, Q3. now subst.
Qed.
Lemma in_tri_cover s t (p : V3) u v w :
  0 <= u -> 0 <= v -> 0 <= w -> u + v + w = 1 ->
  p = vadd (vscale u (v_of s (fst (fst t)))) (vadd (vscale v (v_of s (snd (fst t)))) (vscale w (v_of s (snd t)))) ->
  in_triangle (map3 (v_of s) t) p.
Proof. destruct t as [[a b] c]. cbn [fst snd]. intros. exists u, v, w. auto. Qed.

Lemma quot_nonneg h a : 0 < h -> 0 <= a -> 0 <= a / (2 * h).
Proof. intros. apply Rmult_le_pos; [lra|]. left. apply Rinv_0_lt_compat. lra. Qed.
Lemma one_minus h a b : 0 < h -> a + b <= 2 * h -> 0 <= 1 - a / (2 * h) - b / (2 * h).
Proof.
  intros. replace (1 - a / (2 * h) - b / (2 * h)) with ((2 * h - a - b) / (2 * h)) by (field; lra).
  apply quot_nonneg; lra.
Qed.
Ltac weight := first [apply quot_nonneg; lra | apply one_minus; lra | lra | field; lra].

Lemma cover_cube h (x y z : R) : 0 < h -> Rabs x <= h -> Rabs y <= h -> Rabs z <= h ->
  (Rabs x = h \/ Rabs y = h \/ Rabs z = h) ->
  exists t, In t tri_cube /\ in_triangle (map3 (v_of h) t) (x, y, z).
Proof.
  intros Hh Hx Hy Hz H.
  assert (Hx' : - h <= x <= h) by (split; [pose proof (Rle_abs (- x)) as Q; rewrite Rabs_Ropp in Q; lra | pose proof (Rle_abs x); lra]).
  assert (Hy' : - h <= y <= h) by (split; [pose proof (Rle_abs (- y)) as Q; rewrite Rabs_Ropp in Q; lra | pose proof (Rle_abs y); lra]).
  assert (Hz' : - h <= z <= h) by (split; [pose proof (Rle_abs (- z)) as Q; rewrite Rabs_Ropp in Q; lra | pose proof (Rle_abs z); lra]).
  assert (F : (x = - h \/ x = h) \/ (y = - h \/ y = h) \/ (z = - h \/ z = h)).
  { destruct H as [H|[H|H]]; [left|right; left|right; right]; revert H; unfold Rabs; destruct (Rcase_abs _); lra. }
  clear H Hx Hy Hz.
  destruct F as [[F|F]|[[F|F]|[F|F]]].
  - destruct (Rle_dec (h + z + (h + y)) (2 * h)) as [C|C].
    + exists (((-1), (-1), 1)%Z, ((-1), 1, (-1))%Z, ((-1), (-1), (-1))%Z). split; [apply (in_dec_true); vm_compute; reflexivity|].
      apply in_tri_cover with (u := ((h + z) / (2 * h))) (v := ((h + y) / (2 * h))) (w := (1 - ((h + z) / (2 * h)) - ((h + y) / (2 * h)))); [weight|weight|weight|weight|].
      cbn [fst snd]. unfold v_of, vadd, vscale, vx, vy, vz. cbn [fst snd]. rewrite F. f_equal; [f_equal|]; field; lra.
    + exists (((-1), (-1), 1)%Z, ((-1), 1, 1)%Z, ((-1), 1, (-1))%Z). split; [apply (in_dec_true); vm_compute; reflexivity|].
      apply in_tri_cover with (u := ((h - y) / (2 * h))) (v := (1 - ((h - y) / (2 * h)) - ((h - z) / (2 * h)))) (w := ((h - z) / (2 * h))); [weight|weight|weight|weight|].
      cbn [fst snd]. unfold v_of, vadd, vscale, vx, vy, vz. cbn [fst snd]. rewrite F. f_equal; [f_equal|]; field; lra.
  - destruct (Rle_dec (h - z + (h + y)) (2 * h)) as [C|C].
    + exists ((1, (-1), (-1))%Z, (1, 1, 1)%Z, (1, (-1), 1)%Z). split; [apply (in_dec_true); vm_compute; reflexivity|].
      apply in_tri_cover with (u := ((h - z) / (2 * h))) (v := ((h + y) / (2 * h))) (w := (1 - ((h - z) / (2 * h)) - ((h + y) / (2 * h)))); [weight|weight|weight|weight|].
      cbn [fst snd]. unfold v_of, vadd, vscale, vx, vy, vz. cbn [fst snd]. rewrite F. f_equal; [f_equal|]; field; lra.
    + exists ((1, (-1), (-1))%Z, (1, 1, (-1))%Z, (1, 1, 1)%Z). split; [apply (in_dec_true); vm_compute; reflexivity|].
      apply in_tri_cover with (u := ((h - y) / (2 * h))) (v := (1 - ((h - y) / (2 * h)) - ((h + z) / (2 * h)))) (w := ((h + z) / (2 * h))); [weight|weight|weight|weight|].
      cbn [fst snd]. unfold v_of, vadd, vscale, vx, vy, vz. cbn [fst snd]. rewrite F. f_equal; [f_equal|]; field; lra.
  - destruct (Rle_dec (h + x + (h + z)) (2 * h)) as [C|C].
    + exists ((1, (-1), (-1))%Z, ((-1), (-1), 1)%Z, ((-1), (-1), (-1))%Z). split; [apply (in_dec_true); vm_compute; reflexivity|].
      apply in_tri_cover with (u := ((h + x) / (2 * h))) (v := ((h + z) / (2 * h))) (w := (1 - ((h + x) / (2 * h)) - ((h + z) / (2 * h)))); [weight|weight|weight|weight|].
      cbn [fst snd]. unfold v_of, vadd, vscale, vx, vy, vz. cbn [fst snd]. rewrite F. f_equal; [f_equal|]; field; lra.
    + exists ((1, (-1), (-1))%Z, (1, (-1), 1)%Z, ((-1), (-1), 1)%Z). split; [apply (in_dec_true); vm_compute; reflexivity|].
      apply in_tri_cover with (u := ((h - z) / (2 * h))) (v := (1 - ((h - z) / (2 * h)) - ((h - x) / (2 * h)))) (w := ((h - x) / (2 * h))); [weight|weight|weight|weight|].
      cbn [fst snd]. unfold v_of, vadd, vscale, vx, vy, vz. cbn [fst snd]. rewrite F. f_equal; [f_equal|]; field; lra.
  - destruct (Rle_dec (h - x + (h + z)) (2 * h)) as [C|C].
    + exists (((-1), 1, (-1))%Z, (1, 1, 1)%Z, (1, 1, (-1))%Z). split; [apply (in_dec_true); vm_compute; reflexivity|].
      apply in_tri_cover with (u := ((h - x) / (2 * h))) (v := ((h + z) / (2 * h))) (w := (1 - ((h - x) / (2 * h)) - ((h + z) / (2 * h)))); [weight|weight|weight|weight|].
      cbn [fst snd]. unfold v_of, vadd, vscale, vx, vy, vz. cbn [fst snd]. rewrite F. f_equal; [f_equal|]; field; lra.
    + exists (((-1), 1, (-1))%Z, ((-1), 1, 1)%Z, (1, 1, 1)%Z). split; [apply (in_dec_true); vm_compute; reflexivity|].
      apply in_tri_cover with (u := ((h - z) / (2 * h))) (v := (1 - ((h - z) / (2 * h)) - ((h + x) / (2 * h)))) (w := ((h + x) / (2 * h))); [weight|weight|weight|weight|].
      cbn [fst snd]. unfold v_of, vadd, vscale, vx, vy, vz. cbn [fst snd]. rewrite F. f_equal; [f_equal|]; field; lra.
  - destruct (Rle_dec (h + y + (h + x)) (2 * h)) as [C|C].
    + exists (((-1), 1, (-1))%Z, (1, (-1), (-1))%Z, ((-1), (-1), (-1))%Z). split; [apply (in_dec_true); vm_compute; reflexivity|].
      apply in_tri_cover with (u := ((h + y) / (2 * h))) (v := ((h + x) / (2 * h))) (w := (1 - ((h + y) / (2 * h)) - ((h + x) / (2 * h)))); [weight|weight|weight|weight|].
      cbn [fst snd]. unfold v_of, vadd, vscale, vx, vy, vz. cbn [fst snd]. rewrite F. f_equal; [f_equal|]; field; lra.
    + exists (((-1), 1, (-1))%Z, (1, 1, (-1))%Z, (1, (-1), (-1))%Z). split; [apply (in_dec_true); vm_compute; reflexivity|].
      apply in_tri_cover with (u := ((h - x) / (2 * h))) (v := (1 - ((h - x) / (2 * h)) - ((h - y) / (2 * h)))) (w := ((h - y) / (2 * h))); [weight|weight|weight|weight|].
      cbn [fst snd]. unfold v_of, vadd, vscale, vx, vy, vz. cbn [fst snd]. rewrite F. f_equal; [f_equal|]; field; lra.
  - destruct (Rle_dec (h - y + (h + x)) (2 * h)) as [C|C].
    + exists (((-1), (-1), 1)%Z, (1, 1, 1)%Z, ((-1), 1, 1)%Z). split; [apply (in_dec_true); vm_compute; reflexivity|].
      apply in_tri_cover with (u := ((h - y) / (2 * h))) (v := ((h + x) / (2 * h))) (w := (1 - ((h - y) / (2 * h)) - ((h + x) / (2 * h)))); [weight|weight|weight|weight|].
      cbn [fst snd]. unfold v_of, vadd, vscale, vx, vy, vz. cbn [fst snd]. rewrite F. f_equal; [f_equal|]; field; lra.
    + exists (((-1), (-1), 1)%Z, (1, (-1), 1)%Z, (1, 1, 1)%Z). split; [apply (in_dec_true); vm_compute; reflexivity|].
      apply in_tri_cover with (u := ((h - x) / (2 * h))) (v := (1 - ((h - x) / (2 * h)) - ((h + y) / (2 * h)))) (w := ((h + y) / (2 * h))); [weight|weight|weight|weight|].
      cbn [fst snd]. unfold v_of, vadd, vscale, vx, vy, vz. cbn [fst snd]. rewrite F. f_equal; [f_equal|]; field; lra.
Qed.

Lemma abs_in h x : - h <= x <= h -> Rabs x <= h.
Proof. intro. apply Rabs_le. lra. Qed.
Lemma abs_pos h x : 0 <= h -> x = h -> Rabs x = h.
Proof. intros H ->. now apply Rabs_pos_eq. Qed.
Lemma abs_neg h x : 0 <= h -> x = - h -> Rabs x = h.
Proof. intros H ->. rewrite Rabs_Ropp. now apply Rabs_pos_eq. Qed.
Lemma cube_only h t (p : V3) : 0 < h -> In t tri_cube -> in_triangle (map3 (v_of h) t) p ->
  Rabs (vx p) <= h /\ Rabs (vy p) <= h /\ Rabs (vz p) <= h /\
  (Rabs (vx p) = h \/ Rabs (vy p) = h \/ Rabs (vz p) = h).
Proof.
  intros Hh Ht Hp.
  assert (E : tri_cube = ltac:(let x := eval vm_compute in tri_cube in exact x)) by (vm_compute; reflexivity).
  rewrite E in Ht. clear E.
  cbn [In] in Ht.
  repeat destruct Ht as [Ht|Ht]; try contradiction; subst t; cbn [map3 in_triangle] in Hp;
    destruct Hp as (u & v & w & (Hu & Hv & Hw & S) & ->);
    unfold v_of, vadd, vscale, vx, vy, vz; cbn [fst snd];
    pose proof (Rmult_le_pos _ _ Hu (Rlt_le _ _ Hh)); pose proof (Rmult_le_pos _ _ Hv (Rlt_le _ _ Hh));
    pose proof (Rmult_le_pos _ _ Hw (Rlt_le _ _ Hh));
    assert (u * h + v * h + w * h = h) by (replace h with (1 * h) at 4 by ring; rewrite <- S; ring);
    (split; [apply abs_in; lra|]); (split; [apply abs_in; lra|]); (split; [apply abs_in; lra|]);
    first [left; apply abs_pos; lra | left; apply abs_neg; lra
      | right; left; apply abs_pos; lra | right; left; apply abs_neg; lra
      | right; right; apply abs_pos; lra | right; right; apply abs_neg; lra].
Qed.
