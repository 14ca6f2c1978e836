From Coq Require Import List ZArith Reals Bool Lia Lra Psatz.
From Verif Require Import Geo DistModel DistProofs SceneModel SceneSpec SceneProofs SceneGeo SceneGeo2 ViewModel ViewSpec.
Import ListNotations.

Lemma prolonge_mode ps o : o_mode (prolonge ps o) = o_mode o.
Proof.
  unfold prolonge. cbn [allocate_buffer o_mode]. generalize (combine (seq 0 (length ps)) ps).
  intro l. generalize (length (o_vertices o)). revert o.
  induction l as [|x l IH]; intros o n; cbn [fold_left]; [reflexivity|]. rewrite IH. reflexivity.
Qed.
Lemma alloc_points o : fine o -> drawn_points (allocate_buffer o) = drawn_points o.
Proof.
  intro F. rewrite (fine_points o F). rewrite fine_points by (apply fine_alloc, F). reflexivity.
Qed.
Lemma prolonge_fine ps o : fine o -> fine (prolonge ps o).
Proof. intros [H _]. now apply named_prolonge. Qed.

Definition outline_points (s : slot) : list V3 :=
  let c := corner_vec s in [c 0; c 1; c 1; c 3; c 3; c 2; c 2; c 0].
Definition bar_points (s : slot) : list V3 := [fst (depth_bar s); snd (depth_bar s)].

Definition adds (o o' : scene_object) (ps : list V3) : Prop :=
  fine o -> fine o' /\ drawn_points o' = drawn_points o ++ ps /\ o_mode o' = o_mode o.
Lemma adds_refl o : adds o o [].
Proof. intro F. split; [exact F|]. now rewrite app_nil_r. Qed.
Lemma adds_trans a b c ps qs : adds a b ps -> adds b c qs -> adds a c (ps ++ qs).
Proof.
  intros H1 H2 F. destruct (H1 F) as (F1 & E1 & M1). destruct (H2 F1) as (F2 & E2 & M2).
  split; [exact F2|]. split; [rewrite E2, E1, app_assoc; reflexivity | congruence].
Qed.
Lemma adds_prolonge ps o : adds o (prolonge ps o) ps.
Proof. intro F. split; [now apply prolonge_fine|]. split; [now apply prolonge_points | apply prolonge_mode]. Qed.
Lemma adds_alloc o : adds o (allocate_buffer o) [].
Proof.
  intro F. split; [apply fine_alloc, F|]. split; [rewrite app_nil_r; now apply alloc_points | reflexivity].
Qed.
Lemma adds_then_alloc a b ps : adds a b ps -> adds a (allocate_buffer b) ps.
Proof. intro H. rewrite <- (app_nil_r ps). eapply adds_trans; [exact H | apply adds_alloc]. Qed.

Lemma slot_lines cam i s g :
  adds (g_lines g) (g_lines (draw_slot cam i s g)) (if shown cam s then outline_points s else []).
Proof.
  unfold draw_slot, shown. destruct (s_valid s && Nat.eqb (s_cam s) cam) eqn:V; cbn [andb negb].
  - destruct (s_warp s); cbn [negb g_lines].
    + apply adds_then_alloc. unfold outline_points. cbv zeta.
      pose proof adds_prolonge as P. pose proof adds_trans as T.
      eapply (T _ _ _ [_; _; _; _; _; _; _] [_]); [|apply P].
      eapply (T _ _ _ [_; _; _; _; _; _] [_]); [|apply P].
      eapply (T _ _ _ [_; _; _; _; _] [_]); [|apply P].
      eapply (T _ _ _ [_; _; _; _] [_]); [|apply P].
      eapply (T _ _ _ [_; _; _] [_]); [|apply P].
      eapply (T _ _ _ [_; _] [_]); [|apply P].
      eapply (T _ _ _ [_] [_]); [|apply P]. apply P.
    + apply adds_refl.
  - cbn [g_lines]. apply adds_alloc.
Qed.
Lemma slot_depth cam i s g :
  adds (g_depth g) (g_depth (draw_slot cam i s g)) (if shown cam s then bar_points s else []).
Proof.
  unfold draw_slot, shown. destruct (s_valid s && Nat.eqb (s_cam s) cam) eqn:V; cbn [andb negb].
  - destruct (s_warp s); cbn [negb g_depth].
    + apply adds_then_alloc. unfold bar_points, depth_bar. cbn [fst snd].
      eapply (adds_trans _ _ _ [_] [_]); apply adds_prolonge.
    + apply adds_refl.
  - cbn [g_depth]. apply adds_alloc.
Qed.
Lemma loop_lines cam : forall slots k g,
  let g' := fold_left (fun g is => draw_slot cam (fst is) (snd is) g) (combine (seq k (length slots)) slots) g in
  adds (g_lines g) (g_lines g') (flat_map (fun s => if shown cam s then outline_points s else []) slots) /\
  adds (g_depth g) (g_depth g') (flat_map (fun s => if shown cam s then bar_points s else []) slots).
Proof.
  induction slots as [|s slots IH]; intros k g; cbn [length seq combine fold_left flat_map fst snd].
  - split; apply adds_refl.
  - destruct (IH (S k) (draw_slot cam k s g)) as [A B].
    split; (eapply adds_trans; [|eassumption]); [apply slot_lines | apply slot_depth].
Qed.

Lemma flat_if {A B} (p : A -> bool) (f : A -> list B) l :
  flat_map (fun s => if p s then f s else []) l = flat_map f (filter p l).
Proof. induction l as [|a l IH]; [reflexivity|]. cbn. destruct (p a); cbn; now rewrite IH. Qed.
Lemma pairs_outline l : pairs (flat_map outline_points l) = flat_map outline l.
Proof.
  induction l as [|s l IH]; [reflexivity|]. cbn [flat_map].
  erewrite pairs_app; [rewrite IH; reflexivity | reflexivity | reflexivity].
Qed.
Lemma pairs_bars l : pairs (flat_map bar_points l) = map depth_bar l.
Proof.
  induction l as [|s l IH]; [reflexivity|]. cbn [flat_map map].
  erewrite pairs_app; [rewrite IH; reflexivity | reflexivity | reflexivity].
Qed.
Lemma camera_lines cam slots g :
  drawn_segments (g_lines (draw_camera cam slots g)) = flat_map outline (filter (shown cam) slots) /\
  drawn_segments (g_depth (draw_camera cam slots g)) = map depth_bar (filter (shown cam) slots) /\
  o_mode (g_lines (draw_camera cam slots g)) = o_mode (g_lines g) /\
  o_mode (g_depth (draw_camera cam slots g)) = o_mode (g_depth g).
Proof.
  unfold draw_camera.
  destruct (loop_lines cam slots 0 {| g_lines := clear (g_lines g); g_depth := clear (g_depth g); g_patches := g_patches g |})
    as [A B]. cbn [g_lines g_depth] in A, B.
  destruct (A (fine_clear _)) as (_ & A2 & A3). destruct (B (fine_clear _)) as (_ & B2 & B3).
  unfold drawn_segments. rewrite A2, B2, A3, B3.
  change (drawn_points (clear (g_lines g))) with (@nil V3). change (drawn_points (clear (g_depth g))) with (@nil V3).
  cbn [app]. rewrite !flat_if, pairs_outline, pairs_bars. auto.
Qed.

(** patches *)
Definition patch_tris (s : slot) : list (V3 * V3 * V3) :=
  let c := corner_vec s in [(c 0, c 1, c 2); (c 3, c 1, c 2)].
Definition patch_done (s : slot) (p : scene_object * bool) : Prop :=
  snd p = true /\ drawn_triangles (fst p) = patch_tris s /\
  o_mode (fst p) = GL_TRIANGLES /\ o_cull (fst p) = false.

Lemma rect_vertices x y o : exists a b c d, o_vertices (make_rectangle x y o) = [a; b; c; d].
Proof.
  unfold make_rectangle. cbn [set_cull set_mode allocate_buffer o_vertices].
  rewrite push_indices_v, push_vertices_v. cbn [clear o_vertices app]. do 4 eexists. reflexivity.
Qed.
Lemma rect_indices x y o : o_indices (make_rectangle x y o) = [0; 1; 2; 3; 1; 2].
Proof.
  unfold make_rectangle. cbn [set_cull set_mode allocate_buffer o_indices].
  rewrite push_indices_i, push_vertices_i. reflexivity.
Qed.
Lemma placed (c : nat -> V3) (w x y z : V3) r :
  o_vertices r = [w; x; y; z] -> o_indices r = [0; 1; 2; 3; 1; 2] ->
  drawn_triangles (allocate_buffer (place_corners c r)) = [(c 0, c 1, c 2); (c 3, c 1, c 2)].
Proof.
  intros EV EI. unfold drawn_triangles, drawn_points, drawn, place_corners.
  cbn [allocate_buffer o_vertices o_indices o_vbo o_ibo]. rewrite EV, EI. reflexivity.
Qed.
Lemma rect_mode x y o : o_mode (make_rectangle x y o) = GL_TRIANGLES /\ o_cull (make_rectangle x y o) = false.
Proof. split; reflexivity. Qed.
Lemma patch_tris_eq s o : patch_done s (allocate_buffer (place_corners (corner_vec s) (make_rectangle 1 1 o)), true).
Proof.
  destruct (rect_vertices 1 1 o) as (a & b & c & d & EV). destruct (rect_mode 1 1 o) as [M CU].
  pose proof (rect_indices 1 1 o) as EI. revert EV M CU EI. generalize (make_rectangle 1 1 o). intros r EV M CU EI.
  split; [reflexivity|]. split; [|split; [exact M | exact CU]]. exact (placed _ _ _ _ _ _ EV EI).
Qed.

Definition after_slot (cam : nat) (s : slot) (p q : scene_object * bool) : Prop :=
  if s_valid s && Nat.eqb (s_cam s) cam then if s_warp s then patch_done s q else q = (fst p, false) else q = p.
Lemma slot_patch cam i s g : after_slot cam s (g_patches g i) (g_patches (draw_slot cam i s g) i).
Proof.
  unfold draw_slot, after_slot. destruct (s_valid s && Nat.eqb (s_cam s) cam) eqn:V; cbn [andb negb].
  - destruct (s_warp s); cbn [negb g_patches]; unfold upd; rewrite Nat.eqb_refl; [|reflexivity].
    rewrite make_textured_some. apply patch_tris_eq.
  - reflexivity.
Qed.
Lemma slot_patch_other cam i j s g : j <> i -> g_patches (draw_slot cam i s g) j = g_patches g j.
Proof.
  intro N. apply Nat.eqb_neq in N.
  unfold draw_slot. destruct (s_valid s && Nat.eqb (s_cam s) cam) eqn:V; cbn [andb negb].
  - destruct (s_warp s); cbn [negb g_patches]; unfold upd; rewrite N; reflexivity.
  - reflexivity.
Qed.
Lemma loop_patches_before cam : forall slots k g j, j < k ->
  g_patches (fold_left (fun g is => draw_slot cam (fst is) (snd is) g) (combine (seq k (length slots)) slots) g) j
  = g_patches g j.
Proof.
  induction slots as [|s slots IH]; intros k g j H; cbn [length seq combine fold_left fst snd]; [reflexivity|].
  rewrite IH by lia. apply slot_patch_other. lia.
Qed.
Lemma loop_patches cam : forall slots k g i s, nth_error slots i = Some s ->
  after_slot cam s (g_patches g (k + i))
    (g_patches (fold_left (fun g is => draw_slot cam (fst is) (snd is) g) (combine (seq k (length slots)) slots) g) (k + i)).
Proof.
  induction slots as [|s0 slots IH]; intros k g i s H; [destruct i; discriminate|].
  cbn [length seq combine fold_left fst snd]. destruct i as [|i].
  - cbn in H. injection H as ->. rewrite Nat.add_0_r. rewrite loop_patches_before by lia. apply slot_patch.
  - cbn in H. replace (k + S i) with (S k + i) by lia.
    specialize (IH (S k) (draw_slot cam k s0 g) i s H). rewrite slot_patch_other in IH by lia. exact IH.
Qed.
Lemma camera_patches cam slots g i s : nth_error slots i = Some s ->
  after_slot cam s (g_patches g i) (g_patches (draw_camera cam slots g) i).
Proof. intro H. unfold draw_camera. 
  exact (loop_patches cam slots 0 {| g_lines := clear (g_lines g); g_depth := clear (g_depth g); g_patches := g_patches g |} i s H). Qed.

(** all cameras *)
Lemma cameras_patches slots i s : nth_error slots i = Some s ->
  forall n cam lines depth patches,
  let '(_, _, p) := draw_cameras cam n slots lines depth patches in
  (s_valid s = true /\ cam <= s_cam s < cam + n /\ s_warp s = true -> patch_done s (p i)) /\
  (s_valid s = true /\ cam <= s_cam s < cam + n /\ s_warp s = false -> snd (p i) = false) /\
  (s_valid s = false \/ s_cam s < cam \/ cam + n <= s_cam s -> p i = patches i).
Proof.
  intro H. induction n as [|n IH]; intros cam lines depth patches; cbn [draw_cameras].
  - split; [intros (_ & Q & _); lia|]. split; [intros (_ & Q & _); lia | reflexivity].
  - set (g := draw_camera cam slots _).
    pose proof (camera_patches cam slots {| g_lines := lines cam; g_depth := depth cam; g_patches := patches |} i s H) as A.
    fold g in A. cbn [g_patches] in A. clearbody g.
    specialize (IH (S cam) (upd lines cam (g_lines g)) (upd depth cam (g_depth g)) (g_patches g)).
    destruct (draw_cameras (S cam) n slots _ _ _) as [[ls ds] p].
    destruct IH as (I1 & I2 & I3). unfold after_slot in A.
    destruct (s_valid s) eqn:V; cbn [andb] in A.
    + destruct (Nat.eqb_spec (s_cam s) cam) as [E|E].
      * assert (Q : p i = g_patches g i) by (apply I3; right; left; lia). rewrite Q.
        destruct (s_warp s) eqn:W.
        -- split; [intros _; exact A|]. split; [intros (_ & _ & D); discriminate|].
           intros [D|D]; [discriminate | lia].
        -- split; [intros (_ & _ & D); discriminate|]. split; [intros _; rewrite A; reflexivity|].
           intros [D|D]; [discriminate | lia].
      * rewrite A in I3. split; [intros (D1 & D2 & D3); apply I1; repeat split; try assumption; lia|].
        split; [intros (D1 & D2 & D3); apply I2; repeat split; try assumption; lia|].
        intros [D|D]; [discriminate|]. apply I3. right. lia.
    + split; [intros (D & _); discriminate|]. split; [intros (D & _); discriminate|].
      intros _. rewrite I3 by now left. exact A.
Qed.
Lemma cameras_lines slots : forall n cam lines depth patches c,
  let '(ls, ds, _) := draw_cameras cam n slots lines depth patches in
  (cam <= c < cam + n ->
     drawn_segments (ls c) = flat_map outline (filter (shown c) slots) /\
     drawn_segments (ds c) = map depth_bar (filter (shown c) slots) /\
     o_mode (ls c) = o_mode (lines c) /\ o_mode (ds c) = o_mode (depth c)) /\
  (c < cam \/ cam + n <= c -> ls c = lines c /\ ds c = depth c).
Proof.
  induction n as [|n IH]; intros cam lines depth patches c; cbn [draw_cameras].
  - split; [lia | auto].
  - set (g := draw_camera cam slots _).
    pose proof (camera_lines cam slots {| g_lines := lines cam; g_depth := depth cam; g_patches := patches |}) as A.
    fold g in A. cbn [g_lines g_depth] in A. clearbody g.
    specialize (IH (S cam) (upd lines cam (g_lines g)) (upd depth cam (g_depth g)) (g_patches g) c).
    destruct (draw_cameras (S cam) n slots _ _ _) as [[ls ds] p].
    destruct IH as (I1 & I2). unfold upd in I1, I2. split.
    + intro H. destruct (Nat.eqb_spec c cam) as [E|E].
      * subst c. destruct I2 as [-> ->]; [lia|]. exact A.
      * apply I1. lia.
    + intro H. destruct (Nat.eqb_spec c cam) as [E|E]; [lia|]. apply I2. lia.
Qed.

(** depth bars *)
Local Open Scope R_scope.
Lemma inverse_bar p sg : / 1000 <= p -> 0 <= sg ->
  let s := {| s_valid := true; s_cam := 0; s_dist := {| fd_type := INVERSE; fd_p := p |}; s_sigma := sg;
              s_warp := true; s_bearing := v0; s_corner := fun _ => v0 |} in
  0 < d_near s <= 1 / p /\ 1 / p <= d_far s <= 1000.
Proof.
  intros Hp Hs s. unfold d_near, d_far, s. cbn [s_dist s_sigma fd_type fd_p].
  replace (p - sg + 2 * sg) with (p + sg) by ring.
  assert (MN : forall x, / 1000000 < Rabs x -> make_non_zero x = x) by (intros; now apply mnz_self).
  assert (B1 : 1 / p <= 1000).
  { apply (Rmult_le_reg_r p); [lra|]. unfold Rdiv. rewrite Rmult_1_l, Rinv_l by lra. lra. }
  split.
  - cbn [dist_of]. rewrite MN by (rewrite Rabs_pos_eq; lra). split.
    + apply Rdiv_lt_0_compat; lra.
    + unfold Rdiv. rewrite !Rmult_1_l. apply Rinv_le_contravar; lra.
  - destruct (Rlt_dec 1000 (dist_of INVERSE (p - sg))) as [C|C]; [lra|].
    destruct (Rle_dec (dist_of INVERSE (p - sg)) 0) as [D|D]; [lra|].
    split; [|lra]. apply Rnot_le_lt in D. cbn [dist_of] in *.
    set (m := make_non_zero (p - sg)) in *.
    assert (NZ : m <> 0) by apply mnz_nz.
    assert (MP : 0 < m).
    { destruct (Rlt_dec 0 m) as [Q|Q]; [exact Q|]. exfalso.
      assert (1 / m < 0) by (unfold Rdiv; rewrite Rmult_1_l; apply Rinv_lt_0_compat; lra). lra. }
    assert (ML : m <= p).
    { unfold m in *. clear - Hp Hs MP. unfold make_non_zero, eps in *.
      destruct (Rlt_dec (p - sg) (/ 1000000)); [destruct (Rle_dec 0 (p - sg)); [lra|]|lra].
      destruct (Rlt_dec (- / 1000000) (p - sg)); lra. }
    unfold Rdiv. rewrite !Rmult_1_l. apply Rinv_le_contravar; lra.
Qed.
Lemma dist_mono t p q : t <> INVERSE -> p <= q -> dist_of t p <= dist_of t q.
Proof.
  intros T H. destruct t; [exact H | contradiction | |].
  - destruct H as [H|H]; [left; now apply exp_increasing | rewrite H; cbn; lra].
  - cbn [dist_of]. unfold sinh.
    assert (exp p <= exp q) by (destruct H as [H|H]; [left; now apply exp_increasing | rewrite H; lra]).
    assert (exp (- q) <= exp (- p)) by (destruct H as [H|H]; [left; apply exp_increasing; lra | rewrite H; lra]). lra.
Qed.
