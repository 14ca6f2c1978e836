(** C87: turning the viewer with the mouse. *)
From Coq Require Import List ZArith Reals Bool Lia Lra.
From Verif Require Import Geo Lie FiltKin ViewModel DragModel DragSpec.
Import ListNotations.
Local Open Scope R_scope.

Lemma run_app s v a b : run s v (a ++ b) = run s (run s v a) b.
Proof. unfold run. apply fold_left_app. Qed.
Lemma expm_y a : expm (0, a, 0) = about_y a.
Proof.
  replace (0, a, 0) with (vscale a (0, 1, 0)) by (unfold vscale, vx, vy, vz; cbn [fst snd]; now rewrite Rmult_0_r, Rmult_1_r).
  assert (N : norm (0, 1, 0) = 1) by (unfold norm, dot, vx, vy, vz; cbn [fst snd]; transitivity (sqrt 1); [f_equal; ring|apply sqrt_1]).
  rewrite expm_form by (rewrite N; lra). rewrite N, Rmult_1_r. unfold about_y. generalize (sin a) (cos a). clear N a. intros s c. cbv [madd m1 mscale skew mm mt vadd vscale dot r0 r1 r2 vx vy vz fst snd].
  apply pair_equal_spec. split; [apply pair_equal_spec; split|]; (apply pair_equal_spec; split; [apply pair_equal_spec; split|]); field.
Qed.
Lemma expm_x a : expm (a, 0, 0) = about_x a.
Proof.
  replace (a, 0, 0) with (vscale a (1, 0, 0)) by (unfold vscale, vx, vy, vz; cbn [fst snd]; now rewrite Rmult_0_r, Rmult_1_r).
  assert (N : norm (1, 0, 0) = 1) by (unfold norm, dot, vx, vy, vz; cbn [fst snd]; transitivity (sqrt 1); [f_equal; ring|apply sqrt_1]).
  rewrite expm_form by (rewrite N; lra). rewrite N, Rmult_1_r. unfold about_x. generalize (sin a) (cos a). clear N a. intros s c. cbv [madd m1 mscale skew mm mt vadd vscale dot r0 r1 r2 vx vy vz fst snd].
  apply pair_equal_spec. split; [apply pair_equal_spec; split|]; (apply pair_equal_spec; split; [apply pair_equal_spec; split|]); field.
Qed.
Lemma about_y_add a b : mm (about_y a) (about_y b) = about_y (a + b).
Proof.
  rewrite <- !expm_y.
  assert (E : forall c, (0, c, 0) = vscale c (0, 1, 0)) by (intro c; unfold vscale, vx, vy, vz; cbn [fst snd]; now rewrite Rmult_0_r, Rmult_1_r).
  rewrite (E a), (E b), (E (a + b)). apply expm_add.
Qed.
Lemma about_x_add a b : mm (about_x a) (about_x b) = about_x (a + b).
Proof.
  rewrite <- !expm_x.
  assert (E : forall c, (c, 0, 0) = vscale c (1, 0, 0)) by (intro c; unfold vscale, vx, vy, vz; cbn [fst snd]; now rewrite Rmult_0_r, Rmult_1_r).
  rewrite (E a), (E b), (E (a + b)). apply expm_add.
Qed.

(** The attitude of the viewer stays a rotation. *)
Theorem C87_stays_a_rotation : forall step es v, is_rot (v_att v) -> is_rot (v_att (run step v es)).
Proof.
  intros step es. induction es as [|e es IH]; intros v H; [exact H|]. apply IH. destruct e as [b s x y|x y|k]; cbn [handle].
  - unfold mouse_cb. destruct ((b =? 0)%Z && (s =? 0)%Z), ((b =? 0)%Z && (s =? 1)%Z); exact H.
  - unfold motion_cb. destruct (v_drag v); [|exact H]. cbn [v_att]. apply rot_mm; [apply expm_rot|exact H].
  - exact H.
Qed.
Print Assumptions C87_stays_a_rotation.

(** As long as the left button has not gone down, nothing turns the view; after it has gone up, nothing
    turns it until it goes down again. *)
Lemma no_drag step es : forall v, v_drag v = false -> (forall e, In e es -> ~ left_down e) ->
  v_att (run step v es) = v_att v /\ v_drag (run step v es) = false.
Proof.
  induction es as [|e es IH]; intros v H N; [now split|]. cbn [run fold_left]. change (fold_left (handle step) es (handle step v e)) with (run step (handle step v e) es).
  assert (Q : v_att (handle step v e) = v_att v /\ v_drag (handle step v e) = false).
  { assert (Ne := N e (or_introl eq_refl)). destruct e as [b s x y|x y|k]; cbn [handle].
    - unfold mouse_cb. destruct ((b =? 0)%Z && (s =? 0)%Z) eqn:E.
      + exfalso. apply Ne. apply andb_prop in E as [E1 E2]. apply Z.eqb_eq in E1, E2. subst. now exists x, y.
      + destruct ((b =? 0)%Z && (s =? 1)%Z); cbn; auto.
    - unfold motion_cb. rewrite H. auto.
    - cbn. auto. }
  destruct Q as [Q1 Q2]. destruct (IH (handle step v e) Q2 (fun e' I => N e' (or_intror I))) as [I1 I2]. split; [now rewrite I1|exact I2].
Qed.
Theorem C87_only_dragging_turns : forall step g es, (forall e, In e es -> ~ left_down e) ->
  v_att (run step (viewer_init g) es) = m1 /\
  forall pre x y, v_att (run step (viewer_init g) (pre ++ [Button 0 1 x y] ++ es)) = v_att (run step (viewer_init g) (pre ++ [Button 0 1 x y])).
Proof.
  intros step g es N. split; [exact (proj1 (no_drag step es (viewer_init g) eq_refl N))|].
  intros pre x y. rewrite app_assoc, (run_app step _ (pre ++ _) es). apply no_drag; [|exact N].
  rewrite run_app. cbn [run fold_left handle]. unfold mouse_cb. reflexivity.
Qed.
Print Assumptions C87_only_dragging_turns.
Example C87_other_events : forall e, In e [Motion 3 4; Button 2 0 1 1; Motion 7 7; Special 101; Button 0 1 5 5] -> ~ left_down e.
Proof. intros e H (x & y & ->). cbn in H. intuition discriminate. Qed.

(** The mouse never moves the viewer and the keys never turn it. *)
Theorem C87_mouse_turns_keys_move : forall step v e, let w := handle step v e in
  (v_pos w <> v_pos v -> exists k, e = Special k) /\ (v_att w <> v_att v -> exists x y, e = Motion x y).
Proof.
  intros step v e. cbv zeta. destruct e as [b s x y|x y|k]; cbn [handle]; split; intro H.
  - exfalso. apply H. unfold mouse_cb. destruct ((b =? 0)%Z && (s =? 0)%Z), ((b =? 0)%Z && (s =? 1)%Z); reflexivity.
  - exfalso. apply H. unfold mouse_cb. destruct ((b =? 0)%Z && (s =? 0)%Z), ((b =? 0)%Z && (s =? 1)%Z); reflexivity.
  - exfalso. apply H. unfold motion_cb. destruct (v_drag v); reflexivity.
  - now exists x, y.
  - now exists k.
  - exfalso. apply H. reflexivity.
Qed.
Print Assumptions C87_mouse_turns_keys_move.

(** The mouse position the constructor leaves behind is never used. *)
Lemma same_view step es : forall v w, v_pos v = v_pos w -> v_att v = v_att w -> v_drag v = v_drag w ->
  (v_drag v = true -> v_mouse v = v_mouse w) ->
  v_pos (run step v es) = v_pos (run step w es) /\ v_att (run step v es) = v_att (run step w es).
Proof.
  induction es as [|e es IH]; intros v w A B C D; [now split|]. cbn [run fold_left].
  change (fold_left (handle step) es (handle step v e)) with (run step (handle step v e) es).
  change (fold_left (handle step) es (handle step w e)) with (run step (handle step w e) es).
  apply IH; destruct e as [b s x y|x y|k]; cbn [handle]; unfold mouse_cb, motion_cb, special_cb; rewrite <- ?C;
    repeat match goal with |- context [if ?c then _ else _] => destruct c eqn:?; cbn [v_pos v_att v_drag v_mouse] end; rewrite <- ?A, <- ?B, <- ?C; auto; try congruence.
  all: try (rewrite D by congruence; reflexivity).
Qed.
Theorem C87_initial_mouse_position_is_irrelevant : forall step g g' es,
  v_pos (run step (viewer_init g) es) = v_pos (run step (viewer_init g') es) /\
  v_att (run step (viewer_init g) es) = v_att (run step (viewer_init g') es).
Proof. intros. apply same_view; try reflexivity. discriminate. Qed.
Print Assumptions C87_initial_mouse_position_is_irrelevant.

(** Dragging along a row of pixels turns the view about the camera's y axis, along a column about its x
    axis, by one fiftieth of a radian per pixel between where the button went down and where the mouse is,
    whatever it did in between. *)
Lemma row_drag step y xs : forall v, v_drag v = true -> snd (v_mouse v) = y ->
  v_att (run step v (row_moves y xs)) = mm (about_y (IZR (last xs (fst (v_mouse v)) - fst (v_mouse v)) / 50)) (v_att v).
Proof.
  induction xs as [|x xs IH]; intros v D Y.
  - cbn [row_moves map run fold_left last]. rewrite Z.sub_diag. replace (0 / 50) with 0 by field. rewrite <- expm_y. change (0, 0, 0) with v0. now rewrite expm_0, mm_1_l.
  - cbn [row_moves map run fold_left]. change (fold_left (handle step) (map (fun x0 => Motion x0 y) xs) (handle step v (Motion x y))) with (run step (handle step v (Motion x y)) (row_moves y xs)).
    cbn [handle]. unfold motion_cb. rewrite D. rewrite IH by reflexivity. cbn [v_mouse v_att fst snd].
    rewrite Y, Z.sub_diag. replace (0 / 50) with 0 by field. rewrite expm_y, mm_assoc, about_y_add. f_equal. f_equal.
    assert (L : last xs x = last (x :: xs) (fst (v_mouse v))) by (clear; revert x; induction xs as [|z xs IH]; intro x; [reflexivity|]; cbn [last] in *; destruct xs; [reflexivity|apply (IH x)]).
    rewrite L. rewrite !minus_IZR. field.
Qed.
Lemma column_drag step x ys : forall v, v_drag v = true -> fst (v_mouse v) = x ->
  v_att (run step v (column_moves x ys)) = mm (about_x (IZR (last ys (snd (v_mouse v)) - snd (v_mouse v)) / 50)) (v_att v).
Proof.
  induction ys as [|y ys IH]; intros v D Y.
  - cbn [column_moves map run fold_left last]. rewrite Z.sub_diag. replace (0 / 50) with 0 by field. rewrite <- expm_x. change (0, 0, 0) with v0. now rewrite expm_0, mm_1_l.
  - cbn [column_moves map run fold_left]. change (fold_left (handle step) (map (fun y0 => Motion x y0) ys) (handle step v (Motion x y))) with (run step (handle step v (Motion x y)) (column_moves x ys)).
    cbn [handle]. unfold motion_cb. rewrite D. rewrite IH by reflexivity. cbn [v_mouse v_att fst snd].
    rewrite Y, Z.sub_diag. replace (0 / 50) with 0 by field. rewrite expm_x, mm_assoc, about_x_add. f_equal. f_equal.
    assert (L : last ys y = last (y :: ys) (snd (v_mouse v))) by (clear; revert y; induction ys as [|z xs IH]; intro y; [reflexivity|]; cbn [last] in *; destruct xs; [reflexivity|apply (IH y)]).
    rewrite L. rewrite !minus_IZR. field.
Qed.
Theorem C87_straight_drag : forall step v x0 y0 xs ys,
  v_att (run step v (Button 0 0 x0 y0 :: row_moves y0 xs)) = mm (about_y (IZR (last xs x0 - x0) / 50)) (v_att v) /\
  v_att (run step v (Button 0 0 x0 y0 :: column_moves x0 ys)) = mm (about_x (IZR (last ys y0 - y0) / 50)) (v_att v).
Proof.
  intros step v x0 y0 xs ys.
  set (v1 := {| v_pos := v_pos v; v_att := v_att v; v_drag := true; v_mouse := (x0, y0) |}).
  split.
  - exact (row_drag step y0 xs v1 eq_refl eq_refl).
  - exact (column_drag step x0 ys v1 eq_refl eq_refl).
Qed.
Print Assumptions C87_straight_drag.
(** back to where the drag started: back to the old view *)
Example C87_there_and_back : forall step v x0 y0 xs, v_att (run step v (Button 0 0 x0 y0 :: row_moves y0 (xs ++ [x0]))) = v_att v.
Proof.
  intros. rewrite (proj1 (C87_straight_drag step v x0 y0 (xs ++ [x0]) [])). rewrite last_last, Z.sub_diag. replace (0 / 50) with 0 by field.
  rewrite <- expm_y. change (0, 0, 0) with v0. now rewrite expm_0, mm_1_l.
Qed.

(** In general the view depends on the way the mouse took, not only on where it went: going around a
    square of fifty pixels does not bring the old view back. *)
Theorem C87_only_ends_matter_refuted : forall step v, is_rot (v_att v) ->
  v_att (run step v [Button 0 0 100 100; Motion 150 100; Motion 150 150; Motion 100 150; Motion 100 100]) <> v_att v.
Proof.
  intros step v Q H. cbn [run fold_left handle] in H. unfold mouse_cb, motion_cb in H. cbn [Z.eqb andb v_drag v_att v_pos v_mouse fst snd] in H.
  change (150 - 100)%Z with 50%Z in H. change (100 - 150)%Z with (-50)%Z in H. change (100 - 100)%Z with 0%Z in H. change (150 - 150)%Z with 0%Z in H.
  replace (0 / 50) with 0 in H by field. replace (50 / 50) with 1 in H by field. replace (-50 / 50) with (-1) in H by field.
  rewrite !expm_x, !expm_y in H. destruct v as [p A d m]. cbn [v_att] in *.
  assert (K : mm (about_x (-1)) (mm (about_y (-1)) (mm (about_x 1) (about_y 1))) = m1).
  { transitivity (mm (mm (about_x (-1)) (mm (about_y (-1)) (mm (about_x 1) (about_y 1)))) (mm A (mt A))).
    - destruct Q as (Q1 & _). rewrite Q1. symmetry. apply mm_1_r.
    - rewrite mm_assoc, <- !(mm_assoc _ _ A), H. exact (proj1 Q). }
  clear H Q A.
  assert (E : mm (about_x 1) (about_y 1) = mm (about_y 1) (about_x 1)).
  { transitivity (mm (about_y 1) (mm (about_x 1) (mm (about_x (-1)) (mm (about_y (-1)) (mm (about_x 1) (about_y 1)))))).
    - rewrite (mm_assoc (about_x 1) (about_x (-1))), about_x_add. replace (1 + -1) with 0 by ring. rewrite <- (expm_x 0). change (0, 0, 0) with v0. rewrite expm_0, mm_1_l.
      rewrite (mm_assoc (about_y 1) (about_y (-1))), about_y_add. replace (1 + -1) with 0 by ring. rewrite <- (expm_y 0). change (0, 0, 0) with v0. rewrite expm_0, mm_1_l. reflexivity.
    - rewrite K, mm_1_r. reflexivity. }
  apply (f_equal (fun m => vy (r0 m))) in E. unfold about_x, about_y, mm, mt, dot, r0, r1, r2, vx, vy, vz in E. cbn [fst snd] in E.
  assert (0 < sin 1) by (apply sin_gt_0; pose proof PI_RGT_0; pose proof PI2_1; lra). nra.
Qed.
Print Assumptions C87_only_ends_matter_refuted.
