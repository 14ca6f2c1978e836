(** C85: increments of features. *)
From Coq Require Import Reals Lra Bool ZArith.
From Verif Require Import Geo Lie DistModel FiltModel CoordModel ElemModel ElemSpec ElemProofs.
Local Open Scope R_scope.

Lemma read_has e Q : has_bearing e Q -> exists s, read_nor (el_co e) = Some (s, Q).
Proof. intros (s & E & N & _). exists s. unfold read_nor. now rewrite E, N. Qed.
Lemma read_set n e0 b : read_nor (set_nor n b e0) = Some (set_nor n b e0, n).
Proof. unfold read_nor, com_nor, set_nor, drop_warp, with_c, with_nor, with_warp. cbn. destruct (track e0 && b); reflexivity. Qed.
Lemma has_set n e0 b d : is_rot n -> has_bearing {| el_co := set_nor n b e0; el_d := d |} n.
Proof. intros H. exists (set_nor n b e0). unfold com_nor, set_nor, drop_warp, with_c, with_nor, with_warp. cbn. destruct (track e0 && b); auto. Qed.
(** Adding to an element in place gives the same as adding into another object. *)
Theorem C85_in_place : forall e v e1 e2, box_plus_to e v = Some (e1, e2) -> box_plus_in_place e v = Some e2.
Proof.
  intros e v e1 e2 H. unfold box_plus_to, box_plus_in_place, read_nor, com_nor in *. destruct (valid_nor (el_co e)); [injection H as _ <-; reflexivity|].
  destruct (cam_ (el_co e)) as [k|]; [|discriminate]. destruct (valid_c (el_co e)).
  - destruct (to_bearing k (c_ (el_co e))) as [ok n]. injection H as _ <-. reflexivity.
  - injection H as _ <-. reflexivity.
Qed.
Print Assumptions C85_in_place.
(** What an increment does: the bearing turns, the parameter is added to, the type, the warp and the camera
    are kept, and the pixel is recomputed from the new bearing when it is next asked for. *)
Theorem C85_increment : forall e Q v, has_bearing e Q -> exists e1 e2, box_plus_to e v = Some (e1, e2) /\
  has_bearing e2 (nor_plus Q (vx v, vy v)) /\ fd_p (el_d e2) = fd_p (el_d e) + vz v /\ fd_type (el_d e2) = fd_type (el_d e) /\
  warp_c (el_co e2) = warp_c (el_co e) /\ valid_wc (el_co e2) = valid_wc (el_co e) /\ warp_nor (el_co e2) = warp_nor (el_co e) /\ valid_wn (el_co e2) = valid_wn (el_co e) /\
  cam_ (el_co e2) = cam_ (el_co e) /\
  (forall k, cam_ (el_co e) = Some k -> match to_pixel k (nor_plus Q (vx v, vy v)) with
     | Some p => exists s, com_c (el_co e2) = Some (s, true) /\ c_ s = p
     | None => com_c (el_co e2) = Some (el_co e2, false) end).
Proof.
  intros e Q v H. destruct (read_has e Q H) as [s R]. destruct H as (_ & _ & _ & RQ). unfold box_plus_to. rewrite R. eexists. eexists. split; [reflexivity|]. cbn [el_co el_d fd_p fd_type].
  split; [apply has_set, nor_plus_rot, RQ|]. split; [reflexivity|]. split; [reflexivity|]. unfold set_nor, drop_warp. rewrite andb_false_r. cbn [with_c with_nor warp_c valid_wc warp_nor valid_wn cam_].
  do 5 (split; [reflexivity|]). intros k K. unfold com_c. cbn [with_c with_nor valid_c cam_ valid_nor nor_]. rewrite K. destruct (to_pixel k _); [|reflexivity]. eexists. split; reflexivity.
Qed.
Print Assumptions C85_increment.
(** Subtracting after adding returns the increment, for turns up to 180 degrees whose sine is at least
    1e-6; for smaller turns it is returned up to a relative error of turn^2/6, i.e. at most 1e-12. *)
Lemma sinc_lower x : 0 <= x <= 2 -> 1 - x * x / 6 <= sinc x <= 1.
Proof.
  intros H. unfold sinc. destruct (Req_EM_T x 0) as [->|N]; [lra|]. assert (P : 0 < x) by lra. pose proof PI2_3_2. destruct (SIN x ltac:(lra) ltac:(lra)) as [L _].
  unfold sin_lb, sin_approx, sum_f_R0, sin_term in L. cbn [Nat.mul Nat.add fact pow] in L.
  assert (Q : x - x * x * x / 6 <= sin x). { eapply Rle_trans; [|exact L]. cbn [INR fact Nat.mul Nat.add]. simpl. assert (0 <= x * x) by nra. assert (x * x <= 4) by nra. assert (0 <= x ^ 5 * (42 - x * x)) by (apply Rmult_le_pos; [apply pow_le; lra|lra]). simpl in *. lra. }
  split.
  - apply (Rmult_le_reg_r x); [exact P|]. replace (sin x / x * x) with (sin x) by (field; exact N). lra.
  - apply (Rmult_le_reg_r x); [exact P|]. replace (sin x / x * x) with (sin x) by (field; exact N). rewrite Rmult_1_l. apply Rlt_le, sin_lt_x, P.
Qed.
Theorem C85_add_then_subtract : forall e Q v e1 e2, has_bearing e Q -> box_plus_to e v = Some (e1, e2) -> turn v <= PI -> / 1000000 <= sin (turn v) ->
  box_minus e2 e = Some v.
Proof.
  intros e Q v e1 e2 H E T S. destruct (read_has e Q H) as [s R]. destruct H as (_ & _ & _ & RQ). unfold box_plus_to in E. rewrite R in E. injection E as _ <-.
  unfold box_minus. cbn [el_co el_d]. rewrite read_set, R. rewrite nor_minus_plus; [|exact RQ|exact T]. cbn [fst snd]. fold (turn v). destruct (Rlt_dec (sin (turn v)) (/ 1000000)) as [L|_]; [lra|].
  cbn [fst snd fd_p]. destruct v as [[x y] z]. unfold vx, vy, vz. cbn [fst snd]. do 2 f_equal. ring.
Qed.
Print Assumptions C85_add_then_subtract.
Theorem C85_add_then_subtract_small : forall e Q v e1 e2, has_bearing e Q -> box_plus_to e v = Some (e1, e2) -> turn v < PI / 2 -> sin (turn v) < / 1000000 ->
  exists k, box_minus e2 e = Some (k * vx v, k * vy v, vz v) /\ 1 - turn v * turn v / 6 <= k <= 1.
Proof.
  intros e Q v e1 e2 H E T S. destruct (read_has e Q H) as [s R]. destruct H as (_ & _ & _ & RQ). unfold box_plus_to in E. rewrite R in E. injection E as _ <-.
  assert (T0 : 0 <= turn v) by apply sqrt_pos. exists (sinc (turn v)). split; [|apply sinc_lower; pose proof PI_4; lra].
  unfold box_minus. cbn [el_co el_d]. rewrite read_set, R. rewrite nor_minus_plus; [|exact RQ|fold (turn v); cbn [fst snd]; fold (turn v); pose proof PI_RGT_0; lra]. cbn [fst snd]. fold (turn v). destruct (Rlt_dec (sin (turn v)) (/ 1000000)) as [_|L]; [|lra].
  destruct (Rlt_dec 0 (cos (turn v))) as [_|C]; [|exfalso; apply C; apply cos_gt_0; pose proof PI_RGT_0; lra].
  cbn [fst snd fd_p]. do 2 f_equal. ring.
Qed.
Print Assumptions C85_add_then_subtract_small.
(** Adding a difference leads to the other feature: same parameter, and the same bearing (up to 2e-6 when
    the bearings are nearly equal or nearly opposite, exactly in all other cases and for equal bearings). *)
Theorem C85_subtract_then_add : forall e Q e0 Q0 v, has_bearing e Q -> has_bearing e0 Q0 -> box_minus e e0 = Some v ->
  exists e1 e2 Q2, box_plus_to e0 v = Some (e1, e2) /\ has_bearing e2 Q2 /\ fd_p (el_d e2) = fd_p (el_d e) /\
    norm (vsub (nor Q2) (nor Q)) <= 2 / 1000000 /\ (/ 1000000 <= norm (cross (nor Q0) (nor Q)) \/ nor Q = nor Q0 -> nor Q2 = nor Q).
Proof.
  intros e Q e0 Q0 v H H0 E. destruct (read_has e Q H) as [s R]. destruct (read_has e0 Q0 H0) as [s0 R0]. pose proof H as (_ & _ & _ & RQ). pose proof H0 as (_ & _ & _ & RQ0).
  unfold box_minus in E. rewrite R, R0 in E. injection E as <-. unfold vx, vy, vz. cbn [fst snd]. destruct (C85_increment e0 Q0 (fst (nor_minus Q Q0), snd (nor_minus Q Q0), fd_p (el_d e) - fd_p (el_d e0)) H0) as (e1 & e2 & E1 & E2 & E3 & _).
  exists e1, e2, (nor_plus Q0 (nor_minus Q Q0)). split; [exact E1|]. unfold vx, vy, vz in *. cbn [fst snd] in *. split; [|split].
  - replace (nor_minus Q Q0) with (fst (nor_minus Q Q0), snd (nor_minus Q Q0)) by (now destruct (nor_minus Q Q0)). exact E2.
  - rewrite E3. ring.
  - now apply nor_plus_minus.
Qed.
Print Assumptions C85_subtract_then_add.
(** the difference of an element to itself is zero *)
Theorem C85_self_difference : forall e Q, has_bearing e Q -> box_minus e e = Some v0.
Proof.
  intros e Q H. destruct (read_has e Q H) as [s R]. unfold box_minus. rewrite R. unfold nor_minus, rot_between.
  replace (cross (nor Q) (nor Q)) with v0 by (generalize (nor Q); intros; unfold v0; veq). assert (N0 : norm v0 = 0) by (unfold norm, dot, v0, vx, vy, vz; cbn [fst snd]; replace (0 * 0 + 0 * 0 + 0 * 0) with 0 by ring; apply sqrt_0). rewrite N0.
  destruct (Rlt_dec 0 (/ 1000000)) as [_|L]; [|lra]. destruct H as (_ & _ & _ & RQ). destruct (frame Q RQ) as (U & _). rewrite U. destruct (Rlt_dec 0 1) as [_|L]; [|lra].
  assert (Z : forall p, dot p v0 = 0) by (intros p; unfold v0; geo; ring). rewrite !Z. cbn [fst snd]. unfold v0. do 2 f_equal. ring.
Qed.
Print Assumptions C85_self_difference.
Definition co0 : coords := {| c_ := (0, 0); valid_c := true; nor_ := m1; valid_nor := true; cam_ := None; warp_c := ((1, 0), (0, 1)); valid_wc := true; warp_nor := ((1, 0), (0, 1)); valid_wn := false; wid := true; track := false |}.
Definition el0 : elem := {| el_co := co0; el_d := {| fd_type := INVERSE; fd_p := / 2 |} |}.
Lemma el0_bearing : has_bearing el0 m1.
Proof. exists co0. split; [reflexivity|]. split; [reflexivity|exact rot_1]. Qed.
(** A turn by 180 degrees is not returned: the axis is lost. *)
Theorem C85_half_turn_refuted : exists e Q v e1 e2 v', has_bearing e Q /\ turn v = PI /\ box_plus_to e v = Some (e1, e2) /\ box_minus e2 e = Some v' /\ v' <> v.
Proof.
  destruct (read_has el0 m1 el0_bearing) as [s R]. pose proof PI_RGT_0 as P. assert (T : turn (0, PI, 0) = PI).
  { unfold turn, vx, vy. cbn [fst snd]. replace (0 ^ 2 + PI ^ 2) with (PI * PI) by ring. apply sqrt_square. lra. }
  exists el0, m1, (0, PI, 0). eexists. eexists. exists (PI, 0, 0). split; [exact el0_bearing|]. split; [exact T|]. split; [unfold box_plus_to; rewrite R; reflexivity|]. split.
  - pose proof (nor_minus_plus m1 (0, PI) rot_1) as NP. cbn [fst snd] in NP. cbv zeta in NP. change (sqrt (0 ^ 2 + PI ^ 2)) with (turn (0, PI, 0)) in NP. rewrite T, sin_PI, cos_PI in NP. specialize (NP ltac:(lra)).
    destruct (Rlt_dec 0 (/ 1000000)) as [_|L] in NP; [|lra]. destruct (Rlt_dec 0 (-1)) as [L|_] in NP; [lra|].
    unfold box_minus. cbn [el_co el_d]. rewrite read_set, R. change (vx (0, PI, 0), vy (0, PI, 0)) with (0, PI). rewrite NP. cbn [fst snd fd_p el0 el_d]. unfold vz. cbn [snd]. do 2 f_equal. ring.
  - intros E. injection E as E _. lra.
Qed.
Print Assumptions C85_half_turn_refuted.
(** the hypotheses of the round trip: a turn by 90 degrees *)
Example C85_ex : exists e1 e2, box_plus_to el0 (PI / 2, 0, 3) = Some (e1, e2) /\ box_minus e2 el0 = Some (PI / 2, 0, 3) /\ nor (nor_plus m1 (PI / 2, 0)) = (0, -1, 0).
Proof.
  pose proof PI_RGT_0 as P. assert (T : turn (PI / 2, 0, 3) = PI / 2). { unfold turn, vx, vy. cbn [fst snd]. replace ((PI / 2) ^ 2 + 0 ^ 2) with (PI / 2 * (PI / 2)) by ring. apply sqrt_square. lra. }
  destruct (C85_increment el0 m1 (PI / 2, 0, 3) el0_bearing) as (e1 & e2 & E & _). exists e1, e2. split; [exact E|]. split.
  - eapply C85_add_then_subtract; [exact el0_bearing|exact E|rewrite T; lra|rewrite T, sin_PI2; lra].
  - rewrite nor_plus_value by exact rot_1. rewrite Nmul_norm by exact rot_1. cbn [fst snd]. change (sqrt ((PI / 2) ^ 2 + 0 ^ 2)) with (turn (PI / 2, 0, 3)). rewrite T, cos_PI2. unfold sinc. destruct (Req_EM_T (PI / 2) 0) as [Z|_]; [lra|]. rewrite sin_PI2.
    unfold nor, Nmul, perp1, perp2. rewrite !mv_m1. unfold vadd, vscale, cross, vx, vy, vz. cbn [fst snd]. apply pair_equal_spec; split; [apply pair_equal_spec; split|]; field; lra.
Qed.
(** setIdentity: the bearing is the optical axis, the warp the identity and the parameter 1 (which is a
    distance of 1 for inverse and regular depth, but e for logarithmic depth) *)
Theorem C85_identity : forall mI e, has_bearing (set_identity mI e) m1 /\ nor m1 = (0, 0, 1) /\ fd_p (el_d (set_identity mI e)) = 1 /\
  warp_c (el_co (set_identity mI e)) = mI /\ valid_wc (el_co (set_identity mI e)) = true /\ valid_wn (el_co (set_identity mI e)) = false /\ wid (el_co (set_identity mI e)) = true /\ valid_c (el_co (set_identity mI e)) = false.
Proof.
  intros mI e. split; [|split; [unfold nor; apply mv_m1|]].
  - eexists. split; [|split; [|exact rot_1]]; unfold com_nor, set_identity, set_warp_identity, set_nor, drop_warp; cbn; destruct (track (el_co e)); reflexivity.
  - unfold set_identity, set_warp_identity, set_nor, drop_warp; cbn; destruct (track (el_co e)); repeat split.
Qed.
Print Assumptions C85_identity.
