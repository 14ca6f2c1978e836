(** C77: visual motion detection and the trigger of the zero velocity updates. *)
From Coq Require Import List ZArith QArith Qreals Reals Bool Arith Lia Lra.
From Verif Require Import PatchModel PyrModel PyrSpec PyrProofs GradModel GradSpec GradProofs AvgModel AvgSpec AvgProofs MotionModel MotionSpec MotionProofs.
From Verif Require FiltModel.
Import ListNotations.
Local Open Scope R_scope.

(** A feature in frame counts as moving iff the difference between its patches in the two images (root
    mean square over levels and pixels, after the best brightness change) exceeds the threshold times
    the root of the largest eigenvalue of the structure matrix of the previous image. *)
Theorem C77_feature_in_motion : forall near n e s th junk prev cur front q Bs Cs, Nat.Even n -> (0 < n)%nat -> (e <= s)%nat -> 0 <= th ->
  ml_in_frame near n prev front (upright q) s true = true ->
  ml_extract near n prev (upright q) s true = Some Bs -> ml_extract near n cur (upright q) s true = Some Cs ->
  exists m r b v, visit near n e s th junk prev cur front q = Some (Some v) /\
    largest_eigenvalue (Sxx n e s Bs) (Sxy n e s Bs) (Syy n e s Bs) m /\ 0 <= m /\
    0 <= r /\ r ^ 2 = mse n (inner_of n Bs) (inner_of n Cs) e s b /\ (forall b', r ^ 2 <= mse n (inner_of n Bs) (inner_of n Cs) e s b') /\
    (v = true <-> th * sqrt m < r).
Proof.
  intros near n e s th junk prev cur front q Bs Cs EN N L T F E1 E2.
  destruct (visit_some near n e s th junk prev cur front q Bs Cs EN N L T F E1 E2) as (m & r & v & V & M0 & M & _ & A & R0 & I).
  destruct (extract_squares _ _ _ _ _ _ EN E1) as (LB & FB). destruct (extract_squares _ _ _ _ _ _ EN E2) as (LC & FC).
  destruct (avg_best_offset n _ _ e s N L (filled_inner n Bs s ltac:(lia) FB) (filled_inner n Cs s ltac:(lia) FC)) as (r' & b & A' & _ & B1 & B2).
  assert (r' = r) by congruence. subst r'. exists m, r, b, v. auto 8.
Qed.
(** A patch that moved by at most the threshold (in pixels, to first order, with any change of
    brightness) never counts as moving. *)
Theorem C77_small_shift_is_no_motion : forall near n e s th junk prev cur front q Bs Cs dx dy b, Nat.Even n -> (0 < n)%nat -> (e <= s)%nat -> 0 <= th ->
  ml_in_frame near n prev front (upright q) s true = true ->
  ml_extract near n prev (upright q) s true = Some Bs -> ml_extract near n cur (upright q) s true = Some Cs ->
  shifted n e s dx dy b Bs Cs -> sqrt (dx ^ 2 + dy ^ 2) <= th ->
  visit near n e s th junk prev cur front q = Some (Some false).
Proof.
  intros near n e s th junk prev cur front q Bs Cs dx dy b EN N L T F E1 E2 S D.
  destruct (visit_some near n e s th junk prev cur front q Bs Cs EN N L T F E1 E2) as (m & r & v & V & M0 & _ & Q & A & R0 & I).
  destruct (extract_squares _ _ _ _ _ _ EN E1) as (LB & FB). destruct (extract_squares _ _ _ _ _ _ EN E2) as (LC & FC).
  destruct (shift_error n e s dx dy b Bs Cs N L ltac:(lia) ltac:(lia) FB FC S) as (r' & A' & _ & R2). assert (r' = r) by congruence. subst r'.
  rewrite V. do 2 f_equal. destruct v; [|reflexivity]. exfalso. apply (proj1 I) in V as _ || idtac. pose proof (proj1 I eq_refl) as LT. clear I V.
  specialize (Q dx dy). pose proof (pow2_ge_0 (Mx n e s Bs * dx + My n e s Bs * dy)) as P.
  assert (K : r ^ 2 <= m * (dx ^ 2 + dy ^ 2)) by lra.
  assert (D0 : 0 <= dx ^ 2 + dy ^ 2) by nra.
  assert (K2 : r <= sqrt (m * (dx ^ 2 + dy ^ 2))) by (rewrite <- (sqrt_pow2 r) by auto; apply sqrt_le_1_alt; exact K).
  rewrite sqrt_mult in K2 by auto. pose proof (sqrt_pos m). pose proof (sqrt_pos (dx ^ 2 + dy ^ 2)). nra.
Qed.
(** the bound is exact: along the direction of the strongest gradient, when the gradients cancel on
    average, a patch counts as moving iff it moved by more than the threshold *)
Theorem C77_shift_along_strongest_gradient : forall near n e s th junk prev cur front q Bs Cs dx dy b m, Nat.Even n -> (0 < n)%nat -> (e <= s)%nat -> 0 <= th ->
  ml_in_frame near n prev front (upright q) s true = true ->
  ml_extract near n prev (upright q) s true = Some Bs -> ml_extract near n cur (upright q) s true = Some Cs ->
  shifted n e s dx dy b Bs Cs -> Mx n e s Bs = 0 -> My n e s Bs = 0 -> 0 < m ->
  largest_eigenvalue (Sxx n e s Bs) (Sxy n e s Bs) (Syy n e s Bs) m ->
  Sxx n e s Bs * dx + Sxy n e s Bs * dy = m * dx -> Sxy n e s Bs * dx + Syy n e s Bs * dy = m * dy ->
  exists v, visit near n e s th junk prev cur front q = Some (Some v) /\ (v = true <-> th < sqrt (dx ^ 2 + dy ^ 2)).
Proof.
  intros near n e s th junk prev cur front q Bs Cs dx dy b m EN N L T F E1 E2 S X0 Y0 MP [ML1 ML2] V1 V2.
  destruct (visit_some near n e s th junk prev cur front q Bs Cs EN N L T F E1 E2) as (m' & r & v & V & M0 & [MM1 MM2] & _ & A & R0 & I).
  assert (m' = m) by (apply Rle_antisym; auto). subst m'.
  destruct (extract_squares _ _ _ _ _ _ EN E1) as (LB & FB). destruct (extract_squares _ _ _ _ _ _ EN E2) as (LC & FC).
  destruct (shift_error n e s dx dy b Bs Cs N L ltac:(lia) ltac:(lia) FB FC S) as (r' & A' & _ & R2). assert (r' = r) by congruence. subst r'.
  exists v. split; [exact V|]. rewrite I. rewrite X0, Y0 in R2.
  assert (K : r ^ 2 = m * (dx ^ 2 + dy ^ 2)).
  { rewrite R2. replace (Sxx n e s Bs * dx ^ 2 + 2 * Sxy n e s Bs * dx * dy + Syy n e s Bs * dy ^ 2 - (0 * dx + 0 * dy) ^ 2) with
      ((Sxx n e s Bs * dx + Sxy n e s Bs * dy) * dx + (Sxy n e s Bs * dx + Syy n e s Bs * dy) * dy) by ring. rewrite V1, V2. ring. }
  assert (D0 : 0 <= dx ^ 2 + dy ^ 2) by nra.
  assert (K2 : r = sqrt m * sqrt (dx ^ 2 + dy ^ 2)) by (rewrite <- sqrt_mult, <- K, sqrt_pow2 by (auto; lra); reflexivity).
  rewrite K2, (Rmult_comm th). assert (0 < sqrt m) by (apply sqrt_lt_R0; auto). split; intros H'; nra.
Qed.

(** when both images have the same size (and the pyramids were built the same way) nothing is read
    outside an image; the second patch is not checked, so images of different sizes break it *)
Theorem C77_same_size_is_safe : forall near n e s th junk usecv w h prev cur front q, Nat.Even n -> (0 < n)%nat -> (e <= s)%nat -> 0 <= th ->
  near id_warp = true -> (0 <= w)%Z -> (0 <= h)%Z -> sized usecv w h prev -> sized usecv w h cur ->
  visit near n e s th junk prev cur front q <> None.
Proof.
  intros near n e s th junk usecv w h prev cur front q EN N L T NI W H [P1 P2] [C1 C2] X.
  destruct (ml_in_frame near n prev front (upright q) s true) eqn:F; [|unfold visit in X; rewrite F in X; discriminate].
  assert (NR : forall py, near_id near (level_transform (py_ct py) (upright q) 0 0) = true).
  { intros py. unfold level_transform, near_id. cbn. destruct (q_cam q); cbn; auto. }
  assert (F' : ml_in_frame near n cur front (upright q) s true = true).
  { unfold ml_in_frame in F |- *. destruct (front && _); [|discriminate]. unfold level_in_frame in F |- *.
    assert (ET : level_transform (py_ct cur) (upright q) 0 s = level_transform (py_ct prev) (upright q) 0 s) by (unfold level_transform, level_c; now rewrite !C2, !P2).
    rewrite ET. etransitivity; [|exact F]. unfold in_frame, in_frame_id, in_frame_warp, corner_ok. destruct (P1 s) as [A1 A2]. destruct (C1 s) as [B1 B2]. rewrite A1, A2, B1, B2. reflexivity. }
  destruct (top_level_suffices near n prev usecv true (upright q) s w h front W H P1 P2 EN N (or_intror (or_introl (NR prev))) F) as (_ & Bs & E1 & _).
  destruct (top_level_suffices near n cur usecv true (upright q) s w h front W H C1 C2 EN N (or_intror (or_introl (NR cur))) F') as (_ & Cs & E2 & _).
  destruct (visit_some near n e s th junk prev cur front q Bs Cs EN N L T F E1 E2) as (m & r & v & V & _). congruence.
Qed.
Definition flat_pyr (w h : Z) (f : Z -> Z -> Q) : pyramid :=
  {| py_img := fun l => {| cols := size_at w l; rows := size_at h l; pix := f |}; py_ct := centers false w h |}.
Definition at_c (x y : Q) : coord := {| q_c := (x, y); q_warp := Some id_warp; q_wid := true; q_cam := true |}.
Theorem C77_size_change_refuted : exists near n s w h w' h' q, sized false w h (flat_pyr w h (fun _ _ => 0%Q)) /\ sized false w' h' (flat_pyr w' h' (fun _ _ => 0%Q)) /\
  forall e th junk, (e <= s)%nat -> visit near n e s th junk (flat_pyr w h (fun _ _ => 0%Q)) (flat_pyr w' h' (fun _ _ => 0%Q)) true q = None.
Proof.
  exists (fun _ => true), 2%nat, 0%nat, 60%Z, 60%Z, 30%Z, 30%Z, (at_c 40 40). split; [split; intros; cbn; auto|]. split; [split; intros; cbn; auto|].
  intros e th junk He. unfold visit.
  assert (F : ml_in_frame (fun _ => true) 2 (flat_pyr 60 60 (fun _ _ => 0%Q)) true (upright (at_c 40 40)) 0 true = true) by (vm_compute; reflexivity).
  rewrite F. destruct (ml_extract (fun _ => true) 2 (flat_pyr 60 60 (fun _ _ => 0%Q)) _ 0 true) as [Bs|]; [|reflexivity]. cbn [bind].
  destruct (ml_score _ _ _ _) as [g|]; [|reflexivity]. cbn [bind].
  assert (E : ml_extract (fun _ => true) 2 (flat_pyr 30 30 (fun _ _ => 0%Q)) (upright (at_c 40 40)) 0 true = None) by (vm_compute; reflexivity).
  now rewrite E.
Qed.
(** a shift is taken for a change of brightness where the gradient is uniform: an image of uniform
    gradient moved by 100 pixels counts as still *)
Definition ramp (c : Q) : pyramid := flat_pyr 20 20 (fun u v => inject_Z u + c)%Q.
Theorem C77_large_shift_is_motion_refuted : exists near n q Bs Cs dx, 
  ml_in_frame near n (ramp 0) true (upright q) 0 true = true /\
  ml_extract near n (ramp 0) (upright q) 0 true = Some Bs /\ ml_extract near n (ramp 100) (upright q) 0 true = Some Cs /\
  shifted n 0 0 dx 0 0 Bs Cs /\ Sxx n 0 0 Bs = 1 /\ dx = 100 /\ forall th junk, 0 <= th -> visit near n 0 0 th junk (ramp 0) (ramp 100) true q = Some (Some false).
Proof.
  set (q := at_c 10 10).
  assert (F : ml_in_frame (fun _ => true) 2 (ramp 0) true (upright q) 0 true = true) by (vm_compute; reflexivity).
  destruct (ml_extract (fun _ => true) 2 (ramp 0) (upright q) 0 true) as [Bs|] eqn:E1; [|vm_compute in E1; discriminate].
  destruct (ml_extract (fun _ => true) 2 (ramp 100) (upright q) 0 true) as [Cs|] eqn:E2; [|vm_compute in E2; discriminate].
  exists (fun _ => true), 2%nat, q, Bs, Cs, 100. split; [exact F|]. split; [exact E1|]. split; [exact E2|].
  assert (EN : Nat.Even 2) by (exists 1%nat; reflexivity).
  assert (NB : nth_error Bs 0 = nth_error Bs 0) by reflexivity.
  vm_compute in E1, E2. injection E1 as <-. injection E2 as <-.
  set (Bs := [_]). set (Cs := [_]).
  assert (G : forall x y, (x < 2)%nat -> (y < 2)%nat -> gx 2 (bordered Bs 0) x y = 1 /\ gy 2 (bordered Bs 0) x y = 0 /\ inner_px 2 Cs 0 x y = inner_px 2 Bs 0 x y + 100).
  { intros x y Hx Hy. destruct x as [|[|x]]; [| |lia]; (destruct y as [|[|y]]; [| |lia]); unfold gx, gy, inner_px, px, bordered, Bs, Cs; cbn; unfold Q2R; cbn; repeat split; lra. }
  assert (SH : shifted 2 0 0 100 0 0 Bs Cs).
  { intros l x y Hl Hx Hy. assert (l = 0%nat) by lia. subst l. destruct (G x y Hx Hy) as (-> & -> & ->). cbn. lra. }
  split; [exact SH|]. split.
  { unfold Sxx, mean4, sxx, mean, total. cbn [sum Nat.add Nat.sub].
    rewrite !(proj1 (G 0 0 ltac:(lia) ltac:(lia))%nat), !(proj1 (G 1 0 ltac:(lia) ltac:(lia))%nat), !(proj1 (G 0 1 ltac:(lia) ltac:(lia))%nat), !(proj1 (G 1 1 ltac:(lia) ltac:(lia))%nat). cbn. lra. }
  split; [reflexivity|]. intros th junk T.
  destruct (visit_some (fun _ => true) 2 0 0 th junk (ramp 0) (ramp 100) true q Bs Cs EN ltac:(lia) ltac:(lia) T F) as (m & r & v & V & M0 & _ & _ & A & R0 & I); [vm_compute; reflexivity|vm_compute; reflexivity|].
  rewrite V. do 2 f_equal. destruct v; [|reflexivity]. exfalso.
  destruct (extract_squares (fun _ => true) 2 (ramp 0) (upright q) 0 Bs EN ltac:(vm_compute; reflexivity)) as (LB & FB).
  destruct (extract_squares (fun _ => true) 2 (ramp 100) (upright q) 0 Cs EN ltac:(vm_compute; reflexivity)) as (LC & FC).
  assert (Z : average_difference 2 (inner_of 2 Bs) (inner_of 2 Cs) 0 0 = Some 0).
  { apply avg_zero; [lia|lia|apply filled_inner; auto; lia|apply filled_inner; auto; lia|]. exists (-100). intros l i Hl Hi. assert (l = 0%nat) by lia. subst l.
    assert (EI : exists x y, (x < 2)%nat /\ (y < 2)%nat /\ i = (y * 2 + x)%nat).
    { exists (i mod 2)%nat, (i / 2)%nat. split; [apply Nat.mod_upper_bound; lia|]. split; [apply Nat.div_lt_upper_bound; lia|]. rewrite (Nat.div_mod i 2) at 1 by lia. lia. }
    destruct EI as (x & y & Hx & Hy & ->). rewrite !value_inner by (auto; lia). destruct (G x y Hx Hy) as (_ & _ & ->). lra. }
  assert (r = 0) by congruence. subst r. pose proof (proj1 I eq_refl). pose proof (sqrt_pos m). nra.
Qed.

(** An image shows motion iff the share of moving features among those in frame exceeds the rate, or
    there are fewer than the minimal number of features in frame. *)
Theorem C77_decision : forall near junk cf prev cur sl vs, 0 <= c_rate cf ->
  Forall2 (fun f v => visit near (c_n cf) (c_e cf) (c_s cf) (c_th cf) junk (prev (sl_cam f)) (cur (sl_cam f)) (sl_front f) (sl_q f) = Some v) (filter sl_valid sl) vs ->
  exists v, image_motion near junk cf prev cur sl = Some v /\
    (v = true <-> c_rate cf * INR (seen_count vs) < INR (moving_count vs) \/ (Z.of_nat (seen_count vs) < c_cnt cf)%Z).
Proof.
  intros near junk cf prev cur sl vs R0 H.
  assert (C : count_motion near (c_n cf) (c_e cf) (c_s cf) (c_th cf) junk prev cur sl (0, 0)%nat = Some (seen_count vs, moving_count vs)).
  { revert vs H. induction sl as [|f r IH]; intros vs H; cbn [filter count_motion] in *.
    - inversion H. reflexivity.
    - destruct (sl_valid f); [|now apply IH]. inversion H as [|? v ? vs' Hv Hr]; subst. rewrite Hv. cbn [bind].
      rewrite count_add, (IH vs' Hr). destruct v as [[]|]; reflexivity. }
  exists (reports (c_rate cf) (c_cnt cf) (seen_count vs, moving_count vs)). split; [unfold image_motion; now rewrite C|].
  assert (L : (moving_count vs <= seen_count vs)%nat).
  { unfold moving_count, seen_count. induction vs as [|[[]|] vs IH] using rev_ind; [cbn; lia| | |].
    all: rewrite !filter_app, !app_length; clear H; cbn [filter length]. all: assert (K : (length (filter (fun v => match v with Some b => b | None => false end) vs) <= length (filter (fun v : option bool => match v with Some _ => true | None => false end) vs))%nat); [clear; induction vs as [|[[]|] vs IH]; cbn; lia|lia]. }
  unfold reports. cbn [fst snd]. rewrite orb_true_iff, Z.ltb_lt, rate_below_iff by auto. reflexivity.
Qed.
(** An unchanged image never shows motion of a feature: motion is reported iff too few features are in frame. *)
Theorem C77_unchanged_image : forall near junk cf usecv w h py sl, Nat.Even (c_n cf) -> (0 < c_n cf)%nat -> (c_e cf <= c_s cf)%nat -> 0 <= c_th cf -> 0 <= c_rate cf ->
  near id_warp = true -> (0 <= w)%Z -> (0 <= h)%Z -> (forall c, sized usecv w h (py c)) ->
  exists v, image_motion near junk cf py py sl = Some v /\
    (v = true <-> (Z.of_nat (length (filter (fun f => sl_valid f && ml_in_frame near (c_n cf) (py (sl_cam f)) (sl_front f) (upright (sl_q f)) (c_s cf) true) sl)) < c_cnt cf)%Z).
Proof.
  intros near junk cf usecv w h py sl EN N L T R0 NI W H SZ.
  assert (K : forall f, visit near (c_n cf) (c_e cf) (c_s cf) (c_th cf) junk (py (sl_cam f)) (py (sl_cam f)) (sl_front f) (sl_q f) =
     Some (if ml_in_frame near (c_n cf) (py (sl_cam f)) (sl_front f) (upright (sl_q f)) (c_s cf) true then Some false else None)).
  { intros f. destruct (ml_in_frame near (c_n cf) (py (sl_cam f)) (sl_front f) (upright (sl_q f)) (c_s cf) true) eqn:F; [|unfold visit; now rewrite F].
    pose proof (C77_same_size_is_safe near (c_n cf) (c_e cf) (c_s cf) (c_th cf) junk usecv w h _ _ (sl_front f) (sl_q f) EN N L T NI W H (SZ (sl_cam f)) (SZ (sl_cam f))) as SAFE.
    destruct (ml_extract near (c_n cf) (py (sl_cam f)) (upright (sl_q f)) (c_s cf) true) as [Bs|] eqn:E1; [|unfold visit in SAFE; rewrite F, E1 in SAFE; now exfalso].
    apply (C77_small_shift_is_no_motion near (c_n cf) (c_e cf) (c_s cf) (c_th cf) junk _ _ _ _ Bs Bs 0 0 0); auto.
    - intros l x y _ _ _. field. apply pow_nonzero. lra.
    - replace (0 ^ 2 + 0 ^ 2) with 0 by ring. now rewrite sqrt_0. }
  set (V f := if ml_in_frame near (c_n cf) (py (sl_cam f)) (sl_front f) (upright (sl_q f)) (c_s cf) true then Some false else None).
  destruct (C77_decision near junk cf py py sl (map V (filter sl_valid sl)) R0) as (v & E & I).
  { induction (filter sl_valid sl) as [|f r IH]; cbn; constructor; auto. exact (K f). }
  exists v. split; [exact E|]. rewrite I.
  assert (M0 : moving_count (map V (filter sl_valid sl)) = 0%nat).
  { unfold moving_count. clear I E K. induction (filter sl_valid sl) as [|f r IH]; cbn; [reflexivity|]. unfold V at 1. destruct (ml_in_frame _ _ _ _ _ _ _); exact IH. }
  assert (S0 : seen_count (map V (filter sl_valid sl)) = length (filter (fun f => sl_valid f && ml_in_frame near (c_n cf) (py (sl_cam f)) (sl_front f) (upright (sl_q f)) (c_s cf) true) sl)).
  { unfold seen_count. clear. induction sl as [|f r IH]; cbn; [reflexivity|]. destruct (sl_valid f); cbn; [|exact IH]. unfold V at 1.
    destruct (ml_in_frame _ _ _ _ _ _ _); cbn; auto. }
  rewrite M0, S0. cbn [INR]. split; [|auto]. intros [X|X]; [|exact X]. exfalso. pose proof (pos_INR (length (filter (fun f => sl_valid f && ml_in_frame near (c_n cf) (py (sl_cam f)) (sl_front f) (upright (sl_q f)) (c_s cf) true) sl))). nra.
Qed.

(** the timers of the prediction of FiltModel are those of the machine *)
Theorem C77_prediction_timers : forall near junk cf m n P u inplace nz dt x, 
  t_inertial m = FiltModel.a_timerI (FiltModel.x_aux x) -> t_visual m = FiltModel.a_timerV (FiltModel.x_aux x) ->
  exists b m', mstep near junk cf m (Predict dt b) = Some m' /\
    let y := FiltModel.predict n P u inplace nz dt x in
    t_inertial m' = FiltModel.a_timerI (FiltModel.x_aux y) /\ t_visual m' = FiltModel.a_timerV (FiltModel.x_aux y) /\
    (inplace = false -> b = FiltModel.moving P x u).
Proof.
  intros near junk cf m n P u inplace nz dt x EI EV. eexists _, _. split; [reflexivity|]. cbv zeta. cbn [t_inertial t_visual]. unfold FiltModel.predict. cbv zeta. cbn [FiltModel.x_aux FiltModel.a_timerI FiltModel.a_timerV].
  rewrite EI, EV. split; [reflexivity|]. split; [reflexivity|]. intros ->. reflexivity.
Qed.
(** From the start on, and for every history of predictions and images: a zero velocity update is made
    iff it and the visual detection are enabled and more than the minimal time passed since the start,
    since every image that showed motion and since every prediction that saw inertial motion. *)
Theorem C77_zero_velocity : forall near junk cf none h m, 0 <= c_min cf -> forward h -> mrun near junk cf (mstart none) h = Some m ->
  zero_velocity cf m = true <-> c_zvu cf = true /\ c_visual cf = true /\ c_min cf < elapsed h /\ quiet_visual near junk cf h (c_min cf) /\ quiet_inertial h (c_min cf).
Proof.
  intros near junk cf none h m T F H. unfold zero_velocity. destruct (c_zvu cf); [|cbn; split; [discriminate|tauto]]. destruct (c_visual cf) eqn:CV; [|cbn; split; [discriminate|intros (_ & X & _); discriminate]].
  destruct (timers near junk cf none h m CV F H) as (_ & _ & V & I). cbn [andb].
  destruct (Rlt_dec (c_min cf) (t_visual m)) as [A|A]; destruct (Rlt_dec (c_min cf) (t_inertial m)) as [B|B]; cbn; rewrite V in A by auto; rewrite I in B by auto; split; intros X; try discriminate; try tauto.
Qed.
(** a machine standing still: nothing shows motion, time passes, so the update is made *)
Example C77_ex : let cf := {| c_visual := true; c_zvu := true; c_min := 1; c_rate := / 2; c_cnt := 0; c_th := 1; c_n := 2; c_e := 0; c_s := 0 |} in
  let h := [Image (fun _ => ramp 0) []; Predict 1 false; Image (fun _ => ramp 0) []; Predict 1 false; Image (fun _ => ramp 100) []] in
  exists m, mrun (fun _ => true) hzero cf (mstart (fun _ => ramp 0)) h = Some m /\ forward h /\ zero_velocity cf m = true.
Proof.
  cbv zeta. eexists. split; [reflexivity|]. split.
  - intros dt b H. cbn in H. repeat (destruct H as [H|H]; [try discriminate; injection H as <- _; lra|]). contradiction.
  - unfold zero_velocity. cbn -[Rlt_dec reports]. assert (RE : reports (/ 2) 0 (0%nat, 0%nat) = false) by (unfold reports, rate_below; cbn -[Rlt_dec]; destruct (Rlt_dec (/ 2) 0); [lra|reflexivity]). rewrite !RE. repeat (destruct (Rlt_dec _ _); [|lra]). reflexivity.
Qed.
Example C77_ex_shift : exists near n q Bs, ml_in_frame near n (ramp 0) true (upright q) 0 true = true /\ ml_extract near n (ramp 0) (upright q) 0 true = Some Bs /\
  near id_warp = true /\ sized false 20 20 (ramp 0) /\ shifted n 0 0 0 0 0 Bs Bs.
Proof.
  exists (fun _ => true), 2%nat, (at_c 10 10). eexists. split; [vm_compute; reflexivity|]. split; [vm_compute; reflexivity|]. split; [reflexivity|]. split; [split; intros; cbn; auto|].
  intros l x y _ _ _. field. apply pow_nonzero. lra.
Qed.

Print Assumptions C77_feature_in_motion.
Print Assumptions C77_small_shift_is_no_motion.
Print Assumptions C77_shift_along_strongest_gradient.
Print Assumptions C77_same_size_is_safe.
Print Assumptions C77_size_change_refuted.
Print Assumptions C77_large_shift_is_motion_refuted.
Print Assumptions C77_decision.
Print Assumptions C77_unchanged_image.
Print Assumptions C77_prediction_timers.
Print Assumptions C77_zero_velocity.
