From Coq Require Import Reals Lra Psatz Lia.
From Coquelicot Require Import Coquelicot.
From Verif Require Import CamModel CamSpec CamProofs.
Local Open Scope R_scope.

(** the Gauss-Newton step of a square system is the exact Newton step *)
Lemma gn_step_solves a b c d e0 e1 du0 du1 : gn_step (a, b, c, d) (e0, e1) = Some (du0, du1) ->
  a * du0 + b * du1 = e0 /\ c * du0 + d * du1 = e1.
Proof.
  unfold gn_step. destruct (Req_EM_T _ 0) as [|N]; [discriminate|]. intros H. injection H as <- <-.
  assert (D : (a * a + c * c) * (b * b + d * d) - (a * b + c * d) * (a * b + c * d) = (a * d - b * c) * (a * d - b * c)) by ring.
  rewrite D in *. assert (a * d - b * c <> 0) by (intros E; apply N; rewrite E; ring).
  split; field; auto.
Qed.

Lemma gn_step_singular a b c d e : gn_step (a, b, c, d) e = None <-> a * d - b * c = 0.
Proof.
  destruct e as [e0 e1]. unfold gn_step.
  assert (D : (a * a + c * c) * (b * b + d * d) - (a * b + c * d) * (a * b + c * d) = (a * d - b * c) * (a * d - b * c)) by ring.
  destruct (Req_EM_T _ 0) as [E|N].
  - rewrite D in E. split; auto. intros _. apply Rmult_integral in E. tauto.
  - split; [discriminate|]. intros E. rewrite D, E in N. exfalso. apply N. ring.
Qed.

Lemma undistort_found n k y : forall yb r, undistort n k y yb = Found r ->
  exists g du, let yt := distort k g in
    (fst y - fst yt) * (fst y - fst yt) + (snd y - snd yt) * (snd y - snd yt) <= tolerance /\
    gn_step (snd (distort_J k g)) (fst y - fst yt, snd y - snd yt) = Some du /\
    r = (fst g + fst du, snd g + snd du).
Proof.
  induction n as [|n IH]; intros yb r H; cbn [undistort] in H; [discriminate|].
  destruct (distort_J k yb) as [yt J] eqn:EJ.
  destruct (Rle_dec _ tolerance) as [L|L].
  - destruct (gn_step J _) as [du|] eqn:G; [|discriminate].
    injection H as <-. exists yb, du. cbn. rewrite <- (distort_value k yb), EJ. cbn. auto.
  - destruct (gn_step J _) as [du|] eqn:G; [|discriminate]. eauto.
Qed.

Lemma normalize_unit a b : let v := normalize3 (a, b, 1) in norm3 v = 1 /\ 0 < depth v.
Proof.
  cbn. set (n := sqrt (a * a + b * b + 1 * 1)).
  assert (Hn : 0 < n) by (apply sqrt_lt_R0; nra).
  assert (H2 : n * n = a * a + b * b + 1 * 1) by (apply sqrt_sqrt; nra).
  split.
  - replace (a / n * (a / n) + b / n * (b / n) + 1 / n * (1 / n)) with ((a * a + b * b + 1 * 1) / (n * n)) by (field; lra).
    rewrite H2. unfold Rdiv. rewrite Rinv_r by nra. apply sqrt_1.
  - unfold Rdiv. rewrite Rmult_1_l. apply Rinv_0_lt_compat; auto.
Qed.

Lemma backproject_success n k c v : pixel_to_bearing_n n k c = BOk v ->
  let y := ((fst c - cx k) / fx k, (snd c - cy k) / fy k) in
  norm3 v = 1 /\ 0 < depth v /\
  exists g du lam, let yt := distort k g in
    (fst y - fst yt) * (fst y - fst yt) + (snd y - snd yt) * (snd y - snd yt) <= tolerance /\
    (let '(a, b, p, q) := snd (distort_J k g) in
     a * fst du + b * snd du = fst y - fst yt /\ p * fst du + q * snd du = snd y - snd yt) /\
    0 < lam /\ scale3 lam v = (fst g + fst du, snd g + snd du, 1).
Proof.
  unfold pixel_to_bearing_n. intros H. cbn [fst snd].
  set (y0 := (fst c - cx k) / fx k) in *. set (y1 := (snd c - cy k) / fy k) in *.
  destruct (undistort n k (y0, y1) (y0, y1)) as [[a b]| |] eqn:U; [|discriminate|discriminate].
  injection H as <-. destruct (normalize_unit a b) as [N1 N2]. split; [exact N1|]. split; [exact N2|].
  apply undistort_found in U as (g&du&L&G&E). exists g, du, (sqrt (a * a + b * b + 1 * 1)). cbn in *.
  split; [exact L|]. split.
  - destruct (snd (distort_J k g)) as [[[j00 j01] j10] j11]. destruct du as [d0 d1]. now apply gn_step_solves in G.
  - assert (Hn : 0 < sqrt (a * a + b * b + 1 * 1)) by (apply sqrt_lt_R0; nra). split; [auto|].
    injection E as -> ->. cbn. f_equal; [f_equal|]; field; lra.
Qed.

Lemma no_distortion_J k i : no_distortion k -> distort_J k i = (i, (1, 0, 0, 1)).
Proof.
  destruct i as [x y]. unfold no_distortion, distort_J. destruct (ctype k).
  - intros (a & b & c & d & e).
    unfold distort_radtan_J. rewrite a, b, c, d, e. f_equal; [f_equal; ring|f_equal; [f_equal; [f_equal|]|]; ring].
  - tauto.
  - intros [a b]. unfold distort_ds_J. destruct (Rlt_dec _ _); [reflexivity|].
    unfold ds_den. rewrite a, b.
    replace (1 / (0 * ds_d2 k (x * x + y * y) + (1 - 0) * (0 * ds_d1 (x * x + y * y) + 1))) with 1
      by (replace (0 * ds_d2 k (x * x + y * y) + (1 - 0) * (0 * ds_d1 (x * x + y * y) + 1)) with 1 by ring; field).
    f_equal; [f_equal; ring|]. unfold Rdiv. f_equal; [f_equal; [f_equal|]|]; ring.
Qed.

Lemma tol_pos : 0 < tolerance. Proof. unfold tolerance. lra. Qed.

Lemma backproject_exact n k c : no_distortion k -> fx k <> 0 -> fy k <> 0 -> (0 < n)%nat ->
  exists v, pixel_to_bearing_n n k c = BOk v /\ bearing_to_pixel k v = Some c.
Proof.
  intros ND Hfx Hfy Hn. destruct n as [|n]; [lia|].
  unfold pixel_to_bearing_n. set (y0 := (fst c - cx k) / fx k). set (y1 := (snd c - cy k) / fy k).
  cbn [undistort]. rewrite no_distortion_J by auto. cbn [fst snd].
  assert (G : gn_step (1, 0, 0, 1) (y0 - y0, y1 - y1) = Some (0, 0)).
  { unfold gn_step. destruct (Req_EM_T _ 0) as [E|N]; [exfalso; lra|]. f_equal. f_equal; field. }
  rewrite G. cbn [fst snd]. destruct (Rle_dec _ tolerance) as [L|L].
  2:{ exfalso. apply L. pose proof tol_pos. replace ((y0 - y0) * (y0 - y0) + (y1 - y1) * (y1 - y1)) with 0 by ring. lra. }
  eexists. split; [reflexivity|].
  rewrite !Rplus_0_r. cbn. set (m := sqrt (y0 * y0 + y1 * y1 + 1 * 1)).
  assert (Hm : 0 < m) by (apply sqrt_lt_R0; nra).
  assert (P : 0 < 1 / m) by (unfold Rdiv; rewrite Rmult_1_l; apply Rinv_0_lt_compat; auto).
  destruct (Rle_dec (1 / m) 0); [lra|].
  replace (y0 / m / (1 / m)) with y0 by (field; lra). replace (y1 / m / (1 / m)) with y1 by (field; lra).
  rewrite <- distort_value, no_distortion_J by auto. cbn. destruct c as [c0 c1]. unfold y0, y1. cbn.
  f_equal. f_equal; field; auto.
Qed.

(** success flag with an undefined bearing *)
Definition fold_cam : camera :=
  {| ctype := RADTAN; k1 := 1 / 2; k2 := - (1 / 2); k3 := 0; k4 := 0; p1 := 0; p2 := 0;
     fx := 100; fy := 100; cx := 50; cy := 50 |}.
Lemma backproject_nan_n m : pixel_to_bearing_n (S m) fold_cam (150, 50) = BNaN.
Proof.
  unfold pixel_to_bearing_n. cbn [fst snd].
  replace ((150 - cx fold_cam) / fx fold_cam) with 1 by (cbn; field).
  replace ((50 - cy fold_cam) / fy fold_cam) with 0 by (cbn; field).
  cbn [undistort]. unfold distort_J, distort_radtan_J. cbn [ctype fold_cam k1 k2 k3 p1 p2 fst snd].
  destruct (gn_step _ _) as [du|] eqn:G.
  - exfalso. match type of G with gn_step (?a, ?b, ?c, ?d) ?e = _ =>
      assert (S : gn_step (a, b, c, d) e = None) by (apply gn_step_singular; field) end. congruence.
  - destruct (Rle_dec _ tolerance) as [L|L]; [reflexivity|]. exfalso. apply L. pose proof tol_pos.
    match goal with |- ?l <= _ => replace l with 0 by field end. lra.
Qed.

Lemma backproject_nan : pixel_to_bearing fold_cam (150, 50) = BNaN.
Proof. exact (backproject_nan_n 99). Qed.

(** ** C20 *)
Lemma equidist_limit k : forall e, 0 < e -> exists d, 0 < d /\ forall r, 0 < r < d -> Rabs (equidist_scale k r - 1) < e.
Proof.
  intros e He.
  assert (D : derivable_pt_lim (fun r => thd_of k (atan r)) 0 1).
  { apply is_dl. unfold thd_of. auto_derive; [auto|]. rewrite atan_0. field. }
  destruct (D e He) as [d H]. exists d. split; [apply cond_pos|]. intros r [R0 R1].
  specialize (H r ltac:(lra) ltac:(rewrite Rabs_pos_eq; lra)).
  rewrite atan_0, Rplus_0_l in H. unfold equidist_scale.
  replace (thd_of k 0) with 0 in H by (unfold thd_of; ring). now rewrite Rminus_0_r in H.
Qed.

Lemma ds_den_0 k : 0 < 1 + k1 k -> ds_den k 0 = 1 + k1 k.
Proof.
  intros H. unfold ds_den, ds_d2, ds_d1. rewrite !Rplus_0_l, sqrt_1, Rmult_1_r.
  rewrite sqrt_square by lra. ring.
Qed.
Lemma ds_limit k : 0 < 1 + k1 k -> forall e, 0 < e -> exists d, 0 < d /\ forall r2, 0 < r2 < d ->
  Rabs (1 / ds_den k r2 - 1 / (1 + k1 k)) < e.
Proof.
  intros H e He.
  assert (D : ex_derive (fun r2 => 1 / ds_den k r2) 0).
  { unfold ds_den, ds_d2, ds_d1. auto_derive.
    rewrite !Rplus_0_l, sqrt_1, Rmult_1_r. rewrite sqrt_square by lra. repeat split; try lra; nra. }
  apply ex_derive_continuous in D.
  assert (L := proj1 (filterlim_locally _ _) D (mkposreal e He)). cbn in L.
  destruct L as [d L]. exists d. split; [apply cond_pos|]. intros r2 [R0 R1].
  specialize (L r2). rewrite ds_den_0 in L by auto. apply L.
  unfold ball; cbn; unfold AbsRing_ball, abs, minus, plus, opp; cbn. rewrite Ropp_0, Rplus_0_r, Rabs_pos_eq; lra.
Qed.

Lemma ds_axis_inside k x : 0 <= x < r_min -> distort_ds k (x, 0) = (x, 0).
Proof.
  intros H. unfold distort_ds. destruct (Rlt_dec _ _) as [|N]; [reflexivity|].
  exfalso. apply N. rewrite r2min_sq. nra.
Qed.
Lemma ds_axis_border k : distort_ds k (r_min, 0) = (r_min * (1 / ds_den k r2_min), 0).
Proof.
  unfold distort_ds. replace (r_min * r_min + 0 * 0) with r2_min by (rewrite r2min_sq; ring).
  destruct (Rlt_dec _ _); [lra|]. f_equal. ring.
Qed.

Lemma ds_jump k : ds_den k r2_min <> 0 -> ds_den k r2_min <> 1 ->
  ~ continuity_pt (fun x => fst (distort_ds k (x, 0))) r_min.
Proof.
  intros N0 N1 C. pose proof rmin_pos as RP.
  set (s := 1 / ds_den k r2_min) in *.
  assert (Hs : s <> 1). { unfold s. intros E. apply N1. apply (f_equal (fun z => z * ds_den k r2_min)) in E. unfold Rdiv in E.
     rewrite Rmult_assoc, Rinv_l in E by auto. lra. }
  set (gap := r_min * Rabs (s - 1) / 2).
  assert (Hg : 0 < gap). { unfold gap. assert (0 < Rabs (s - 1)) by (apply Rabs_pos_lt; lra). nra. }
  unfold continuity_pt, continue_in, limit1_in, limit_in in C. cbn -[distort_ds] in C.
  destruct (C gap Hg) as (al&Hal&Hc).
  set (x := r_min - Rmin (al / 2) (Rmin (r_min / 2) gap)).
  assert (M : 0 < Rmin (al / 2) (Rmin (r_min / 2) gap)) by (repeat apply Rmin_pos; lra).
  pose proof (Rmin_l (al / 2) (Rmin (r_min / 2) gap)). pose proof (Rmin_r (al / 2) (Rmin (r_min / 2) gap)).
  pose proof (Rmin_l (r_min / 2) gap). pose proof (Rmin_r (r_min / 2) gap).
  assert (Hx : 0 <= x < r_min) by (unfold x; lra).
  specialize (Hc x). unfold R_dist in Hc.
  assert (Hd : D_x no_cond r_min x /\ Rabs (x - r_min) < al).
  { split; [split; [exact I|lra]|]. rewrite Rabs_left; unfold x; lra. }
  specialize (Hc Hd). rewrite ds_axis_inside, ds_axis_border in Hc by auto. cbn [fst] in Hc. fold s in Hc.
  assert (T : Rabs (r_min * s - r_min) = 2 * gap).
  { unfold gap. replace (r_min * s - r_min) with (r_min * (s - 1)) by ring. rewrite Rabs_mult, (Rabs_pos_eq r_min) by lra. field. }
  assert (X : Rabs (x - r_min) <= gap) by (rewrite Rabs_left; unfold x; lra).
  replace (r_min * s - r_min) with ((x - r_min) - (x - r_min * s)) in T by ring.
  pose proof (Rabs_triang (x - r_min) (- (x - r_min * s))) as Tr. rewrite Rabs_Ropp in Tr. unfold Rminus at 1 in T. lra.
Qed.

Lemma ds_den_gt k r2 : 0 < k1 k -> 0 <= k2 k <= 1 -> 0 <= r2 -> 1 < ds_den k r2.
Proof.
  intros H1 H2 Hr. unfold ds_den.
  assert (D1 : 1 <= ds_d1 r2). { unfold ds_d1. rewrite <- sqrt_1 at 1. apply sqrt_le_1; lra. }
  assert (D2 : k1 k * ds_d1 r2 + 1 <= ds_d2 k r2).
  { unfold ds_d2. rewrite <- (sqrt_square (k1 k * ds_d1 r2 + 1)) at 1 by nra. apply sqrt_le_1; nra. }
  nra.
Qed.
Lemma ds_jump_pos k : 0 < k1 k -> 0 <= k2 k <= 1 -> ~ continuity_pt (fun x => fst (distort_ds k (x, 0))) r_min.
Proof.
  intros H1 H2. assert (R : 0 <= r2_min) by (unfold r2_min; lra).
  pose proof (ds_den_gt k r2_min H1 H2 R). apply ds_jump; lra.
Qed.
