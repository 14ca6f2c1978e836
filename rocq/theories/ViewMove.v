From Coq Require Import List ZArith Reals Bool Lia Lra Psatz.
From Verif Require Import Geo DistModel SceneModel SceneSpec ViewModel ViewSpec ViewProofs.
Import ListNotations.
Local Open Scope R_scope.

(** keys *)
Definition key_shift (key : Z) (s : R) : V3 :=
  match key with
  | 101%Z => (0, 0, s) | 103%Z => (0, 0, - s) | 100%Z => (s, 0, 0) | 102%Z => (- s, 0, 0)
  | 104%Z => (0, - s, 0) | 105%Z => (0, s, 0) | _ => v0
  end.
Lemma key_moves key s (q : M3) (v p : V3) : is_rot q ->
  mv q (vsub p (key_move key s q v)) = vadd (mv q (vsub p v)) (key_shift key s).
Proof.
  intro Q.
  assert (P : forall e : V3, mv q (vsub p (vadd v (vscale s (mv (mt q) e)))) = vadd (mv q (vsub p v)) (vscale (- s) e)).
  { intro e. rewrite !mv_sub, mv_add, mv_scale, rot_inv_r by exact Q. generalize (mv q p) (mv q v). intros. veq. }
  assert (M : forall e : V3, mv q (vsub p (vsub v (vscale s (mv (mt q) e)))) = vadd (mv q (vsub p v)) (vscale s e)).
  { intro e. rewrite !mv_sub, mv_scale, rot_inv_r by exact Q. generalize (mv q p) (mv q v). intros. veq. }
  assert (Z0 : mv q (vsub p v) = vadd (mv q (vsub p v)) v0) by (generalize (mv q (vsub p v)); intros; veq).
  unfold key_move, key_shift.
  repeat match goal with |- context [match ?x with _ => _ end] => destruct x; try exact Z0 end;
    rewrite ?P, ?M; generalize (mv q (vsub p v)); intros; veq.
Qed.

(** yaw *)
Lemma yaw_rot a : is_rot (yaw a).
Proof.
  pose proof (sin2_cos2 a) as H. unfold Rsqr in H. unfold yaw, is_rot, mm, mt, det3, m1.
  unfold cross, dot, r0, r1, r2, vx, vy, vz. cbn [fst snd].
  split; [|split].
  - repeat (apply f_equal2); nra.
  - repeat (apply f_equal2); nra.
  - nra.
Qed.
Lemma yaw_axis (q : M3) a w : is_rot q -> mv (mt (mm (yaw a) q)) (0, 0, w) = mv (mt q) (0, 0, w).
Proof.
  intros _. rewrite mt_mm, mv_mm. f_equal. unfold yaw, mt, mv, dot, r0, r1, r2, vx, vy, vz. cbn [fst snd].
  repeat (apply f_equal2); ring.
Qed.

(** height of the camera's down direction *)
Lemma height_eq (q : M3) a : height_of_down q a = - (vz (r0 q) * sin a + vz (r1 q) * cos a).
Proof.
  unfold height_of_down. destruct q as [[[[q1 q2] q3] [[q4 q5] q6]] [[q7 q8] q9]].
  unfold yaw, mm, mt, mv, dot, r0, r1, r2, vx, vy, vz. cbn [fst snd]. ring.
Qed.
Lemma column_unit (q : M3) : is_rot q ->
  vz (r0 q) * vz (r0 q) + vz (r1 q) * vz (r1 q) + vz (r2 q) * vz (r2 q) = 1.
Proof.
  intros (_ & H & _). destruct q as [[[[q1 q2] q3] [[q4 q5] q6]] [[q7 q8] q9]].
  unfold mm, mt, m1, dot, r0, r1, r2, vx, vy, vz in *. cbn [fst snd] in *. injection H. intros. lra.
Qed.
Lemma polar u v : exists a0 rho, 0 <= a0 <= 2 * PI /\ 0 <= rho /\ rho * rho = u * u + v * v /\ u = rho * sin a0 /\ v = rho * cos a0.
Proof.
  pose proof PI_RGT_0.
  set (rho := sqrt (u * u + v * v)).
  assert (N : 0 <= u * u + v * v) by nra.
  assert (R2 : rho * rho = u * u + v * v) by (apply sqrt_sqrt; exact N).
  assert (R0 : 0 <= rho) by apply sqrt_pos.
  destruct (Req_dec rho 0) as [Z|Z].
  - exists 0, 0. rewrite Z in R2. assert (u = 0) by nra. assert (v = 0) by nra. subst u v.
    split; [lra|]. split; [lra|]. split; [lra|]. split; ring.
  - assert (RP : 0 < rho) by lra.
    assert (B : -1 <= v / rho <= 1).
    { assert (- rho <= v <= rho) by (split; nra).
      split; apply (Rmult_le_reg_r rho); try lra; unfold Rdiv; rewrite (Rmult_assoc v), Rinv_l by lra; lra. }
    pose proof (acos_bound (v / rho)) as AB.
    pose proof (cos_acos (v / rho) B) as CA. pose proof (sin_acos (v / rho) B) as SA.
    assert (SQ : sqrt (1 - (v / rho)²) = Rabs u / rho).
    { unfold Rsqr. replace (1 - v / rho * (v / rho)) with ((u / rho) * (u / rho)).
      - change ((u / rho) * (u / rho)) with ((u / rho)²). rewrite sqrt_Rsqr_abs. unfold Rdiv.
        rewrite Rabs_mult, (Rabs_pos_eq (/ rho)); [reflexivity|]. left. now apply Rinv_0_lt_compat.
      - replace (u / rho * (u / rho)) with ((u * u) / (rho * rho)) by (field; lra).
        replace (v / rho * (v / rho)) with ((v * v) / (rho * rho)) by (field; lra).
        rewrite R2. field. nra. }
    rewrite SQ in SA.
    destruct (Rle_dec 0 u) as [U|U].
    + exists (acos (v / rho)), rho. split; [lra|]. split; [exact R0|]. split; [exact R2|].
      rewrite CA, SA, Rabs_pos_eq by exact U. split; field; lra.
    + exists (2 * PI - acos (v / rho)), rho. split; [lra|]. split; [exact R0|]. split; [exact R2|].
      rewrite sin_minus, cos_minus, sin_2PI, cos_2PI, CA, SA, Rabs_left by lra. split; field; lra.
Qed.

(** the minimum search *)
Lemma search (f : R -> R) : forall l s,
  let r := fold_left (fun (s : R * R) a => if Rlt_dec (f a) (fst s) then (f a, a) else s) l s in
  fst r <= fst s /\ (forall b, In b l -> fst r <= f b) /\ (r = s \/ (fst r = f (snd r) /\ In (snd r) l)).
Proof.
  induction l as [|a l IH]; intros s; cbn [fold_left].
  - cbv zeta. split; [lra|]. split; [intros b []|now left].
  - cbv zeta. destruct (Rlt_dec (f a) (fst s)) as [C|C].
    + destruct (IH (f a, a)) as (A & B & D). cbn [fst] in A. split; [lra|]. split.
      * intros b [<-|Hb]; [exact A | now apply B].
      * right. destruct D as [D|[D1 D2]]; [rewrite D; cbn; auto | split; [exact D1 | now right]].
    + destruct (IH s) as (A & B & D). split; [exact A|]. split.
      * intros b [<-|Hb]; [lra | now apply B].
      * destruct D as [D|[D1 D2]]; [now left | right; split; [exact D1 | now right]].
Qed.
Lemma height_le_1 (q : M3) a : is_rot q -> height_of_down q a <= 1.
Proof.
  intro Q. pose proof (column_unit q Q) as C. rewrite height_eq.
  pose proof (sin2_cos2 a) as S. unfold Rsqr in S.
  set (u := vz (r0 q)) in *. set (v := vz (r1 q)) in *. set (w := vz (r2 q)) in *. clearbody u v w.
  set (x := sin a) in *. set (y := cos a) in *. clearbody x y.
  pose proof (Rle_0_sqr (u + x)) as A. pose proof (Rle_0_sqr (v + y)) as B. pose proof (Rle_0_sqr w) as D.
  unfold Rsqr in *. nra.
Qed.
Lemma zero_sampled step : In 0 (sampled step).
Proof. unfold sampled. cbn [seq map]. left. cbn. ring. Qed.
Lemma y_down_min (q : M3) step : is_rot q ->
  In (y_down_angle q step) (sampled step) /\
  forall b, In b (sampled step) -> height_of_down q (y_down_angle q step) <= height_of_down q b.
Proof.
  intro Q. destruct (search (height_of_down q) (sampled step) (1, 0)) as (A & B & D).
  unfold y_down_angle. set (r := fold_left _ _ _) in *. clearbody r.
  destruct D as [D|[D1 D2]].
  - rewrite D in *. cbn [fst snd] in *. split; [apply zero_sampled|]. intros b Hb.
    pose proof (height_le_1 q 0 Q). specialize (B b Hb). lra.
  - split; [exact D2|]. intros b Hb. rewrite <- D1. now apply B.
Qed.
Lemma sampled_in step k : 0 < step -> INR k * step <= 2 * PI -> In (INR k * step) (sampled step).
Proof.
  intros H K. unfold sampled. apply in_map_iff. exists k. split; [reflexivity|]. apply in_seq. split; [lia|].
  destruct (base_Int_part (2 * PI / step)) as [_ B].
  assert (INR k <= 2 * PI / step).
  { apply (Rmult_le_reg_r step); [exact H|]. unfold Rdiv. rewrite (Rmult_assoc (2 * PI)), Rinv_l by lra. lra. }
  assert (IZR (Z.of_nat k) < IZR (Int_part (2 * PI / step) + 1)).
  { rewrite <- INR_IZR_INZ, plus_IZR. lra. }
  apply lt_IZR in H1. lia.
Qed.
Lemma sampled_iff step b : 0 < step ->
  In b (sampled step) <-> exists k : nat, b = INR k * step /\ b <= 2 * PI.
Proof.
  intro H. split.
  - unfold sampled. intro Hb. apply in_map_iff in Hb. destruct Hb as (k & <- & Hk). exists k.
    split; [reflexivity|]. apply in_seq in Hk. destruct (base_Int_part (2 * PI / step)) as [A _].
    assert (P : 0 <= 2 * PI / step) by (left; apply Rdiv_lt_0_compat; pose proof PI_RGT_0; lra).
    assert (Z0 : (0 <= Int_part (2 * PI / step))%Z).
    { destruct (base_Int_part (2 * PI / step)) as [_ B].
      assert (IZR (-1) < IZR (Int_part (2 * PI / step))) by lra. apply lt_IZR in H0. lia. }
    assert (INR k <= 2 * PI / step).
    { eapply Rle_trans; [|exact A]. rewrite INR_IZR_INZ. apply IZR_le. lia. }
    apply (Rmult_le_compat_r step) in H0; [|lra]. unfold Rdiv in H0. rewrite (Rmult_assoc (2 * PI)), Rinv_l in H0 by lra. lra.
  - intros (k & -> & K). now apply sampled_in.
Qed.
Lemma near_sample step a0 : 0 < step <= PI -> 0 <= a0 <= 2 * PI ->
  exists b, In b (sampled step) /\ cos (step / 2) <= cos (b - a0).
Proof.
  intros H HA.
  assert (CM : forall d, 0 <= d <= step / 2 -> cos (step / 2) <= cos d) by (intros d Hd; apply cos_decr_1; lra).
  destruct (base_Int_part (a0 / step)) as [A B].
  assert (EA : a0 / step * step = a0) by (unfold Rdiv; rewrite Rmult_assoc, Rinv_l by lra; ring).
  assert (Z0 : (0 <= Int_part (a0 / step))%Z).
  { assert (0 <= a0 / step) by (apply Rmult_le_pos; [lra | left; apply Rinv_0_lt_compat; lra]).
    assert (IZR (-1) < IZR (Int_part (a0 / step))) by lra. apply lt_IZR in H1. lia. }
  set (k := Z.to_nat (Int_part (a0 / step))).
  assert (EK : INR k = IZR (Int_part (a0 / step))) by (unfold k; rewrite INR_IZR_INZ, Z2Nat.id by exact Z0; reflexivity).
  rewrite <- EK in A, B. clearbody k.
  assert (A' : INR k * step <= a0) by nra. assert (B' : a0 < (INR k + 1) * step) by nra.
  destruct (Rle_dec (a0 - INR k * step) (step / 2)) as [C|C].
  - exists (INR k * step). split; [apply sampled_in; lra|].
    rewrite <- (cos_neg (INR k * step - a0)). replace (- (INR k * step - a0)) with (a0 - INR k * step) by ring. apply CM. lra.
  - destruct (Rle_dec ((INR k + 1) * step) (2 * PI)) as [D|D].
    + exists (INR (S k) * step). rewrite S_INR. split; [rewrite <- S_INR; apply sampled_in; [lra | rewrite S_INR; lra]|].
      apply CM. lra.
    + exists 0. split; [apply zero_sampled|].
      replace (cos (0 - a0)) with (cos (2 * PI - a0)) by (rewrite !cos_minus, cos_2PI, sin_2PI, cos_0, sin_0; ring).
      apply CM. lra.
Qed.
Lemma y_down_bound (q : M3) step a : is_rot q -> 0 < step <= PI ->
  height_of_down q a <= 0 -> height_of_down q (y_down_angle q step) <= cos (step / 2) * height_of_down q a.
Proof.
  intros Q H HA. destruct (polar (vz (r0 q)) (vz (r1 q))) as (a0 & rho & Ha0 & Hr & R2 & EU & EV).
  assert (HE : forall b, height_of_down q b = - (rho * cos (b - a0))).
  { intro b. rewrite height_eq, EU, EV, cos_minus. ring. }
  destruct (near_sample step a0 H Ha0) as (b & Hb & Cb).
  pose proof (proj2 (y_down_min q step Q) b Hb) as M. rewrite HE in M. rewrite (HE b) in M. rewrite (HE (y_down_angle q step)).
  rewrite HE in HA |- *.
  pose proof (COS_bound (a - a0)) as CB.
  assert (0 <= cos (step / 2)) by (apply cos_ge_0; pose proof PI_RGT_0; lra).
  assert (rho * cos (step / 2) <= rho * cos (b - a0)) by (apply Rmult_le_compat_l; lra).
  assert (rho * cos (a - a0) <= rho * 1) by (apply Rmult_le_compat_l; lra).
  assert (cos (step / 2) * (rho * cos (a - a0)) <= cos (step / 2) * (rho * 1)) by (apply Rmult_le_compat_l; lra).
  lra.
Qed.
