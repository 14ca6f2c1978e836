(** C106: bearings of pixels in double precision. *)
From Coq Require Import ZArith Bool Reals Lia Lra Psatz.
From Flocq Require Import Core BinarySingleNaN.
From Verif Require Import IeeeModel IeeeSpec IeeeReal IeeeProofs IeeeAcc StampModel IcamModel IcamSpec IcamProofs IcamAcc IcamSph IcamEqui IcamProps IbackModel IbackSpec IbackProofs IbackUnit.
Local Open Scope R_scope.
Local Notation fe := (SpecFloat.fexp 53 1024).
Local Notation rn := (round radix2 fe ZnearestE).
Local Instance VE : Valid_exp fe := fexp_correct 53 1024 q53.

(** A pixel that is not finite, or a camera with a zero focal length, never gives a bearing: whatever the distortion, the
    compiler's contractions and the number of iterations, the function returns false. *)
Theorem C106_not_finite_fails : forall cz dist c u v,
  is_finite u = false \/ is_finite v = false \/ (exists s, c_fx c = B754_zero s) \/ (exists s, c_fy c = B754_zero s) ->
  to_bearing64 cz dist c u v = None.
Proof.
  intros cz dist c u v H. unfold to_bearing64. cbv zeta.
  assert (W : forall t : f32, is_finite t = false -> is_finite (widen t) = false) by (intros t T; destruct t; (discriminate T || reflexivity)).
  assert (D : forall a b : g64, is_finite a = false -> is_finite (div64 a b) = false) by (intros a b A; destruct a, b; (discriminate A || reflexivity)).
  assert (Z : forall (a : g64) s, is_finite (div64 a (B754_zero s)) = false) by (intros a s; destruct a; reflexivity).
  rewrite undistort_nonfin; [reflexivity|].
  destruct H as [H|[H|[[s H]|[s H]]]]; [left|right|left|right]; [apply D, sub_nonfin, W, H..| |]; rewrite H; apply Z.
Qed.
(** Whatever the distortion, when the iterations end at an undistorted point whose coordinates are finite and not absurd, the
    function returns true with a bearing that has unit length to about four units of the last bit and points forward; and
    within 62 degrees of the axis in each direction it is the bearing of that point to within a few units of the last bit. *)
Theorem C106_unit_length : forall cz dist c u v x y,
  let yx := div64 (sub64 (widen u) (c_cx c)) (c_fx c) in let yy := div64 (sub64 (widen v) (c_cy c)) (c_fy c) in
  undistort64 cz dist 100 yx yy yx yy = Some (x, y) -> at_most (2 ^ 100) x -> at_most (2 ^ 100) y ->
  exists bx by_ bz, to_bearing64 cz dist c u v = Some (bx, by_, bz) /\ unit_forward (bx, by_, bz) /\
    (Rabs (val64 x) <= 19 / 10 -> Rabs (val64 y) <= 19 / 10 -> Rabs (val64 bx / val64 bz - val64 x) <= / 2 ^ 50 /\ Rabs (val64 by_ / val64 bz - val64 y) <= / 2 ^ 50).
Proof.
  intros cz dist c u v x y yx yy E X Y. unfold to_bearing64. cbv zeta. fold yx yy. rewrite E.
  pose proof (unit_length cz x y (bd_val _ 100 _ X big) (bd_val _ 100 _ Y big)) as U. pose proof (direction cz x y (proj1 X) (proj1 Y)) as D. cbv zeta in D. destruct (normalized64 cz x y) as [[bx b] bz]. cbn [fst snd] in D.
  exists bx, b, bz. split; [reflexivity|]. split; [exact U|]. intros HX HY. destruct (D HX HY) as (_ & D1 & D2). replace (/ 2 ^ 50) with (8 * hu) by (unfold hu; lra). pose proof hu_pos. unfold val64 in *. split; lra.
Qed.
(** A camera without distortion: every pixel at most 3/2 focal lengths from the principal point has a bearing. It has unit
    length, its direction is that of the exact one up to 2^-39, and projecting it again, with whatever contractions, gives the
    pixel back to a three-thousandth. *)
Theorem C106_pinhole_round_trip : forall cz cz' at64 c u v, undistorted c -> usual c -> has_focal_length c -> near_axis c u v ->
  exists bx by_ bz u' v', to_bearing64 cz (radtan_jac64 cz c) c u v = Some (bx, by_, bz) /\ unit_forward (bx, by_, bz) /\
    Rabs (val64 bx / val64 bz - (B2R u - val64 (c_cx c)) / val64 (c_fx c)) <= / 2 ^ 39 /\
    Rabs (val64 by_ / val64 bz - (B2R v - val64 (c_cy c)) / val64 (c_fy c)) <= / 2 ^ 39 /\
    to_pixel64 cz' at64 c bx by_ bz = Some (u', v') /\ is_finite u' = true /\ is_finite v' = true /\
    Rabs (B2R u' - B2R u) <= / 3000 /\ Rabs (B2R v' - B2R v) <= / 3000.
Proof.
  intros cz cz' at64 c u v UD US [F1 F2] (Fu & Fv & Hu & Hv & Nu & Nv). pose proof US as (_ & _ & _ & _ & _ & FX & FY & CX & CY).
  assert (COORD : forall (w : f32) (t f : g64), is_finite w = true -> Rabs (B2R w) <= 4094 -> at_most 4096 t -> at_most 4096 f -> 1 <= val64 f -> Rabs (B2R w - val64 t) <= 3 / 2 * val64 f ->
    is_finite (div64 (sub64 (widen w) t) f) = true /\ Rabs (B2R (div64 (sub64 (widen w) t) f) - (B2R w - val64 t) / val64 f) <= 8200 * hu /\ Rabs ((B2R w - val64 t) / val64 f) <= 3 / 2).
  { intros w t f Fw Hw T [Ff Hf] F0 N. unfold val64 in *.
    assert (OW : generic_format radix2 fe (B2R w)).
    { apply generic_inclusion_mag with (SpecFloat.fexp 24 128); [|apply generic_format_B2R]. intros _. unfold SpecFloat.fexp, SpecFloat.emin. lia. }
    destruct (conv_fwd 53 1024 q53 q1024 _ _ w Fw) as [Fc Ec].
    { unfold rndf. rewrite (round_generic radix2 _ ZnearestE) by (exact OW || typeclasses eauto). eapply Rle_lt_trans; [exact Hw|]. apply Rlt_le_trans with (bpow radix2 12); [cbn; lra|apply bpow_le; lia]. }
    unfold rndf in Ec. rewrite (round_generic radix2 _ ZnearestE) in Ec by (exact OW || typeclasses eauto).
    assert (BW : bd 12 (widen w)) by (split; [exact Fc|]; unfold widen; rewrite Ec; cbn; lra). assert (BT : bd 12 t) by (apply (bd_val 4096); [exact T|cbn; lra]).
    destruct (sub_val 12 _ _ BW BT ltac:(lia)) as [BD ED]. unfold widen in ED at 2. rewrite Ec in ED. change (12 + 1)%Z with 13%Z in BD.
    assert (D8 : Rabs (B2R w - B2R t) <= 8192) by (destruct T as [_ T]; unfold val64 in T; apply Rabs_le_inv in T, Hw; apply Rabs_le; lra).
    pose proof (rn_err 13 8192 (B2R w - B2R t) ltac:(lia) eq_refl D8) as E1. rewrite <- ED in E1. set (d := sub64 (widen w) t) in *. clearbody d.
    destruct (div_val 13 0 d f BD Ff ltac:(cbn; lra) ltac:(lia)) as [[FD _] EV]. split; [exact FD|].
    assert (Q0 : 0 < / B2R f <= 1) by (split; [apply Rinv_0_lt_compat; lra|rewrite <- Rinv_1; apply Rinv_le_contravar; lra]).
    assert (ID : B2R f * / B2R f = 1) by (apply Rinv_r; lra).
    assert (R0 : Rabs ((B2R w - B2R t) / B2R f) <= 3 / 2) by (unfold Rdiv; rewrite Rabs_mult, (Rabs_pos_eq (/ B2R f)) by lra; nra).
    assert (R1 : Rabs (B2R d / B2R f - (B2R w - B2R t) / B2R f) <= 8192 * hu).
    { replace (B2R d / B2R f - (B2R w - B2R t) / B2R f) with ((B2R d - (B2R w - B2R t)) * / B2R f) by (unfold Rdiv; ring). rewrite Rabs_mult, (Rabs_pos_eq (/ B2R f)) by lra. pose proof (Rabs_pos (B2R d - (B2R w - B2R t))). nra. }
    split; [|exact R0]. rewrite EV. assert (R2 : Rabs (B2R d / B2R f) <= 2) by (eapply Rle_trans; [apply (size _ _ _ _ R0 R1)|unfold hu; lra]).
    pose proof (rn_err 1 2 (B2R d / B2R f) ltac:(lia) eq_refl R2) as E2. pose proof (tri (rn (B2R d / B2R f)) (B2R d / B2R f) ((B2R w - B2R t) / B2R f)). pose proof hu_pos. lra. }
  destruct (COORD u (c_cx c) (c_fx c) Fu Hu CX FX F1 Nu) as (FYX & EYX & MX). destruct (COORD v (c_cy c) (c_fy c) Fv Hv CY FY F2 Nv) as (FYY & EYY & MY). clear COORD.
  unfold to_bearing64. cbv zeta. set (yx := div64 (sub64 (widen u) (c_cx c)) (c_fx c)) in *. set (yy := div64 (sub64 (widen v) (c_cy c)) (c_fy c)) in *. clearbody yx yy.
  assert (TX : Rabs (B2R yx) <= 19 / 10) by (eapply Rle_trans; [apply (size _ _ _ _ MX EYX)|unfold hu; lra]). assert (TY : Rabs (B2R yy) <= 19 / 10) by (eapply Rle_trans; [apply (size _ _ _ _ MY EYY)|unfold hu; lra]).
  assert (B1 : 19 / 10 <= bpow radix2 1) by (cbn; lra).
  assert (X1 : bd 1 yx) by (split; [exact FYX|lra]). assert (Y1 : bd 1 yy) by (split; [exact FYY|lra]).
  destruct (undistort_pinhole cz c 99 yx yy UD (bd_up 1 100 _ X1 ltac:(lia)) (bd_up 1 100 _ Y1 ltac:(lia))) as (x & y & -> & [Fx Vx] & [Fy Vy]).
  pose proof (unit_length cz x y) as UL. assert (BX : bd 100 x) by (split; [exact Fx|rewrite Vx; apply (bd_up 1 100 _ X1); lia]). assert (BY : bd 100 y) by (split; [exact Fy|rewrite Vy; apply (bd_up 1 100 _ Y1); lia]). specialize (UL BX BY).
  pose proof (direction cz x y Fx Fy ltac:(rewrite Vx; exact TX) ltac:(rewrite Vy; exact TY)) as (IF & DX & DY). rewrite Vx in DX. rewrite Vy in DY.
  destruct (normalized64 cz x y) as [[bx b] bz]. cbn [fst snd] in *.
  set (eu := (B2R u - val64 (c_cx c)) / val64 (c_fx c)) in *. set (ev := (B2R v - val64 (c_cy c)) / val64 (c_fy c)) in *.
  assert (AX : Rabs (val64 bx / val64 bz - eu) <= 8210 * hu) by (pose proof (tri (val64 bx / val64 bz) (B2R yx) eu); pose proof hu_pos; lra).
  assert (AY : Rabs (val64 b / val64 bz - ev) <= 8210 * hu) by (pose proof (tri (val64 b / val64 bz) (B2R yy) ev); pose proof hu_pos; lra).
  pose proof UD as (CM & K1 & K2 & K3 & P1 & P2). apply at_most0 in K1, K2, K3, P1, P2. destruct K1 as [_ K1], K2 as [_ K2], K3 as [_ K3], P1 as [_ P1], P2 as [_ P2].
  destruct (C105_radtan_pixel_accuracy cz' at64 c bx b bz CM US IF) as (u' & v' & TP & PU & PV).
  { eapply Rle_trans; [apply (size _ _ _ _ MX AX)|unfold hu; lra]. } { eapply Rle_trans; [apply (size _ _ _ _ MY AY)|unfold hu; lra]. }
  unfold exact_u, exact_v, exact_radtan in PU, PV. cbv zeta in PU, PV. cbn [fst snd] in PU, PV. unfold val64 in PU, PV, K1, K2, K3, P1, P2. rewrite K1, K2, K3, P1, P2 in PU, PV. fold (val64 bx) (val64 b) (val64 bz) (val64 (c_fx c)) (val64 (c_fy c)) (val64 (c_cx c)) (val64 (c_cy c)) in PU, PV.
  set (px := val64 bx / val64 bz) in *. set (py := val64 b / val64 bz) in *.
  replace (px * (1 + 0 * (px * px + py * py) + 0 * ((px * px + py * py) * (px * px + py * py)) + 0 * ((px * px + py * py) * (px * px + py * py) * (px * px + py * py))) + 2 * 0 * (px * py) + 0 * (px * px + py * py + 2 * (px * px))) with px in PU by ring.
  replace (py * (1 + 0 * (px * px + py * py) + 0 * ((px * px + py * py) * (px * px + py * py)) + 0 * ((px * px + py * py) * (px * px + py * py) * (px * px + py * py))) + 0 * (px * px + py * py + 2 * (py * py)) + 2 * 0 * (px * py)) with py in PV by ring.
  assert (BACK : forall t f p (w : R), 1 <= f <= 4096 -> Rabs (p - (w - t) / f) <= 8210 * hu -> Rabs (f * p + t - w) <= / 100000).
  { intros t f p w HF A. replace (f * p + t - w) with (f * (p - (w - t) / f)) by (field; lra). rewrite Rabs_mult, (Rabs_pos_eq f) by lra. pose proof (Rabs_pos (p - (w - t) / f)). apply Rle_trans with (4096 * (8210 * hu)); [apply Rmult_le_compat; lra|unfold hu; lra]. }
  assert (RX : 1 <= val64 (c_fx c) <= 4096) by (destruct FX as [_ FX]; apply Rabs_le_inv in FX; lra). assert (RY : 1 <= val64 (c_fy c) <= 4096) by (destruct FY as [_ FY]; apply Rabs_le_inv in FY; lra).
  pose proof (BACK (val64 (c_cx c)) (val64 (c_fx c)) px (B2R u) RX AX) as BU. pose proof (BACK (val64 (c_cy c)) (val64 (c_fy c)) py (B2R v) RY AY) as BV.
  destruct PU as [GU PU]; [eapply Rle_trans; [apply (size _ _ _ _ Hu BU)|lra]|]. destruct PV as [GV PV]; [eapply Rle_trans; [apply (size _ _ _ _ Hv BV)|lra]|].
  exists bx, b, bz, u', v'. split; [reflexivity|]. split; [exact UL|]. split; [eapply Rle_trans; [exact AX|unfold hu; lra]|]. split; [eapply Rle_trans; [exact AY|unfold hu; lra]|].
  split; [exact TP|]. split; [exact GU|]. split; [exact GV|].
  split; [pose proof (tri (B2R u') (val64 (c_fx c) * px + val64 (c_cx c)) (B2R u)); lra|pose proof (tri (B2R v') (val64 (c_fy c) * py + val64 (c_cy c)) (B2R v)); lra].
Qed.
(** A calibration whose radial distortion turns back at one focal length from the axis: the pixel there is reached
    at once (the residual is zero), but the Jacobian is singular and the last step is taken all the same. The function returns
    true with a bearing that is not a number. *)
Definition turning : camera64 :=
  {| c_model := Radtan64; c_k1 := g 1 (-1); c_k2 := g (-1) (-1); c_k3 := g 0 0; c_k4 := g 0 0; c_p1 := g 0 0; c_p2 := g 0 0; c_fx := g 400 0; c_fy := g 400 0; c_cx := g 376 0; c_cy := g 240 0 |}.
Ltac eval_one t :=
  let t0 := match t with sop _ ?a ?b ?c ?d => constr:(sop Plain a b c d) | mac _ ?a ?b ?c => constr:(mac Plain a b c) | dop _ ?a ?b ?c ?d => constr:(dop Plain a b c d) | _ => t end in
  let v := eval vm_compute in (B2SF t0) in
  let w := constr:(SF2B (prec := 53) (emax := 1024) v (eq_refl true)) in
  let k := match t with sop ?k _ _ _ _ => k | mac ?k _ _ _ => k | dop ?k _ _ _ _ => k | _ => constr:(Plain) end in
  let H := fresh in assert (H : t = w) by (apply B2SF_inj; rewrite B2SF_SF2B; destruct k; vm_compute; reflexivity); rewrite H; clear H.
Local Notation fl v := (SF2B (prec := 53) (emax := 1024) v (eq_refl true)).
Definition x1 : g64 := fl (SpecFloat.S754_finite false 4503599627370496 (-52)).
Definition x0 : g64 := B754_zero false.
Ltac closed cz t := lazymatch t with context [cz _] => fail | _ => idtac end.
Ltac eval_all cz := repeat match goal with
  | |- context [sop (cz ?i) ?a ?b ?c ?d] => closed cz (a, b, c, d); let t := constr:(sop (cz i) a b c d) in eval_one t
  | |- context [mac (cz ?i) ?a ?b ?c] => closed cz (a, b, c); let t := constr:(mac (cz i) a b c) in eval_one t
  | |- context [dop (cz ?i) ?a ?b ?c ?d] => closed cz (a, b, c, d); let t := constr:(dop (cz i) a b c d) in eval_one t
  end.
Lemma undistort_S cz dist n yx yy bx b : undistort64 cz dist (S n) yx yy bx b =
  let '(t, j) := dist bx b in
  let ex := sub64 yx (fst t) in let ey := sub64 yy (snd t) in
  let du := step64 cz j ex ey in
  let bx' := add64 bx (fst du) in let by' := add64 b (snd du) in
  if Bleb (sop (cz 51%nat) ex ex ey ey) tolerance64 then Some (bx', by') else undistort64 cz dist n yx yy bx' by'.
Proof. reflexivity. Qed.
(** the values as [fl]; equality of floats by their components *)
Lemma turning_jac cz : radtan_jac64 cz turning x1 x0 = ((x1, x0), {| m00 := x0; m01 := x0; m10 := x0; m11 := x1 |}).
Proof.
  unfold radtan_jac64, radtan64. cbv zeta. cbn [turning c_k1 c_k2 c_k3 c_k4 c_p1 c_p2].
  eval_all cz. reflexivity.
Qed.
Local Notation nan := (B754_nan : g64).
Lemma turning_step cz : step64 cz {| m00 := x0; m01 := x0; m10 := x0; m11 := x1 |} x0 x0 = (nan, nan).
Proof.
  assert (M1 : mmul64 cz 40 (trans64 {| m00 := x0; m01 := x0; m10 := x0; m11 := x1 |}) {| m00 := x0; m01 := x0; m10 := x0; m11 := x1 |} = {| m00 := x0; m01 := x0; m10 := x0; m11 := x1 |}).
  { unfold mmul64, trans64. cbn [m00 m01 m10 m11 Nat.add]. eval_all cz. reflexivity. }
  unfold step64. rewrite M1. clear M1.
  assert (M2 : inv64 cz {| m00 := x0; m01 := x0; m10 := x0; m11 := x1 |} = {| m00 := B754_infinity false; m01 := nan; m10 := nan; m11 := nan |}).
  { unfold inv64. cbn [m00 m01 m10 m11]. eval_all cz. reflexivity. }
  rewrite M2. clear M2.
  assert (M3 : mmul64 cz 45 {| m00 := B754_infinity false; m01 := nan; m10 := nan; m11 := nan |} (trans64 {| m00 := x0; m01 := x0; m10 := x0; m11 := x1 |}) = {| m00 := nan; m01 := nan; m10 := nan; m11 := nan |}).
  { unfold mmul64, trans64. cbn [m00 m01 m10 m11 Nat.add]. eval_all cz. reflexivity. }
  rewrite M3. unfold mvec64. cbn [m00 m01 m10 m11]. eval_all cz. reflexivity.
Qed.
Theorem C106_success_is_number_refuted : exists c u v, c_model c = Radtan64 /\ usual c /\ has_focal_length c /\ near_axis c u v /\
  forall cz, to_bearing64 cz (radtan_jac64 cz c) c u v = Some nowhere.
Proof.
  exists turning, (f32_of_Z 776), (f32_of_Z 240).
  assert (W : forall m, (Z.abs m < 2 ^ 53)%Z -> val64 (g m 0) = IZR m) by (intros m H; unfold val64; rewrite (proj2 (g_val m 0 H ltac:(lia))); unfold F2R; cbn; lra).
  assert (HF : forall m, (Z.abs m <= 1)%Z -> at_most 1 (g m (-1))).
  { intros m H. destruct (g_val m (-1) ltac:(lia) ltac:(lia)) as [F V]. split; [exact F|]. unfold val64. rewrite V. unfold F2R. cbn [Fnum Fexp]. rewrite Rabs_mult, <- abs_IZR. change (bpow radix2 (-1)) with (/ 2). rewrite (Rabs_pos_eq (/ 2)) by lra. apply IZR_le in H. lra. }
  split; [reflexivity|]. split; [repeat split; first [apply HF; lia | apply g_int; lia]|].
  split; [split; cbn [turning c_fx c_fy]; rewrite W by lia; lra|]. split.
  { assert (V : B2R (f32_of_Z 776) = 776 /\ B2R (f32_of_Z 240) = 240).
    { split; rewrite <- SF2R_B2SF; [replace (B2SF (f32_of_Z 776)) with (SpecFloat.S754_finite false 12713984 (-14)) by (vm_compute; reflexivity)|replace (B2SF (f32_of_Z 240)) with (SpecFloat.S754_finite false 15728640 (-16)) by (vm_compute; reflexivity)]; unfold SF2R, F2R; cbn; lra. }
    destruct V as [V1 V2]. unfold near_axis. cbn [turning c_fx c_fy c_cx c_cy]. rewrite V1, V2, !W by lia. split; [vm_compute; reflexivity|]. split; [vm_compute; reflexivity|].
    repeat split; apply Rabs_le; lra. }
  intros cz. unfold to_bearing64. cbv zeta. cbn [turning c_fx c_fy c_cx c_cy].
  assert (YX : div64 (sub64 (widen (f32_of_Z 776)) (g 376 0)) (g 400 0) = x1) by (apply B2SF_inj; vm_compute; reflexivity).
  assert (YY : div64 (sub64 (widen (f32_of_Z 240)) (g 240 0)) (g 400 0) = x0) by (apply B2SF_inj; vm_compute; reflexivity).
  rewrite YX, YY. change 100%nat with (S 99). rewrite undistort_S, turning_jac. cbv zeta. cbn [fst snd].
  assert (E1 : sub64 x1 x1 = x0) by (apply B2SF_inj; vm_compute; reflexivity). assert (E0 : sub64 x0 x0 = x0) by (apply B2SF_inj; vm_compute; reflexivity). rewrite E1, E0, turning_step. cbn [fst snd].
  assert (L : Bleb (sop (cz 51%nat) x0 x0 x0 x0) tolerance64 = true) by (destruct (cz 51%nat); vm_compute; reflexivity). rewrite L.
  assert (A1 : add64 x1 nan = nan) by reflexivity. assert (A0 : add64 x0 nan = nan) by reflexivity. rewrite A1, A0. unfold normalized64. cbv zeta.
  eval_all cz. reflexivity.
Qed.
(** A camera and a pixel to which the round trip applies. *)
Example C106_ex : undistorted (pinhole Radtan64) /\ usual (pinhole Radtan64) /\ has_focal_length (pinhole Radtan64) /\ near_axis (pinhole Radtan64) (f32_of_Z 776) (f32_of_Z 240) /\
  at_most (2 ^ 100) x1 /\ is_finite (f32_of_Z 776) = true /\ is_finite (B754_nan : f32) = false.
Proof.
  assert (W : forall m, (Z.abs m < 2 ^ 53)%Z -> val64 (g m 0) = IZR m) by (intros m H; unfold val64; rewrite (proj2 (g_val m 0 H ltac:(lia))); unfold F2R; cbn; lra).
  split; [repeat split; apply (g_int 0 0); lia|]. split; [apply pinhole_usual|]. split; [split; cbn [pinhole c_fx c_fy]; rewrite W by lia; lra|]. split.
  { assert (V : B2R (f32_of_Z 776) = 776 /\ B2R (f32_of_Z 240) = 240).
    { split; rewrite <- SF2R_B2SF; [replace (B2SF (f32_of_Z 776)) with (SpecFloat.S754_finite false 12713984 (-14)) by (vm_compute; reflexivity)|replace (B2SF (f32_of_Z 240)) with (SpecFloat.S754_finite false 15728640 (-16)) by (vm_compute; reflexivity)]; unfold SF2R, F2R; cbn; lra. }
    destruct V as [V1 V2]. unfold near_axis. cbn [pinhole c_fx c_fy c_cx c_cy]. rewrite V1, V2, !W by lia. split; [vm_compute; reflexivity|]. split; [vm_compute; reflexivity|].
    repeat split; apply Rabs_le; lra. }
  split; [|split; [vm_compute; reflexivity|reflexivity]]. split; [reflexivity|]. unfold val64, x1. rewrite <- SF2R_B2SF, B2SF_SF2B. unfold SF2R, F2R. cbn [Fnum Fexp cond_Zopp].
  replace (IZR 4503599627370496 * bpow radix2 (-52)) with 1 by (change (bpow radix2 (-52)) with (/ IZR 4503599627370496); field). rewrite Rabs_pos_eq by lra. apply pow_R1_Rle. lra.
Qed.

Print Assumptions C106_not_finite_fails.
Print Assumptions C106_unit_length.
Print Assumptions C106_pinhole_round_trip.
Print Assumptions C106_success_is_number_refuted.
