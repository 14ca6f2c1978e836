(** C106: pixels of undistorted cameras and principal points. *)
From Coq Require Import ZArith Bool Reals Lia Lra Psatz.
From Flocq Require Import Core BinarySingleNaN.
From Verif Require Import IeeeModel IeeeSpec IeeeReal IeeeProofs IeeeAcc StampModel IcamModel IcamSpec IcamAccSpec IcamProofs IcamAcc IcamSph IcamEqui IcamProps IcamAccProps IbackModel IbackSpec IbackProofs IbackUnit IbackProps IbjacModel IbjacProofs.
Local Open Scope R_scope.
Local Notation fe := (SpecFloat.fexp 53 1024).
Local Notation rn := (round radix2 fe ZnearestE).
Local Instance VE : Valid_exp fe := fexp_correct 53 1024 q53.

Lemma widen_exact (w : f32) : is_finite w = true -> is (B2R w) (widen w).
Proof.
  intros Fw. assert (OW : generic_format radix2 fe (B2R w)).
  { apply generic_inclusion_mag with (SpecFloat.fexp 24 128); [|apply generic_format_B2R]. intros _. unfold SpecFloat.fexp, SpecFloat.emin. lia. }
  destruct (conv_fwd 53 1024 q53 q1024 _ _ w Fw) as [Fc Ec].
  { unfold rndf. rewrite (round_generic radix2 _ ZnearestE) by (exact OW || typeclasses eauto). eapply Rlt_trans; [apply abs_B2R_lt_emax|]. apply bpow_lt. lia. }
  unfold rndf in Ec. rewrite (round_generic radix2 _ ZnearestE) in Ec by (exact OW || typeclasses eauto). split; [exact Fc|exact Ec].
Qed.
Lemma narrow_exact (w : f32) (t : g64) : is_finite w = true -> is (B2R w) t -> is_finite (narrow t) = true /\ B2R (narrow t) = B2R w.
Proof.
  intros Fw [Ft Vt]. destruct (conv_fwd 24 128 p24 p128 _ _ t Ft) as [Fc Ec].
  { unfold rndf. rewrite Vt, (round_generic radix2 _ ZnearestE) by (apply generic_format_B2R || (apply valid_rnd_N) || exact (fexp_correct 24 128 p24)). apply abs_B2R_lt_emax. }
  unfold rndf in Ec. rewrite Vt, (round_generic radix2 _ ZnearestE) in Ec by (apply generic_format_B2R || (apply valid_rnd_N) || exact (fexp_correct 24 128 p24)). split; [exact Fc|exact Ec].
Qed.
Lemma div_zero (a f : g64) : is 0 a -> is_finite f = true -> B2R f <> 0 -> is 0 (div64 a f).
Proof.
  intros [Fa Va] Ff N. pose proof (Bdiv_correct 53 1024 q53 q1024 mode_NE a f N) as C. cbn [round_mode] in C. rewrite Va in C. replace (0 / B2R f) with 0 in C by (field; exact N).
  destruct (ok_rn 0 ok0) as [E1 E2]. rewrite E2 in C. destruct C as (E3 & F & _). unfold is, div64. rewrite F, E3. now split.
Qed.
(** The distortion computed together with its Jacobian is the one computed without. *)
Theorem C106_same_distortion : forall cz at64 c x y, fst (distort_jac64 cz at64 c x y) = distort64 cz at64 c x y.
Proof.
  intros. unfold distort_jac64, distort64. destruct (c_model c); [reflexivity| |].
  - unfold equidist_jac64, equidist64. cbv zeta. destruct (Bltb (sqrt64 (sop (cz 0%nat) x x y y)) nano10); reflexivity.
  - unfold sphere_jac64, sphere64. cbv zeta. destruct (Bltb (sop (cz 0%nat) x x y y) nano10_2); reflexivity.
Qed.
(** In each of the three camera models, with any calibration without absurd numbers, the pixel at the principal point looks
    exactly along the optical axis, and that bearing projects exactly to the principal point. *)
Theorem C106_principal_point : forall cz cz' at64 at64' c u v, moderate c -> val64 (c_fx c) <> 0 -> val64 (c_fy c) <> 0 ->
  is_finite u = true -> is_finite v = true -> B2R u = val64 (c_cx c) -> B2R v = val64 (c_cy c) ->
  exists bx by_ bz u' v', pixel_bearing64 cz at64 c u v = Some (bx, by_, bz) /\ val64 bx = 0 /\ val64 by_ = 0 /\ val64 bz = 1 /\
    to_pixel64 cz' at64' c bx by_ bz = Some (u', v') /\ is_finite u' = true /\ is_finite v' = true /\ B2R u' = B2R u /\ B2R v' = B2R v.
Proof.
  intros cz cz' at64 at64' c u v M NX NY Fu Fv Eu Ev. pose proof M as (_ & _ & _ & _ & _ & _ & [FX _] & [FY _] & [CX _] & [CY _] & _). unfold val64 in *.
  destruct (widen_exact u Fu) as [WU VU]. destruct (widen_exact v Fv) as [WV VV].
  assert (ZX : is 0 (div64 (sub64 (widen u) (c_cx c)) (c_fx c))) by (apply div_zero; [apply is_sub; auto using ok0; rewrite VU, Eu; ring|exact FX|exact NX]).
  assert (ZY : is 0 (div64 (sub64 (widen v) (c_cy c)) (c_fy c))) by (apply div_zero; [apply is_sub; auto using ok0; rewrite VV, Ev; ring|exact FY|exact NY]).
  unfold pixel_bearing64, to_bearing64. cbv zeta. set (yx := div64 _ (c_fx c)) in *. set (yy := div64 _ (c_fy c)) in *. clearbody yx yy.
  destruct (distort_zero cz at64 c yx yy M ZX ZY) as (D1 & D2 & D3). pose proof ZX as [FYX VX]. pose proof ZY as [FYY VY].
  destruct (undistort_id cz (distort_jac64 cz at64 c) 99 yx yy FYX FYY) as (x & y & -> & X & Y); [rewrite VX; exact D1|rewrite VY; exact D2|exact D3|]. rewrite VX in X. rewrite VY in Y.
  destruct (normalized_zero cz x y X Y) as (B1 & B2 & B3). destruct (normalized64 cz x y) as [[bx b] bz]. cbn [fst snd] in B1, B2, B3.
  assert (FB : is_finite bz = true) by apply B3. assert (VB : B2R bz = 1) by apply B3.
  assert (TX : is 0 (div64 bx bz)) by (apply div_zero; [exact B1|exact FB|lra]). assert (TY : is 0 (div64 b bz)) by (apply div_zero; [exact B2|exact FB|lra]).
  assert (DZ : is 0 (fst (distort64 cz' at64' c (div64 bx bz) (div64 b bz))) /\ is 0 (snd (distort64 cz' at64' c (div64 bx bz) (div64 b bz)))).
  { destruct (distort_zero cz' at64' c _ _ M TX TY) as (E1 & E2 & _). rewrite C106_same_distortion in E1, E2. now split. }
  destruct DZ as [DX DY].
  assert (PX : is (B2R u) (mac (cz' 10%nat) (c_fx c) (fst (distort64 cz' at64' c (div64 bx bz) (div64 b bz))) (c_cx c))) by (apply b_z_mac; [exact FX|exact DX|split; [exact CX|now symmetry]]).
  assert (PY : is (B2R v) (mac (cz' 11%nat) (c_fy c) (snd (distort64 cz' at64' c (div64 bx bz) (div64 b bz))) (c_cy c))) by (apply b_z_mac; [exact FY|exact DY|split; [exact CY|now symmetry]]).
  destruct (narrow_exact u _ Fu PX) as [GU HU]. destruct (narrow_exact v _ Fv PY) as [GV HV].
  eexists bx, b, bz, _, _. split; [reflexivity|]. split; [apply B1|]. split; [apply B2|]. split; [apply B3|]. split; [|split; [exact GU|split; [exact GV|split; [exact HU|exact HV]]]].
  unfold to_pixel64. assert (L : Bleb bz (B754_zero false) = false) by (rewrite Bleb_correct by (exact FB || reflexivity); apply Rle_bool_false; cbn [B2R]; lra). rewrite L. reflexivity.
Qed.
Lemma exact_free c x y : distortion_free c -> exact_of c x y = (x, y).
Proof.
  intros (CM & K1 & K2 & K3 & _ & P1 & P2). apply at_most0 in K1, K2, K3, P1, P2. destruct K1 as [_ K1], K2 as [_ K2], K3 as [_ K3], P1 as [_ P1], P2 as [_ P2].
  unfold exact_of, exact_radtan, exact_sphere, val64. cbv zeta. rewrite K1, K2, K3, P1, P2. destruct CM as [-> | ->]; f_equal; try ring; field.
Qed.
(** A camera without distortion, of the radial-tangential or double-sphere kind: every pixel at most 3/2 focal lengths from the
    principal point has a bearing of unit length, its direction is that of the exact one up to 2^-39, and projecting it
    again gives the pixel back to a 2500th. *)
Theorem C106_undistorted_round_trip : forall cz cz' at64 at64' c u v, accurate_atan at64' -> distortion_free c -> usual c -> has_focal_length c -> near_axis c u v ->
  exists bx by_ bz u' v', pixel_bearing64 cz at64 c u v = Some (bx, by_, bz) /\ unit_forward (bx, by_, bz) /\
    Rabs (val64 bx / val64 bz - (B2R u - val64 (c_cx c)) / val64 (c_fx c)) <= / 2 ^ 39 /\
    Rabs (val64 by_ / val64 bz - (B2R v - val64 (c_cy c)) / val64 (c_fy c)) <= / 2 ^ 39 /\
    to_pixel64 cz' at64' c bx by_ bz = Some (u', v') /\ is_finite u' = true /\ is_finite v' = true /\
    Rabs (B2R u' - B2R u) <= / 2500 /\ Rabs (B2R v' - B2R v) <= / 2500.
Proof.
  intros cz cz' at64 at64' c u v AT UD US [F1 F2] (Fu & Fv & Hu & Hv & Nu & Nv). pose proof US as (_ & _ & _ & _ & _ & FX & FY & CX & CY).
  assert (COORD : forall (w : f32) (t f : g64), is_finite w = true -> Rabs (B2R w) <= 4094 -> at_most 4096 t -> at_most 4096 f -> 1 <= val64 f -> Rabs (B2R w - val64 t) <= 3 / 2 * val64 f ->
    is_finite (div64 (sub64 (widen w) t) f) = true /\ Rabs (B2R (div64 (sub64 (widen w) t) f) - (B2R w - val64 t) / val64 f) <= 8200 * hu /\ Rabs ((B2R w - val64 t) / val64 f) <= 3 / 2).
  { intros w t f Fw Hw T [Ff Hf] F0 N. unfold val64 in *.
    assert (OW : generic_format radix2 fe (B2R w)).
    { apply generic_inclusion_mag with (SpecFloat.fexp 24 128); [|apply generic_format_B2R]. intros _. unfold SpecFloat.fexp, SpecFloat.emin. lia. }
    destruct (conv_fwd 53 1024 q53 q1024 _ _ w Fw) as [Fc Ec].
    { unfold rndf. rewrite (round_generic radix2 _ ZnearestE) by (exact OW || typeclasses eauto). eapply Rle_lt_trans; [exact Hw|]. apply Rlt_le_trans with (bpow radix2 12); [cbn; lra|apply bpow_le; lia]. }
    unfold rndf in Ec. rewrite (round_generic radix2 _ ZnearestE) in Ec by (exact OW || typeclasses eauto).
    assert (BW : bd 12 (widen w)) by (split; [exact Fc|]; unfold widen; rewrite Ec; cbn; lra). assert (BT : bd 12 t) by (apply (bd_val 4096); [exact T|cbn; lra]).
    destruct (sub_val 12 _ _ BW BT ltac:(lia)) as [BD ED]. unfold widen in ED at 2. rewrite Ec in ED. change (12 + 1)%Z with 13%Z in BD.
    assert (D8 : Rabs (B2R w - B2R t) <= 8192) by (destruct T as [_ T]; unfold val64 in T; apply Rabs_le_inv in T, Hw; apply Rabs_le; lra).
    pose proof (rn_err 13 8192 (B2R w - B2R t) ltac:(lia) eq_refl D8) as E1. rewrite <- ED in E1. set (d := sub64 (widen w) t) in *. clearbody d.
    destruct (div_val 13 0 d f BD Ff ltac:(cbn; lra) ltac:(lia)) as [[FD _] EV]. split; [exact FD|].
    assert (Q0 : 0 < / B2R f <= 1) by (split; [apply Rinv_0_lt_compat; lra|rewrite <- Rinv_1; apply Rinv_le_contravar; lra]).
    assert (ID : B2R f * / B2R f = 1) by (apply Rinv_r; lra).
    assert (R0 : Rabs ((B2R w - B2R t) / B2R f) <= 3 / 2) by (unfold Rdiv; rewrite Rabs_mult, (Rabs_pos_eq (/ B2R f)) by lra; nra).
    assert (R1 : Rabs (B2R d / B2R f - (B2R w - B2R t) / B2R f) <= 8192 * hu).
    { replace (B2R d / B2R f - (B2R w - B2R t) / B2R f) with ((B2R d - (B2R w - B2R t)) * / B2R f) by (unfold Rdiv; ring). rewrite Rabs_mult, (Rabs_pos_eq (/ B2R f)) by lra. pose proof (Rabs_pos (B2R d - (B2R w - B2R t))). nra. }
    split; [|exact R0]. rewrite EV. assert (R2 : Rabs (B2R d / B2R f) <= 2) by (eapply Rle_trans; [apply (size _ _ _ _ R0 R1)|unfold hu; lra]).
    pose proof (rn_err 1 2 (B2R d / B2R f) ltac:(lia) eq_refl R2) as E2. pose proof (tri (rn (B2R d / B2R f)) (B2R d / B2R f) ((B2R w - B2R t) / B2R f)). pose proof hu_pos. lra. }
  destruct (COORD u (c_cx c) (c_fx c) Fu Hu CX FX F1 Nu) as (FYX & EYX & MX). destruct (COORD v (c_cy c) (c_fy c) Fv Hv CY FY F2 Nv) as (FYY & EYY & MY). clear COORD.
  unfold pixel_bearing64, to_bearing64. cbv zeta. set (yx := div64 (sub64 (widen u) (c_cx c)) (c_fx c)) in *. set (yy := div64 (sub64 (widen v) (c_cy c)) (c_fy c)) in *. clearbody yx yy.
  assert (TX : Rabs (B2R yx) <= 19 / 10) by (eapply Rle_trans; [apply (size _ _ _ _ MX EYX)|unfold hu; lra]). assert (TY : Rabs (B2R yy) <= 19 / 10) by (eapply Rle_trans; [apply (size _ _ _ _ MY EYY)|unfold hu; lra]).
  assert (B1 : 19 / 10 <= bpow radix2 1) by (cbn; lra).
  assert (X1 : bd 1 yx) by (split; [exact FYX|lra]). assert (Y1 : bd 1 yy) by (split; [exact FYY|lra]).
  assert (DJ : is (B2R yx) (fst (fst (distort_jac64 cz at64 c yx yy))) /\ is (B2R yy) (snd (fst (distort_jac64 cz at64 c yx yy))) /\ is_unit (snd (distort_jac64 cz at64 c yx yy))).
  { destruct UD as ([CM|CM] & K1 & K2 & K3 & _ & P1 & P2); unfold distort_jac64; rewrite CM; [apply radtan_jac_unit; [repeat split; assumption || (apply K1 || apply K2 || apply K3 || apply P1 || apply P2)|apply (bd_up 1 100 _ X1); lia|apply (bd_up 1 100 _ Y1); lia]|now apply sphere_jac_unit]. }
  destruct DJ as (DJ1 & DJ2 & DJ3).
  destruct (undistort_id cz (distort_jac64 cz at64 c) 99 yx yy FYX FYY DJ1 DJ2 DJ3) as (x & y & -> & [Fx Vx] & [Fy Vy]).
  pose proof (unit_length cz x y) as UL. assert (BX : bd 100 x) by (split; [exact Fx|rewrite Vx; apply (bd_up 1 100 _ X1); lia]). assert (BY : bd 100 y) by (split; [exact Fy|rewrite Vy; apply (bd_up 1 100 _ Y1); lia]). specialize (UL BX BY).
  pose proof (direction cz x y Fx Fy ltac:(rewrite Vx; exact TX) ltac:(rewrite Vy; exact TY)) as (IF & DX & DY). rewrite Vx in DX. rewrite Vy in DY.
  destruct (normalized64 cz x y) as [[bx b] bz]. cbn [fst snd] in *.
  set (eu := (B2R u - val64 (c_cx c)) / val64 (c_fx c)) in *. set (ev := (B2R v - val64 (c_cy c)) / val64 (c_fy c)) in *.
  assert (AX : Rabs (val64 bx / val64 bz - eu) <= 8210 * hu) by (pose proof (tri (val64 bx / val64 bz) (B2R yx) eu); pose proof hu_pos; lra).
  assert (AY : Rabs (val64 b / val64 bz - ev) <= 8210 * hu) by (pose proof (tri (val64 b / val64 bz) (B2R yy) ev); pose proof hu_pos; lra).
  assert (EX : exact_of c (val64 bx / val64 bz) (val64 b / val64 bz) = (val64 bx / val64 bz, val64 b / val64 bz)) by (apply exact_free; exact UD).
  assert (UM : usual_model c) by (destruct UD as (_ & K1 & K2 & _ & [F4 K4] & _); apply at_most0 in K1, K2; destruct K1 as [_ K1], K2 as [_ K2]; split; [split; [exact F4|lra]|]; intros _; unfold val64; rewrite K1, K2; lra).
  destruct (C105_pixel_accuracy cz' at64' c bx b bz US UM AT IF) as (u' & v' & TP & PU & PV).
  { eapply Rle_trans; [apply (size _ _ _ _ MX AX)|unfold hu; lra]. } { eapply Rle_trans; [apply (size _ _ _ _ MY AY)|unfold hu; lra]. }
  unfold exact_pixel in PU, PV. rewrite EX in PU, PV. cbn [fst snd] in PU, PV. clear EX.
  set (px := val64 bx / val64 bz) in *. set (py := val64 b / val64 bz) in *.
  assert (BACK : forall t f p (w : R), 1 <= f <= 4096 -> Rabs (p - (w - t) / f) <= 8210 * hu -> Rabs (f * p + t - w) <= / 100000).
  { intros t f p w HF A. replace (f * p + t - w) with (f * (p - (w - t) / f)) by (field; lra). rewrite Rabs_mult, (Rabs_pos_eq f) by lra. pose proof (Rabs_pos (p - (w - t) / f)). apply Rle_trans with (4096 * (8210 * hu)); [apply Rmult_le_compat; lra|unfold hu; lra]. }
  assert (RX : 1 <= val64 (c_fx c) <= 4096) by (destruct FX as [_ FX]; apply Rabs_le_inv in FX; lra). assert (RY : 1 <= val64 (c_fy c) <= 4096) by (destruct FY as [_ FY]; apply Rabs_le_inv in FY; lra).
  pose proof (BACK (val64 (c_cx c)) (val64 (c_fx c)) px (B2R u) RX AX) as BU. pose proof (BACK (val64 (c_cy c)) (val64 (c_fy c)) py (B2R v) RY AY) as BV.
  destruct PU as [GU PU]; [eapply Rle_trans; [apply (size _ _ _ _ Hu BU)|lra]|]. destruct PV as [GV PV]; [eapply Rle_trans; [apply (size _ _ _ _ Hv BV)|lra]|].
  exists bx, b, bz, u', v'. split; [reflexivity|]. split; [exact UL|]. split; [eapply Rle_trans; [exact AX|unfold hu; lra]|]. split; [eapply Rle_trans; [exact AY|unfold hu; lra]|].
  split; [exact TP|]. split; [exact GU|]. split; [exact GV|].
  split; [pose proof (tri (B2R u') (val64 (c_fx c) * px + val64 (c_cx c)) (B2R u)); lra|pose proof (tri (B2R v') (val64 (c_fy c) * py + val64 (c_cy c)) (B2R v)); lra].
Qed.
(** Cameras and pixels to which the theorems apply. *)
Example C106_free_ex : distortion_free (pinhole DoubleSphere64) /\ distortion_free (pinhole Radtan64) /\ usual (pinhole DoubleSphere64) /\ has_focal_length (pinhole DoubleSphere64) /\
  moderate (pinhole DoubleSphere64) /\ accurate_atan rounded_atan /\ near_axis (pinhole DoubleSphere64) (f32_of_Z 776) (f32_of_Z 240) /\
  B2R (f32_of_Z 376) = val64 (c_cx (pinhole Equidist64)) /\ val64 (c_fx (pinhole Equidist64)) <> 0.
Proof.
  assert (W : forall m, (Z.abs m < 2 ^ 53)%Z -> val64 (g m 0) = IZR m) by (intros m H; unfold val64; rewrite (proj2 (g_val m 0 H ltac:(lia))); unfold F2R; cbn; lra).
  assert (Z0 : at_most 0 (g 0 0)) by (apply (g_int 0 0); lia).
  split; [split; [now right|repeat split; apply Z0]|]. split; [split; [now left|repeat split; apply Z0]|]. split; [apply pinhole_usual|].
  split; [split; cbn [pinhole c_fx c_fy]; rewrite W by lia; lra|]. split; [exact (proj1 (proj2 C105_ex))|]. split; [exact rounded_atan_accurate|].
  split; [exact (proj1 (proj2 (proj2 (proj2 C106_ex))))|]. cbn [pinhole c_cx c_fx]. rewrite !W by lia. split; [|lra].
  rewrite <- SF2R_B2SF. replace (B2SF (f32_of_Z 376)) with (SpecFloat.S754_finite false 12320768 (-15)) by (vm_compute; reflexivity). unfold SF2R, F2R. cbn. lra.
Qed.

Print Assumptions C106_same_distortion.
Print Assumptions C106_principal_point.
Print Assumptions C106_undistorted_round_trip.
