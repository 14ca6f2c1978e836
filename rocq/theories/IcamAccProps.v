(** C105: accuracy of the projected pixel for all three camera models. *)
From Coq Require Import ZArith Bool Reals Ratan Lia Lra.
From Flocq Require Import Core BinarySingleNaN.
From Verif Require Import IeeeModel IeeeSpec IeeeReal IeeeProofs IeeeAcc StampModel IcamModel IcamSpec IcamAccSpec IcamProofs IcamAcc IcamSph IcamEqui IcamProps.
Local Open Scope R_scope.

(** With a usual calibration of any of the three models, and an arc tangent good to about an ulp, each coordinate of the
    pixel that lies within the first 4095 pixels is within a three-thousandth of a pixel of the exact projection,
    whatever the compiler contracts. *)
Theorem C105_pixel_accuracy : forall cz at64 c vx vy vz, usual c -> usual_model c -> accurate_atan at64 -> in_front vx vy vz ->
  let x := val64 vx / val64 vz in let y := val64 vy / val64 vz in
  Rabs x <= 2 -> Rabs y <= 2 ->
  exists u v, to_pixel64 cz at64 c vx vy vz = Some (u, v) /\
    (Rabs (fst (exact_pixel c x y)) <= 4095 -> is_finite u = true /\ Rabs (B2R u - fst (exact_pixel c x y)) <= / 3000) /\
    (Rabs (snd (exact_pixel c x y)) <= 4095 -> is_finite v = true /\ Rabs (B2R v - snd (exact_pixel c x y)) <= / 3000).
Proof.
  intros cz at64 c vx vy vz U [K4 KS] AT (X & Y & Z & ZP) x y Hx Hy. unfold val64 in ZP. rewrite pow_bpow in ZP. change (Z.of_nat 100) with 100%Z in ZP. rewrite <- bpow_opp in ZP. change (- (100))%Z with (-100)%Z in ZP.
  pose proof (bpow_gt_0 radix2 (-100)) as P0.
  assert (two : 2 <= bpow radix2 1) by (cbn; lra). pose proof (bd_val 2 1 vx X two) as BX. pose proof (bd_val 2 1 vy Y two) as BY. destruct Z as [FZ _].
  assert (two' : 2 = bpow radix2 1) by reflexivity.
  pose proof (ap_div 1 2 1 (-100) vx vz BX FZ ZP ltac:(lia) ltac:(lia) two' Hx) as AX. pose proof (ap_div 1 2 1 (-100) vy vz BY FZ ZP ltac:(lia) ltac:(lia) two' Hy) as AY.
  assert (RX : rel (div64 vx vz) x) by (split; [exact AX|]; rewrite (proj2 (div_val 1 (-100) vx vz BX FZ ZP ltac:(lia))); apply rn_mix).
  assert (RY : rel (div64 vy vz) y) by (split; [exact AY|]; rewrite (proj2 (div_val 1 (-100) vy vz BY FZ ZP ltac:(lia))); apply rn_mix).
  unfold to_pixel64. assert (L : Bleb vz (B754_zero false) = false).
  { rewrite Bleb_correct by (exact FZ || reflexivity). apply Rle_bool_false. cbn [B2R]. lra. }
  rewrite L. cbv zeta. fold (val64 vx) (val64 vy) (val64 vz) in AX, AY. fold x y in AX, AY.
  assert (D : ap 1200 (/ 60000000) (fst (distort64 cz at64 c (div64 vx vz) (div64 vy vz))) (fst (exact_of c x y)) /\ ap 1200 (/ 60000000) (snd (distort64 cz at64 c (div64 vx vz) (div64 vy vz))) (snd (exact_of c x y))).
  { unfold distort64, exact_of. destruct (c_model c) eqn:CM.
    - destruct (radtan_acc cz c U _ _ _ _ AX AY) as [D0 D1]. split; (eapply ap_up; [eassumption|lra|unfold hu; lra]).
    - apply equi_acc; assumption.
    - destruct (KS eq_refl) as [Q1 Q2]. destruct (sphere_acc cz c U _ _ _ _ Q1 Q2 AX AY) as [D0 D1]. split; (eapply ap_up; [eassumption|lra|lra]). }
  destruct D as [D0 D1].
  assert (PX : forall k f t d w, at_most 4096 f -> at_most 4096 t -> ap 1200 (/ 60000000) d w -> Rabs (val64 f * w + val64 t) <= 4095 ->
    is_finite (narrow (mac k f d t)) = true /\ Rabs (B2R (narrow (mac k f d t)) - (val64 f * w + val64 t)) <= / 3000).
  { intros k f t d w F T D B. apply ap_exact in F, T.
    assert (Q : ap 8000000 (/ 14000) (mac k f d t) (B2R f * w + B2R t)) by (apply (ap_mac _ 23 8388608 4096 0 1200 (/ 60000000) 4096 0); auto; side).
    destruct Q as (Fq & _ & Eq). fold (val64 f) (val64 t) in Eq. set (q := mac k f d t) in *. clearbody q.
    assert (S : Rabs (B2R q) <= 4096) by (eapply Rle_trans; [apply (size _ _ _ _ B Eq)|lra]).
    pose proof (r32_err 12 (B2R q) ltac:(lia) S) as R3. change (bpow radix2 (12 - 24)) with (/ 4096) in R3.
    destruct (conv_fwd 24 128 p24 p128 _ _ q Fq) as [Fn En].
    { apply Rle_lt_trans with 8192; [|apply Rlt_le_trans with (bpow radix2 14); [cbn; lra|apply bpow_le; lia]].
      apply Rabs_le_inv in S, R3. apply Rabs_le. lra. }
    split; [exact Fn|]. unfold narrow. rewrite En. pose proof (tri (r32 (B2R q)) (B2R q) (val64 f * w + val64 t)). lra. }
  destruct U as (_ & _ & _ & _ & _ & FX & FY & CX & CY).
  eexists _, _. split; [reflexivity|]. unfold exact_pixel. cbn [fst snd]. split; intros B; apply PX; assumption.
Qed.
(** The exact projections of the distortion-free cameras: the pinhole one for the radial-tangential and double-sphere models
    with zero coefficients, and the angle to the optical axis as radius for the equidistant one. *)
Theorem C105_exact_pinhole : forall x y,
  exact_of (pinhole Radtan64) x y = (x, y) /\ exact_of (pinhole DoubleSphere64) x y = (x, y) /\
  let d := exact_of (pinhole Equidist64) x y in sqrt (fst d * fst d + snd d * snd d) = atan (sqrt (x * x + y * y)).
Proof.
  intros x y. assert (Z0 : val64 (g 0 0) = 0) by (unfold val64; destruct (g_val 0 0 ltac:(lia) ltac:(lia)) as [_ ->]; unfold F2R; cbn; lra).
  unfold exact_of, exact_radtan, exact_sphere, exact_equi. cbv zeta. cbn [c_model pinhole c_k1 c_k2 c_k3 c_k4 c_p1 c_p2 fst snd]. rewrite Z0.
  split; [f_equal; ring|]. split; [f_equal; field|].
  assert (Q : 0 <= x * x + y * y) by nra. set (r := sqrt (x * x + y * y)). assert (R0 : 0 <= r) by apply sqrt_pos. pose proof (atan_le_self r R0) as T. set (t := atan r) in *.
  assert (RR : r * r = x * x + y * y) by (apply sqrt_sqrt; exact Q).
  replace (t * (1 + 0 * t ^ 2 + 0 * t ^ 4 + 0 * t ^ 6 + 0 * t ^ 8)) with t by ring.
  destruct R0 as [RP|RZ].
  - transitivity (sqrt (t * t)); [f_equal|apply sqrt_square; lra]. transitivity ((x * x + y * y) * (t / r) * (t / r)); [ring|]. rewrite <- RR. field. lra.
  - assert (t = 0) by lra. rewrite H. unfold Rdiv. rewrite !Rmult_0_l, !Rmult_0_r, Rplus_0_l. apply sqrt_0.
Qed.
(** An arc tangent and cameras to which the theorem applies: small arguments returned as they are, others rounded. *)
Local Notation fe := (SpecFloat.fexp 53 1024).
Definition rounded_atan (x : g64) : g64 :=
  if Rlt_bool (B2R x) (bpow radix2 (-26)) then x
  else binary_normalize 53 1024 q53 q1024 mode_NE (ZnearestE (scaled_mantissa radix2 fe (atan (B2R x)))) (cexp radix2 fe (atan (B2R x))) false.
Lemma rounded_atan_accurate : accurate_atan rounded_atan.
Proof.
  intros x F P. unfold val64 in *. unfold rounded_atan. replace (/ 2 ^ 52) with (2 * hu) by (unfold hu; lra). pose proof hu_pos as HP. pose proof (atan_le_self _ P) as T.
  destruct (Rlt_bool_spec (B2R x) (bpow radix2 (-26))) as [L|L].
  - split; [exact F|]. set (a := B2R x) in *. clearbody a. destruct P as [P|<-]; [|rewrite atan_0, Rminus_0_r, Rabs_R0; lra].
    destruct (MVT_cor2 atan (fun t => / (1 + t ^ 2)) 0 a P) as (t & E & Ht); [intros t _; apply derivable_pt_lim_atan|]. rewrite atan_0, !Rminus_0_r in E.
    rewrite Rabs_pos_eq by lra. rewrite E. change (bpow radix2 (-26)) with (/ 67108864) in L.
    assert (D : 1 - t ^ 2 <= / (1 + t ^ 2)) by (apply Rmult_le_reg_r with (1 + t ^ 2); [nra|rewrite Rinv_l by nra; nra]).
    assert (t ^ 2 <= 2 * hu) by (unfold hu; apply Rle_trans with (/ 67108864 * / 67108864); [cbn; nra|lra]). nra.
  - set (a := atan (B2R x)) in *. set (n := binary_normalize _ _ _ _ _ _ _ _).
    pose proof (binary_normalize_correct 53 1024 q53 q1024 mode_NE (ZnearestE (scaled_mantissa radix2 fe a)) (cexp radix2 fe a) false) as C. cbv zeta in C. fold n in C. cbn [round_mode] in C.
    change (F2R (Float radix2 (ZnearestE (scaled_mantissa radix2 fe a)) (cexp radix2 fe a))) with (round radix2 fe ZnearestE a) in C.
    pose proof (fexp_correct 53 1024 q53) as VE'.
    rewrite (round_generic radix2 fe ZnearestE (round radix2 fe ZnearestE a)) in C by (apply generic_format_round; typeclasses eauto).
    assert (A2 : Rabs a <= bpow radix2 1) by (rewrite Rabs_pos_eq by lra; pose proof (atan_bound (B2R x)) as [_ A2]; pose proof PI_4; fold a in A2; cbn; lra).
    rewrite (rn_small 1) in C by (exact A2 || lia). destruct C as (E & Fn & _). split; [exact Fn|]. rewrite E. pose proof (rn_mix a) as M. rewrite (Rabs_pos_eq a) in M by lra.
    destruct (eta_small (B2R x)) as [_ E1]; [eapply Rle_trans; [|exact L]; apply bpow_le; lia|]. assert (hu * a <= hu * B2R x) by (apply Rmult_le_compat_l; lra).
    assert (0 <= hu * B2R x) by (apply Rmult_le_pos; lra). lra.
Qed.
Example C105_accuracy_ex : accurate_atan rounded_atan /\ (forall m, usual (pinhole m) /\ usual_model (pinhole m)) /\ in_front (g 3 (-2)) (g 1 (-2)) (g 1 (-1)) /\
  val64 (g 3 (-2)) / val64 (g 1 (-1)) = 3 / 2 /\ val64 (g 1 (-2)) / val64 (g 1 (-1)) = 1 / 2 /\ exact_pixel (pinhole Radtan64) (3 / 2) (1 / 2) = (976, 440).
Proof.
  split; [exact rounded_atan_accurate|]. assert (Z0 : val64 (g 0 0) = 0) by (unfold val64; destruct (g_val 0 0 ltac:(lia) ltac:(lia)) as [_ ->]; unfold F2R; cbn; lra).
  split; [intros m; split; [apply pinhole_usual|split; [apply (g_int 0 1); lia|intros _; cbn [pinhole c_k1 c_k2]; rewrite Z0; lra]]|].
  split; [exact (proj1 (proj2 (proj2 C105_ex)))|].
  destruct (g_val 3 (-2) ltac:(lia) ltac:(lia)) as [_ A]. destruct (g_val 1 (-2) ltac:(lia) ltac:(lia)) as [_ B]. destruct (g_val 1 (-1) ltac:(lia) ltac:(lia)) as [_ D].
  unfold val64 at 1 2 3 4. rewrite A, B, D. split; [unfold F2R; cbn; lra|]. split; [unfold F2R; cbn; lra|].
  unfold exact_pixel. rewrite (proj1 (C105_exact_pinhole (3 / 2) (1 / 2))). cbn [fst snd pinhole c_fx c_fy c_cx c_cy].
  assert (W : forall m, (Z.abs m < 2 ^ 53)%Z -> val64 (g m 0) = IZR m) by (intros m H; unfold val64; rewrite (proj2 (g_val m 0 H ltac:(lia))); unfold F2R; cbn; lra).
  rewrite !W by lia. f_equal; lra.
Qed.

Print Assumptions C105_pixel_accuracy.
Print Assumptions C105_exact_pinhole.
