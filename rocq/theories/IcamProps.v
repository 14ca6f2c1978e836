(** C105: projected pixels are numbers, and close to the exact ones. *)
From Coq Require Import ZArith Bool Reals Lia Lra.
From Flocq Require Import Core BinarySingleNaN.
From Verif Require Import IeeeModel IeeeSpec IeeeReal IeeeProofs IeeeAcc IeeeProps StampModel IcamModel IcamSpec IcamProofs IcamAcc.
Local Open Scope R_scope.

(** A bearing in front of the camera always has a pixel, and its coordinates are numbers, for each of the three
    distortions, every calibration without absurd numbers, every arc tangent and every contraction. *)
Theorem C105_pixel_is_number : forall cz at64 c vx vy vz, moderate c -> good_atan at64 -> in_front vx vy vz ->
  exists u v, to_pixel64 cz at64 c vx vy vz = Some (u, v) /\ number u /\ number v.
Proof.
  intros cz at64 c vx vy vz M A (X & Y & Z & ZP). unfold val64 in ZP. rewrite pow_bpow in ZP. change (Z.of_nat 100) with 100%Z in ZP. rewrite <- bpow_opp in ZP. change (- (100))%Z with (-100)%Z in ZP.
  pose proof (bpow_gt_0 radix2 (-100)) as P0.
  assert (two : 2 <= bpow radix2 1) by (cbn; lra). pose proof (bd_val 2 1 vx X two) as BX. pose proof (bd_val 2 1 vy Y two) as BY. destruct Z as [FZ _].
  destruct (div_val 1 (-100) vx vz BX FZ ZP ltac:(lia)) as [DX _]. destruct (div_val 1 (-100) vy vz BY FZ ZP ltac:(lia)) as [DY _].
  change (1 - -100)%Z with 101%Z in DX, DY.
  unfold to_pixel64. assert (L : Bleb vz (B754_zero false) = false).
  { rewrite Bleb_correct by (exact FZ || reflexivity). apply Rle_bool_false. cbn [B2R]. lra. }
  rewrite L. cbv zeta.
  assert (D : bd 815 (fst (distort64 cz at64 c (div64 vx vz) (div64 vy vz))) /\ bd 815 (snd (distort64 cz at64 c (div64 vx vz) (div64 vy vz)))).
  { unfold distort64. destruct (c_model c) eqn:CM; [now apply radtan_bd|now apply equi_bd|now apply sphere_bd]. }
  destruct D as [D0 D1]. destruct M as (_ & _ & _ & _ & _ & _ & FX & FY & CX & CY & _). apply (fun H => bd_val _ 100 _ H big) in FX, FY, CX, CY.
  eexists _, _. split; [reflexivity|]. split; apply narrow_number.
  - apply (bd_mac _ 100 815 915); auto; try lia. apply (bd_up 100); [exact CX|lia].
  - apply (bd_mac _ 100 815 915); auto; try lia. apply (bd_up 100); [exact CY|lia].
Qed.
(** So a patch accepted around a projected pixel is extracted without undefined behaviour. *)
Theorem C105_projected_patch_safe : forall cz at64 c vx vy vz u v k fuse n im w border, moderate c -> good_atan at64 -> in_front vx vy vz ->
  to_pixel64 cz at64 c vx vy vz = Some (u, v) ->
  Nat.Even n -> (Z.of_nat n <= 4194304)%Z -> image_within 16777216 im -> accepts k n im true w u v border = Some true ->
  exists l, extracts k fuse n im true w u v border = Some l /\ length l = (patch_edge n border * patch_edge n border)%nat.
Proof.
  intros cz at64 c vx vy vz u v k fuse n im w border M A F E Ev Hn Hi HA.
  destruct (C105_pixel_is_number cz at64 c vx vy vz M A F) as (u' & v' & E' & U & V). rewrite E in E'. injection E' as <- <-.
  apply (C22_in_frame_extraction_safe_ieee k fuse n im true w u v border Ev Hn Hi (fun _ => conj U V) HA).
Qed.
(** With a usual calibration a pixel of the radial-tangential camera is within a four-thousandth of a pixel of where the
    exact projection puts it, in each coordinate that lies within the first 4095 pixels. *)
Theorem C105_radtan_pixel_accuracy : forall cz at64 c vx vy vz, c_model c = Radtan64 -> usual c -> in_front vx vy vz ->
  let x := val64 vx / val64 vz in let y := val64 vy / val64 vz in
  Rabs x <= 2 -> Rabs y <= 2 ->
  exists u v, to_pixel64 cz at64 c vx vy vz = Some (u, v) /\
    (Rabs (exact_u c x y) <= 4095 -> is_finite u = true /\ Rabs (B2R u - exact_u c x y) <= / 4000) /\
    (Rabs (exact_v c x y) <= 4095 -> is_finite v = true /\ Rabs (B2R v - exact_v c x y) <= / 4000).
Proof.
  intros cz at64 c vx vy vz CM U (X & Y & Z & ZP) x y Hx Hy. unfold val64 in ZP. rewrite pow_bpow in ZP. change (Z.of_nat 100) with 100%Z in ZP. rewrite <- bpow_opp in ZP. change (- (100))%Z with (-100)%Z in ZP.
  pose proof (bpow_gt_0 radix2 (-100)) as P0.
  assert (two : 2 <= bpow radix2 1) by (cbn; lra). pose proof (bd_val 2 1 vx X two) as BX. pose proof (bd_val 2 1 vy Y two) as BY. destruct Z as [FZ _].
  assert (two' : 2 = bpow radix2 1) by reflexivity.
  pose proof (ap_div 1 2 1 (-100) vx vz BX FZ ZP ltac:(lia) ltac:(lia) two' Hx) as AX. pose proof (ap_div 1 2 1 (-100) vy vz BY FZ ZP ltac:(lia) ltac:(lia) two' Hy) as AY.
  unfold to_pixel64. assert (L : Bleb vz (B754_zero false) = false).
  { rewrite Bleb_correct by (exact FZ || reflexivity). apply Rle_bool_false. cbn [B2R]. lra. }
  rewrite L. cbv zeta. unfold distort64. rewrite CM. destruct (radtan_acc cz c U _ _ _ _ AX AY) as [D0 D1].
  fold (val64 vx) (val64 vy) (val64 vz) in D0, D1. fold x y in D0, D1.
  assert (PX : forall k f t d w, at_most 4096 f -> at_most 4096 t -> ap 1200 (61000 * hu) d w -> Rabs (val64 f * w + val64 t) <= 4095 ->
    is_finite (narrow (mac k f d t)) = true /\ Rabs (B2R (narrow (mac k f d t)) - (val64 f * w + val64 t)) <= / 4000).
  { intros k f t d w F T D B. apply ap_exact in F, T.
    assert (Q : ap 8000000 (270000000 * hu) (mac k f d t) (B2R f * w + B2R t)) by (apply (ap_mac _ 23 8388608 4096 0 1200 (61000 * hu) 4096 0); auto; side).
    destruct Q as (Fq & _ & Eq). fold (val64 f) (val64 t) in Eq. set (q := mac k f d t) in *. clearbody q.
    assert (S : Rabs (B2R q) <= 4096) by (eapply Rle_trans; [apply (size _ _ _ _ B Eq)|unfold hu; lra]).
    pose proof (r32_err 12 (B2R q) ltac:(lia) S) as R3. change (bpow radix2 (12 - 24)) with (/ 4096) in R3.
    destruct (conv_fwd 24 128 p24 p128 _ _ q Fq) as [Fn En].
    { apply Rle_lt_trans with 8192; [|apply Rlt_le_trans with (bpow radix2 14); [cbn; lra|apply bpow_le; lia]].
      apply Rabs_le_inv in S, R3. apply Rabs_le. lra. }
    split; [exact Fn|]. unfold narrow. rewrite En. pose proof (tri (r32 (B2R q)) (B2R q) (val64 f * w + val64 t)). unfold hu in *. lra. }
  destruct U as (_ & _ & _ & _ & _ & FX & FY & CX & CY).
  eexists _, _. split; [reflexivity|]. split; intros B; apply PX; assumption.
Qed.

Definition g (m e : Z) : g64 := binary_normalize 53 1024 q53 q1024 mode_NE m e false.
Definition pinhole (mo : model64) : camera64 :=
  {| c_model := mo; c_k1 := g 0 0; c_k2 := g 0 0; c_k3 := g 0 0; c_k4 := g 0 0; c_p1 := g 0 0; c_p2 := g 0 0; c_fx := g 400 0; c_fy := g 400 0; c_cx := g 376 0; c_cy := g 240 0 |}.
Lemma g_val m e : (Z.abs m < 2 ^ 53)%Z -> (-1074 <= e < 900)%Z -> is_finite (g m e) = true /\ B2R (g m e) = F2R (Float radix2 m e).
Proof.
  intros H L. pose proof (binary_normalize_correct 53 1024 q53 q1024 mode_NE m e false) as C. cbv zeta in C. fold (g m e) in C. cbn [round_mode] in C.
  assert (G : generic_format radix2 (SpecFloat.fexp 53 1024) (F2R (Float radix2 m e))).
  { destruct (Z.eq_dec m 0) as [->|N]; [rewrite F2R_0; apply generic_format_0|]. apply generic_format_F2R. intros _. unfold cexp, SpecFloat.fexp, SpecFloat.emin.
    rewrite mag_F2R by exact N. assert (mag radix2 (IZR m) <= 53)%Z; [|lia]. apply mag_le_bpow; [now apply IZR_neq|]. rewrite <- abs_IZR. change (bpow radix2 53) with (IZR (2 ^ 53)). now apply IZR_lt. }
  rewrite round_generic in C by (exact G || typeclasses eauto).
  rewrite Rlt_bool_true in C; [destruct C as (E & F & _); auto|].
  unfold F2R. cbn [Fnum Fexp]. rewrite Rabs_mult, (Rabs_pos_eq (bpow _ _)) by apply bpow_ge_0. rewrite <- abs_IZR.
  apply Rlt_trans with (bpow radix2 53 * bpow radix2 e); [apply Rmult_lt_compat_r; [apply bpow_gt_0|change (bpow radix2 53) with (IZR (2 ^ 53)); now apply IZR_lt]|].
  rewrite <- bpow_plus. apply bpow_lt. lia.
Qed.
Lemma g_int m b : (Z.abs m < 2 ^ 53)%Z -> (Z.abs m <= b)%Z -> at_most (IZR b) (g m 0).
Proof. intros H L. destruct (g_val m 0 H ltac:(lia)) as [F E]. split; [exact F|]. unfold val64. rewrite E. unfold F2R. cbn [Fnum Fexp]. rewrite Rmult_1_r, <- abs_IZR. now apply IZR_le. Qed.
Lemma pinhole_usual mo : usual (pinhole mo).
Proof. repeat split; apply g_int; lia. Qed.
(** A bearing very close to the horizon of a pinhole camera is said to be projected, but to a pixel that is not a number;
    such a pixel counts as lying inside the frame and extracting the patch there is undefined behaviour. *)
Theorem C105_grazing_bearing_refuted : exists vx vy vz, at_most 1 vx /\ at_most 1 vy /\ at_most 1 vz /\ 0 < val64 vz /\
  forall cz at64, to_pixel64 cz at64 (pinhole Radtan64) vx vy vz = Some (B754_nan, B754_nan) /\
  forall k fuse n im w border, (1 <= half_edge n border)%Z -> accept_id im (half_edge n border) B754_nan B754_nan = true /\ extracts k fuse n im true w B754_nan B754_nan border = None.
Proof.
  exists (g 1 0), (g 0 0), (g 1 (-600)). destruct (g_val 1 (-600) ltac:(lia) ltac:(lia)) as [F E].
  split; [apply g_int; lia|]. split; [apply (g_int 0 1); lia|]. split.
  { split; [exact F|]. unfold val64. rewrite E. unfold F2R. cbn [Fnum Fexp]. rewrite Rmult_1_l, Rabs_pos_eq by apply bpow_ge_0. change 1 with (bpow radix2 0). apply bpow_le. lia. }
  split; [unfold val64; rewrite E; unfold F2R; cbn [Fnum Fexp]; rewrite Rmult_1_l; apply bpow_gt_0|].
  intros cz at64. split.
  - unfold to_pixel64. replace (Bleb (g 1 (-600)) (B754_zero false)) with false by (vm_compute; reflexivity). cbv zeta.
    unfold distort64. cbn [c_model pinhole]. unfold radtan64. cbv zeta. cbn [fst snd].
    assert (E0 : sop (cz 0%nat) (div64 (g 1 0) (g 1 (-600))) (div64 (g 1 0) (g 1 (-600))) (div64 (g 0 0) (g 1 (-600))) (div64 (g 0 0) (g 1 (-600))) = B754_infinity false) by (destruct (cz 0%nat); vm_compute; reflexivity).
    rewrite E0. cbn [c_k1 c_k2 c_k3 c_p1 c_p2 c_fx c_fy c_cx c_cy pinhole].
    assert (E1 : mac (cz 1%nat) (g 0 0) (B754_infinity false) (g 0 0) = B754_nan) by (destruct (cz 1%nat); vm_compute; reflexivity). rewrite E1.
    assert (N1 : forall k a b, mac k B754_nan a b = B754_nan) by (intros [] [] []; reflexivity). rewrite !N1.
    assert (N2 : forall k x a b, sop k x B754_nan a b = B754_nan).
    { intros k x a b. assert (X : mul64 x B754_nan = B754_nan) by (destruct x; reflexivity). assert (X1 : forall t, fma64 x B754_nan t = B754_nan) by (intros t; destruct x, t; reflexivity).
      assert (X2 : forall t, fma64 a b B754_nan = t \/ True) by auto. destruct k; cbn [sop]; rewrite ?X, ?X1; [destruct (mul64 a b); reflexivity|reflexivity|]. destruct a, b; reflexivity. }
    rewrite !N2.
    assert (N3 : forall k x a, mac k x a B754_nan = B754_nan) by (intros k x a; destruct k; cbn [mac]; [destruct (mul64 x a); reflexivity|destruct x, a; reflexivity..]). rewrite !N3.
    assert (N4 : forall k x a, mac k x B754_nan a = B754_nan) by (intros k x a; destruct k; cbn [mac]; [destruct x, a; reflexivity..]). rewrite !N4. reflexivity.
  - intros k fuse n im w border H. destruct (C22_nan_accepted_ieee_refuted k fuse n im w B754_nan border H) as (A & B & _). split; [exact A|exact B].
Qed.
(** With the equidistant model the same bearing, perpendicular to the optical axis, projects to the principal point. *)
Theorem C105_equidistant_grazing_refuted : exists vx vy vz, at_most 1 vx /\ at_most 1 vy /\ at_most 1 vz /\ 0 < val64 vz < val64 vx /\
  forall cz at64, good_atan at64 -> to_pixel64 cz at64 (pinhole Equidist64) vx vy vz = Some (f32_of_Z 376, f32_of_Z 240).
Proof.
  exists (g 1 0), (g 0 0), (g 1 (-600)). destruct (g_val 1 (-600) ltac:(lia) ltac:(lia)) as [F E]. destruct (g_val 1 0 ltac:(lia) ltac:(lia)) as [F1 E1].
  split; [apply g_int; lia|]. split; [apply (g_int 0 1); lia|]. split.
  { split; [exact F|]. unfold val64. rewrite E. unfold F2R. cbn [Fnum Fexp]. rewrite Rmult_1_l, Rabs_pos_eq by apply bpow_ge_0. change 1 with (bpow radix2 0). apply bpow_le. lia. }
  split. { unfold val64. rewrite E, E1. unfold F2R. cbn [Fnum Fexp]. rewrite !Rmult_1_l. split; [apply bpow_gt_0|]. apply bpow_lt. lia. }
  intros cz at64 A. unfold to_pixel64. replace (Bleb (g 1 (-600)) (B754_zero false)) with false by (vm_compute; reflexivity). cbv zeta.
  unfold distort64. cbn [c_model pinhole]. unfold equidist64. cbv zeta.
  assert (E0 : sqrt64 (sop (cz 0%nat) (div64 (g 1 0) (g 1 (-600))) (div64 (g 1 0) (g 1 (-600))) (div64 (g 0 0) (g 1 (-600))) (div64 (g 0 0) (g 1 (-600)))) = B754_infinity false) by (destruct (cz 0%nat); vm_compute; reflexivity).
  rewrite E0. replace (Bltb (B754_infinity false) nano10) with false by (vm_compute; reflexivity). cbn [c_k1 c_k2 c_k3 c_k4 c_fx c_fy c_cx c_cy pinhole fst snd].
  assert (T : bd 1 (at64 (B754_infinity false))) by (apply (bd_val 2); [apply A; reflexivity|cbn; lra]). set (th := at64 _) in *. clearbody th.
  assert (K0 : bd 100 (g 0 0)) by (apply (bd_val 1); [apply (g_int 0 1); lia|cbn; lra]).
  assert (T2 : bd 2 (mul64 th th)) by (apply (bd_mul 1 1); auto; lia). set (th2 := mul64 th th) in *. clearbody th2.
  assert (T4 : bd 4 (mul64 th2 th2)) by (apply (bd_mul 2 2); auto; lia). set (th4 := mul64 th2 th2) in *. clearbody th4.
  assert (T6 : bd 6 (mul64 th2 th4)) by (apply (bd_mul 2 4); auto; lia). set (th6 := mul64 th2 th4) in *. clearbody th6.
  assert (T8 : bd 8 (mul64 th2 th6)) by (apply (bd_mul 2 6); auto; lia). set (th8 := mul64 th2 th6) in *. clearbody th8.
  assert (Q1 : bd 103 (mac (cz 1%nat) (g 0 0) th2 one64)) by (apply (bd_mac _ 100 2 102); auto; try lia; apply (bd_up 0); [exact (proj1 one_val)|lia]). set (e1 := mac (cz 1%nat) _ _ _) in *. clearbody e1.
  assert (Q2 : bd 105 (mac (cz 2%nat) (g 0 0) th4 e1)) by (apply (bd_mac _ 100 4 104); auto; try lia; apply (bd_up 103); [exact Q1|lia]). set (e2 := mac (cz 2%nat) _ _ _) in *. clearbody e2.
  assert (Q3 : bd 107 (mac (cz 3%nat) (g 0 0) th6 e2)) by (apply (bd_mac _ 100 6 106); auto; try lia; apply (bd_up 105); [exact Q2|lia]). set (e3 := mac (cz 3%nat) _ _ _) in *. clearbody e3.
  assert (Q4 : bd 109 (mac (cz 4%nat) (g 0 0) th8 e3)) by (apply (bd_mac _ 100 8 108); auto; try lia; apply (bd_up 107); [exact Q3|lia]). set (e4 := mac (cz 4%nat) _ _ _) in *. clearbody e4.
  assert (TD : is_finite (mul64 th e4) = true) by (apply (bd_mul 1 109); auto; lia). set (td := mul64 th e4) in *. clearbody td.
  assert (S : exists s, div64 td (B754_infinity false) = B754_zero s) by (destruct td as [s|s| |s m q b]; try discriminate TD; eexists; reflexivity).
  destruct S as [s ->]. f_equal. f_equal; apply B2SF_inj; [destruct (cz 10%nat), s|destruct (cz 11%nat), s]; vm_compute; reflexivity.
Qed.

(** A camera and a bearing to which the theorems apply. *)
Example C105_ex : usual (pinhole Radtan64) /\ moderate (pinhole DoubleSphere64) /\ in_front (g 3 (-2)) (g 1 (-2)) (g 1 (-1)) /\ good_atan (fun _ => one64) /\
  (forall at64, exists u v, to_pixel64 (fun _ => FuseFirst) at64 (pinhole Radtan64) (g 3 (-2)) (g 1 (-2)) (g 1 (-1)) = Some (u, v) /\ B2SF u = B2SF (f32_of_Z 976) /\ B2SF v = B2SF (f32_of_Z 440)).
Proof.
  split; [apply pinhole_usual|]. assert (BIG : 1000 <= 2 ^ 100) by (apply Rle_trans with (2 ^ 10); [lra|apply Rle_pow; [lra|lia]]).
  assert (W : forall m, (Z.abs m <= 1000)%Z -> at_most (2 ^ 100) (g m 0)) by (intros m H; destruct (g_int m 1000 ltac:(lia) H) as [F V]; split; [exact F|lra]).
  assert (Z0 : val64 (g 0 0) = 0) by (unfold val64; destruct (g_val 0 0 ltac:(lia) ltac:(lia)) as [_ ->]; unfold F2R; cbn; lra).
  split; [unfold moderate; repeat (split; [apply W; cbn; lia|]); intros _; cbn [pinhole c_k1 c_k2]; rewrite Z0; lra|].
  split.
  { destruct (g_val 3 (-2) ltac:(lia) ltac:(lia)) as [A1 A2]. destruct (g_val 1 (-2) ltac:(lia) ltac:(lia)) as [B1 B2]. destruct (g_val 1 (-1) ltac:(lia) ltac:(lia)) as [D1 D2].
    unfold in_front, at_most, val64. rewrite A2, B2, D2. unfold F2R. cbn [Fnum Fexp]. change (bpow radix2 (-2)) with (/ 4). change (bpow radix2 (-1)) with (/ 2). rewrite !Rabs_pos_eq by lra.
    repeat split; try assumption; try lra. }
  split. { intros x _. destruct one_val as [[F _] E]. split; [exact F|]. unfold val64. rewrite E, Rabs_pos_eq; lra. }
  intros at64. unfold to_pixel64. replace (Bleb (g 1 (-1)) (B754_zero false)) with false by (vm_compute; reflexivity). cbv zeta.
  eexists _, _. split; [reflexivity|]. split; vm_compute; reflexivity.
Qed.

Print Assumptions C105_pixel_is_number.
Print Assumptions C105_projected_patch_safe.
Print Assumptions C105_radtan_pixel_accuracy.
Print Assumptions C105_grazing_bearing_refuted.
Print Assumptions C105_equidistant_grazing_refuted.
