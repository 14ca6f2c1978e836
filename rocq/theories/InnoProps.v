(** C76: innovation of the image update and its Jacobians. *)
From Coq Require Import Reals ZArith List Bool Arith Lia Lra Permutation.
From Verif Require Import Geo Lie DistModel DistSpec FiltModel FiltSpec FiltProofs OutModel OutSpec OutProofs OutMore OutProps CamModel CamSpec InnoModel InnoSpec InnoProofs.
From Verif Require AlignModel.
Import ListNotations.
Local Open Scope R_scope.

(** In the pixel mode the Jacobian handed to the filter is the derivative of the innovation along every
    direction of the state space when the feature is measured in its own camera, and in another camera
    along every direction that leaves the camera rotations alone (always, when the extrinsics are not
    estimated). *)
Theorem C76_pixel_jacobian : forall cams frame n dold k i x g ign meas nz tv, good_frame frame -> seen cams frame n dold k i x g ->
  k = fcam x i \/ a_calib (x_aux x) = false \/ (forall c, tv (Vea c) = v0) ->
  exists J, jac_pix cams frame dold ign k i x = Some J /\
    dP (fun t => or0 (innovation_pix cams frame dold k i meas nz (boxplus x (along tv t)))) (row2_mul n J tv).
Proof.
  intros cams frame n dold k i x g ign meas nz tv GF S C.
  destruct (seen_J cams frame n dold k i x g S) as (c & P & _ & HP & _).
  assert (HJ : jac_pix cams frame dold ign k i x = Some (fun s => neg_times P (transfer_jac frame ign k x i s))) by (unfold jac_pix; now rewrite HP).
  eexists. split; [exact HJ|]. pose proof (innovation_deriv cams frame n dold k i x g tv ign GF S _ meas nz HJ) as D.
  destruct (Nat.eqb_spec k (fcam x i)) as [E|E]; [exact D|]. destruct C as [C|C]; [contradiction|].
  rewrite row2_mul_neg in D |- *. rewrite (flip_same frame n ign k x i tv C) in D. exact D.
Qed.
(** in another camera all directions at once: the columns of the camera rotations have the wrong sign *)
Theorem C76_pixel_jacobian_all_directions : forall cams frame n dold k i x g ign meas nz tv, good_frame frame -> seen cams frame n dold k i x g ->
  k <> fcam x i ->
  exists J, jac_pix cams frame dold ign k i x = Some J /\
    dP (fun t => or0 (innovation_pix cams frame dold k i meas nz (boxplus x (along tv t)))) (row2_mul n J (flip_vea tv)).
Proof.
  intros cams frame n dold k i x g ign meas nz tv GF S NE.
  destruct (seen_J cams frame n dold k i x g S) as (c & P & _ & HP & _).
  assert (HJ : jac_pix cams frame dold ign k i x = Some (fun s => neg_times P (transfer_jac frame ign k x i s))) by (unfold jac_pix; now rewrite HP).
  eexists. split; [exact HJ|]. pose proof (innovation_deriv cams frame n dold k i x g tv ign GF S _ meas nz HJ) as D.
  destruct (Nat.eqb_spec k (fcam x i)) as [E|E]; [contradiction|]. exact D.
Qed.

(** the point of feature 0 of the example state seen in camera 1 of the pinhole kind *)
Definition ic (_ : nat) : camera :=
  {| ctype := RADTAN; k1 := 0; k2 := 0; k3 := 0; k4 := 0; p1 := 0; p2 := 0; fx := 400; fy := 300; cx := 320; cy := 240 |}.
Lemma ic_seen frame : good_frame frame -> exists g, seen ic frame ox_n (mk REGULAR) 1 0 ox g.
Proof.
  intros GF. assert (NE : 1%nat <> fcam ox 0) by (cbn; lia).
  destruct (transfer_some frame ox 0 1 NE ox (mk REGULAR) eq_refl eq_refl ox_D_nz) as (g & Hg & _ & HQ & _). exists g.
  constructor; [exact ox_wf|cbn; lia|cbn; lia|apply ox_usable; lia|intros _; exact ox_D_nz|exact Hg| |exact I].
  rewrite HQ, (proj2 (GF _ ox_D_nz)), ox_D. unfold unit. pose proof (norm_pos _ ox_D_nz) as P. rewrite ox_D in P.
  change (vz (vscale (/ norm (-1, 0, 2)) (-1, 0, 2))) with (/ norm (-1, 0, 2) * 2). apply Rinv_0_lt_compat in P. lra.
Qed.
Lemma ic_pixel x y z : 0 < z -> pixel (ic 1) (x, y, z) = (400 * (x / z) + 320, 300 * (y / z) + 240).
Proof.
  intros P. unfold pixel, bearing_to_pixel. destruct (Rle_dec z 0); [lra|]. cbn -[Rdiv]. f_equal; ring.
Qed.
Lemma ic_moves frame tv : good_frame frame -> (tv = fun s => match s with Vea 1 => (0, 1, 0) | _ => v0 end : V3) ->
  dR (fun t => fst (or0 (predicted ic frame (mk REGULAR) 1 0 (boxplus ox (along tv t))))) 500.
Proof.
  intros GF Etv. assert (NE : 1%nat <> fcam ox 0) by (cbn; lia).
  pose proof (D_deriv ox_n ox 0 1 tv ox_wf ltac:(cbn; lia) (ox_usable 0 ltac:(lia))) as D. cbv beta zeta in D.
  set (E := fun t => DrDP (boxplus ox (along tv t)) 1 0) in *.
  assert (DE : dV E (2, 0, 1)).
  { eapply dV_eq; [exact D|]. rewrite ox_D. subst tv. cbv -[Rplus Rminus Rmult Ropp IZR]. repeat (match goal with |- (_, _) = (_, _) => f_equal end); ring. }
  assert (E0 : E 0 = (-1, 0, 2)) by (unfold E; rewrite (D0 ox 0 1 tv); exact ox_D).
  destruct (near ox_n ox 0 1 tv ox_wf ltac:(cbn; lia) (ox_usable 0 ltac:(lia)) ox_D_nz) as (e & He & N).
  destruct DE as (D1 & _ & D3).
  destruct (pos_near _ _ D3 ltac:(cbv beta; rewrite E0; cbn; lra)) as (e2 & He2 & C).
  eapply dR_loc. { exists (Rmin e e2). split; [now apply Rmin_pos|]. intros t Ht. rewrite predicted_pixel.
    assert (Z : E t <> v0) by exact (N t (Rlt_le_trans _ _ _ Ht (Rmin_l _ _))).
    pose proof (C t (Rlt_le_trans _ _ _ Ht (Rmin_r _ _))) as P. cbv beta in P.
    destruct (transfer_some frame ox 0 1 NE (boxplus ox (along tv t)) (mk REGULAR) eq_refl eq_refl Z) as (g & -> & _ & HQ & _).
    cbn [OutSpec.bearing]. change (ft_Q g = frame (E t)) in HQ. rewrite HQ, (proj2 (GF _ Z)). unfold unit. pose proof (norm_pos _ Z) as PN.
    destruct (E t) as [[a b] c] eqn:EE. set (l := norm (a, b, c)) in *. change (vscale (/ l) (a, b, c)) with (/ l * a, / l * b, / l * c). cbn [vz snd] in P.
    rewrite ic_pixel by (apply Rmult_lt_0_compat; [now apply Rinv_0_lt_compat|exact P]). cbn [fst].
    instantiate (1 := fun t => 400 * (vx (E t) * / vz (E t)) + 320). cbv beta. rewrite EE. cbn [vx vz fst snd]. field. split; lra. }
  assert (NZ : vz (E 0) <> 0) by (rewrite E0; cbn; lra).
  eapply dR_eq; [exact (dR_plus _ _ _ _ (dR_scal 400 _ _ (dR_mult _ _ _ _ D1 (dR_inv (fun t => vz (E t)) _ NZ D3))) (dR_const 320))|].
  cbv beta. rewrite E0. cbn [vx vz fst snd]. field.
Qed.
(** With estimated extrinsics the rotation columns of a cross-camera measurement point the wrong way. *)
Theorem C76_rotation_columns_refuted : forall frame, good_frame frame -> exists cams n dold k i x g tv meas, seen cams frame n dold k i x g /\ k <> fcam x i /\
  forall ign J, jac_pix cams frame dold ign k i x = Some J ->
  ~ dP (fun t => or0 (innovation_pix cams frame dold k i meas (0, 0) (boxplus x (along tv t)))) (row2_mul n J tv).
Proof.
  intros frame GF. destruct (ic_seen frame GF) as (g & S). set (tv := fun s => match s with Vea 1 => (0, 1, 0) | _ => v0 end : V3).
  assert (NE : 1%nat <> fcam ox 0) by (cbn; lia).
  exists ic, ox_n, (mk REGULAR), 1%nat, 0%nat, ox, g, tv, (0, 0). split; [exact S|]. split; [exact NE|]. intros ign J HJ D.
  destruct (C76_pixel_jacobian_all_directions ic frame ox_n (mk REGULAR) 1 0 ox g ign (0, 0) (0, 0) tv GF S NE) as (J' & HJ' & D').
  rewrite HJ in HJ'. injection HJ' as <-. destruct D as [D _], D' as [D' _].
  unfold jac_pix in HJ. destruct (pixel_jac ic frame (mk REGULAR) 1 0 ox) as [P|] eqn:EP; [|discriminate]. cbn [option_map] in HJ. injection HJ as <-.
  pose proof (predicted_deriv ic frame ox_n (mk REGULAR) 1 0 ox g tv ign GF S P EP) as [DP _]. cbv beta in DP.
  change (1 =? fcam ox 0)%nat with false in DP. cbv iota in DP.
  pose proof (dR_unique _ _ _ DP (ic_moves frame tv GF eq_refl)) as V. pose proof (dR_unique _ _ _ D D') as Q.
  rewrite !row2_mul_neg in Q. destruct P as [[[a b] c] d]. cbn [fst] in Q, V.
  rewrite (flip_pure frame ox_n ign 1 ox 0 tv) in Q, V by (intros [| | | | |j|[|[|j]]|j|j|j] H; try reflexivity; exfalso; now apply (H 1%nat)).
  set (r := row_mul _ _ _) in *. destruct r as [[r1 r2] r3]. cbn in Q, V. lra.
Qed.

(** the innovation is measured minus predicted pixel, plus the noise: it vanishes (without noise) exactly
    when the feature is predicted where it was measured, and the noise Jacobian is its derivative in the
    noise *)
Theorem C76_zero_innovation : forall cams frame dold k i meas x c, predicted cams frame dold k i x = Some c ->
  (innovation_pix cams frame dold k i meas (0, 0) x = Some (0, 0) <-> meas = c).
Proof.
  intros cams frame dold k i [m1 m2] x [c1 c2] H. unfold innovation_pix. rewrite H. cbn [fst snd]. split.
  - intros E. injection E as E1 E2. f_equal; lra.
  - intros E. injection E as -> ->. f_equal. f_equal; ring.
Qed.
Theorem C76_noise_jacobian : forall cams frame dold k i meas nz x y, innovation_pix cams frame dold k i meas (0, 0) x = Some y ->
  innovation_pix cams frame dold k i meas nz x = Some (fst y + fst (mul2v jac_noise nz), snd y + snd (mul2v jac_noise nz)).
Proof.
  intros cams frame dold k i meas [n1 n2] x y. unfold innovation_pix. destruct (predicted cams frame dold k i x) as [c|]; [|discriminate].
  intros E. injection E as <-. cbn. f_equal. f_equal; ring.
Qed.
(** a feature predicted behind the camera has no innovation at all: the value used is left over *)
Theorem C76_behind_camera : forall cams frame dold k i meas nz x g, transfer frame k x i dold = Some g -> vz (nor (ft_Q g)) <= 0 ->
  innovation_pix cams frame dold k i meas nz x = None.
Proof.
  intros cams frame dold k i meas nz x g Hg P. unfold innovation_pix, predicted. rewrite Hg. destruct (nor (ft_Q g)) as [[a b] c].
  cbn [vz snd] in P. unfold bearing_to_pixel. destruct (Rle_dec c 0); [reflexivity|lra].
Qed.

(** Direct mode: with the reduced equations of C56 (orthogonal [q], triangular [r] of the photometric
    system [a] u = [b]), twice the product of the innovation with the Jacobian is the derivative of the
    photometric least squares cost along every direction (camera rotations again with the other sign
    outside the own camera). *)
Theorem C76_direct_gradient : forall cams frame n dold k i x g tv ign eqs m q r sw a b A bb c J,
  good_frame frame -> seen cams frame n dold k i x g -> (2 <= m)%nat ->
  (forall i j, (i < m)%nat -> (j < m)%nat -> AlignModel.fsum m (fun k => q i k * q j k) = if Nat.eqb i j then 1 else 0) ->
  (forall i j, (i < m)%nat -> (j < m)%nat -> AlignModel.fsum m (fun k => q k i * q k j) = if Nat.eqb i j then 1 else 0) ->
  (forall i j, (i < m)%nat -> (j < 2)%nat -> a i j = AlignModel.fsum m (fun k => q i k * (if Nat.leb k (AlignModel.perm sw j) then r k (AlignModel.perm sw j) else 0))) ->
  A = (AlignModel.reduced_a r sw 0 0, AlignModel.reduced_a r sw 0 1, AlignModel.reduced_a r sw 1 0, AlignModel.reduced_a r sw 1 1) ->
  bb = (AlignModel.reduced_b m q b 0, AlignModel.reduced_b m q b 1) ->
  predicted cams frame dold k i x = Some c -> eqs k c = Some (A, bb) ->
  jac_direct cams frame dold eqs ign k i x = (J, false) ->
  innovation_direct cams frame dold eqs k i (0, 0) x = (bb, false) /\
  dR (fun t => photometric m a b (vsub2 (or0 (predicted cams frame dold k i (boxplus x (along tv t)))) c))
     (2 * dot2 (fst (innovation_direct cams frame dold eqs k i (0, 0) x)) (row2_mul n J (if (k =? fcam x i)%nat then tv else flip_vea tv))).
Proof.
  intros cams frame n dold k i x g tv ign eqs m q r sw a b A bb c J GF S M Q1 Q2 QR EA EB Hc He HJ.
  assert (I0 : innovation_direct cams frame dold eqs k i (0, 0) x = (bb, false)).
  { unfold innovation_direct. rewrite Hc, He. cbn [fst snd]. f_equal. destruct bb as [b1 b2]. cbn. f_equal; ring. }
  split; [exact I0|]. rewrite I0. cbn [fst]. exact (direct_grad cams frame n dold k i x g tv ign GF S eqs m q r sw a b A bb c J M Q1 Q2 QR EA EB Hc He HJ).
Qed.
(** when the equations cannot be set up the measurement carries no information and the iteration is cancelled *)
Theorem C76_direct_failure : forall cams frame n dold eqs ign k i nz x tv,
  snd (innovation_direct cams frame dold eqs k i nz x) = true ->
  innovation_direct cams frame dold eqs k i nz x = (nz, true) /\
  jac_direct cams frame dold eqs ign k i x = (zero_block, true) /\ row2_mul n zero_block tv = (0, 0).
Proof.
  intros cams frame n dold eqs ign k i nz x tv H.
  assert (Z : row2_mul n zero_block tv = (0, 0)).
  { unfold row2_mul. induction (segs n) as [|s l IH]; cbn [fold_right]; [reflexivity|]. rewrite IH. destruct (tv s) as [[t1 t2] t3]. unfold zero_block, v0, dot. cbn. f_equal; ring. }
  unfold innovation_direct in *. unfold jac_direct. destruct (predicted cams frame dold k i x) as [c|].
  - destruct (eqs k c) as [[A b]|] eqn:E; [discriminate|]. destruct (pixel_jac cams frame dold k i x); auto.
  - auto.
Qed.

(** noise levels: independent of the camera in the pixel mode; the off-camera factor acts in direct mode only *)
Lemma nodup_map_in (f : nat -> nat) l : (forall a b, In a l -> In b l -> f a = f b -> a = b) -> NoDup l -> NoDup (map f l).
Proof.
  induction l as [|a l IH]; intros J ND; [apply NoDup_nil|]. inversion ND as [|? ? NI ND']; subst. cbn [map]. apply NoDup_cons.
  - intros K. apply in_map_iff in K. destruct K as (b & E & B). apply NI. rewrite (J a b (or_introl eq_refl) (or_intror B) (eq_sym E)). exact B.
  - apply IH; [|exact ND']. intros b c B C. apply J; now right.
Qed.
(** The counter goes through all cameras, the feature's own camera first. *)
Theorem C76_every_camera_once : forall n x i, (fcam x i < d_cam n)%nat ->
  active_cam n x i 0 = fcam x i /\ Permutation (map (active_cam n x i) (seq 0 (d_cam n))) (seq 0 (d_cam n)).
Proof.
  intros n x i H. unfold active_cam. split; [now rewrite Nat.add_0_l, Nat.mod_small|].
  set (N := d_cam n) in *. set (f := fcam x i) in *.
  apply NoDup_Permutation_bis.
  - apply nodup_map_in; [|apply seq_NoDup]. intros a b A B E. apply in_seq in A, B.
    assert (Q : forall z, (z < N)%nat -> ((z + f) mod N = if z + f <? N then z + f else z + f - N)%nat).
    { intros z Hz. destruct (Nat.ltb_spec (z + f) N); [now apply Nat.mod_small|]. replace (z + f)%nat with (z + f - N + 1 * N)%nat by lia. rewrite Nat.mod_add by lia. rewrite Nat.mod_small by lia. lia. }
    rewrite !Q in E by lia. destruct (Nat.ltb_spec (a + f) N), (Nat.ltb_spec (b + f) N); lia.
  - rewrite map_length, seq_length. auto.
  - intros z Z. apply in_map_iff in Z. destruct Z as (a & <- & _). apply in_seq. split; [lia|]. cbn. apply Nat.mod_upper_bound. lia.
Qed.
Print Assumptions C76_every_camera_once.
Example C76_every_camera_ex : fcam ox 0 = 0%nat /\ map (active_cam {| d_cam := 3; d_max := 1; d_pose := 0 |} ox 0) [0; 1; 2]%nat = [0; 1; 2]%nat.
Proof. split; reflexivity. Qed.
Theorem C76_noise_level : forall cf cc, n_direct cf = true ->
  update_noise cf cc = let v := n_int cf * (if (cc =? 0)%nat then 1 else n_off cf) in (v, 0, 0, v).
Proof.
  intros cf cc E. unfold update_noise. rewrite E. destruct (cc =? 0)%nat; cbv zeta; [now rewrite Rmult_1_r|reflexivity].
Qed.
Theorem C76_off_camera_gain_refuted : exists cf cc, n_direct cf = false /\ cc <> 0%nat /\ n_off cf <> 1 /\ update_noise cf cc = update_noise cf 0.
Proof. exists {| n_direct := false; n_int := 1; n_pix := 2; n_off := 10 |}, 1%nat. cbn. repeat split; try lia; lra. Qed.

(** non-vacuity: the example is seen in camera 1 (another camera) for every choice of tangent bases *)
Example C76_ex : exists g, seen ic ox_frame ox_n (mk REGULAR) 1 0 ox g /\ 1%nat <> fcam ox 0 /\ a_calib (x_aux ox) = true.
Proof. destruct (ic_seen ox_frame ox_frame_good) as (g & S). exists g. split; [exact S|]. split; [cbn; lia|reflexivity]. Qed.

Print Assumptions C76_pixel_jacobian.
Print Assumptions C76_pixel_jacobian_all_directions.
Print Assumptions C76_rotation_columns_refuted.
Print Assumptions C76_zero_innovation.
Print Assumptions C76_noise_jacobian.
Print Assumptions C76_behind_camera.
Print Assumptions C76_direct_gradient.
Print Assumptions C76_direct_failure.
Print Assumptions C76_noise_level.
Print Assumptions C76_off_camera_gain_refuted.
