(** C108: the Jacobian of the projection in double precision. *)
From Coq Require Import ZArith Bool Reals Lia Lra Psatz.
From Flocq Require Import Core BinarySingleNaN.
From Verif Require Import IeeeModel IeeeSpec IeeeReal StampModel IcamModel IcamSpec IcamAccSpec IcamProofs IcamAcc IcamProps IcamAccProps IbackModel IbjacModel IbjacProps IjacSpec IjacProps CamModel CamSpec IpjacModel IpjacSpec IpjacProofs.
Local Open Scope R_scope.

(** The 2x3 matrix a usual camera of any of the three models returns with the pixel of a usual bearing is, up to 2^-15 in each
    entry, the derivative of the real projection at a bearing whose first two coordinates are within 2^-51 of the given ones,
    whatever the compiler contracts. The double-sphere and equidistant models are considered clear of the
    border of the small disc around the optical axis where they leave points alone. *)
Theorem C108_projection_jacobian : forall cz at64 c vx vy vz, usual c -> usual_model c -> accurate_atan at64 -> usual_bearing vx vy vz ->
  c_model c = Radtan64 \/ off_axis vx vy vz \/ on_axis vx vy vz ->
  exists uv j, to_pixel_jac64 cz at64 c vx vy vz = Some (uv, j) /\
  exists x y, ulp_off x vx /\ ulp_off y vy /\ jacobian23_within (/ 2 ^ 15) (pixel (real_camera c)) (x, y, val64 vz) j.
Proof.
  intros cz at64 c vx vy vz US UM AT B O. destruct (proj_jac cz at64 c US UM AT _ _ _ B O) as (uv & j & E & x & y & X & Y & J).
  exists uv, j. split; [exact E|]. exists x, y. split; [exact X|]. split; [exact Y|]. now apply jac23_out.
Qed.
(** The same for the 2x2 matrix of a unit vector: it is, up to 2^-13 in each entry, the rate at which the pixel moves when the bearing
    moves in the plane spanned by the two columns of the vector's tangent basis. *)
Theorem C108_tangent_jacobian : forall cz at64 c vx vy vz m1 m2, usual c -> usual_model c -> accurate_atan at64 -> usual_bearing vx vy vz ->
  c_model c = Radtan64 \/ off_axis vx vy vz \/ on_axis vx vy vz -> unit_column m1 -> unit_column m2 ->
  exists uv j, to_pixel_tangent64 cz at64 c vx vy vz m1 m2 = Some (uv, j) /\
  exists x y, ulp_off x vx /\ ulp_off y vy /\ tangent_within (/ 2 ^ 13) (pixel (real_camera c)) (x, y, val64 vz) m1 m2 j.
Proof.
  intros cz at64 c vx vy vz m1 m2 US UM AT B O U W. destruct (proj_jac cz at64 c US UM AT _ _ _ B O) as (uv & j & E & x & y & X & Y & J).
  unfold to_pixel_tangent64. rewrite E. eexists uv, _. split; [reflexivity|]. exists x, y. split; [exact X|]. split; [exact Y|]. now apply tangent_in.
Qed.
(** The pixel returned with the Jacobian, or the refusal to project, is one the projection without Jacobian may return. *)
Theorem C108_same_pixel : forall cz at64 c vx vy vz, exists cz',
  option_map fst (to_pixel_jac64 cz at64 c vx vy vz) = to_pixel64 cz' at64 c vx vy vz.
Proof.
  intros. exists (fun n => if Nat.eqb n 10 then cz 34%nat else if Nat.eqb n 11 then cz 35%nat else cz n). unfold to_pixel_jac64, to_pixel64.
  destruct (Bleb vz (B754_zero false)); [reflexivity|]. cbv zeta. pose proof (C106_same_distortion cz at64 c (div64 vx vz) (div64 vy vz)) as S.
  destruct (distort_jac64 cz at64 c (div64 vx vz) (div64 vy vz)) as [d m]. cbn [fst] in S. subst d. cbn [option_map fst].
  unfold distort64. destruct (c_model c); reflexivity.
Qed.
(** Hence it is as accurate. *)
Theorem C108_pixel_accuracy : forall cz at64 c vx vy vz, usual c -> usual_model c -> accurate_atan at64 -> usual_bearing vx vy vz ->
  exists u v j, to_pixel_jac64 cz at64 c vx vy vz = Some ((u, v), j) /\
    let e := exact_pixel c (val64 vx / val64 vz) (val64 vy / val64 vz) in
    (Rabs (fst e) <= 4095 -> is_finite u = true /\ Rabs (B2R u - fst e) <= / 3000) /\
    (Rabs (snd e) <= 4095 -> is_finite v = true /\ Rabs (B2R v - snd e) <= / 3000).
Proof.
  intros cz at64 c vx vy vz US UM AT (X & Y & Z & L & HX & HY). destruct (C108_same_pixel cz at64 c vx vy vz) as [cz' S].
  assert (Q : forall v, Rabs v <= 2 * val64 vz -> Rabs (v / val64 vz) <= 2).
  { intros v H. unfold Rdiv. rewrite Rabs_mult, Rabs_inv, (Rabs_pos_eq (val64 vz)) by lra. apply Rmult_le_reg_r with (val64 vz); [lra|]. rewrite Rmult_assoc, Rinv_l by lra. lra. }
  assert (F : in_front vx vy vz).
  { split; [exact X|]. split; [exact Y|]. split; [exact Z|]. apply Rle_trans with (/ 4); [|exact L]. apply Rinv_le_contravar; [lra|]. replace 4 with (2 ^ 2) by lra. apply Rle_pow; [lra|lia]. }
  destruct (C105_pixel_accuracy cz' at64 c vx vy vz US UM AT F (Q _ HX) (Q _ HY)) as (u & v & E & A & B).
  rewrite E in S. destruct (to_pixel_jac64 cz at64 c vx vy vz) as [[uv j]|]; [|discriminate]. cbn [option_map fst] in S. injection S as ->.
  exists u, v, j. split; [reflexivity|]. split; [exact A|exact B].
Qed.
(** Cameras and a bearing to which the theorems apply. *)
Example C108_ex : (forall m, usual (IcamProps.pinhole m) /\ usual_model (IcamProps.pinhole m)) /\ accurate_atan rounded_atan /\
  usual_bearing (g 1 0) (g 0 0) (g 2 0) /\ off_axis (g 1 0) (g 0 0) (g 2 0) /\ on_axis (g 0 0) (g 0 0) (g 2 0) /\ unit_column (g 0 0, g 1 0, g 0 0) /\ unit_column (g 1 (-1), g 0 0, g (-1) (-2)).
Proof.
  split; [exact (proj1 C107_ex)|]. split; [exact rounded_atan_accurate|]. assert (V : forall m, (Z.abs m < 2 ^ 53)%Z -> val64 (g m 0) = IZR m) by exact g_num.
  split; [|split; [left; rewrite !V by lia; rewrite Rabs_pos_eq; lra|]].
  2:{ assert (H : forall m e, (Z.abs m < 2 ^ 53)%Z -> (-2 <= e <= 0)%Z -> Rabs (IZR m * bpow radix2 e) <= 1 -> at_most 1 (g m e)).
      { intros m e Hm He Hb. destruct (g_val m e Hm ltac:(lia)) as [F Q]. split; [exact F|]. unfold val64. rewrite Q. exact Hb. }
      split; [split; rewrite !V by lia; rewrite Rabs_R0; lra|].
      split; (split; [|split]); apply H; try lia; cbn; apply Rabs_le; lra. }
  split; [apply (g_int 1 2); lia|]. split; [apply (g_int 0 2); lia|]. split; [apply (g_int 2 2); lia|]. rewrite !V by lia. rewrite Rabs_R0, Rabs_pos_eq by lra. lra.
Qed.

Print Assumptions C108_projection_jacobian.
Print Assumptions C108_tangent_jacobian.
Print Assumptions C108_same_pixel.
Print Assumptions C108_pixel_accuracy.
