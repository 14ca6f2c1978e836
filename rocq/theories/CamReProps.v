(** C19: how far the returned bearing reprojects from the pixel it was computed for. *)
From Coq Require Import Reals Lra.
From Verif Require Import CamModel CamSpec CamReSpec CamProofs CamUndist CamReproj.
Local Open Scope R_scope.

(** For every model: if the Jacobian of the distortion changes by at most L times the distance between the last guess and the
    corrected one, the bearing projects to within f L/2 |du|^2 of the pixel, quadratically small in the last correction. *)
Theorem C19_reprojection_error : forall n k c v, fx k <> 0 -> fy k <> 0 -> pixel_to_bearing_n n k c = BOk v ->
  exists g du, last_guess k c g du /\ forall L, 0 <= L ->
    (forall t, 0 <= t <= 1 -> regular k (on_segment g du t) /\
       entries_at_most (L * t * (Rabs (fst du) + Rabs (snd du))) (minus2 (snd (distort_J k (on_segment g du t))) (snd (distort_J k g)))) ->
    exists c', bearing_to_pixel k v = Some c' /\
      Rabs (fst c' - fst c) <= Rabs (fx k) * (L / 2 * (Rabs (fst du) + Rabs (snd du)) ^ 2) /\
      Rabs (snd c' - snd c) <= Rabs (fy k) * (L / 2 * (Rabs (fst du) + Rabs (snd du)) ^ 2).
Proof.
  intros n k c v Fx Fy H. destruct (success k n c v H) as (g & du & lam & G & Hl & E). exists g, du. split; [exact G|]. intros L HL. exact (reproject k c v lam g du L Fx Fy Hl E G HL).
Qed.
Print Assumptions C19_reprojection_error.

(** Radial-tangential model, bearings within a field of view of 90 degrees: an explicit bound in pixels from the coefficients
    and the Jacobian at the last guess. *)
Theorem C19_radtan_reprojection_error : forall n k c v, ctype k = RADTAN -> fx k <> 0 -> fy k <> 0 -> pixel_to_bearing_n n k c = BOk v ->
  exists g du, last_guess k c g du /\ forall M d, in_square g -> (let '(x, y, z) := v in in_square (x / z, y / z)) ->
    entries_at_most M (snd (distort_J k g)) -> 0 < d -> d <= Rabs (det2 (snd (distort_J k g))) ->
    exists c', bearing_to_pixel k v = Some c' /\
      Rabs (fst c' - fst c) <= Rabs (fx k) * (60 * coefficients k * (M / (25000 * d)) ^ 2) /\
      Rabs (snd c' - snd c) <= Rabs (fy k) * (60 * coefficients k * (M / (25000 * d)) ^ 2).
Proof.
  intros n k c v Ty Fx Fy H. destruct (success k n c v H) as (g & du & lam & G & Hl & E). exists g, du. split; [exact G|]. intros M d Sg Sv Em Hd Dt. exact (reproject_radtan k c v lam g du M d Ty Fx Fy Hl E G Sg Sv Em Hd Dt).
Qed.
Print Assumptions C19_radtan_reprojection_error.

(** a camera with focal length 100 and a slight radial distortion: the pixel (100,50) is back-projected at once *)
Definition slight : camera := {| ctype := RADTAN; k1 := / 100000; k2 := 0; k3 := 0; k4 := 0; p1 := 0; p2 := 0; fx := 100; fy := 100; cx := 50; cy := 50 |}.
Example C19_ex_slight : exists v, pixel_to_bearing_n 1 slight (100, 50) = BOk v /\ last_guess slight (100, 50) (/ 2, 0) (- / 800006, 0) /\ in_square (/ 2, 0) /\
  entries_at_most 2 (snd (distort_J slight (/ 2, 0))) /\ / 2 <= Rabs (det2 (snd (distort_J slight (/ 2, 0)))).
Proof.
  unfold pixel_to_bearing_n, slight. cbn [fst snd cx cy fx fy]. replace ((100 - 50) / 100) with (/ 2) by lra. replace ((50 - 50) / 100) with 0 by lra.
  cbn [undistort distort_J ctype distort_radtan_J k1 k2 k3 k4 p1 p2 fst snd gn_step]. destruct (Req_EM_T _ 0) as [Z|_]; [exfalso; lra|].
  destruct (Rle_dec _ tolerance) as [_|N]; [|exfalso; apply N; unfold tolerance; lra]. eexists. split; [reflexivity|]. split.
  - unfold last_guess. cbn. unfold tolerance. split; [lra|split; lra].
  - split; [unfold in_square; cbn; lra|]. cbn. split; [repeat split; apply Rabs_le; lra|]. rewrite Rabs_pos_eq; lra.
Qed.
