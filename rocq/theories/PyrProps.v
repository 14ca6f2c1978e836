(** C26-C29 (image pyramid) and C50 (drawing). *)
From Coq Require Import List ZArith QArith Qround Qabs Bool Lia Lqa.
From Verif Require Import PatchModel PatchSpec PyrModel PyrSpec PyrProofs.
Import ListNotations.
Local Open Scope Q_scope.

(** ** C26 *)
Theorem C26_transforms_compose : forall ct c l1 l2 l3, peq (level_c ct (level_c ct c l1 l2) l2 l3) (level_c ct c l1 l3).
Proof. exact level_compose. Qed.
Theorem C26_transform_round_trip : forall ct c l1 l2, peq (level_c ct (level_c ct c l1 l2) l2 l1) c.
Proof. exact level_inverse. Qed.
Theorem C26_same_level : forall ct c l, peq (level_c ct c l l) c.
Proof. exact level_same. Qed.
(** a step of one pixel on level l1 is a step of 2^(l1-l2) pixels on level l2 *)
Theorem C26_scale : forall ct c d l1 l2,
  peq (level_c ct (fst c + fst d, snd c + snd d) l1 l2)
      (fst (level_c ct c l1 l2) + fst d * (inject_Z (2 ^ Z.of_nat l1) / inject_Z (2 ^ Z.of_nat l2)),
       snd (level_c ct c l1 l2) + snd d * (inject_Z (2 ^ Z.of_nat l1) / inject_Z (2 ^ Z.of_nat l2))).
Proof.
  intros ct c d l1 l2. split; cbn [fst snd]; unfold level_c; cbn [fst snd]; rewrite half_pow_diff; fold (p2 l1) (p2 l2); ring.
Qed.
(** the warp is carried over unchanged when a camera is attached and the warp is available *)
Theorem C26_warp_carried : forall ct q l1 l2 w, q_cam q = true -> q_warp q = Some w ->
  q_warp (level_transform ct q l1 l2) = Some w /\ q_c (level_transform ct q l1 l2) = level_c ct (q_c q) l1 l2.
Proof. intros ct q l1 l2 w C W. unfold level_transform. rewrite C, W. split; reflexivity. Qed.
(** without an attached camera an available warp is dropped: the coordinate on the other level
    pretends an identity warp *)
Theorem C26_warp_dropped_without_camera_refuted : exists ct q l1 l2 w,
  q_warp q = Some w /\ ~ w00 w == 1 /\ q_warp (level_transform ct q l1 l2) = Some id_warp.
Proof.
  exists (centers true 752 480), {| q_c := (10, 20); q_warp := Some {| w00 := 2; w01 := 0; w10 := 0; w11 := 2 |}; q_wid := false; q_cam := false |}, 0%nat, 1%nat, {| w00 := 2; w01 := 0; w10 := 0; w11 := 2 |}.
  split; [reflexivity|]. split; [cbn; lra|reflexivity].
Qed.
Example C26_ex : peq (level_c (centers true 751 480) (100, 60) 0 3) (207 # 16, 67 # 8). Proof. split; vm_compute; reflexivity. Qed.

(** ** C27 *)
(** every read of the half-sampling of every level is inside the source level *)
Theorem C27_reads_in_range : forall im l x y, (0 <= x < size_at (gc im) (S l))%Z -> (0 <= y < size_at (gr im) (S l))%Z ->
  half_pixel (level_image im l) x y <> None.
Proof. exact reads_in_range. Qed.
Theorem C27_level_sizes : forall im l,
  gc (level_image im l) = (gc im / 2 ^ Z.of_nat l)%Z /\ gr (level_image im l) = (gr im / 2 ^ Z.of_nat l)%Z.
Proof. exact level_size. Qed.
(** a level pixel is the mean of its 2^l x 2^l source block, rounded down by at most 3l/4 grey levels *)
Theorem C27_block_mean : forall im l x y, (0 <= x < size_at (gc im) l)%Z -> (0 <= y < size_at (gr im) l)%Z ->
  let v := gp (level_image im l) x y in
  (4 ^ Z.of_nat l * v <= block_sum im l x y)%Z /\
  (4 * (block_sum im l x y - 4 ^ Z.of_nat l * v) <= 3 * Z.of_nat l * 4 ^ Z.of_nat l)%Z.
Proof. exact level_average. Qed.
Theorem C27_between_block_extremes : forall im l lo hi x y, (0 <= x < size_at (gc im) l)%Z -> (0 <= y < size_at (gr im) l)%Z ->
  (forall i j, (x * 2 ^ Z.of_nat l <= i < (x + 1) * 2 ^ Z.of_nat l)%Z -> (y * 2 ^ Z.of_nat l <= j < (y + 1) * 2 ^ Z.of_nat l)%Z ->
     (lo <= gp im i j <= hi)%Z) ->
  (lo <= gp (level_image im l) x y <= hi)%Z.
Proof. intros im l lo hi x y Hx Hy H. rewrite <- block_z in H. apply level_between; auto. Qed.
(** the block lies inside the image *)
Theorem C27_block_inside : forall im l x y, (0 <= x < gc (level_image im l))%Z -> (0 <= y < gr (level_image im l))%Z ->
  (0 <= x * 2 ^ Z.of_nat l /\ (x + 1) * 2 ^ Z.of_nat l <= gc im)%Z /\ (0 <= y * 2 ^ Z.of_nat l /\ (y + 1) * 2 ^ Z.of_nat l <= gr im)%Z.
Proof.
  intros im l x y Hx Hy. destruct (level_size im l) as [E1 E2]. rewrite E1 in Hx. rewrite E2 in Hy. rewrite <- block_z.
  split; [exact (block_inside _ l x Hx)|exact (block_inside _ l y Hy)].
Qed.
Definition ex_gray : gray := {| gc := 7; gr := 6; gp := fun x y => (10 * x + y * y)%Z |}.
Example C27_ex : gp (level_image ex_gray 1) 2 2 = 65%Z /\ gc (level_image ex_gray 1) = 3%Z. Proof. split; reflexivity. Qed.

(** ** C28 *)
(** exact when all lower levels have even size *)
Theorem C28_even_sizes_exact : forall w h l c, even_below w l -> even_below h l ->
  peq (level_c (centers false w h) c 0 l) (sampled_at l c).
Proof. exact halfsampled_even. Qed.
Theorem C28_even_sizes_exact_pyrdown : forall w h l c, even_below w l -> even_below h l ->
  peq (level_c (centers true w h) c 0 l) (pyrdown_at l c).
Proof. exact pyrdown_even. Qed.
(** always less than half a pixel of the level off *)
Theorem C28_error_below_half_pixel : forall w h l c,
  let e := level_c (centers false w h) c 0 l in let t := sampled_at l c in
  (0 <= fst e - fst t /\ fst e - fst t < 1 # 2) /\ (0 <= snd e - snd t /\ snd e - snd t < 1 # 2).
Proof. exact halfsampled_error. Qed.
Theorem C28_error_below_half_pixel_pyrdown : forall w h l c,
  let e := level_c (centers true w h) c 0 l in let t := pyrdown_at l c in
  (0 <= fst e - fst t /\ fst e - fst t < 1 # 2) /\ (0 <= snd e - snd t /\ snd e - snd t < 1 # 2).
Proof. exact pyrdown_error. Qed.
(** exactness fails for odd sizes, and the column is displaced because of an odd number of rows
    although the number of columns is even *)
Theorem C28_odd_sizes_refuted : exists w h c,
  Z.even w = true /\ Z.even h = false /\
  ~ fst (level_c (centers false w h) c 0 1) == fst (sampled_at 1 c) /\ snd (level_c (centers false w h) c 0 1) == snd (sampled_at 1 c).
Proof.
  exists 752%Z, 481%Z, (100, 100). split; [reflexivity|]. split; [reflexivity|]. split; [vm_compute; discriminate|vm_compute; reflexivity].
Qed.
Example C28_ex_even : even_below 752 4 /\ even_below 480 4.
Proof. split; intros i Hi; do 4 (destruct i as [|i]; [reflexivity|]); lia. Qed.

(** ** C29 *)
(** [front] is the result of isInFront, [near] the near-identity test of a warp, n the patch size. *)
Theorem C29_top_level_suffices : forall near n py front b q l, built false py -> Nat.Even n -> (0 < n)%nat ->
  ml_in_frame near n py front q l b = true ->
  (forall i, (i <= l)%nat -> level_in_frame near n py q i b = true) /\
  exists ps, ml_extract near n py q l b = Some ps /\ length ps = S l /\ Forall (fun p => length p = (edge n b * edge n b)%nat) ps.
Proof.
  intros near n py front b q l (w&h&Hw&Hh&Hi&Hc) He Hn H. apply (top_level_suffices near n py false b q l w h front); auto.
Qed.
(** pyrDown pyramids: identity warp, or a warped patch at least one pixel wide *)
Theorem C29_top_level_suffices_pyrdown : forall near n py front b q l, built true py -> Nat.Even n -> (0 < n)%nat ->
  (near_id near (level_transform (py_ct py) q 0 0) = true \/ wide (edge n b) (warp_of (level_transform (py_ct py) q 0 0))) ->
  ml_in_frame near n py front q l b = true ->
  (forall i, (i <= l)%nat -> level_in_frame near n py q i b = true) /\
  exists ps, ml_extract near n py q l b = Some ps /\ length ps = S l /\ Forall (fun p => length p = (edge n b * edge n b)%nat) ps.
Proof.
  intros near n py front b q l (w&h&Hw&Hh&Hi&Hc) He Hn Hs H. apply (top_level_suffices near n py true b q l w h front); auto. tauto.
Qed.
(** pyrDown pyramids of images whose lower levels have even size: any warp *)
Theorem C29_top_level_suffices_pyrdown_even : forall near n py front b q l w h,
  (0 <= w)%Z -> (0 <= h)%Z ->
  (forall l, cols (py_img py l) = size_at w l /\ rows (py_img py l) = size_at h l) -> (forall l, py_ct py l = centers true w h l) ->
  even_below w l -> even_below h l -> Nat.Even n -> (0 < n)%nat ->
  ml_in_frame near n py front q l b = true ->
  (forall i, (i <= l)%nat -> level_in_frame near n py q i b = true) /\
  exists ps, ml_extract near n py q l b = Some ps /\ length ps = S l /\ Forall (fun p => length p = (edge n b * edge n b)%nat) ps.
Proof.
  intros. apply (top_level_suffices near n py true b q l w h front); auto.
Qed.
(** pyrDown pyramid of an odd-sized image and a warped patch narrower than a pixel: the top level passes
    and the extraction reads outside the image on level 0 *)
Definition bad_pyr : pyramid :=
  {| py_img := fun l => {| cols := size_at 9 l; rows := size_at 9 l; pix := fun _ _ => 0 |}; py_ct := centers true 9 9 |}.
Definition bad_coord : coord :=
  {| q_c := (12 # 100, 4); q_warp := Some {| w00 := 1 # 10; w01 := 0; w10 := 0; w11 := 1 # 10 |}; q_wid := false; q_cam := true |}.
Theorem C29_narrow_patch_odd_size_refuted : exists py q, built true py /\
  ml_in_frame (fun _ => false) 2 py true q 1 false = true /\ ml_extract (fun _ => false) 2 py q 1 false = None.
Proof.
  exists bad_pyr, bad_coord. split; [exists 9%Z, 9%Z; repeat split; lia|]. split; vm_compute; reflexivity.
Qed.
Definition ex_pyr (usecv : bool) : pyramid :=
  {| py_img := fun l => {| cols := size_at 75 l; rows := size_at 48 l; pix := fun u v => inject_Z (u + 2 * v) |}; py_ct := centers usecv 75 48 |}.
Definition ex_coord : coord :=
  {| q_c := (33, 20); q_warp := Some {| w00 := 6 # 5; w01 := 1 # 5; w10 := -(1 # 5); w11 := 1 |}; q_wid := false; q_cam := true |}.
Example C29_ex usecv : built usecv (ex_pyr usecv) /\ ml_in_frame (fun _ => false) 2 (ex_pyr usecv) true ex_coord 3 true = true.
Proof. split; [exists 75%Z, 48%Z; repeat split; lia|]. destruct usecv; vm_compute; reflexivity. Qed.
Example C29_ex_wide : wide 4 (warp_of (level_transform (centers true 75 48) ex_coord 0 0)).
Proof. split; cbn; unfold Qabs, Qle; cbn; lia. Qed.

(** ** C50 *)
Local Open Scope Z_scope.
(** the pixels drawn for one level are exactly a square *)
Theorem C50_level_square : forall n b L l cx cy s p, 0 < s -> 
  In p (draw_level n b L l cx cy s) <->
  in_square (cx + draw_corner n b L l) (cy + draw_corner n b L l) (Z.of_nat (edge n b) * (s * 2 ^ Z.of_nat l)) p.
Proof. exact draw_level_square. Qed.
(** everything drawn stays in the square of the coarsest level placed at the given position *)
Theorem C50_inside_top_square : forall n b valid L cx cy s p, Nat.Even n -> 0 < s -> In p (draw_multilevel n b valid L cx cy s) ->
  in_square cx cy (Z.of_nat (edge n b) * s * 2 ^ Z.of_nat (L - 1)) p.
Proof. exact draw_inside. Qed.
Theorem C50_level_drawn : forall n b valid L l cx cy s p, 0 < s -> (l < L)%nat -> valid l = true ->
  in_square (cx + draw_corner n b L l) (cy + draw_corner n b L l) (Z.of_nat (edge n b) * (s * 2 ^ Z.of_nat l)) p ->
  In p (draw_multilevel n b valid L cx cy s).
Proof. exact draw_covers. Qed.
(** with stretch 1 the level squares are concentric (twice the distance of the centre from the position) *)
Theorem C50_concentric : forall n b L l, Nat.Even n -> (l < L)%nat ->
  2 * draw_corner n b L l + Z.of_nat (edge n b) * (1 * 2 ^ Z.of_nat l) = Z.of_nat (edge n b) * 2 ^ Z.of_nat (L - 1).
Proof. exact concentric. Qed.
(** with a stretch of 2 they are not *)
Theorem C50_concentric_stretch_refuted : exists n b L l s, Nat.Even n /\ (l < L)%nat /\ 0 < s /\
  2 * draw_corner n b L l + Z.of_nat (edge n b) * (s * 2 ^ Z.of_nat l) <> Z.of_nat (edge n b) * s * 2 ^ Z.of_nat (L - 1).
Proof.
  exists 6%nat, false, 4%nat, 0%nat, 2. split; [exists 3%nat; reflexivity|]. split; [lia|]. split; [lia|]. vm_compute. discriminate.
Qed.
Example C50_ex : length (draw_multilevel 2 false (fun _ => true) 2 0 0 1) = 20%nat. Proof. reflexivity. Qed.

Print Assumptions C26_transforms_compose.
Print Assumptions C26_transform_round_trip.
Print Assumptions C26_same_level.
Print Assumptions C26_scale.
Print Assumptions C26_warp_carried.
Print Assumptions C26_warp_dropped_without_camera_refuted.
Print Assumptions C27_reads_in_range.
Print Assumptions C27_level_sizes.
Print Assumptions C27_block_mean.
Print Assumptions C27_between_block_extremes.
Print Assumptions C27_block_inside.
Print Assumptions C28_even_sizes_exact.
Print Assumptions C28_even_sizes_exact_pyrdown.
Print Assumptions C28_error_below_half_pixel.
Print Assumptions C28_error_below_half_pixel_pyrdown.
Print Assumptions C28_odd_sizes_refuted.
Print Assumptions C29_top_level_suffices.
Print Assumptions C29_top_level_suffices_pyrdown.
Print Assumptions C29_top_level_suffices_pyrdown_even.
Print Assumptions C29_narrow_patch_odd_size_refuted.
Print Assumptions C50_level_square.
Print Assumptions C50_inside_top_square.
Print Assumptions C50_level_drawn.
Print Assumptions C50_concentric.
Print Assumptions C50_concentric_stretch_refuted.
