(** C24 in IEEE-754 arithmetic. *)
From Coq Require Import List ZArith Bool Reals Lia Lra.
From Flocq Require Import Core BinarySingleNaN.
From Verif Require Import GradSpec IeeeModel IeeeSpec IeeeProps IscoreModel IscoreSpec IscoreProofs.
Import ListNotations.
Local Open Scope R_scope.

(** For every patch of at most 16x16 pixels, however the compiler contracts the arithmetic: no read outside the array, and
    the eigenvalues and the score are accurate unless the score is NaN, which takes two nearly equal eigenvalues. *)
Theorem C24_eigenvalues_ieee : forall fuse kc0 kc1 n B, (0 < n <= 16)%nat -> length B = ((n + 2) * (n + 2))%nat -> intensities B ->
  exists g, compute32 fuse kc0 kc1 n B = Some g /\ accurate (sxx n (map real B)) (sxy n (map real B)) (syy n (map real B)) g.
Proof. exact compute_accurate. Qed.
(** the same over several levels; exactly -1 when no level is valid *)
Theorem C24_multilevel_ieee : forall fuse fuse' kc0 kc1 n Bs l1 l2, (0 < n <= 16)%nat -> (l1 <= l2 < length Bs)%nat -> (l2 <= 15)%nat ->
  (forall bv, In bv Bs -> snd bv = true -> length (fst bv) = ((n + 2) * (n + 2))%nat /\ intensities (fst bv)) ->
  exists g, ml_score32 fuse fuse' kc0 kc1 n Bs l1 l2 = Some g /\
  ((forall i, (l1 <= i <= l2)%nat -> lvl_ok (real_levels Bs) i = false) -> finite (f_s g) /\ real (f_s g) = -1) /\
  forall i, (l1 <= i <= l2)%nat -> lvl_ok (real_levels Bs) i = true ->
    accurate (level_mean (real_levels Bs) l1 l2 (sxx n)) (level_mean (real_levels Bs) l1 l2 (sxy n)) (level_mean (real_levels Bs) l1 l2 (syy n)) g.
Proof. exact levels_accurate. Qed.
(** every patch accepted by the in-frame check and extracted with border from an 8-bit image is such a patch *)
Theorem C24_extracted_patch_ieee : forall k fuse fuse' kc0 kc1 n im ident w cx cy B,
  Nat.Even n -> (0 < n <= 16)%nat -> image_within 4096 im -> bytes im -> (ident = true -> number cx /\ number cy) ->
  accepts k n im ident w cx cy true = Some true -> extracts k fuse n im ident w cx cy true = Some B ->
  exists g, compute32 fuse' kc0 kc1 n B = Some g /\ accurate (sxx n (map real B)) (sxy n (map real B)) (syy n (map real B)) g.
Proof.
  intros k fuse fuse' kc0 kc1 n im ident w cx cy B Ev Hn Hi Hb Hnan HA HE. apply C24_eigenvalues_ieee; [exact Hn| |].
  - destruct (C22_in_frame_extraction_safe_ieee k fuse n im ident w cx cy true Ev ltac:(lia)) as (l' & E & Len); [split; destruct Hi; lia|exact Hnan|exact HA|].
    rewrite HE in E. injection E as <-. exact Len.
  - intros v Hv. pose proof (C23_extracted_range_ieee k fuse n im ident w cx cy true B 0 255 Ev ltac:(lia) Hi Hb Hnan) as K.
    assert (P : forall i j, (0 <= i < bcols im)%Z -> (0 <= j < brows im)%Z -> 0 <= IZR (bpix im i j) <= 255) by (intros i j I J; destruct (Hb i j I J); split; apply IZR_le; lia).
    specialize (K P HA HE). rewrite Forall_forall in K. destruct (K v Hv) as [F1 R1]. split; [exact F1|]. apply Rabs_le. lra.
Qed.

(** "the score of every patch is a number" is false: an 8-bit image whose patch of the default size 6 has score NaN,
    however the compiler contracts the arithmetic *)
Definition ex_nan_image : bimage :=
  {| bcols := 8; brows := 8;
     bpix := fun x y => (nth (Z.to_nat x) [33; 33; 33; 32; 33; 16; 66; 0] 0 + nth (Z.to_nat y) [40; 40; 40; 40; 40; 39; 49; 0] 0)%Z |}.
Lemma ex_nan_bytes : bytes ex_nan_image.
Proof.
  intros x y Hx Hy. cbn [bcols brows bpix ex_nan_image] in *.
  assert (K : forall l i, Forall (fun v => 0 <= v <= 100)%Z l -> (0 <= nth i l 0 <= 100)%Z) by
    (intros l i H; destruct (nth_in_or_default i l 0%Z) as [I| ->]; [rewrite Forall_forall in H; apply H, I|lia]).
  pose proof (K [33; 33; 33; 32; 33; 16; 66; 0]%Z (Z.to_nat x) ltac:(repeat constructor; lia)).
  pose proof (K [40; 40; 40; 40; 40; 39; 49; 0]%Z (Z.to_nat y) ltac:(repeat constructor; lia)). lia.
Qed.
Definition ex_fw1 : fwarp := {| fw00 := f32_of_Z 1; fw01 := zero32; fw10 := zero32; fw11 := f32_of_Z 1 |}.
Definition all_contractions : list (contraction * contraction) := list_prod [Plain; FuseFirst; FuseSecond] [Plain; FuseFirst; FuseSecond].
Lemma all_in kc : In kc all_contractions. Proof. destruct kc as [[] []]; cbn; tauto. Qed.
Theorem C24_score_is_a_number_ieee_refuted :
  exists im B, bytes im /\ bcols im = 8%Z /\ brows im = 8%Z /\
    accepts Plain 6 im true ex_fw1 (f32_of_Z 4) (f32_of_Z 4) true = Some true /\
    extracts Plain false 6 im true ex_fw1 (f32_of_Z 4) (f32_of_Z 4) true = Some B /\
    forall fuse kc0 kc1, exists g, compute32 fuse kc0 kc1 6 B = Some g /\ ~ number (f_e0 g) /\ ~ number (f_e1 g) /\ ~ number (f_s g).
Proof.
  exists ex_nan_image.
  assert (L : option_map (@length f32) (extracts Plain false 6 ex_nan_image true ex_fw1 (f32_of_Z 4) (f32_of_Z 4) true) = Some 64%nat) by (vm_compute; reflexivity).
  destruct (extracts Plain false 6 ex_nan_image true ex_fw1 (f32_of_Z 4) (f32_of_Z 4) true) as [B|] eqn:E; [clear L|discriminate L].
  exists B. split; [exact ex_nan_bytes|]. split; [reflexivity|]. split; [reflexivity|]. split; [vm_compute; reflexivity|]. split; [reflexivity|].
  assert (K : forall fuse, match extracts Plain false 6 ex_nan_image true ex_fw1 (f32_of_Z 4) (f32_of_Z 4) true with
    | Some B => match hess32 fuse 6 B with
      | Some H => forallb (fun kc0 => forallb (fun kc1 => let g := params32 kc0 kc1 H 36 in is_nan (f_e0 g) && is_nan (f_e1 g) && is_nan (f_s g)) all_contractions) all_contractions
      | None => false end
    | None => false end = true) by (intros []; vm_compute; reflexivity).
  intros fuse kc0 kc1. specialize (K fuse). rewrite E in K. unfold compute32. destruct (hess32 fuse 6 B) as [H|]; [|discriminate]. cbn [obind].
  rewrite forallb_forall in K. specialize (K kc0 (all_in kc0)). rewrite forallb_forall in K. specialize (K kc1 (all_in kc1)). cbv zeta in K. change (Z.of_nat (6 * 6)) with 36%Z.
  set (g := params32 kc0 kc1 H 36) in *.
  exists g. split; [reflexivity|]. apply andb_prop in K as [K K3]. apply andb_prop in K as [K1 K2]. unfold number. rewrite K1, K2, K3. repeat split; discriminate.
Qed.

(** a concrete patch meeting the hypotheses: a ramp of 10 grey levels per column has score 100 *)
Definition ex_ramp_image : bimage := {| bcols := 8; brows := 8; bpix := fun x _ => (10 * x)%Z |}.
Example C24_ex_ieee :
  match extracts Plain false 2 ex_ramp_image true ex_fw1 (f32_of_Z 4) (f32_of_Z 4) true with
  | Some B => match compute32 false (Plain, Plain) (Plain, Plain) 2 B with
    | Some g => Beqb (f_s g) (f32_of_Z 100) && Beqb (f_e0 g) zero32 && Beqb (f_e1 g) (f32_of_Z 100) | None => false end
  | None => false end = true.
Proof. vm_compute. reflexivity. Qed.
Example C24_ex_intensities_ieee : intensities (map f32_of_Z [0; 2; 4; 6; 0; 2; 4; 6; 0; 2; 4; 6; 0; 2; 4; 6]%Z)
  /\ length (map f32_of_Z [0; 2; 4; 6; 0; 2; 4; 6; 0; 2; 4; 6; 0; 2; 4; 6]%Z) = ((2 + 2) * (2 + 2))%nat.
Proof.
  split; [|reflexivity]. intros v Hv. apply in_map_iff in Hv as (z & <- & Hz).
  assert (Z : (0 <= z <= 6)%Z) by (cbn in Hz; repeat (destruct Hz as [<-|Hz]; [lia|]); contradiction).
  destruct (IeeeProofs.of_Z32 z ltac:(lia)) as [F1 V1]. split; [exact F1|]. unfold real. rewrite V1. rewrite <- abs_IZR. apply IZR_le. lia.
Qed.

Print Assumptions C24_eigenvalues_ieee.
Print Assumptions C24_multilevel_ieee.
Print Assumptions C24_extracted_patch_ieee.
Print Assumptions C24_score_is_a_number_ieee_refuted.
