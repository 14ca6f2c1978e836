(** C22 and C23 in IEEE-754 arithmetic. *)
From Coq Require Import List ZArith Bool Reals Lia Lra.
From Flocq Require Import Core BinarySingleNaN.
From Verif Require Import IeeeModel IeeeSpec IeeeReal IeeeProofs IeeeAcc IeeePos.
Import ListNotations.
Local Open Scope R_scope.

(** ** C22 *)
(** An accepted patch is extracted without undefined behaviour (out-of-range read, conversion of a number
    out of range to int), whatever the coordinates, the warp and the contraction of multiply-add chosen by the compiler;
    overflows to infinity and NaN anywhere in the warp included. *)
Theorem C22_in_frame_extraction_safe_ieee : forall k fuse n im ident w cx cy border,
  Nat.Even n -> (Z.of_nat n <= 4194304)%Z -> image_within 16777216 im -> (ident = true -> number cx /\ number cy) ->
  accepts k n im ident w cx cy border = Some true ->
  exists l, extracts k fuse n im ident w cx cy border = Some l /\ length l = (patch_edge n border * patch_edge n border)%nat.
Proof.
  intros k fuse n im ident w cx cy border Ev Hn [Hc Hr] Hnan H.
  destruct (ieee_safe k fuse n im ident w cx cy border Hn Hc Hr Hnan H) as (l & E & L). exists l. split; [exact E|].
  rewrite L, even_edge by exact Ev. reflexivity.
Qed.
(** A coordinate that is not a number is accepted by the identity-warp check; with a general warp the check itself is undefined. *)
Theorem C22_nan_accepted_ieee_refuted : forall k fuse n im w cy border, (1 <= half_edge n border)%Z ->
  accept_id im (half_edge n border) B754_nan B754_nan = true /\
  extracts k fuse n im true w B754_nan cy border = None /\ accepts k n im false w B754_nan cy border = None.
Proof.
  intros k fuse n im w cy border H. split.
  { assert (N : forall x : f32, Bltb x B754_nan = false) by (intros []; reflexivity). unfold accept_id. rewrite !N. reflexivity. }
  split.
  - unfold extracts. set (half := half_edge n border) in *. clearbody half.
    unfold zupto. destruct (Z.to_nat (2 * half)) as [|m] eqn:E; [lia|]. reflexivity.
  - unfold accepts. set (half := half_edge n border) in *. clearbody half. unfold corners.
    destruct (Z.leb_spec half 0); [lia|]. reflexivity.
Qed.

Definition fl (m e : Z) : f32 := binary_normalize 24 128 p24 p128 mode_NE m e false.
Definition ex_bim : bimage := {| bcols := 8; brows := 8; bpix := fun u v => (10 * u + 3 * v)%Z |}.
Definition ex_fw : fwarp := {| fw00 := fl 3 (-2); fw01 := fl 1 (-1); fw10 := fl (-11184811) (-25); fw11 := fl 1 0 |}.
Definition ex_shear : fwarp := {| fw00 := fl 10366955 (-24); fw01 := fl 6410262 (-24); fw10 := fl 0 0; fw11 := fl 1 0 |}.
(** The check protects the extraction only if the compiler contracts the two computations of the position alike: with
    plain arithmetic in the check and a fused multiply-add in the extraction a pixel left of the image is read. *)
Theorem C22_mixed_contraction_refuted : exists n im w cx cy,
  accepts Plain n im false w cx cy false = Some true /\ extracts FuseFirst false n im false w cx cy false = None.
Proof. exists 4%nat, ex_bim, ex_shear, (fl 2 0), (fl 3 0). split; vm_compute; reflexivity. Qed.

Example C22_ex_ieee_id : accepts Plain 2 ex_bim true ex_fw (fl 11 (-1)) (fl 7 (-1)) true = Some true /\
  accepts Plain 2 ex_bim true ex_fw (fl 6 0) (fl 2 0) true = Some true /\ accepts Plain 2 ex_bim true ex_fw (fl 12582913 (-21)) (fl 2 0) true = Some false.
Proof. repeat split; vm_compute; reflexivity. Qed.
Example C22_ex_ieee_warp : forall k, accepts k 2 ex_bim false ex_fw (fl 9 (-1)) (fl 7 (-1)) true = Some true.
Proof. intros []; vm_compute; reflexivity. Qed.
(** infinite and huge warps make the check undefined, coordinates far outside are rejected *)
Example C22_ex_ieee_huge : accepts Plain 2 ex_bim false {| fw00 := fl 1 120; fw01 := fl 0 0; fw10 := fl 0 0; fw11 := fl 1 0 |} (fl 4 0) (fl 4 0) true = None /\
  accepts Plain 2 ex_bim true ex_fw (B754_infinity false) (fl 4 0) true = Some false.
Proof. split; vm_compute; reflexivity. Qed.
Example C22_ex_ieee_extract : option_map (@length _) (extracts FuseFirst true 2 ex_bim false ex_fw (fl 9 (-1)) (fl 7 (-1)) true) = Some 16%nat.
Proof. vm_compute; reflexivity. Qed.

(** ** C23 *)
(** Every extracted intensity is a finite number within a thousandth of a grey level of the exact interpolation of the
    image at a position inside the image which is within 1/256 pixel of the exact position of the patch pixel (exactly
    that position for identity warps). *)
Theorem C23_extraction_accuracy_ieee : forall k fuse n im ident w cx cy border l x y,
  Nat.Even n -> (Z.of_nat n <= 4194304)%Z -> image_within 4096 im -> bytes im -> (ident = true -> number cx /\ number cy) ->
  accepts k n im ident w cx cy border = Some true -> extracts k fuse n im ident w cx cy border = Some l ->
  (x < patch_edge n border)%nat -> (y < patch_edge n border)%nat ->
  exists r u v, nth_error l (y * patch_edge n border + x) = Some r /\ finite r /\
    Rabs (real r - interp im u v) <= / 1024 /\
    Rabs (u - fst (spot ident w cx cy (patch_edge n border) x y)) <= / 256 /\
    Rabs (v - snd (spot ident w cx cy (patch_edge n border) x y)) <= / 256 /\
    (ident = true -> (u, v) = spot ident w cx cy (patch_edge n border) x y) /\
    0 <= u <= IZR (bcols im - 1) /\ 0 <= v <= IZR (brows im - 1).
Proof. exact patch_accurate. Qed.

(** exact interpolation stays between the bounds of the image *)
Lemma interp_bounds im u v lo hi : 0 <= u <= IZR (bcols im - 1) -> 0 <= v <= IZR (brows im - 1) ->
  (forall i j, (0 <= i < bcols im)%Z -> (0 <= j < brows im)%Z -> lo <= IZR (bpix im i j) <= hi) -> lo <= interp im u v <= hi.
Proof.
  assert (AX : forall c size, 0 <= c <= IZR (size - 1) -> let i := Zfloor c in let s := c - IZR i in
    0 <= s < 1 /\ (0 <= i < size)%Z /\ (s = 0 \/ (0 <= i + 1 < size)%Z)).
  { intros c size [H1 H2] i s. pose proof (Zfloor_lb c). pose proof (Zfloor_ub c). fold i in H, H0.
    assert (0 <= i)%Z by (apply Zfloor_lub; exact H1). assert (i <= size - 1)%Z by (apply le_IZR; lra).
    split; [unfold s; lra|]. split; [lia|]. destruct (Z.eq_dec i (size - 1)) as [E|E]; [left; unfold s; rewrite E in *; lra|right; lia]. }
  intros Hu Hv B. destruct (AX u _ Hu) as (Rs & Ri & Cs). destruct (AX v _ Hv) as (Rt & Rj & Ct). cbv zeta in *. unfold interp. cbv zeta.
  set (i := Zfloor u) in *. set (j := Zfloor v) in *. set (s := u - IZR i) in *. set (t := v - IZR j) in *. clearbody i j s t.
  assert (term : forall a p, 0 <= a -> (a = 0 \/ lo <= p <= hi) -> a * lo <= a * p <= a * hi).
  { intros a p Ha [->|[P1 P2]]; [lra|]. split; apply Rmult_le_compat_l; assumption. }
  assert (T1 := term ((1 - s) * (1 - t)) (IZR (bpix im i j)) ltac:(nra) (or_intror (B i j Ri Rj))).
  assert (T2 : s * (1 - t) * lo <= s * (1 - t) * IZR (bpix im (i + 1) j) <= s * (1 - t) * hi).
  { apply term; [nra|]. destruct Cs as [->|C]; [left; ring|right; apply B; assumption]. }
  assert (T3 : (1 - s) * t * lo <= (1 - s) * t * IZR (bpix im i (j + 1)) <= (1 - s) * t * hi).
  { apply term; [nra|]. destruct Ct as [->|C]; [left; ring|right; apply B; assumption]. }
  assert (T4 : s * t * lo <= s * t * IZR (bpix im (i + 1) (j + 1)) <= s * t * hi).
  { apply term; [nra|]. destruct Cs as [->|C]; [left; ring|]. destruct Ct as [->|C']; [left; ring|right; apply B; assumption]. }
  clear term. split; lra.
Qed.
(** so the intensities stay between the darkest and the brightest pixel of the image, up to a thousandth of a grey level *)
Theorem C23_extracted_range_ieee : forall k fuse n im ident w cx cy border l lo hi,
  Nat.Even n -> (Z.of_nat n <= 4194304)%Z -> image_within 4096 im -> bytes im -> (ident = true -> number cx /\ number cy) ->
  (forall i j, (0 <= i < bcols im)%Z -> (0 <= j < brows im)%Z -> lo <= IZR (bpix im i j) <= hi) ->
  accepts k n im ident w cx cy border = Some true -> extracts k fuse n im ident w cx cy border = Some l ->
  Forall (fun r => finite r /\ lo - / 1024 <= real r <= hi + / 1024) l.
Proof.
  intros k fuse n im ident w cx cy border l lo hi Ev Hn Hi Hb Hnan B HA HE.
  destruct (C22_in_frame_extraction_safe_ieee k fuse n im ident w cx cy border Ev Hn) as (l' & E & Len); [split; destruct Hi; lia|exact Hnan|exact HA|].
  rewrite HE in E. injection E as <-.
  apply Forall_forall. intros r Hr. apply In_nth_error in Hr as [i Hi'].
  assert (Li : (i < patch_edge n border * patch_edge n border)%nat) by (rewrite <- Len; apply nth_error_Some; congruence).
  set (e := patch_edge n border) in *. assert (E0 : e <> 0%nat) by (intros E0; rewrite E0 in Li; lia).
  pose proof (Nat.div_mod i e E0) as D. pose proof (Nat.mod_upper_bound i e E0) as M.
  assert (Q : (i / e < e)%nat) by (apply Nat.div_lt_upper_bound; assumption).
  destruct (C23_extraction_accuracy_ieee k fuse n im ident w cx cy border l (i mod e) (i / e) Ev Hn Hi Hb Hnan HA HE M Q) as (r' & u & v & N & Fr & A & _ & _ & _ & Ru & Rv).
  fold e in N. rewrite (Nat.mul_comm (i / e) e), <- D in N. rewrite Hi' in N. injection N as <-.
  split; [exact Fr|]. pose proof (interp_bounds im u v lo hi Ru Rv B). apply Rabs_le_inv in A. lra.
Qed.
Example C23_ex_ieee : image_within 4096 ex_bim /\ bytes ex_bim.
Proof. split; [split; cbn; lia|]. intros u v Hu Hv. cbn [bcols brows bpix ex_bim] in *. lia. Qed.

Print Assumptions C22_in_frame_extraction_safe_ieee.
Print Assumptions C22_nan_accepted_ieee_refuted.
Print Assumptions C22_mixed_contraction_refuted.
Print Assumptions C23_extraction_accuracy_ieee.
Print Assumptions C23_extracted_range_ieee.
