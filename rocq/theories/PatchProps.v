(** C22 (no out-of-range read) and C23 (interpolation). *)
From Coq Require Import List ZArith QArith Qround Qabs Bool Lia Lqa.
From Verif Require Import PatchModel PatchSpec PatchProofs.
Import ListNotations.
Local Open Scope Q_scope.

(** ** C22 *)
(** [extract] is [None] as soon as one pixel outside the image is read. *)
Theorem C22_in_frame_extraction_safe : forall rnd n im ident w cx cy b, monotone rnd ->
  in_frame rnd n im ident w cx cy b = true -> exists l, extract rnd n im ident w cx cy b = Some l.
Proof. exact in_frame_safe. Qed.
(** With exact arithmetic as a special case. *)
Theorem C22_in_frame_extraction_safe_exact : forall n im ident w cx cy b,
  in_frame exact n im ident w cx cy b = true -> exists l, extract exact n im ident w cx cy b = Some l.
Proof. intros n im ident w cx cy b. apply in_frame_safe. split; [auto|reflexivity]. Qed.
(** the whole patch is written *)
Theorem C22_extraction_fills_patch : forall rnd n im ident w cx cy b l, Nat.Even n ->
  extract rnd n im ident w cx cy b = Some l -> length l = (edge n b * edge n b)%nat.
Proof. exact extract_length. Qed.
(** A coordinate that is not a number passes the identity-warp check although extraction is undefined. *)
Theorem C22_nan_accepted_refuted : exists im half cx cy,
  in_frame_id im half cx cy = true /\ forall rnd, extract_id rnd im half cx cy = None.
Proof.
  exists {| cols := 0; rows := 0; pix := fun _ _ => 0 |}, 4%Z, None, None. split; [reflexivity|]. reflexivity.
Qed.

Definition ex_im : image := {| cols := 8; rows := 7; pix := fun u v => inject_Z (10 * u + 3 * v) |}.
Definition ex_w : warp := {| w00 := 3 # 4; w01 := 1 # 2; w10 := -(1 # 3); w11 := 1 |}.
Example C22_ex_id : in_frame exact 2 ex_im true ex_w (11 # 2) (7 # 2) true = true. Proof. reflexivity. Qed.
Example C22_ex_edge : in_frame exact 2 ex_im true ex_w 6 2 true = true /\ in_frame exact 2 ex_im true ex_w (601 # 100) 2 true = false. Proof. split; reflexivity. Qed.
Example C22_ex_warp : in_frame exact 2 ex_im false ex_w (9 # 2) (7 # 2) true = true. Proof. reflexivity. Qed.
Example C22_ex_extract : exists l, extract exact 2 ex_im false ex_w (9 # 2) (7 # 2) true = Some l /\ length l = 16%nat.
Proof. eexists. split; [vm_compute; reflexivity|reflexivity]. Qed.
(** a non-trivial monotone rounding: to multiples of 1/8, downwards *)
Example C22_ex_rounding : monotone (fun q => inject_Z (Qfloor (8 * q)) / 8).
Proof.
  split; [|reflexivity]. intros a b H. apply Qmult_le_compat_r; [|discriminate]. rewrite <- Zle_Qle. apply Qfloor_resp_le. lra.
Qed.

(** ** C23 *)
(** Patch pixel (x,y) lies between the bounds of the image pixels within distance 1 (in both
    directions) of the sampled position. *)
Theorem C23_between_neighbours : forall n im ident w cx cy b l x y, Nat.Even n ->
  extract exact n im ident w cx cy b = Some l -> (x < edge n b)%nat -> (y < edge n b)%nat ->
  exists val, nth_error l (y * edge n b + x) = Some val /\
  let u := pos_x ident w cx (Z.of_nat (edge n b)) (Z.of_nat x) (Z.of_nat y) in
  let v := pos_y ident w cy (Z.of_nat (edge n b)) (Z.of_nat x) (Z.of_nat y) in
  forall lo hi,
    (forall i j, in_image im i j -> Qabs (inject_Z i - u) < 1 -> Qabs (inject_Z j - v) < 1 -> lo <= pix im i j /\ pix im i j <= hi) ->
    lo <= val /\ val <= hi.
Proof. exact extract_bounds. Qed.
(** a sample position on a pixel returns that pixel *)
Theorem C23_integer_position : forall n im ident w cx cy b l x y i j, Nat.Even n ->
  extract exact n im ident w cx cy b = Some l -> (x < edge n b)%nat -> (y < edge n b)%nat ->
  pos_x ident w cx (Z.of_nat (edge n b)) (Z.of_nat x) (Z.of_nat y) == inject_Z i ->
  pos_y ident w cy (Z.of_nat (edge n b)) (Z.of_nat x) (Z.of_nat y) == inject_Z j ->
  exists val, nth_error l (y * edge n b + x) = Some val /\ val == pix im i j.
Proof. exact extract_integer. Qed.
(** affine ramps are reproduced *)
Theorem C23_ramp : forall n im ident w cx cy bd l x y a b c, Nat.Even n ->
  extract exact n im ident w cx cy bd = Some l -> (x < edge n bd)%nat -> (y < edge n bd)%nat ->
  (forall i j, in_image im i j -> pix im i j == a * inject_Z i + b * inject_Z j + c) ->
  exists val, nth_error l (y * edge n bd + x) = Some val /\
    val == a * pos_x ident w cx (Z.of_nat (edge n bd)) (Z.of_nat x) (Z.of_nat y)
         + b * pos_y ident w cy (Z.of_nat (edge n bd)) (Z.of_nat x) (Z.of_nat y) + c.
Proof. exact extract_ramp. Qed.
(** the plain patch is the inside of the bordered one (any rounding) *)
Theorem C23_inner_patch : forall rnd n im ident w cx cy B, Nat.Even n ->
  extract rnd n im ident w cx cy true = Some B ->
  exists P, extract rnd n im ident w cx cy false = Some P /\ length P = (n * n)%nat /\
  inner_patch n B = P /\
  forall x y, (x < n)%nat -> (y < n)%nat -> nth_error P (y * n + x) = nth_error B ((y + 1) * (n + 2) + (x + 1)).
Proof. exact extract_inner_nth. Qed.
(** The special case for identity warps computes the same patch as the general case. *)
Theorem C23_identity_warp_agrees : forall n im w cx cy b l l', Nat.Even n ->
  extract exact n im true w cx cy b = Some l ->
  extract exact n im false {| w00 := 1; w01 := 0; w10 := 0; w11 := 1 |} cx cy b = Some l' ->
  Forall2 Qeq l l'.
Proof. exact extract_identity. Qed.

Example C23_ex_pos : pos_x true ex_w 4 2 0 0 == 3. Proof. reflexivity. Qed.
Example C23_ex : exists l, extract exact 2 ex_im true ex_w 4 3 false = Some l /\ Forall2 Qeq l [36; 46; 39; 49].
Proof. eexists. split; [vm_compute; reflexivity|]. repeat constructor. Qed.

Print Assumptions C22_in_frame_extraction_safe.
Print Assumptions C22_in_frame_extraction_safe_exact.
Print Assumptions C22_extraction_fills_patch.
Print Assumptions C22_nan_accepted_refuted.
Print Assumptions C23_between_neighbours.
Print Assumptions C23_integer_position.
Print Assumptions C23_ramp.
Print Assumptions C23_inner_patch.
Print Assumptions C23_identity_warp_agrees.
