(** C28 and C29 in IEEE-754 arithmetic. *)
From Coq Require Import List ZArith Bool Reals Lia Lra.
From Flocq Require Import Core BinarySingleNaN.
From Verif Require Import PyrModel PyrSpec IeeeModel IeeeSpec IeeeProofs IeeePos IeeeProps IpyrModel IpyrSpec IpyrProofs.
Import ListNotations.
Local Open Scope R_scope.

(** ** C28 *)
(** Level coordinates up to 65535 are less than half a pixel of the level plus 1/128 off, and within 1/128 if all lower levels
    have even size ([n]: the edge of the image whose parity the centre table uses). *)
Theorem C28_level_coordinates_ieee : forall usecv n c l, (l <= 16)%nat -> finite c -> 0 <= on_level usecv l (real c) <= 65535 ->
  let e := level32 (center32 usecv n) c l in
  finite e /\ - / 128 <= real e - on_level usecv l (real c) < / 2 + / 128 /\
  (even_below n l -> Rabs (real e - on_level usecv l (real c)) <= / 128).
Proof.
  intros usecv n c l Hl Fc B e. destruct (levR_on usecv n c l) as [G1 G2]. unfold real in *.
  destruct (lev_fwd usecv n c l Hl Fc) as [Fe Ee]; [lra|]. fold e in Fe, Ee. split; [exact Fe|]. split; [apply Rabs_le_inv in Ee; lra|].
  intros Ev. rewrite <- (G2 Ev). exact Ee.
Qed.
(** 803/8 and (803 - 1/2)/8 + 1/2 *)
Example C28_ex_ieee : Beqb (level32 (center32 false 480) (fl 803 0) 3) (fl 803 (-3)) = true /\ Beqb (level32 (center32 true 480) (fl 803 0) 3) (fl 1613 (-4)) = true /\
  even_below 480 3.
Proof. split; [vm_compute; reflexivity|]. split; [vm_compute; reflexivity|]. intros i Hi. do 3 (destruct i as [|i]; [reflexivity|]). lia. Qed.

(** ** C29 *)
(** A patch accepted on level [l] is accepted on all levels below, and extracting all of them does nothing undefined
    and fills every patch, whatever the rounding of the level coordinates: for images of up to 65536 pixels per side,
    every coordinate that is a number, every warp under which the patch extends over a quarter of a pixel (half-sampled pyramid) or
    over five quarters (cv::pyrDown), and every contraction of multiply-add chosen by the compiler. *)
Theorem C29_top_level_suffices_ieee : forall k fuse n usecv w h py ident wp cx cy l border,
  ibuilt usecv w h py -> (0 <= w <= 65536)%Z -> (0 <= h <= 65536)%Z -> Nat.Even n -> (0 < n)%nat -> (Z.of_nat n <= 4194304)%Z -> (l <= 16)%nat ->
  (ident = true -> number cx /\ number cy) -> extends (patch_edge n border) ident wp (extent_needed usecv) ->
  ml_accepts k n py ident wp cx cy l border = Some true ->
  (forall i, (i <= l)%nat -> ml_accepts k n py ident wp cx cy i border = Some true) /\
  exists ps, ml_extracts k fuse n py ident wp cx cy l border = Some ps /\ length ps = S l /\
             Forall (fun p => length p = (patch_edge n border * patch_edge n border)%nat) ps.
Proof.
  intros k fuse n usecv w h py ident wp cx cy l border Hb Hw Hh Ev Hn Hn' Hl Hnan Hx H.
  assert (A := levels_accepted k n usecv w h py ident wp cx cy l border Hb Hw Hh Ev Hn Hn' Hl Hnan Hx H). split; [exact A|].
  destruct Hb as (Him & Hcx & Hcy).
  assert (E : forall i, (i <= l)%nat -> exists p, extracts k fuse n (ip_img py i) ident wp (level32 (ip_cx py) cx i) (level32 (ip_cy py) cy i) border = Some p /\
    length p = (patch_edge n border * patch_edge n border)%nat).
  { intros i Hi. specialize (A i Hi). apply C22_in_frame_extraction_safe_ieee; auto.
    - destruct (Him i) as [-> ->] || (unfold image_within; destruct (Him i) as [-> ->]). pose proof (size_top w i). pose proof (size_top h i).
      unfold size_at in *. split; (split; [apply Z.div_pos; [lia|apply Z.pow_pos_nonneg; lia]|lia]).
    - intros Hid. destruct (Hnan Hid) as [N1 N2]. unfold number.
      replace (level32 (ip_cx py) cx i) with (level32 (center32 usecv h) cx i) by (unfold level32; rewrite !Hcx; reflexivity).
      replace (level32 (ip_cy py) cy i) with (level32 (center32 usecv w) cy i) by (unfold level32; rewrite !Hcy; reflexivity).
      split; apply level_number; auto; lia. }
  unfold ml_extracts.
  assert (G : forall is, (forall i, In i is -> (i <= l)%nat) -> exists ps,
    collect (map (fun i => extracts k fuse n (ip_img py i) ident wp (level32 (ip_cx py) cx i) (level32 (ip_cy py) cy i) border) is) = Some ps /\ length ps = length is /\
    Forall (fun p => length p = (patch_edge n border * patch_edge n border)%nat) ps).
  { induction is as [|i is IH]; intros Hi; [exists []; repeat split; constructor|].
    destruct (E i (Hi i (or_introl eq_refl))) as (p & Ep & Lp). destruct (IH (fun j Hj => Hi j (or_intror Hj))) as (ps & Eps & Ls & Fs).
    exists (p :: ps). cbn [map collect]. rewrite Ep, Eps. repeat split; [cbn; congruence|constructor; assumption]. }
  destruct (G (seq 0 (S l))) as (ps & E1 & E2 & E3); [intros i Hi; apply in_seq in Hi; lia|].
  exists ps. rewrite seq_length in E2. auto.
Qed.

Definition ex_ipyr (usecv : bool) (w h : Z) : ipyr :=
  {| ip_img := fun l => {| bcols := size_at w l; brows := size_at h l; bpix := fun u v => (10 * u + 3 * v)%Z |};
     ip_cx := center32 usecv h; ip_cy := center32 usecv w |}.
Definition flat_warp : fwarp := {| fw00 := fl 0 0; fw01 := fl 0 0; fw10 := fl 0 0; fw11 := fl 0 0 |}.
(** Without an extent rounding matters, on odd sizes: the level coordinate of 1/2 - 2^-25 on level 1 is exactly 1/2 - 2^-26, which
    rounds up to 1/2 and is accepted, but on level 0 a pixel left of the image is read. (In exact arithmetic a patch without extent
    is safe, too.) *)
Theorem C29_flat_patch_ieee_refuted : exists py cx cy, ibuilt false 9 9 py /\
  ml_accepts Plain 2 py false flat_warp cx cy 1 false = Some true /\ ml_accepts Plain 2 py false flat_warp cx cy 0 false = Some false /\
  ml_extracts Plain false 2 py false flat_warp cx cy 1 false = None.
Proof.
  exists (ex_ipyr false 9 9), (fl 16777215 (-25)), (fl 4 0). split; [repeat split|]. repeat split; vm_compute; reflexivity.
Qed.
(** The same with cv::pyrDown for an unwarped patch of edge 2, which extends over one pixel. *)
Theorem C29_smallest_patch_ieee_refuted : exists py cx cy, ibuilt true 9 9 py /\
  ml_accepts Plain 2 py true flat_warp cx cy 1 false = Some true /\ ml_extracts Plain false 2 py true flat_warp cx cy 1 false = None.
Proof.
  exists (ex_ipyr true 9 9), (fl 16777215 (-24)), (fl 4 0). split; [repeat split|]. repeat split; vm_compute; reflexivity.
Qed.

Example C29_ex_ieee usecv : ibuilt usecv 151 97 (ex_ipyr usecv 151 97) /\ extends (patch_edge 2 true) false ex_fw (extent_needed usecv) /\
  ml_accepts FuseFirst 2 (ex_ipyr usecv 151 97) false ex_fw (fl 627 (-3)) (fl 411 (-3)) 3 true = Some true /\
  ml_accepts Plain 2 (ex_ipyr usecv 151 97) true ex_fw (fl 627 (-3)) (fl 411 (-3)) 3 true = Some true.
Proof.
  split; [repeat split|]. split.
  - unfold extends, patch_edge, extent_needed, real. cbn [Nat.add INR].
    assert (E1 : B2R (fw00 ex_fw) = 3 / 4) by (cbn; unfold F2R; cbn; lra). assert (E2 : B2R (fw01 ex_fw) = / 2) by (cbn; unfold F2R; cbn; lra).
    assert (E3 : B2R (fw11 ex_fw) = 1) by (cbn; unfold F2R; cbn; lra). rewrite E1, E2, E3. rewrite (Rabs_pos_eq (3 / 4)), (Rabs_pos_eq (/ 2)), (Rabs_pos_eq 1) by lra.
    pose proof (Rabs_pos (B2R (fw10 ex_fw))). destruct usecv; split; lra.
  - destruct usecv; split; vm_compute; reflexivity.
Qed.
Example C29_ex_ieee_extract usecv : option_map (map (@length _)) (ml_extracts FuseSecond true 2 (ex_ipyr usecv 151 97) false ex_fw (fl 627 (-3)) (fl 411 (-3)) 3 true) = Some [16; 16; 16; 16]%nat.
Proof. destruct usecv; vm_compute; reflexivity. Qed.

Print Assumptions C28_level_coordinates_ieee.
Print Assumptions C29_top_level_suffices_ieee.
Print Assumptions C29_flat_patch_ieee_refuted.
Print Assumptions C29_smallest_patch_ieee_refuted.
