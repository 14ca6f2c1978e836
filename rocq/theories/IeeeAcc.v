(** Accuracy of patch extraction in single precision. *)
From Coq Require Import List ZArith Bool Reals Lia Lra.
From Flocq Require Import Core BinarySingleNaN.
From Verif Require Import IeeeModel IeeeSpec IeeeReal IeeeProofs.
Import ListNotations.
Local Open Scope R_scope.

(** the fractional part of a non-negative float is a float *)
Lemma frac_exact (x : f32) : F x -> 0 <= B2R x -> r32 (B2R x - IZR (Zfloor (B2R x))) = B2R x - IZR (Zfloor (B2R x)).
Proof.
  destruct x as [s|s| |s m k b]; cbn [is_finite]; try discriminate; intros _ H.
  - change (B2R (B754_zero s)) with 0. rewrite Zfloor_IZR. rewrite Rminus_diag_eq by reflexivity. apply rndf_0.
  - cbn [B2R] in *. unfold F2R in *. cbn [Fnum Fexp] in *.
    destruct s. { exfalso. pose proof (bpow_gt_0 radix2 k). assert (IZR (cond_Zopp true (Zpos m)) < 0) by (cbn [cond_Zopp]; apply IZR_lt; lia). nra. }
    cbn [cond_Zopp] in *.
    assert (Bd := b). unfold SpecFloat.bounded in Bd. apply andb_prop in Bd as [Bd1 Bd2]. apply Zeq_bool_eq in Bd1.
    assert (Hm : (Zpos m < 2 ^ 24)%Z /\ (-149 <= k)%Z).
    { unfold SpecFloat.canonical_mantissa in *.
      split.
      - rewrite Digits.Zpos_digits2_pos in Bd1. unfold SpecFloat.fexp, SpecFloat.emin in Bd1.
        pose proof (Digits.Zdigits_correct radix2 (Zpos m)) as [_ D]. cbn [Z.abs] in D.
        apply Z.lt_le_trans with (1 := D). change (2 ^ 24)%Z with (Zpower radix2 24). apply Zpower_le. lia.
      - rewrite Digits.Zpos_digits2_pos in Bd1. unfold SpecFloat.fexp, SpecFloat.emin in Bd1. lia. }
    destruct (Z.leb_spec 0 k) as [L|L].
    + rewrite <- (IZR_Zpower radix2 k) by exact L. rewrite <- mult_IZR, Zfloor_IZR. rewrite Rminus_diag_eq by reflexivity. apply rndf_0.
    + assert (E : IZR (Zpos m) * bpow radix2 k = IZR (Zpos m) / IZR (2 ^ (- k))).
      { rewrite <- (Z.opp_involutive k) at 1. rewrite bpow_opp, <- (IZR_Zpower radix2 (- k)) by lia. reflexivity. }
      assert (P : (0 < 2 ^ (- k))%Z) by (apply Z.pow_pos_nonneg; lia).
      assert (FE : Zfloor (IZR (Zpos m) * bpow radix2 k) = (Zpos m / 2 ^ (- k))%Z) by (rewrite E; apply Zfloor_div; lia).
      apply rndf_gen. apply generic_format_FLT. exists (Float radix2 (Zpos m mod 2 ^ (- k)) k).
      * rewrite FE. unfold F2R. cbn [Fnum Fexp]. rewrite Zmod_eq by lia. rewrite minus_IZR, mult_IZR.
        assert (IZR (2 ^ - k) * bpow radix2 k = 1).
        { change 2%Z with (radix_val radix2). rewrite IZR_Zpower by lia. rewrite <- bpow_plus. replace (- k + k)%Z with 0%Z by lia. reflexivity. }
        rewrite Rmult_minus_distr_r, Rmult_assoc, H0. ring.
      * cbn [Fnum]. change (radix_val radix2) with 2%Z. pose proof (Z.mod_pos_bound (Zpos m) _ P). pose proof (Z.mod_le (Zpos m) _ ltac:(lia) P). lia.
      * cbn [Fexp]. unfold SpecFloat.emin. lia.
Qed.

Notation d := (bpow radix2 (-53)).
Lemma d_small : 0 < d <= / 1099511627776.
Proof. split; [apply bpow_gt_0|]. apply Rle_trans with (bpow radix2 (-40)); [apply bpow_le; lia|]. cbn. lra. Qed.

Lemma M32_big : 1024 < M32.
Proof. change 1024 with (bpow radix2 10). apply bpow_lt. lia. Qed.
Lemma M64_big : 1024 < M64.
Proof. change 1024 with (bpow radix2 10). apply bpow_lt. lia. Qed.
Lemma r32_int z : (Z.abs z <= 16777216)%Z -> r32 (IZR z) = IZR z.
Proof. intros H. apply (rndf_int 24 128); [exact H|lia|lia]. Qed.
Lemma r64_int z : (Z.abs z <= 16777216)%Z -> r64 (IZR z) = IZR z.
Proof. intros H. apply (rndf_int 53 1024); lia. Qed.
Lemma r32_range z x : (0 <= z <= 16777216)%Z -> 0 <= x <= IZR z -> 0 <= r32 x <= IZR z.
Proof.
  intros Hz H. split; [rewrite <- (rndf_0 24 128); apply r32_mono; lra|]. rewrite <- (r32_int z) by lia. apply r32_mono; lra.
Qed.
Lemma r64_unit x : 0 <= x <= 1 -> 0 <= r64 x <= 1.
Proof. intros H. split; [rewrite <- (rndf_0 53 1024); apply r64_mono; lra|]. rewrite <- (r64_int 1) by lia. apply r64_mono; lra. Qed.
Lemma r64_err x : 0 <= x <= 1 -> Rabs (r64 x - x) <= d.
Proof. intros H. apply (rndf_err 53 1024 q53 0 x); [rewrite Rabs_pos_eq by lra; cbn; lra|unfold SpecFloat.fexp, SpecFloat.emin; lia]. Qed.
Lemma r32_err k x : (-100 <= k)%Z -> Rabs x <= bpow radix2 k -> Rabs (r32 x - x) <= bpow radix2 (k - 24).
Proof. intros Hk H. apply (rndf_err 24 128 p24 k x H). unfold SpecFloat.fexp, SpecFloat.emin. lia. Qed.

(** numbers in the unit interval within [e] of [r] *)
Definition unit64 (x : g64) (e r : R) : Prop := F x /\ 0 <= B2R x <= 1 /\ Rabs (B2R x - r) <= e.
Definition unit32 (x : f32) (e r : R) : Prop := F x /\ 0 <= B2R x <= 1 /\ Rabs (B2R x - r) <= e.

Lemma widen_unit x : F x -> 0 <= B2R x <= 1 -> unit64 (widen x) d (B2R x).
Proof.
  intros Fx H. pose proof (r64_unit _ H) as U. destruct (conv_fwd 53 1024 q53 q1024 _ _ x Fx) as [Fw Ew].
  { rewrite Rabs_pos_eq by lra. pose proof M64_big. lra. }
  unfold unit64, widen. rewrite Ew. split; [exact Fw|]. split; [exact U|]. apply r64_err; exact H.
Qed.
Lemma compl_unit x e r : unit64 x e r -> unit64 (sub64 one64 x) (e + d) (1 - r).
Proof.
  intros (Fx & Hx & Ex). destruct one64_val as [F1 E1].
  assert (V : 0 <= 1 - B2R x <= 1) by lra. pose proof (r64_unit _ V) as U.
  destruct (sub_fwd 53 1024 q53 q1024 one64 x F1 Fx) as [Fs Es].
  { rewrite E1, Rabs_pos_eq by lra. pose proof M64_big. lra. }
  unfold unit64, sub64. rewrite Es, E1. split; [exact Fs|]. split; [exact U|].
  pose proof (r64_err _ V) as Er. apply Rabs_le_inv in Er, Ex. apply Rabs_le. lra.
Qed.
Lemma mul_unit x y e r f q : 0 <= r <= 1 -> unit64 x e r -> unit64 y f q -> unit64 (mul64 x y) (e + f + d) (r * q).
Proof.
  intros Hr (Fx & Hx & Ex) (Fy & Hy & Ey). assert (V : 0 <= B2R x * B2R y <= 1) by nra. pose proof (r64_unit _ V) as U.
  destruct (mul_fwd 53 1024 q53 q1024 x y Fx Fy) as [Fs Es].
  { rewrite Rabs_pos_eq by lra. pose proof M64_big. lra. }
  unfold unit64, mul64. rewrite Es. split; [exact Fs|]. split; [exact U|].
  pose proof (r64_err _ V) as Er. apply Rabs_le_inv in Er, Ex, Ey. apply Rabs_le.
  assert (B2R x * B2R y - r * q = (B2R x - r) * B2R y + r * (B2R y - q)) by ring.
  assert (- e <= (B2R x - r) * B2R y <= e) by (split; nra). assert (- f <= r * (B2R y - q) <= f) by (split; nra). lra.
Qed.
Lemma narrow_unit x e r : unit64 x e r -> unit32 (narrow x) (e + / 16777216) r.
Proof.
  intros (Fx & Hx & Ex). pose proof (r32_range 1 _ ltac:(lia) Hx) as U. destruct (conv_fwd 24 128 p24 p128 _ _ x Fx) as [Fw Ew].
  { rewrite Rabs_pos_eq by lra. pose proof M32_big. lra. }
  unfold unit32, narrow. rewrite Ew. split; [exact Fw|]. split; [exact U|].
  pose proof (r32_err 0 (B2R x)) as Er. rewrite Rabs_pos_eq in Er by lra. change (bpow radix2 0) with 1 in Er.
  specialize (Er ltac:(lia) ltac:(lra)). change (bpow radix2 (0 - 24)) with (/ 16777216) in Er.
  apply Rabs_le_inv in Er, Ex. apply Rabs_le. lra.
Qed.
Lemma mul32_unit x y : F x -> F y -> 0 <= B2R x <= 1 -> 0 <= B2R y <= 1 -> unit32 (mul32 x y) (/ 16777216) (B2R x * B2R y).
Proof.
  intros Fx Fy Hx Hy. assert (V : 0 <= B2R x * B2R y <= 1) by nra. pose proof (r32_range 1 _ ltac:(lia) V) as U.
  destruct (mul_fwd 24 128 p24 p128 x y Fx Fy) as [Fs Es].
  { rewrite Rabs_pos_eq by lra. pose proof M32_big. lra. }
  unfold unit32, mul32. rewrite Es. split; [exact Fs|]. split; [exact U|].
  pose proof (r32_err 0 (B2R x * B2R y)) as Er. rewrite (Rabs_pos_eq (B2R x * B2R y)) in Er by lra. change (bpow radix2 0) with 1 in Er.
  specialize (Er ltac:(lia) ltac:(lra)). exact Er.
Qed.

Definition we : R := / 8388608.
Lemma unit32_weaken x e e' r : e <= e' -> unit32 x e r -> unit32 x e' r.
Proof. intros H (A & B & C). split; [exact A|]. split; [exact B|lra]. Qed.
Section Weights.
Variables sx sy : f32.
Hypothesis Fx : F sx. Hypothesis Fy : F sy.
Hypothesis Hx : 0 <= B2R sx <= 1. Hypothesis Hy : 0 <= B2R sy <= 1.
Lemma Hx' : 0 <= 1 - B2R sx <= 1. Proof. lra. Qed.
Lemma wTL : unit32 (weightTL sx sy) we ((1 - B2R sx) * (1 - B2R sy)).
Proof.
  pose proof (mul_unit _ _ _ _ _ _ Hx' (compl_unit _ _ _ (widen_unit sx Fx Hx)) (compl_unit _ _ _ (widen_unit sy Fy Hy))) as U.
  apply narrow_unit in U. eapply unit32_weaken; [|exact U]. pose proof d_small. unfold we. lra.
Qed.
Lemma wTR : unit32 (weightTR sx sy) we (B2R sx * (1 - B2R sy)).
Proof.
  pose proof (mul_unit _ _ _ _ _ _ Hx (widen_unit sx Fx Hx) (compl_unit _ _ _ (widen_unit sy Fy Hy))) as U.
  apply narrow_unit in U. eapply unit32_weaken; [|exact U]. pose proof d_small. unfold we. lra.
Qed.
Lemma wBL : unit32 (weightBL sx sy) we ((1 - B2R sx) * B2R sy).
Proof.
  pose proof (mul_unit _ _ _ _ _ _ Hx' (compl_unit _ _ _ (widen_unit sx Fx Hx)) (widen_unit sy Fy Hy)) as U.
  apply narrow_unit in U. eapply unit32_weaken; [|exact U]. pose proof d_small. unfold we. lra.
Qed.
Lemma wBR : unit32 (weightBR sx sy) we (B2R sx * B2R sy).
Proof. eapply unit32_weaken; [|apply mul32_unit; assumption]. unfold we. lra. Qed.
End Weights.

(** partial sums *)
Definition part (x : f32) (z : Z) (e r : R) : Prop := F x /\ 0 <= B2R x <= IZR z /\ Rabs (B2R x - r) <= e.
Lemma part_weaken x z z' e e' r : (z <= z')%Z -> e <= e' -> part x z e r -> part x z' e' r.
Proof. intros Hz He (A & B & C). apply IZR_le in Hz. split; [exact A|]. split; lra. Qed.
Definition pe : R := / 65536 + 255 * we.
Lemma byte_val p : (0 <= p <= 255)%Z -> F (f32_of_Z p) /\ B2R (f32_of_Z p) = IZR p /\ 0 <= IZR p <= 255.
Proof. intros H. destruct (of_Z32 p) as [A B]; [lia|]. split; [exact A|]. split; [exact B|]. split; apply IZR_le; lia. Qed.
Lemma pixel_part w e p : (0 <= p <= 255)%Z -> unit32 w we e -> part (mul32 w (f32_of_Z p)) 255 pe (e * IZR p).
Proof.
  intros Hp (Fw & Hw & Ew). destruct (byte_val p Hp) as (Fp & Ep & Hp').
  assert (V : 0 <= B2R w * IZR p <= 255) by nra. pose proof (r32_range 255 _ ltac:(lia) V) as U.
  destruct (mul_fwd 24 128 p24 p128 w (f32_of_Z p) Fw Fp) as [Fs Es].
  { rewrite Ep, Rabs_pos_eq by lra. pose proof M32_big. lra. }
  unfold part, mul32. rewrite Es, Ep. split; [exact Fs|]. split; [exact U|].
  pose proof (r32_err 8 (B2R w * IZR p)) as Er. rewrite (Rabs_pos_eq (B2R w * IZR p)) in Er by lra.
  change (bpow radix2 8) with 256 in Er. change (bpow radix2 (8 - 24)) with (/ 65536) in Er. specialize (Er ltac:(lia) ltac:(lra)).
  apply Rabs_le_inv in Er, Ew. apply Rabs_le. unfold pe.
  assert (- (255 * we) <= (B2R w - e) * IZR p <= 255 * we) by (split; nra). lra.
Qed.
Lemma acc_part fuse s z es rs w e p : (0 <= z <= 768)%Z -> (0 <= p <= 255)%Z -> part s z es rs -> unit32 w we e ->
  part (acc32 fuse s w (f32_of_Z p)) (z + 255) (es + pe + / 16384) (rs + e * IZR p).
Proof.
  intros Hz Hp (Fs & Hs & Es) U. destruct (byte_val p Hp) as (Fp & Ep & Hp').
  assert (Z1 : 0 <= IZR z <= 768) by (split; apply IZR_le; lia).
  assert (Hz2 : (0 <= z + 255 <= 16777216)%Z) by lia.
  unfold acc32. destruct fuse.
  - destruct U as (Fw & Hw & Ew). assert (V0 : 0 <= B2R w * IZR p <= 255) by nra.
    assert (V : 0 <= B2R w * IZR p + B2R s <= IZR (z + 255)) by (rewrite plus_IZR; lra). pose proof (r32_range _ _ Hz2 V) as U.
    assert (ZZ : IZR (z + 255) <= 1023) by (apply IZR_le; lia).
    destruct (fma_fwd 24 128 p24 p128 w (f32_of_Z p) s Fw Fp Fs) as [Fr Er].
    { rewrite Ep, Rabs_pos_eq by lra. pose proof M32_big. lra. }
    unfold part, fma32. rewrite Er, Ep. split; [exact Fr|]. split; [exact U|].
    pose proof (r32_err 10 (B2R w * IZR p + B2R s)) as Ee. rewrite (Rabs_pos_eq (B2R w * IZR p + B2R s)) in Ee by lra.
    change (bpow radix2 10) with 1024 in Ee. change (bpow radix2 (10 - 24)) with (/ 16384) in Ee. specialize (Ee ltac:(lia) ltac:(lra)).
    apply Rabs_le_inv in Ee, Ew, Es. apply Rabs_le. unfold pe.
    assert (- (255 * we) <= (B2R w - e) * IZR p <= 255 * we) by (split; nra). lra.
  - destruct (pixel_part w e p Hp U) as (Fm & Hm & Em).
    assert (V : 0 <= B2R s + B2R (mul32 w (f32_of_Z p)) <= IZR (z + 255)) by (rewrite plus_IZR; lra). pose proof (r32_range _ _ Hz2 V) as U'.
    assert (ZZ : IZR (z + 255) <= 1023) by (apply IZR_le; lia).
    destruct (add_fwd 24 128 p24 p128 s (mul32 w (f32_of_Z p)) Fs Fm) as [Fr Er].
    { rewrite Rabs_pos_eq by lra. pose proof M32_big. lra. }
    unfold part, add32. rewrite Er. split; [exact Fr|]. split; [exact U'|].
    pose proof (r32_err 10 (B2R s + B2R (mul32 w (f32_of_Z p)))) as Ee. rewrite (Rabs_pos_eq (B2R s + B2R (mul32 w (f32_of_Z p)))) in Ee by lra.
    change (bpow radix2 10) with 1024 in Ee. change (bpow radix2 (10 - 24)) with (/ 16384) in Ee. specialize (Ee ltac:(lia) ltac:(lra)).
    apply Rabs_le_inv in Ee, Em, Es. apply Rabs_le. lra.
Qed.

Lemma brd_bytes im u v p : bytes im -> brd im u v = Some p -> p = bpix im u v /\ (0 <= p <= 255)%Z.
Proof.
  intros Hb. unfold brd. destruct (_ && _)%bool eqn:B; [|discriminate]. intros H; injection H as <-.
  apply andb_prop in B as [B B4]. apply andb_prop in B as [B B3]. apply andb_prop in B as [B1 B2].
  split; [reflexivity|]. apply Hb; split; try (apply Z.leb_le; assumption); apply Z.ltb_lt; assumption.
Qed.
Lemma pos_test x : F x -> 0 <= B2R x -> Bltb zero32 x = true \/ (Bltb zero32 x = false /\ B2R x = 0).
Proof.
  intros Fx H. destruct (of_Z32 0) as [F0 E0]; [lia|]. unfold zero32. rewrite (Bltb_correct _ _ _ _ F0 Fx), E0.
  destruct (Rlt_bool_spec 0 (B2R x)); [left; reflexivity|right]. split; [reflexivity|lra].
Qed.
Lemma add_pixel_part fuse im u v w cond s s' z es rs e :
  bytes im -> (0 <= z <= 768)%Z -> part s z es rs -> unit32 w we e -> (cond = false -> e = 0) ->
  add_pixel fuse im u v w cond s = Some s' -> part s' (z + 255) (es + pe + / 16384) (rs + e * IZR (bpix im u v)).
Proof.
  intros Hb Hz Hs Hw H0 H. unfold add_pixel in H. destruct cond.
  - apply obind_some in H as (p & Hp & H). injection H as <-. apply brd_bytes in Hp as [-> Hp]; [|exact Hb]. apply acc_part; assumption.
  - injection H as <-. rewrite (H0 eq_refl). eapply part_weaken; [| |rewrite Rmult_0_l, Rplus_0_r; exact Hs]; [lia|]. unfold pe, we. lra.
Qed.
Lemma blend_acc fuse im ur vr sx sy r : bytes im -> F sx -> F sy -> 0 <= B2R sx <= 1 -> 0 <= B2R sy <= 1 ->
  blend fuse im ur vr sx sy = Some r ->
  F r /\ Rabs (B2R r - ((1 - B2R sx) * (1 - B2R sy) * IZR (bpix im ur vr) + B2R sx * (1 - B2R sy) * IZR (bpix im (ur + 1) vr)
    + (1 - B2R sx) * B2R sy * IZR (bpix im ur (vr + 1)) + B2R sx * B2R sy * IZR (bpix im (ur + 1) (vr + 1)))) <= / 1024.
Proof.
  intros Hb Fx Fy Hx Hy H. unfold blend in H. apply obind_some in H as (p & Hp & H). apply brd_bytes in Hp as [-> Hp]; [|exact Hb].
  apply obind_some in H as (s1 & H1 & H). apply obind_some in H as (s2 & H2 & H3).
  pose proof (pixel_part _ _ _ Hp (wTL sx sy Fx Fy Hx Hy)) as P0.
  apply (add_pixel_part _ _ _ _ _ _ _ _ 255%Z _ _ _ Hb ltac:(lia) P0 (wTR sx sy Fx Fy Hx Hy)) in H1.
  2:{ destruct (pos_test sx Fx ltac:(lra)) as [->|[_ ->]]; [discriminate|intros; ring]. }
  apply (add_pixel_part _ _ _ _ _ _ _ _ (255+255)%Z _ _ _ Hb ltac:(lia) H1 (wBL sx sy Fx Fy Hx Hy)) in H2.
  2:{ destruct (pos_test sy Fy ltac:(lra)) as [->|[_ ->]]; [discriminate|intros; ring]. }
  apply (add_pixel_part _ _ _ _ _ _ _ _ (255+255+255)%Z _ _ _ Hb ltac:(lia) H2 (wBR sx sy Fx Fy Hx Hy)) in H3.
  2:{ destruct (pos_test sx Fx ltac:(lra)) as [->|[_ ->]]; [|intros; ring]. destruct (pos_test sy Fy ltac:(lra)) as [->|[_ ->]]; [discriminate|intros; ring]. }
  destruct H3 as (Fr & _ & Er). split; [exact Fr|]. eapply Rle_trans; [exact Er|]. unfold pe, we. lra.
Qed.

(** fractional parts as computed *)
Lemma frac_val (c : f32) z : F c -> 0 <= B2R c -> z = Zfloor (B2R c) -> (z <= 16777216)%Z ->
  F (sub32 c (f32_of_Z z)) /\ B2R (sub32 c (f32_of_Z z)) = B2R c - IZR z /\ 0 <= B2R c - IZR z < 1.
Proof.
  intros Fc Hc -> Hz. assert (0 <= Zfloor (B2R c))%Z by (apply Zfloor_lub; exact Hc).
  destruct (of_Z32 (Zfloor (B2R c))) as [Fz Ez]; [lia|].
  pose proof (frac_exact c Fc Hc) as E. pose proof (Zfloor_lb (B2R c)). pose proof (Zfloor_ub (B2R c)).
  assert (V : 0 <= B2R c - IZR (Zfloor (B2R c)) < 1) by lra.
  destruct (sub_fwd 24 128 p24 p128 c (f32_of_Z (Zfloor (B2R c))) Fc Fz) as [Fs Es].
  { rewrite Ez, E, Rabs_pos_eq by lra. pose proof M32_big. lra. }
  rewrite Ez, E in Es. split; [exact Fs|]. split; [exact Es|exact V].
Qed.
Lemma interp_eq im u v i j s t : i = Zfloor u -> j = Zfloor v -> s = u - IZR i -> t = v - IZR j ->
  interp im u v = (1 - s) * (1 - t) * IZR (bpix im i j) + s * (1 - t) * IZR (bpix im (i + 1) j)
    + (1 - s) * t * IZR (bpix im i (j + 1)) + s * t * IZR (bpix im (i + 1) (j + 1)).
Proof. intros -> -> -> ->. reflexivity. Qed.
