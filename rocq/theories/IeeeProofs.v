(** Proofs about IeeeModel: the four corners bound every sampled position, in single precision. *)
From Coq Require Import List ZArith Bool Reals Lia Lra.
From Flocq Require Import Core BinarySingleNaN.
From Verif Require Import IeeeModel IeeeReal.
Import ListNotations.
Local Open Scope R_scope.

Notation r32 := (rndf 24 128).
Notation r64 := (rndf 53 1024).
Notation M32 := (bpow radix2 128).
Notation M64 := (bpow radix2 1024).
Notation F x := (is_finite x = true).

Lemma r32_mono a b : a <= b -> r32 a <= r32 b. Proof. apply (rndf_mono 24 128 p24). Qed.
Lemma r64_mono a b : a <= b -> r64 a <= r64 b. Proof. apply (rndf_mono 53 1024 q53). Qed.

Lemma of_Z32 z : (Z.abs z <= 16777216)%Z -> F (f32_of_Z z) /\ B2R (f32_of_Z z) = IZR z.
Proof.
  intros H.
  assert (E : r32 (IZR z) = IZR z) by (apply (rndf_int 24 128); [exact H|lia|lia]).
  pose proof (norm_fwd 24 128 p24 p128 z 0 false) as N. rewrite F2R_int, E in N. apply N.
  rewrite <- abs_IZR. apply Rle_lt_trans with (IZR 16777216); [apply IZR_le; exact H|].
  change (IZR 16777216) with (bpow radix2 24). apply bpow_lt. lia.
Qed.
Lemma of_Z64 z : (Z.abs z <= 16777216)%Z -> F (g64_of_Z z) /\ B2R (g64_of_Z z) = IZR z.
Proof.
  intros H.
  assert (E : r64 (IZR z) = IZR z) by (apply (rndf_int 53 1024); lia).
  pose proof (norm_fwd 53 1024 q53 q1024 z 0 false) as N. rewrite F2R_int, E in N. apply N.
  rewrite <- abs_IZR. apply Rle_lt_trans with (IZR 16777216); [apply IZR_le; exact H|].
  change (IZR 16777216) with (bpow radix2 24). apply bpow_lt. lia.
Qed.
Lemma half64_val : F half64 /\ B2R half64 = / 2.
Proof. split; [vm_compute; reflexivity|]. vm_compute. lra. Qed.
Lemma one64_val : F one64 /\ B2R one64 = 1.
Proof. apply of_Z64. lia. Qed.

Lemma half_fmt p e z : (24 <= p)%Z -> (3 - e - p <= -1)%Z -> (Z.abs z <= 4194304)%Z -> rndf p e (IZR z + / 2) = IZR z + / 2.
Proof.
  intros Hp He Hz. apply rndf_gen. apply generic_format_FLT. exists (Float radix2 (2 * z + 1) (-1)).
  - unfold F2R. cbn [Fnum Fexp]. rewrite plus_IZR, mult_IZR. change (bpow radix2 (-1)) with (/ 2). lra.
  - cbn [Fnum]. change (radix_val radix2) with 2%Z. assert (2 ^ 24 <= 2 ^ p)%Z by (apply Z.pow_le_mono_r; lia). lia.
  - cbn [Fexp]. unfold SpecFloat.emin. lia.
Qed.
Lemma offset_val half x : (Z.abs (x - half) <= 4194304)%Z -> F (offset32 half x) /\ B2R (offset32 half x) = IZR (x - half) + / 2.
Proof.
  intros H. destruct half64_val as [Fh Eh]. destruct (of_Z64 (x - half)) as [Fz Ez]; [lia|].
  assert (A : Rabs (IZR (x - half) + / 2) < bpow radix2 24).
  { assert (Rabs (IZR (x - half)) <= 4194304) by (rewrite <- abs_IZR; apply IZR_le; exact H).
    apply Rabs_le_inv in H0. change (bpow radix2 24) with 16777216. apply Rabs_def1; lra. }
  assert (bpow radix2 24 < M32) by (apply bpow_lt; lia). assert (bpow radix2 24 < M64) by (apply bpow_lt; lia).
  destruct (add_fwd 53 1024 q53 q1024 (g64_of_Z (x - half)) half64 Fz Fh) as [Fa Ea].
  { rewrite Ez, Eh, half_fmt by lia. lra. }
  rewrite Ez, Eh, half_fmt in Ea by lia.
  destruct (conv_fwd 24 128 p24 p128 _ _ (add64 (g64_of_Z (x - half)) half64) Fa) as [Fc Ec].
  { unfold add64. rewrite Ea, half_fmt by lia. lra. }
  unfold add64 in Ec. rewrite Ea, half_fmt in Ec by lia. split; [exact Fc|exact Ec].
Qed.

(** real-valued counterparts *)
Definition dotR (k : contraction) (a X b Y : R) : R :=
  match k with
  | Plain => r32 (r32 (a * X) + r32 (b * Y))
  | FuseFirst => r32 (a * X + r32 (b * Y))
  | FuseSecond => r32 (b * Y + r32 (a * X))
  end.
Definition prodR (k : contraction) (a X b Y : R) : Prop :=
  match k with
  | Plain => Rabs (r32 (a * X)) < M32 /\ Rabs (r32 (b * Y)) < M32
  | FuseFirst => Rabs (r32 (b * Y)) < M32
  | FuseSecond => Rabs (r32 (a * X)) < M32
  end.
Definition midR k a b c X Y : R := r32 (c + dotR k a X b Y).
Definition placeR k a b c X Y : R := r32 (r64 (r64 (midR k a b c X Y) - / 2)).
Definition inrange k a b c X Y : Prop :=
  prodR k a X b Y /\ Rabs (dotR k a X b Y) < M32 /\ Rabs (midR k a b c X Y) < M32 /\
  Rabs (r64 (midR k a b c X Y)) < M64 /\ Rabs (r64 (r64 (midR k a b c X Y) - / 2)) < M64 /\
  Rabs (placeR k a b c X Y) < M32.

Lemma dot_bwd k a x b y : F (dot32 k a x b y) ->
  F a /\ F b /\ F x /\ F y /\ B2R (dot32 k a x b y) = dotR k (B2R a) (B2R x) (B2R b) (B2R y) /\
  prodR k (B2R a) (B2R x) (B2R b) (B2R y) /\ Rabs (dotR k (B2R a) (B2R x) (B2R b) (B2R y)) < M32.
Proof.
  destruct k; cbn [dot32 dotR prodR]; unfold add32, fma32, mul32; intros H.
  - apply add_bwd in H as (H1 & H2 & H3 & H4). apply mul_bwd in H1 as (A1 & A2 & A3 & A4). apply mul_bwd in H2 as (B1 & B2 & B3 & B4).
    rewrite A3, B3 in H3, H4. tauto.
  - apply fma_bwd in H as (H1 & H2 & H0 & H3 & H4). apply mul_bwd in H0 as (B1 & B2 & B3 & B4).
    rewrite B3 in H3, H4. tauto.
  - apply fma_bwd in H as (H1 & H2 & H0 & H3 & H4). apply mul_bwd in H0 as (B1 & B2 & B3 & B4).
    rewrite B3 in H3, H4. tauto.
Qed.
Lemma dot_fwd k a x b y : F a -> F b -> F x -> F y ->
  prodR k (B2R a) (B2R x) (B2R b) (B2R y) -> Rabs (dotR k (B2R a) (B2R x) (B2R b) (B2R y)) < M32 ->
  F (dot32 k a x b y) /\ B2R (dot32 k a x b y) = dotR k (B2R a) (B2R x) (B2R b) (B2R y).
Proof.
  intros Fa Fb Fx Fy. destruct k; cbn [dot32 dotR prodR].
  - intros [P1 P2] D. destruct (mul_fwd 24 128 p24 p128 a x Fa Fx P1) as [F1 E1]. destruct (mul_fwd 24 128 p24 p128 b y Fb Fy P2) as [F2 E2].
    rewrite <- E1, <- E2 in D |- *. apply (add_fwd 24 128 p24 p128 _ _ F1 F2 D).
  - intros P2 D. destruct (mul_fwd 24 128 p24 p128 b y Fb Fy P2) as [F2 E2].
    rewrite <- E2 in D |- *. apply (fma_fwd 24 128 p24 p128 _ _ _ Fa Fx F2 D).
  - intros P1 D. destruct (mul_fwd 24 128 p24 p128 a x Fa Fx P1) as [F1 E1].
    rewrite <- E1 in D |- *. apply (fma_fwd 24 128 p24 p128 _ _ _ Fb Fy F1 D).
Qed.

Lemma place_bwd k a b c half x y : F (place32 k a b c half x y) ->
  let X := B2R (offset32 half x) in let Y := B2R (offset32 half y) in
  F a /\ F b /\ F c /\ B2R (place32 k a b c half x y) = placeR k (B2R a) (B2R b) (B2R c) X Y /\ inrange k (B2R a) (B2R b) (B2R c) X Y.
Proof.
  intros H X Y. unfold place32 in *. destruct half64_val as [_ Eh].
  unfold narrow, sub64, widen, add32 in *.
  apply conv_bwd in H as (H & E1 & R1). apply sub_bwd in H as (H & _ & E2 & R2). apply conv_bwd in H as (H & E3 & R3).
  apply add_bwd in H as (Fc & H & E4 & R4). apply dot_bwd in H as (Fa & Fb & _ & _ & E5 & P & R5).
  fold X in E5, P, R5. fold Y in E5, P, R5.
  rewrite E1 in *. rewrite E2, Eh in *. rewrite E3 in *. rewrite E4 in *. rewrite E5 in *.
  unfold inrange, placeR, midR. tauto.
Qed.
Lemma place_fwd k a b c half x y : F a -> F b -> F c -> F (offset32 half x) -> F (offset32 half y) ->
  let X := B2R (offset32 half x) in let Y := B2R (offset32 half y) in
  inrange k (B2R a) (B2R b) (B2R c) X Y ->
  F (place32 k a b c half x y) /\ B2R (place32 k a b c half x y) = placeR k (B2R a) (B2R b) (B2R c) X Y.
Proof.
  intros Fa Fb Fc Fx Fy X Y (P & R1 & R2 & R3 & R4 & R5). destruct half64_val as [Fh Eh].
  destruct (dot_fwd k a (offset32 half x) b (offset32 half y) Fa Fb Fx Fy P R1) as [F1 E1].
  unfold placeR, midR in *. fold X in E1. fold Y in E1. rewrite <- E1 in R2, R3, R4, R5 |- *.
  destruct (add_fwd 24 128 p24 p128 _ _ Fc F1 R2) as [F2 E2]. rewrite <- E2 in R3, R4, R5 |- *.
  destruct (conv_fwd 53 1024 q53 q1024 _ _ _ F2 R3) as [F3 E3]. rewrite <- E3 in R4, R5 |- *. rewrite <- Eh in R4, R5 |- *.
  destruct (sub_fwd 53 1024 q53 q1024 _ _ F3 Fh R4) as [F4 E4]. rewrite <- E4 in R5 |- *.
  exact (conv_fwd 24 128 p24 p128 _ _ _ F4 R5).
Qed.

Lemma between_abs lo x hi m : lo <= x -> x <= hi -> Rabs lo < m -> Rabs hi < m -> Rabs x < m.
Proof. intros H1 H2 A B. apply Rabs_def2 in A. apply Rabs_def2 in B. apply Rabs_def1; lra. Qed.
Lemma dotR_mono k a X1 X2 b Y1 Y2 : a * X1 <= a * X2 -> b * Y1 <= b * Y2 -> dotR k a X1 b Y1 <= dotR k a X2 b Y2.
Proof.
  intros H1 H2. pose proof (r32_mono _ _ H1). pose proof (r32_mono _ _ H2). destruct k; cbn [dotR]; apply r32_mono; lra.
Qed.
Lemma place_between k a b c X1 X X2 Y1 Y Y2 :
  a * X1 <= a * X <= a * X2 -> b * Y1 <= b * Y <= b * Y2 ->
  inrange k a b c X1 Y1 -> inrange k a b c X2 Y2 ->
  inrange k a b c X Y /\ placeR k a b c X1 Y1 <= placeR k a b c X Y <= placeR k a b c X2 Y2.
Proof.
  intros [HX1 HX2] [HY1 HY2] (P & Q1 & Q2 & Q3 & Q4 & Q5) (P' & Q1' & Q2' & Q3' & Q4' & Q5').
  pose proof (dotR_mono k a X1 X b Y1 Y HX1 HY1) as D1. pose proof (dotR_mono k a X X2 b Y Y2 HX2 HY2) as D2.
  assert (E1 : midR k a b c X1 Y1 <= midR k a b c X Y) by (apply r32_mono; lra).
  assert (E2 : midR k a b c X Y <= midR k a b c X2 Y2) by (apply r32_mono; lra).
  pose proof (r64_mono _ _ E1) as G1. pose proof (r64_mono _ _ E2) as G2.
  assert (I1 : r64 (r64 (midR k a b c X1 Y1) - / 2) <= r64 (r64 (midR k a b c X Y) - / 2)) by (apply r64_mono; lra).
  assert (I2 : r64 (r64 (midR k a b c X Y) - / 2) <= r64 (r64 (midR k a b c X2 Y2) - / 2)) by (apply r64_mono; lra).
  pose proof (r32_mono _ _ I1) as J1. pose proof (r32_mono _ _ I2) as J2. fold (placeR k a b c X1 Y1) in J1. fold (placeR k a b c X Y) in J1, J2. fold (placeR k a b c X2 Y2) in J2.
  split; [|split; assumption].
  split; [|repeat split]; [|eapply between_abs; eassumption ..].
  destruct k; cbn [prodR] in *.
  - split; [eapply (between_abs _ _ _ _ (r32_mono _ _ HX1) (r32_mono _ _ HX2)); tauto|eapply (between_abs _ _ _ _ (r32_mono _ _ HY1) (r32_mono _ _ HY2)); tauto].
  - eapply (between_abs _ _ _ _ (r32_mono _ _ HY1) (r32_mono _ _ HY2)); tauto.
  - eapply (between_abs _ _ _ _ (r32_mono _ _ HX1) (r32_mono _ _ HX2)); tauto.
Qed.

(** every pixel lies between two corners *)
Definition on_corner (half x : Z) : Prop := x = 0%Z \/ x = (2 * half - 1)%Z.
Lemma choose_corner half a x : (0 < half)%Z -> (0 <= x < 2 * half)%Z -> exists x1 x2, on_corner half x1 /\ on_corner half x2 /\
  a * (IZR (x1 - half) + / 2) <= a * (IZR (x - half) + / 2) <= a * (IZR (x2 - half) + / 2).
Proof.
  intros Hh Hx. assert (L : IZR (0 - half) + / 2 <= IZR (x - half) + / 2) by (apply Rplus_le_compat_r, IZR_le; lia).
  assert (U : IZR (x - half) + / 2 <= IZR (2 * half - 1 - half) + / 2) by (apply Rplus_le_compat_r, IZR_le; lia).
  destruct (Rle_or_lt 0 a) as [A|A].
  - exists 0%Z, (2 * half - 1)%Z. split; [left; reflexivity|]. split; [right; reflexivity|]. split; apply Rmult_le_compat_l; assumption.
  - exists (2 * half - 1)%Z, 0%Z. split; [right; reflexivity|]. split; [left; reflexivity|]. split; apply Rmult_le_compat_neg_l; lra.
Qed.

Section Axis.
Variables (k : contraction) (a b c : f32) (half size : Z).
Hypothesis Hhalf : (0 < half <= 4194304)%Z.
(** the corner test along one image axis *)
Hypothesis Hcorner : forall x y, on_corner half x -> on_corner half y ->
  exists z, floor32 (place32 k a b c half x y) = Some z /\ (0 <= z < size - 1)%Z.

Lemma off x : (0 <= x < 2 * half)%Z -> F (offset32 half x) /\ B2R (offset32 half x) = IZR (x - half) + / 2.
Proof. intros H. apply offset_val. lia. Qed.
Lemma corner_range x : on_corner half x -> (0 <= x < 2 * half)%Z.
Proof. intros [->| ->]; lia. Qed.
Lemma corner_in x y : on_corner half x -> on_corner half y ->
  F a /\ F b /\ F c /\ inrange k (B2R a) (B2R b) (B2R c) (IZR (x - half) + / 2) (IZR (y - half) + / 2) /\
  0 <= placeR k (B2R a) (B2R b) (B2R c) (IZR (x - half) + / 2) (IZR (y - half) + / 2) < IZR (size - 1) /\
  (Zfloor (placeR k (B2R a) (B2R b) (B2R c) (IZR (x - half) + / 2) (IZR (y - half) + / 2)) <= 2147483647)%Z.
Proof.
  intros Hx Hy. destruct (Hcorner x y Hx Hy) as (z & Hz & Hr). apply floor32_spec in Hz as (Ff & -> & Hi).
  destruct (off x (corner_range x Hx)) as [_ Ex]. destruct (off y (corner_range y Hy)) as [_ Ey].
  apply place_bwd in Ff. cbv zeta in Ff. rewrite Ex, Ey in Ff. destruct Ff as (Fa & Fb & Fc & E & I).
  rewrite E in Hr, Hi. split; [exact Fa|]. split; [exact Fb|]. split; [exact Fc|]. split; [exact I|]. split; [|lia].
  split.
  - apply Rle_trans with (IZR (Zfloor (placeR k (B2R a) (B2R b) (B2R c) (IZR (x - half) + / 2) (IZR (y - half) + / 2)))); [apply IZR_le; lia|apply Zfloor_lb].
  - apply Rlt_le_trans with (IZR (Zfloor (placeR k (B2R a) (B2R b) (B2R c) (IZR (x - half) + / 2) (IZR (y - half) + / 2))) + 1); [apply Zfloor_ub|].
    rewrite <- plus_IZR. apply IZR_le. lia.
Qed.
Lemma inside x y : (0 <= x < 2 * half)%Z -> (0 <= y < 2 * half)%Z ->
  inrange k (B2R a) (B2R b) (B2R c) (IZR (x - half) + / 2) (IZR (y - half) + / 2) /\
  F (place32 k a b c half x y) /\
  B2R (place32 k a b c half x y) = placeR k (B2R a) (B2R b) (B2R c) (IZR (x - half) + / 2) (IZR (y - half) + / 2) /\
  0 <= B2R (place32 k a b c half x y) < IZR (size - 1) /\
  exists z, floor32 (place32 k a b c half x y) = Some z /\ (0 <= z < size - 1)%Z.
Proof.
  intros Hx Hy.
  destruct (choose_corner half (B2R a) x) as (x1 & x2 & Cx1 & Cx2 & Bx); [lia|lia|].
  destruct (choose_corner half (B2R b) y) as (y1 & y2 & Cy1 & Cy2 & By); [lia|lia|].
  destruct (corner_in x1 y1 Cx1 Cy1) as (Fa & Fb & Fc & I1 & R1 & G1). destruct (corner_in x2 y2 Cx2 Cy2) as (_ & _ & _ & I2 & R2 & G2).
  destruct (place_between _ _ _ _ _ _ _ _ _ _ Bx By I1 I2) as [I [L U]].
  destruct (off x Hx) as [Fx Ex]. destruct (off y Hy) as [Fy Ey].
  assert (I' := I). rewrite <- Ex, <- Ey in I'. apply place_fwd in I' as [Fp Ep]; auto. rewrite Ex, Ey in Ep.
  split; [exact I|]. split; [exact Fp|]. split; [exact Ep|].
  assert (R : 0 <= B2R (place32 k a b c half x y) < IZR (size - 1)) by (rewrite Ep; lra).
  split; [exact R|]. exists (Zfloor (B2R (place32 k a b c half x y))).
  assert (B1 : (0 <= Zfloor (B2R (place32 k a b c half x y)))%Z) by (apply Zfloor_lub; lra).
  assert (B2 : (Zfloor (B2R (place32 k a b c half x y)) < size - 1)%Z).
  { apply lt_IZR. apply Rle_lt_trans with (B2R (place32 k a b c half x y)); [apply Zfloor_lb|lra]. }
  assert (B3 : (Zfloor (B2R (place32 k a b c half x y)) <= 2147483647)%Z).
  { rewrite Ep. eapply Z.le_trans; [|exact G2]. apply Zfloor_le. exact U. }
  split; [apply floor32_def; [exact Fp|lia]|lia].
Qed.
End Axis.

Lemma obind_some {A B} (x : option A) (f : A -> option B) b : obind x f = Some b -> exists a, x = Some a /\ f a = Some b.
Proof. destruct x; [eauto|discriminate]. Qed.

Lemma corner_true k im w cx cy half x y : corner32 k im w cx cy half x y = Some true ->
  (exists z, floor32 (place32 k (fw00 w) (fw01 w) cx half x y) = Some z /\ (0 <= z < bcols im - 1)%Z) /\
  (exists z, floor32 (place32 k (fw10 w) (fw11 w) cy half x y) = Some z /\ (0 <= z < brows im - 1)%Z).
Proof.
  unfold corner32. intros H. apply obind_some in H as (u & Hu & H). apply obind_some in H as (v & Hv & H). injection H as H.
  apply negb_true_iff in H. apply orb_false_iff in H as [H H4]. apply orb_false_iff in H as [H H3]. apply orb_false_iff in H as [H1 H2].
  apply Z.ltb_ge in H1, H2. apply Z.leb_gt in H3, H4. split; [exists u|exists v]; split; auto.
Qed.
Lemma all_corners_true f l : all_corners f l = Some true -> forall x y, In (x, y) l -> f x y = Some true.
Proof.
  induction l as [|[x0 y0] l IH]; cbn [all_corners In]; [tauto|]. intros H x y [E|E].
  - injection E as <- <-. apply obind_some in H as (b & -> & H). destruct b; [reflexivity|discriminate].
  - apply obind_some in H as (b & _ & H). destruct b; [|discriminate]. auto.
Qed.
Lemma corners_true k im w cx cy half : (0 < half)%Z -> all_corners (corner32 k im w cx cy half) (corners half) = Some true ->
  forall x y, on_corner half x -> on_corner half y ->
  (exists z, floor32 (place32 k (fw00 w) (fw01 w) cx half x y) = Some z /\ (0 <= z < bcols im - 1)%Z) /\
  (exists z, floor32 (place32 k (fw10 w) (fw11 w) cy half x y) = Some z /\ (0 <= z < brows im - 1)%Z).
Proof.
  intros Hh H x y Hx Hy. apply corner_true. apply (all_corners_true _ _ H). unfold corners.
  destruct (Z.leb_spec half 0) as [L|_]; [lia|]. destruct Hx as [->| ->], Hy as [->| ->]; cbn; tauto.
Qed.

(** reads *)
Lemma brd_some im u v : (0 <= u < bcols im)%Z -> (0 <= v < brows im)%Z -> brd im u v = Some (bpix im u v).
Proof.
  intros H1 H2. unfold brd. destruct (Z.leb_spec 0 u); [|lia]. destruct (Z.ltb_spec u (bcols im)); [|lia].
  destruct (Z.leb_spec 0 v); [|lia]. destruct (Z.ltb_spec v (brows im)); [|lia]. reflexivity.
Qed.
Lemma blend_some fuse im ur vr sx sy :
  (0 <= ur < bcols im)%Z -> (0 <= vr < brows im)%Z ->
  (Bltb zero32 sx = true -> (ur + 1 < bcols im)%Z) -> (Bltb zero32 sy = true -> (vr + 1 < brows im)%Z) ->
  exists r, blend fuse im ur vr sx sy = Some r.
Proof.
  intros Hu Hv Hx Hy. unfold blend, add_pixel. rewrite brd_some by assumption. cbn [obind].
  destruct (Bltb zero32 sx) eqn:Bx, (Bltb zero32 sy) eqn:By; cbn [andb].
  - specialize (Hx eq_refl). specialize (Hy eq_refl). rewrite !brd_some by lia. cbn [obind]. eauto.
  - specialize (Hx eq_refl). rewrite !brd_some by lia. cbn [obind]. eauto.
  - specialize (Hy eq_refl). rewrite !brd_some by lia. cbn [obind]. eauto.
  - cbn [obind]. eauto.
Qed.

Lemma collect_some {A} (l : list (option A)) : (forall o, In o l -> exists a, o = Some a) -> exists r, collect l = Some r /\ length r = length l.
Proof.
  induction l as [|o l IH]; cbn [collect]; intros H; [exists []; auto|].
  destruct (H o (or_introl eq_refl)) as [a ->]. destruct IH as (r & -> & L); [intros; apply H; right; assumption|].
  cbn [obind]. eexists. split; [reflexivity|]. cbn. congruence.
Qed.
Lemma zupto_in k x : In x (zupto k) -> (0 <= x < k)%Z.
Proof. unfold zupto. rewrite in_map_iff. intros (i & <- & H). apply in_seq in H. lia. Qed.
Lemma zupto_len k : length (zupto k) = Z.to_nat k.
Proof. unfold zupto. rewrite map_length, seq_length. reflexivity. Qed.
Lemma flat_map_len {A B} (f : A -> list B) c l : (forall x, length (f x) = c) -> length (flat_map f l) = (length l * c)%nat.
Proof. intros H. induction l as [|x l IH]; cbn; [reflexivity|]. rewrite app_length, H, IH. reflexivity. Qed.
Lemma extracts_some k fuse n im (ident : bool) w cx cy border :
  let half := half_edge n border in
  (forall x y, (0 <= x < 2 * half)%Z -> (0 <= y < 2 * half)%Z ->
     exists r, (if ident then pixel_id fuse im half cx cy x y else pixel_warp k fuse im w half cx cy x y) = Some r) ->
  exists l, extracts k fuse n im ident w cx cy border = Some l /\ length l = (Z.to_nat (2 * half) * Z.to_nat (2 * half))%nat.
Proof.
  intros half H. unfold extracts. fold half.
  match goal with |- exists l, collect ?L = _ /\ _ => destruct (collect_some L) as (r & E & Len) end.
  - intros o Ho. apply in_flat_map in Ho as (y & Hy & Ho). apply in_map_iff in Ho as (x & <- & Hx). apply H; apply zupto_in; assumption.
  - exists r. split; [exact E|]. rewrite Len. rewrite (flat_map_len _ (Z.to_nat (2 * half))); [rewrite zupto_len; reflexivity|].
    intros y. rewrite map_length. apply zupto_len.
Qed.

(** identity warp *)
Lemma lt_of_Z32 x z : F x -> (Z.abs z <= 16777216)%Z -> Bltb x (f32_of_Z z) = false -> IZR z <= B2R x.
Proof.
  intros Fx Hz H. destruct (of_Z32 z Hz) as [Fz Ez]. rewrite (Bltb_correct _ _ _ _ Fx Fz), Ez in H.
  destruct (Rlt_bool_spec (B2R x) (IZR z)); [discriminate|assumption].
Qed.
Lemma gt_of_Z32 x z : F x -> (Z.abs z <= 16777216)%Z -> Bltb (f32_of_Z z) x = false -> B2R x <= IZR z.
Proof.
  intros Fx Hz H. destruct (of_Z32 z Hz) as [Fz Ez]. rewrite (Bltb_correct _ _ _ _ Fz Fx), Ez in H.
  destruct (Rlt_bool_spec (IZR z) (B2R x)); [discriminate|assumption].
Qed.
Lemma id_finite (x lo hi : f32) : is_nan x = false -> F lo -> F hi -> Bltb x lo = false -> Bltb hi x = false -> F x.
Proof.
  destruct x as [s|s| |s m k b]; try discriminate; [reflexivity| |reflexivity]. intros _ Fl Fh A B. exfalso.
  destruct s, lo as [?|?| |[]], hi as [?|?| |[]]; cbn in *; discriminate.
Qed.
(** one axis of the identity branch: the pixel read and, for a positive fraction, its successor *)
Lemma id_axis half size c : (0 <= half <= 4194304)%Z -> (0 <= size <= 16777216)%Z -> is_nan c = false ->
  Bltb c (f32_of_Z half) = false -> Bltb (f32_of_Z (size - half)) c = false ->
  F c /\ IZR half <= B2R c <= IZR (size - half) /\
  exists z, floor32 c = Some z /\ z = Zfloor (B2R c) /\ (half <= z)%Z /\ (z <= size - half)%Z /\
  (forall x, (0 <= x < 2 * half)%Z -> (0 <= z - half + x < size)%Z /\
     (Bltb zero32 (sub32 c (f32_of_Z z)) = true -> (z - half + x + 1 < size)%Z)).
Proof.
  intros Hh Hs Hn H1 H2.
  assert (A1 : (Z.abs half <= 16777216)%Z) by lia. assert (A2 : (Z.abs (size - half) <= 16777216)%Z) by lia.
  assert (Fl := proj1 (of_Z32 half A1)). assert (Fh := proj1 (of_Z32 (size - half) A2)).
  assert (Fc := id_finite _ _ _ Hn Fl Fh H1 H2).
  assert (L := lt_of_Z32 _ _ Fc A1 H1). assert (U := gt_of_Z32 _ _ Fc A2 H2).
  split; [exact Fc|]. split; [split; assumption|].
  assert (L' : (half <= Zfloor (B2R c))%Z) by (apply Zfloor_lub; exact L).
  assert (U' : (Zfloor (B2R c) <= size - half)%Z) by (rewrite <- (Zfloor_IZR (size - half)); apply Zfloor_le; exact U).
  exists (Zfloor (B2R c)). split; [apply floor32_def; [exact Fc|lia]|]. split; [reflexivity|]. split; [exact L'|]. split; [exact U'|].
  intros x Hx. split; [lia|]. intros P.
  enough (Zfloor (B2R c) < size - half)%Z by lia.
  destruct (of_Z32 (Zfloor (B2R c))) as [Fz Ez]; [lia|].
  destruct (Z.eq_dec (Zfloor (B2R c)) (size - half)) as [E|E]; [exfalso|lia].
  assert (EE : B2R c = IZR (size - half)) by (apply Rle_antisym; [exact U|rewrite <- E; apply Zfloor_lb]).
  destruct (sub_fwd 24 128 p24 p128 c (f32_of_Z (Zfloor (B2R c))) Fc Fz) as [Fs Es].
  { rewrite Ez, E, EE, Rminus_diag_eq by reflexivity. rewrite rndf_0, Rabs_R0. apply bpow_gt_0. }
  assert (Es' : B2R (sub32 c (f32_of_Z (Zfloor (B2R c)))) = 0).
  { unfold sub32. rewrite Es, Ez, E, EE, Rminus_diag_eq by reflexivity. apply rndf_0. }
  rewrite Bltb_correct in P; [|apply of_Z32; lia|exact Fs].
  rewrite Es' in P. unfold zero32 in P. destruct (of_Z32 0) as [_ E0]; [lia|]. rewrite E0 in P. rewrite Rlt_bool_false in P by lra. discriminate.
Qed.

Lemma half_edge_range n border : (Z.of_nat n <= 4194304)%Z -> (0 <= half_edge n border <= 4194304)%Z.
Proof.
  intros H. unfold half_edge. rewrite Nat.div2_div, Nat2Z.inj_div. change (Z.of_nat 2) with 2%Z.
  assert (0 <= Z.of_nat n / 2 <= 2097152)%Z by (split; [apply Z.div_pos; lia|apply Z.div_le_upper_bound; lia]). destruct border; lia.
Qed.

Lemma ieee_safe k fuse n im ident w cx cy border :
  (Z.of_nat n <= 4194304)%Z -> (0 <= bcols im <= 16777216)%Z -> (0 <= brows im <= 16777216)%Z ->
  (ident = true -> is_nan cx = false /\ is_nan cy = false) ->
  accepts k n im ident w cx cy border = Some true ->
  exists l, extracts k fuse n im ident w cx cy border = Some l /\
            length l = (Z.to_nat (2 * half_edge n border) * Z.to_nat (2 * half_edge n border))%nat.
Proof.
  intros Hn Hc Hr Hnan H. apply extracts_some. unfold accepts in H. pose proof (half_edge_range n border Hn) as Hh.
  set (half := half_edge n border) in *. clearbody half. intros x y Hx Hy. destruct ident.
  - destruct (Hnan eq_refl) as [N1 N2]. injection H as H. unfold accept_id in H. apply negb_true_iff in H.
    apply orb_false_iff in H as [H H4]. apply orb_false_iff in H as [H H3]. apply orb_false_iff in H as [H1 H2].
    destruct (id_axis half (bcols im) cx Hh Hc N1 H1 H3) as (_ & _ & ur & Eu & _ & _ & _ & Ru).
    destruct (id_axis half (brows im) cy Hh Hr N2 H2 H4) as (_ & _ & vr & Ev & _ & _ & _ & Rv).
    unfold pixel_id. rewrite Eu, Ev. cbn [obind]. destruct (Ru x Hx) as [Ru1 Ru2]. destruct (Rv y Hy) as [Rv1 Rv2].
    apply blend_some; [lia|lia|intros P; apply Ru2 in P; lia|intros P; apply Rv2 in P; lia].
  - assert (Hp : (0 < half)%Z) by lia.
    pose proof (corners_true _ _ _ _ _ _ Hp H) as C.
    destruct (inside k (fw00 w) (fw01 w) cx half (bcols im)) with (x := x) (y := y) as (_ & _ & _ & _ & u & Eu & Ru); auto; [lia|intros; apply C; assumption|].
    destruct (inside k (fw10 w) (fw11 w) cy half (brows im)) with (x := x) (y := y) as (_ & _ & _ & _ & v & Ev & Rv); auto; [lia|intros; apply C; assumption|].
    unfold pixel_warp. rewrite Eu, Ev. cbn [obind]. apply blend_some; lia.
Qed.
