(** In single precision, too, a patch inside the image on the highest level is inside on all levels below. *)
From Coq Require Import List ZArith Bool Reals Lia Lra.
From Flocq Require Import Core BinarySingleNaN.
From Verif Require Import PyrModel PyrSpec PyrProofs IeeeModel IeeeSpec IeeeReal IeeeProofs IeeeAcc IeeePos IpyrModel IpyrSpec.
Import ListNotations.
Local Open Scope R_scope.

Notation pw k := (bpow radix2 k).

(** ** exact numbers *)
Lemma fmt_dy p e m k : (24 <= p)%Z -> (3 - e - p <= k)%Z -> (Z.abs m < 16777216)%Z -> rndf p e (IZR m * pw k) = IZR m * pw k.
Proof.
  intros Hp Hk Hm. apply rndf_gen. apply generic_format_FLT. exists (Float radix2 m k).
  - reflexivity.
  - cbn [Fnum]. change (radix_val radix2) with 2%Z. assert (2 ^ 24 <= 2 ^ p)%Z by (apply Z.pow_le_mono_r; lia). lia.
  - cbn [Fexp]. unfold SpecFloat.emin. lia.
Qed.
Lemma fmt_pw p e k : (24 <= p)%Z -> (3 - e - p <= k)%Z -> rndf p e (pw k) = pw k.
Proof. intros Hp Hk. pose proof (fmt_dy p e 1 k Hp Hk ltac:(lia)) as H. now rewrite Rmult_1_l in H. Qed.
(** the value of a float times a power of two, in double precision *)
Lemma r64_scaled (x : f32) l : (0 <= l <= 64)%Z -> r64 (B2R x * pw (- l)) = B2R x * pw (- l).
Proof.
  intros Hl. apply rndf_gen. destruct x as [s|s| |s m k b]; cbn [B2R]; try (rewrite Rmult_0_l; apply generic_format_0).
  apply generic_format_FLT. exists (Float radix2 (cond_Zopp s (Zpos m)) (k - l)).
  - unfold F2R. cbn [Fnum Fexp]. unfold Z.sub. rewrite bpow_plus. ring.
  - cbn [Fnum]. change (radix_val radix2) with 2%Z.
    unfold SpecFloat.bounded, SpecFloat.canonical_mantissa in b. apply andb_prop in b as [b1 b2]. apply Zeq_bool_eq in b1.
    unfold SpecFloat.fexp, SpecFloat.emin in b1. pose proof (Zpower_pos_gt_0 2 53 eq_refl).
    assert (D : (Zpos (Digits.digits2_pos m) <= 24)%Z) by lia.
    assert (A : (Z.abs (cond_Zopp s (Zpos m)) < 2 ^ 24)%Z).
    { rewrite Digits.Zpos_digits2_pos in D. rewrite abs_cond_Zopp. cbn [Z.abs]. pose proof (Digits.Zdigits_correct radix2 (Zpos m)) as [_ C]. cbn [Z.abs] in C.
      eapply Z.lt_le_trans; [exact C|]. change (2 ^ 24)%Z with (Zpower radix2 24). apply Zpower_le. exact D. }
    lia.
  - cbn [Fexp]. unfold SpecFloat.bounded, SpecFloat.canonical_mantissa in b. apply andb_prop in b as [b1 b2]. apply Zeq_bool_eq in b1.
    unfold SpecFloat.fexp, SpecFloat.emin in *. lia.
Qed.
Lemma r64_float (x : f32) : r64 (B2R x) = B2R x.
Proof. pose proof (r64_scaled x 0 ltac:(lia)) as H. change (pw (- 0)) with 1 in H. now rewrite Rmult_1_r in H. Qed.
Lemma M64_of32 r : Rabs r < M32 -> Rabs r < M64.
Proof. intros H. assert (M32 < M64) by (apply bpow_lt; lia). lra. Qed.
Lemma float_lt (x : f32) : Rabs (B2R x) < M32.
Proof. apply (abs_B2R_lt_emax 24 128). Qed.
Lemma widen_val (x : f32) : F x -> F (widen x) /\ B2R (widen x) = B2R x.
Proof.
  intros Fx. destruct (conv_fwd 53 1024 q53 q1024 24 128 x Fx) as [A B].
  - rewrite r64_float. apply M64_of32, float_lt.
  - split; [exact A|]. unfold widen. rewrite B. apply r64_float.
Qed.
Lemma pow64_val e : (-1000 <= e <= 1000)%Z -> F (pow64 e) /\ B2R (pow64 e) = pw e.
Proof.
  intros He. pose proof (norm_fwd 53 1024 q53 q1024 1 e false) as N.
  assert (E : F2R (Float radix2 1 e) = pw e) by (unfold F2R; cbn [Fnum Fexp]; ring). rewrite E, fmt_pw in N by lia. apply N.
  rewrite Rabs_pos_eq by apply bpow_ge_0. apply bpow_lt. lia.
Qed.

Section Table.
Variables (usecv : bool) (n : Z).
Definition odd_at (i : nat) : Z := (size_at n i mod 2 + (if usecv then 1 else 0))%Z.
Definition most : Z := (if usecv then 2 else 1)%Z.
Lemma odd_bounds i : (0 <= odd_at i <= most)%Z.
Proof. unfold odd_at, most. pose proof (Z.mod_pos_bound (size_at n i) 2 ltac:(lia)). destruct usecv; lia. Qed.
Lemma most_bounds : (1 <= most <= 2)%Z. Proof. unfold most. destruct usecv; lia. Qed.
(** twice the shift of level [i], in pixels of level 0 *)
Fixpoint moved (i : nat) : Z := match i with O => 0 | S k => moved k + 2 ^ Z.of_nat k * odd_at k end%Z.
Lemma moved_bounds i : (0 <= moved i <= most * (2 ^ Z.of_nat i - 1))%Z.
Proof.
  induction i as [|i IH]; [cbn; lia|]. cbn [moved]. pose proof (odd_bounds i). pose proof most_bounds. rewrite Nat2Z.inj_succ, Z.pow_succ_r by lia.
  pose proof (Z.pow_pos_nonneg 2 (Z.of_nat i) ltac:(lia) ltac:(lia)). nia.
Qed.
Lemma moved_small i : (i <= 16)%nat -> (0 <= moved i <= 131070)%Z.
Proof.
  intros Hi. pose proof (moved_bounds i). pose proof most_bounds. assert (2 ^ Z.of_nat i <= 2 ^ 16)%Z by (apply Z.pow_le_mono_r; lia). nia.
Qed.
Lemma center_val i : (i <= 16)%nat -> F (center32 usecv n i) /\ B2R (center32 usecv n i) = IZR (- moved i) * pw (-1).
Proof.
  induction i as [|i IH]; intros Hi.
  { cbn [center32 moved]. destruct (of_Z32 0 ltac:(lia)) as [A B]. split; [exact A|]. rewrite B. cbn. lra. }
  destruct (IH ltac:(lia)) as [F1 E1]. cbn [center32].
  destruct (widen_val _ F1) as [F2 E2]. rewrite E1 in E2.
  pose proof (odd_bounds i) as O. pose proof most_bounds as Mb. destruct (of_Z32 (odd_at i) ltac:(lia)) as [F3 E3].
  destruct (widen_val _ F3) as [F4 E4]. rewrite E3 in E4.
  destruct (pow64_val (Z.of_nat (S i) - 2) ltac:(lia)) as [F5 E5].
  assert (P : pw (Z.of_nat (S i) - 2) * IZR (odd_at i) = IZR (2 ^ Z.of_nat i * odd_at i) * pw (-1)).
  { rewrite mult_IZR. change (2 ^ Z.of_nat i)%Z with (Zpower radix2 (Z.of_nat i)). rewrite IZR_Zpower by lia.
    replace (Z.of_nat (S i) - 2)%Z with (Z.of_nat i + -1)%Z by lia. rewrite bpow_plus. ring. }
  pose proof (moved_small (S i) Hi) as M1. pose proof (moved_small i ltac:(lia)) as M0. cbn [moved] in M1.
  assert (Q : (0 <= 2 ^ Z.of_nat i * odd_at i <= 131070)%Z) by lia.
  assert (Small : forall m, (Z.abs m <= 131070)%Z -> Rabs (IZR m * pw (-1)) < M32).
  { intros m Hm. rewrite Rabs_mult, <- abs_IZR. apply Rle_lt_trans with (131070 * 1); [|assert (pw 17 < M32) as L by (apply bpow_lt; lia); change (pw 17) with 131072 in L; lra].
    apply Rmult_le_compat; [apply IZR_le; lia|apply Rabs_pos|apply IZR_le; exact Hm|]. rewrite Rabs_pos_eq by apply bpow_ge_0. change (pw (-1)) with (/ 2). lra. }
  destruct (mul_fwd 53 1024 q53 q1024 _ _ F5 F4) as [F6 E6].
  { rewrite E5, E4, P, fmt_dy by lia. apply M64_of32, Small. lia. }
  rewrite E5, E4, P, fmt_dy in E6 by lia.
  assert (D : IZR (- moved i) * pw (-1) - IZR (2 ^ Z.of_nat i * odd_at i) * pw (-1) = IZR (- moved (S i)) * pw (-1)).
  { cbn [moved]. rewrite <- Rmult_minus_distr_r, <- minus_IZR. do 2 f_equal. lia. }
  destruct (sub_fwd 53 1024 q53 q1024 _ _ F2 F6) as [F7 E7].
  { rewrite E2, E6, D, fmt_dy by (cbn [moved]; lia). apply M64_of32, Small. cbn [moved]. lia. }
  rewrite E2, E6, D, fmt_dy in E7 by (cbn [moved]; lia).
  destruct (conv_fwd 24 128 p24 p128 _ _ _ F7) as [F8 E8].
  { rewrite E7, fmt_dy by (cbn [moved]; lia). apply Small. cbn [moved]. lia. }
  rewrite E7, fmt_dy in E8 by (cbn [moved]; lia). split; [exact F8|exact E8].
Qed.

Variable c : f32.
Notation C := (B2R c).
Notation lev i := (level32 (center32 usecv n) c i).
Definition shiftR (i : nat) : R := IZR (moved i) * pw (-1) * pw (- Z.of_nat i).
(** the exact coordinate on level [i] *)
Definition levR (i : nat) : R := (C + IZR (moved i) * pw (-1)) * pw (- Z.of_nat i).
Lemma levR_split i : levR i = shiftR i + C * pw (- Z.of_nat i).
Proof. unfold levR, shiftR. ring. Qed.
Lemma pw_step i : pw (- Z.of_nat i) = 2 * pw (- Z.of_nat (S i)).
Proof. replace (- Z.of_nat i)%Z with (1 + - Z.of_nat (S i))%Z by lia. rewrite bpow_plus. change (pw 1) with 2. ring. Qed.
Lemma pw_inv i : pw (Z.of_nat i) * pw (- Z.of_nat i) = 1.
Proof. rewrite <- bpow_plus. replace (Z.of_nat i + - Z.of_nat i)%Z with 0%Z by lia. reflexivity. Qed.
Lemma levR_step i : levR i = 2 * levR (S i) - IZR (odd_at i) / 2.
Proof.
  unfold levR. cbn [moved]. rewrite (pw_step i), plus_IZR, mult_IZR. change (2 ^ Z.of_nat i)%Z with (Zpower radix2 (Z.of_nat i)). rewrite IZR_Zpower by lia.
  pose proof (pw_inv i) as I. rewrite (pw_step i) in I. change (pw (-1)) with (/ 2). set (a := pw (Z.of_nat i)) in *. set (b := pw (- Z.of_nat (S i))) in *.
  replace (2 * ((C + (IZR (moved i) + a * IZR (odd_at i)) * / 2) * b)) with ((C + IZR (moved i) * / 2) * (2 * b) + IZR (odd_at i) / 2 * (a * (2 * b))) by field.
  rewrite I. lra.
Qed.
Lemma shiftR_bounds i : 0 <= shiftR i < 1.
Proof.
  pose proof (moved_bounds i) as M1. pose proof most_bounds as M2. pose proof (pw_inv i) as I. unfold shiftR. change (pw (-1)) with (/ 2).
  pose proof (bpow_gt_0 radix2 (- Z.of_nat i)) as B.
  assert (U : (moved i < 2 * 2 ^ Z.of_nat i)%Z) by (pose proof (Z.pow_pos_nonneg 2 (Z.of_nat i) ltac:(lia) ltac:(lia)); nia).
  apply IZR_lt in U. rewrite mult_IZR in U. change (2 ^ Z.of_nat i)%Z with (Zpower radix2 (Z.of_nat i)) in U. rewrite IZR_Zpower in U by lia.
  assert (L : 0 <= IZR (moved i)) by (apply IZR_le; lia). set (b := pw (- Z.of_nat i)) in *. set (a := pw (Z.of_nat i)) in *. split; [nra|].
  apply Rlt_le_trans with (2 * a * / 2 * b); [|lra]. apply Rmult_lt_compat_r; [exact B|]. lra.
Qed.
Lemma shift_val i : (i <= 16)%nat ->
  F (narrow (mul64 (widen (sub32 (center32 usecv n 0) (center32 usecv n i))) (pow64 (- Z.of_nat i)))) /\
  B2R (narrow (mul64 (widen (sub32 (center32 usecv n 0) (center32 usecv n i))) (pow64 (- Z.of_nat i)))) = shiftR i.
Proof.
  intros Hi. destruct (center_val 0 ltac:(lia)) as [F0 E0]. destruct (center_val i Hi) as [F1 E1]. pose proof (moved_small i Hi) as Mb.
  pose proof (shiftR_bounds i) as Sb. assert (B1 : 1 < M32) by (change 1 with (pw 0); apply bpow_lt; lia).
  assert (D : B2R (center32 usecv n 0) - B2R (center32 usecv n i) = IZR (moved i) * pw (-1)).
  { rewrite E0, E1. cbn [moved]. rewrite (opp_IZR (moved i)). change (- 0)%Z with 0%Z. ring. }
  assert (Sm : Rabs (IZR (moved i) * pw (-1)) < M32).
  { rewrite Rabs_mult, <- abs_IZR. apply Rle_lt_trans with (131070 * 1); [|assert (pw 17 < M32) as L by (apply bpow_lt; lia); change (pw 17) with 131072 in L; lra].
    apply Rmult_le_compat; [apply IZR_le; lia|apply Rabs_pos|apply IZR_le; lia|]. rewrite Rabs_pos_eq by apply bpow_ge_0. change (pw (-1)) with (/ 2). lra. }
  destruct (sub_fwd 24 128 p24 p128 _ _ F0 F1) as [F2 E2]; [rewrite D, fmt_dy by lia; exact Sm|]. rewrite D, fmt_dy in E2 by lia. fold (sub32 (center32 usecv n 0) (center32 usecv n i)) in F2, E2.
  destruct (widen_val _ F2) as [F3 E3]. rewrite E2 in E3. destruct (pow64_val (- Z.of_nat i) ltac:(lia)) as [F4 E4].
  assert (R1 : IZR (moved i) * pw (-1) * pw (- Z.of_nat i) = IZR (moved i) * pw (-1 + - Z.of_nat i)) by (rewrite bpow_plus; ring).
  assert (Ab : Rabs (shiftR i) < M32) by (rewrite Rabs_pos_eq; lra).
  destruct (mul_fwd 53 1024 q53 q1024 _ _ F3 F4) as [F5 E5].
  { rewrite E3, E4, R1, fmt_dy by lia. rewrite <- R1. apply M64_of32. exact Ab. }
  rewrite E3, E4, R1, fmt_dy in E5 by lia. rewrite <- R1 in E5. fold (shiftR i) in E5.
  destruct (conv_fwd 24 128 p24 p128 _ _ _ F5) as [F6 E6].
  { rewrite E5. unfold shiftR. rewrite R1, fmt_dy by lia. rewrite <- R1. exact Ab. }
  split; [exact F6|]. unfold narrow, mul64. rewrite E6, E5. unfold shiftR. rewrite R1. apply fmt_dy; lia.
Qed.
Lemma scale_bwd i : (i <= 16)%nat -> F (narrow (mul64 (widen c) (pow64 (- Z.of_nat i)))) ->
  F c /\ B2R (narrow (mul64 (widen c) (pow64 (- Z.of_nat i)))) = r32 (C * pw (- Z.of_nat i)).
Proof.
  intros Hi H. unfold narrow, mul64 in *. apply conv_bwd in H as (H & E1 & _). apply mul_bwd in H as (H & _ & E2 & _). unfold widen in H. apply conv_bwd in H as (H & _ & _).
  split; [exact H|]. rewrite E1, E2. destruct (widen_val c H) as [_ ->]. destruct (pow64_val (- Z.of_nat i) ltac:(lia)) as [_ ->]. rewrite r64_scaled by lia. reflexivity.
Qed.
Lemma scale_fwd i : (i <= 16)%nat -> F c -> Rabs (C * pw (- Z.of_nat i)) <= 65536 ->
  F (narrow (mul64 (widen c) (pow64 (- Z.of_nat i)))) /\ B2R (narrow (mul64 (widen c) (pow64 (- Z.of_nat i)))) = r32 (C * pw (- Z.of_nat i)).
Proof.
  intros Hi Fc H. destruct (widen_val c Fc) as [F1 E1]. destruct (pow64_val (- Z.of_nat i) ltac:(lia)) as [F2 E2].
  assert (L : pw 16 < M32) by (apply bpow_lt; lia). change (pw 16) with 65536 in L.
  destruct (mul_fwd 53 1024 q53 q1024 _ _ F1 F2) as [F3 E3]; [rewrite E1, E2, r64_scaled by lia; apply M64_of32; lra|]. rewrite E1, E2, r64_scaled in E3 by lia.
  destruct (conv_fwd 24 128 p24 p128 _ _ _ F3) as [F4 E4].
  - rewrite E3. apply Rle_lt_trans with 65536; [|exact L]. change 65536 with (pw 16). apply rndf_abs_le_pow; [exact p24|apply fx32; lia|exact H].
  - split; [exact F4|]. unfold narrow, mul64. rewrite E4, E3. reflexivity.
Qed.
(** a level coordinate in range is the exact one up to rounding, and comes from a finite coordinate *)
Lemma lev_bwd i : (i <= 16)%nat -> F (lev i) -> -1 < B2R (lev i) < 65536 -> F c /\ Rabs (B2R (lev i) - levR i) <= / 128.
Proof.
  intros Hi H Bd. unfold level32, add32 in *. apply add_bwd in H as (H1 & H2 & E & _). destruct (shift_val i Hi) as [_ S]. rewrite S in E.
  destruct (scale_bwd i Hi H2) as [Fc E2]. rewrite E2 in E. split; [exact Fc|]. rewrite E in *. pose proof (shiftR_bounds i) as Sb. rewrite levR_split.
  destruct Bd as [B1 B2]. change (-1) with (- pw 0) in B1. apply r32_gt in B1; [|lia]. change 65536 with (pw 16) in B2. apply r32_lt in B2; [|lia].
  change (pw 0) with 1 in B1. change (pw 16) with 65536 in B2.
  assert (P1 : - pw 1 < r32 (C * pw (- Z.of_nat i))) by (change (pw 1) with 2; lra). apply r32_gt in P1; [|lia]. change (pw 1) with 2 in P1.
  assert (P2 : r32 (C * pw (- Z.of_nat i)) < pw 16) by (change (pw 16) with 65536; lra). apply r32_lt in P2; [|lia]. change (pw 16) with 65536 in P2.
  pose proof (r32_err 16 (C * pw (- Z.of_nat i)) ltac:(lia)) as A1. pose proof (r32_err 16 (shiftR i + r32 (C * pw (- Z.of_nat i))) ltac:(lia)) as A2.
  change (pw 16) with 65536 in A1, A2. change (pw (16 - 24)) with (/ 256) in A1, A2.
  assert (A1' : Rabs (r32 (C * pw (- Z.of_nat i)) - C * pw (- Z.of_nat i)) <= / 256) by (apply A1, Rabs_le; lra). assert (A2' := A2 ltac:(apply Rabs_le; lra)).
  apply Rabs_le_inv in A1'. apply Rabs_le_inv in A2'. apply Rabs_le. lra.
Qed.
Lemma lev_fwd i : (i <= 16)%nat -> F c -> 0 <= levR i <= 65535 + / 2 -> F (lev i) /\ Rabs (B2R (lev i) - levR i) <= / 128.
Proof.
  intros Hi Fc Bd. pose proof (shiftR_bounds i) as Sb. rewrite levR_split in *.
  destruct (shift_val i Hi) as [F1 S]. destruct (scale_fwd i Hi Fc) as [F2 E2]; [apply Rabs_le; lra|].
  pose proof (r32_err 16 (C * pw (- Z.of_nat i)) ltac:(lia)) as A1. pose proof (r32_err 16 (shiftR i + r32 (C * pw (- Z.of_nat i))) ltac:(lia)) as A2.
  change (pw 16) with 65536 in A1, A2. change (pw (16 - 24)) with (/ 256) in A1, A2.
  assert (A1' : Rabs (r32 (C * pw (- Z.of_nat i)) - C * pw (- Z.of_nat i)) <= / 256) by (apply A1, Rabs_le; lra). apply Rabs_le_inv in A1'.
  assert (A2' : Rabs (r32 (shiftR i + r32 (C * pw (- Z.of_nat i))) - (shiftR i + r32 (C * pw (- Z.of_nat i)))) <= / 256) by (apply A2, Rabs_le; lra). apply Rabs_le_inv in A2'.
  unfold level32, add32. destruct (add_fwd 24 128 p24 p128 _ _ F1 F2) as [F3 E3].
  { rewrite S, E2. assert (L : pw 17 < M32) by (apply bpow_lt; lia). change (pw 17) with 131072 in L. apply Rabs_def1; lra. }
  split; [exact F3|]. rewrite E3, S, E2. apply Rabs_le. lra.
Qed.
End Table.

Lemma down (Q : nat -> Prop) l : (forall j, l = S j -> Q j) -> (forall i, (S i < l)%nat -> Q (S i) -> Q i) -> forall i, (i < l)%nat -> Q i.
Proof.
  intros H0 H1 i Hi. remember (l - S i)%nat as d eqn:E. revert i Hi E. induction d as [|d IH]; intros i Hi E.
  - apply H0. lia.
  - apply H1; [lia|]. apply IH; lia.
Qed.
Lemma size_twice N i : 2 * IZR (size_at N (S i)) <= IZR (size_at N i).
Proof.
  rewrite size_S. rewrite <- mult_IZR. apply IZR_le. apply Z.mul_div_le. lia.
Qed.
Lemma size_top N i : (0 <= N)%Z -> (size_at N i <= N)%Z.
Proof.
  intros H. unfold size_at. apply Z.div_le_upper_bound; [apply Z.pow_pos_nonneg; lia|]. pose proof (Z.pow_pos_nonneg 2 (Z.of_nat i) ltac:(lia) ltac:(lia)). nia.
Qed.
(** levels with a pixel *)
Lemma level_bound N l : (0 <= N <= 65536)%Z -> (1 <= size_at N l)%Z -> (l <= 16)%nat.
Proof.
  intros HN H. destruct (le_lt_dec l 16) as [L|L]; [exact L|exfalso]. unfold size_at in H.
  assert (2 ^ 17 <= 2 ^ Z.of_nat l)%Z by (apply Z.pow_le_mono_r; lia). rewrite Z.div_small in H; [lia|]. change (2 ^ 17)%Z with 131072%Z in *. lia.
Qed.

(** ** identity warp, one axis *)
Section Down.
Variables (usecv : bool) (n N : Z) (c : f32) (half : Z) (l : nat).
Hypothesis Hl : (l <= 16)%nat.
Hypothesis HN : (0 <= N <= 65536)%Z.
Hypothesis Hhalf : (0 < half <= 4194304)%Z.
Notation lev i := (level32 (center32 usecv n) c i).
Notation X i := (levR usecv n c i).
Notation Nr i := (IZR (size_at N i)).

Lemma Nr_le i : Nr i <= 65536.
Proof. apply IZR_le. pose proof (size_top N i). lia. Qed.
Lemma odd_real i : 0 <= IZR (odd_at usecv n i) <= IZR (most usecv).
Proof. pose proof (odd_bounds usecv n i). split; apply IZR_le; lia. Qed.
Lemma most_real : 1 <= IZR (most usecv) <= 2.
Proof. pose proof (most_bounds usecv). split; apply IZR_le; lia. Qed.
Lemma half_ge1 : 1 <= IZR half. Proof. apply IZR_le. lia. Qed.

Lemma id_down : F (lev l) -> IZR (most usecv) <= IZR half -> IZR half <= B2R (lev l) <= IZR (size_at N l - half) ->
  forall i, (i < l)%nat -> F (lev i) /\ IZR half <= B2R (lev i) <= IZR (size_at N i - half).
Proof.
  intros Fl Hm Hb. rewrite minus_IZR in Hb. pose proof (Nr_le l) as Bl. pose proof half_ge1 as H1. pose proof most_real as M2.
  destruct (lev_bwd usecv n c l Hl Fl) as [Fc El]; [lra|]. apply Rabs_le_inv in El.
  assert (Q : forall i, (i < l)%nat -> IZR half + / 4 <= X i <= Nr i - IZR half - / 4).
  { apply down.
    - intros j Ej. pose proof (levR_step usecv n c j) as S. pose proof (odd_real j) as O. pose proof (size_twice N j) as T. rewrite <- Ej in S, T. lra.
    - intros i Hi IH. pose proof (levR_step usecv n c i) as S. pose proof (odd_real i) as O. pose proof (size_twice N i) as T. lra. }
  intros i Hi. specialize (Q i Hi). pose proof (Nr_le i) as Bi. destruct (lev_fwd usecv n c i ltac:(lia) Fc) as [Fi Ei]; [lra|]. apply Rabs_le_inv in Ei.
  rewrite minus_IZR. split; [exact Fi|lra].
Qed.

(** ** general warp, one axis *)
Variables (k : contraction) (a b : f32).
Notation g X Y := (dotR k (B2R a) X (B2R b) Y).
Lemma gt_fmt p e (hp : Prec_gt_0 p) y x : rndf p e y = y -> y < rndf p e x -> y < x.
Proof. intros E H. destruct (Rlt_le_dec y x) as [L|L]; [exact L|]. apply (rndf_mono p e hp) in L. lra. Qed.
Lemma lt_fmt p e (hp : Prec_gt_0 p) y x : rndf p e y = y -> rndf p e x < y -> x < y.
Proof. intros E H. destruct (Rlt_le_dec x y) as [L|L]; [exact L|]. apply (rndf_mono p e hp) in L. lra. Qed.
Lemma dyad p e : (24 <= p)%Z -> (128 <= e)%Z -> rndf p e (- / 2048) = - / 2048 /\ rndf p e (/ 2 - / 2048) = / 2 - / 2048 /\ rndf p e (/ 2) = / 2 /\ rndf p e 0 = 0 /\
  forall z, (0 <= z <= 65536)%Z -> rndf p e (IZR z - 1) = IZR z - 1 /\ rndf p e (IZR z - / 2) = IZR z - / 2 /\ rndf p e (IZR z - 5 / 8) = IZR z - 5 / 8 /\ rndf p e (IZR z - 9 / 8) = IZR z - 9 / 8.
Proof.
  intros Hp He.
  assert (G : forall m j r, (-20 <= j)%Z -> (Z.abs m < 16777216)%Z -> r = IZR m * pw j -> rndf p e r = r) by (intros m j r Hj Hm ->; apply fmt_dy; lia).
  split; [apply (G (-1)%Z (-11)%Z); [lia|lia|change (pw (-11)) with (/ 2048); lra]|].
  split; [apply (G 1023%Z (-11)%Z); [lia|lia|change (pw (-11)) with (/ 2048); lra]|].
  split; [apply (G 1%Z (-1)%Z); [lia|lia|change (pw (-1)) with (/ 2); lra]|].
  split; [apply (G 0%Z 0%Z); [lia|lia|change (pw 0) with 1; lra]|].
  intros z Hz. split; [apply (G (z - 1)%Z 0%Z); [lia|lia|rewrite minus_IZR; change (pw 0) with 1; lra]|].
  split; [apply (G (2 * z - 1)%Z (-1)%Z); [lia|lia|rewrite minus_IZR, mult_IZR; change (pw (-1)) with (/ 2); lra]|].
  split; [apply (G (8 * z - 5)%Z (-3)%Z); [lia|lia|rewrite minus_IZR, mult_IZR; change (pw (-3)) with (/ 8); lra]|].
  apply (G (8 * z - 9)%Z (-3)%Z); [lia|lia|rewrite minus_IZR, mult_IZR; change (pw (-3)) with (/ 8); lra].
Qed.
Lemma place_lo A B C P Q : 0 <= placeR k A B C P Q -> / 2 - / 2048 < C + dotR k A P B Q.
Proof.
  intros H. destruct (dyad 24 128 ltac:(lia) ltac:(lia)) as (A1 & A2 & _). destruct (dyad 53 1024 ltac:(lia) ltac:(lia)) as (B1 & B2 & _).
  apply (gt_fmt 24 128 p24); [exact A2|]. apply (gt_fmt 53 1024 q53); [exact B2|]. unfold placeR, midR in H.
  assert (H1 : - / 2048 < r32 (r64 (r64 (r32 (C + dotR k A P B Q)) - / 2))) by lra. apply (gt_fmt 24 128 p24 _ _ A1) in H1. apply (gt_fmt 53 1024 q53 _ _ B1) in H1. lra.
Qed.
Lemma place_hi A B C P Q z : (0 <= z <= 65536)%Z -> placeR k A B C P Q < IZR z - 1 -> C + dotR k A P B Q < IZR z - / 2.
Proof.
  intros Hz H. destruct (dyad 24 128 ltac:(lia) ltac:(lia)) as (_ & _ & _ & _ & A'). destruct (dyad 53 1024 ltac:(lia) ltac:(lia)) as (_ & _ & _ & _ & B').
  destruct (A' z Hz) as (A1 & A2 & _). destruct (B' z Hz) as (B1 & B2 & _).
  apply (lt_fmt 24 128 p24); [exact A2|]. apply (lt_fmt 53 1024 q53); [exact B2|]. unfold placeR, midR in H.
  apply (lt_fmt 24 128 p24 _ _ A1) in H. apply (lt_fmt 53 1024 q53 _ _ B1) in H. lra.
Qed.
Lemma place_fits A B C P Q z : (0 <= z <= 65536)%Z -> prodR k A P B Q -> Rabs (dotR k A P B Q) < M32 ->
  / 2 <= C + dotR k A P B Q <= IZR z - 5 / 8 -> inrange k A B C P Q /\ 0 <= placeR k A B C P Q <= IZR z - 9 / 8.
Proof.
  intros Hz P1 P2 [H1 H2]. destruct (dyad 24 128 ltac:(lia) ltac:(lia)) as (_ & _ & A1 & A0 & A'). destruct (dyad 53 1024 ltac:(lia) ltac:(lia)) as (_ & _ & B1 & B0 & B').
  destruct (A' z Hz) as (_ & _ & A3 & A4). destruct (B' z Hz) as (_ & _ & B3 & B4).
  assert (z0 : IZR z <= 65536) by (apply IZR_le; lia).
  assert (L32 : 65536 < M32) by (change 65536 with (pw 16); apply bpow_lt; lia). assert (L64 : M32 < M64) by (apply bpow_lt; lia).
  assert (m1 : / 2 <= midR k A B C P Q <= IZR z - 5 / 8).
  { unfold midR. split; [rewrite <- A1|rewrite <- A3]; apply r32_mono; assumption. }
  assert (m2 : / 2 <= r64 (midR k A B C P Q) <= IZR z - 5 / 8).
  { split; [rewrite <- B1|rewrite <- B3]; apply r64_mono; lra. }
  assert (m3 : 0 <= r64 (r64 (midR k A B C P Q) - / 2) <= IZR z - 9 / 8).
  { split; [rewrite <- B0 at 1|rewrite <- B4]; apply r64_mono; lra. }
  assert (m4 : 0 <= placeR k A B C P Q <= IZR z - 9 / 8).
  { unfold placeR. split; [rewrite <- A0|rewrite <- A4]; apply r32_mono; lra. }
  split; [|exact m4]. unfold inrange. repeat split; try assumption; apply Rabs_def1; lra.
Qed.
(** the reach of the corners *)
Lemma r32_low x y : 0 <= y <= 1 -> y <= x -> y - / 16777216 <= r32 x.
Proof.
  intros Hy H. apply r32_mono in H. pose proof (r32_err 0 y ltac:(lia)) as E. change (pw 0) with 1 in E. change (pw (0 - 24)) with (/ 16777216) in E.
  assert (E' : Rabs (r32 y - y) <= / 16777216) by (apply E, Rabs_le; lra). apply Rabs_le_inv in E'. lra.
Qed.
Lemma reach_low A B P Q D : 0 <= A * P -> 0 <= B * Q -> 0 <= D <= 1 -> D <= A * P + B * Q -> D - / 4194304 <= dotR k A P B Q.
Proof.
  intros HA HB HD H. rewrite dotR_parts.
  assert (LA : Rmin (A * P) D - / 16777216 <= leftR k A P).
  { assert (Rmin (A * P) D <= A * P) by apply Rmin_l. assert (Rmin (A * P) D <= D) by apply Rmin_r. assert (0 <= Rmin (A * P) D) by (apply Rmin_glb; lra).
    destruct k; cbn [leftR]; [apply r32_low; lra|lra|apply r32_low; lra]. }
  assert (LB : Rmin (B * Q) D - / 16777216 <= rightR k B Q).
  { assert (Rmin (B * Q) D <= B * Q) by apply Rmin_l. assert (Rmin (B * Q) D <= D) by apply Rmin_r. assert (0 <= Rmin (B * Q) D) by (apply Rmin_glb; lra).
    destruct k; cbn [rightR]; [apply r32_low; lra|apply r32_low; lra|lra]. }
  assert (S : D <= Rmin (A * P) D + Rmin (B * Q) D) by (unfold Rmin; destruct (Rle_dec (A * P) D), (Rle_dec (B * Q) D); lra).
  destruct (Rle_lt_dec (/ 8388608) D) as [L|L].
  - pose proof (r32_low (leftR k A P + rightR k B Q) (D - / 8388608) ltac:(lra) ltac:(lra)). lra.
  - assert (T : - / 8388608 <= leftR k A P + rightR k B Q) by lra. apply r32_mono in T. pose proof (fmt_dy 24 128 (-1) (-23) ltac:(lia) ltac:(lia) ltac:(lia)) as E.
    change (pw (-23)) with (/ 8388608) in E. replace (IZR (-1) * / 8388608) with (- / 8388608) in E by lra. rewrite E in T. lra.
Qed.

Definition hm : R := IZR half - / 2.
Lemma corner_off x : on_corner half x -> IZR (x - half) + / 2 = hm \/ IZR (x - half) + / 2 = - hm.
Proof.
  unfold hm. intros [->| ->]; [right|left]; [rewrite minus_IZR; lra|]. replace (2 * half - 1 - half)%Z with (half - 1)%Z by lia. rewrite minus_IZR. lra.
Qed.
Definition reach : R := Rmax (Rabs (g hm hm)) (Rabs (g hm (- hm))).
Lemma g_cases P Q : (P = hm \/ P = - hm) -> (Q = hm \/ Q = - hm) -> Rabs (g P Q) <= reach.
Proof.
  assert (O1 : g (- hm) (- hm) = - g hm hm) by apply dotR_opp.
  assert (O2 : g (- hm) hm = - g hm (- hm)) by (rewrite <- dotR_opp, Ropp_involutive; reflexivity).
  intros [->| ->] [->| ->]; rewrite ?O1, ?O2, ?Rabs_Ropp; unfold reach; [apply Rmax_l|apply Rmax_r|apply Rmax_r|apply Rmax_l].
Qed.
Lemma reach_bound D : 0 <= D <= 1 -> D <= (Rabs (B2R a) + Rabs (B2R b)) * hm -> D - / 4194304 <= reach.
Proof.
  intros HD H. pose proof half_ge1 as H1. assert (Hh : 0 < hm) by (unfold hm; lra).
  assert (SG : forall r, exists P, (P = hm \/ P = - hm) /\ r * P = Rabs r * hm).
  { intros r. unfold Rabs. destruct (Rcase_abs r); [exists (- hm)|exists hm]; split; auto; ring. }
  destruct (SG (B2R a)) as (P & HP & EP). destruct (SG (B2R b)) as (Q & HQ & EQ). pose proof (g_cases P Q HP HQ) as C.
  pose proof (Rabs_pos (B2R a)). pose proof (Rabs_pos (B2R b)).
  pose proof (reach_low (B2R a) (B2R b) P Q D ltac:(rewrite EP; nra) ltac:(rewrite EQ; nra) HD ltac:(rewrite EP, EQ; lra)) as L. pose proof (Rle_abs (g P Q)). lra.
Qed.
Lemma reach_attained (p q : R) :
  (forall P Q, (P = hm \/ P = - hm) -> (Q = hm \/ Q = - hm) -> p < g P Q < q) -> p < - reach /\ reach < q.
Proof.
  intros H. assert (O1 : g (- hm) (- hm) = - g hm hm) by apply dotR_opp.
  assert (O2 : g (- hm) hm = - g hm (- hm)) by (rewrite <- dotR_opp, Ropp_involutive; reflexivity).
  pose proof (H hm hm ltac:(auto) ltac:(auto)). pose proof (H (- hm) (- hm) ltac:(auto) ltac:(auto)) as H2. pose proof (H hm (- hm) ltac:(auto) ltac:(auto)). pose proof (H (- hm) hm ltac:(auto) ltac:(auto)) as H4.
  rewrite O1 in H2. rewrite O2 in H4. unfold reach, Rmax. destruct (Rle_dec (Rabs (g hm hm)) (Rabs (g hm (- hm)))); unfold Rabs; destruct (Rcase_abs (g hm hm)), (Rcase_abs (g hm (- hm))); lra.
Qed.

Lemma warp_down : (IZR (most usecv) - 1) / 2 + / 8 <= (Rabs (B2R a) + Rabs (B2R b)) * hm ->
  (forall x y, on_corner half x -> on_corner half y -> exists z, floor32 (place32 k a b (lev l) half x y) = Some z /\ (0 <= z < size_at N l - 1)%Z) ->
  forall i, (i < l)%nat ->
  forall x y, on_corner half x -> on_corner half y -> exists z, floor32 (place32 k a b (lev i) half x y) = Some z /\ (0 <= z < size_at N i - 1)%Z.
Proof.
  intros Hw HC. pose proof (corner_in k a b (lev l) half (size_at N l) Hhalf HC) as CI.
  pose proof (Nr_le l) as Bl. pose proof half_ge1 as H1. pose proof most_real as M2.
  assert (Sz : forall i, (i <= l)%nat -> (0 <= size_at N i <= 65536)%Z).
  { intros i _. pose proof (size_top N i ltac:(lia)). unfold size_at in *. split; [apply Z.div_pos; [lia|apply Z.pow_pos_nonneg; lia]|lia]. }
  assert (off_corner : forall P, (P = hm \/ P = - hm) -> exists x, on_corner half x /\ IZR (x - half) + / 2 = P).
  { intros P [->| ->]; [exists (2 * half - 1)%Z|exists 0%Z]; (split; [unfold on_corner; tauto|]); unfold hm.
    - replace (2 * half - 1 - half)%Z with (half - 1)%Z by lia. rewrite minus_IZR. lra.
    - rewrite minus_IZR. lra. }
  destruct (CI 0%Z 0%Z (or_introl eq_refl) (or_introl eq_refl)) as (Fa & Fb & Fl & _).
  assert (R0 : forall P Q, (P = hm \/ P = - hm) -> (Q = hm \/ Q = - hm) ->
    / 2 - / 2048 - B2R (lev l) < g P Q < Nr l - / 2 - B2R (lev l) /\ prodR k (B2R a) P (B2R b) Q /\ Rabs (g P Q) < M32).
  { intros P Q HP HQ. destruct (off_corner P HP) as (x & Cx & <-). destruct (off_corner Q HQ) as (y & Cy & <-).
    destruct (CI x y Cx Cy) as (_ & _ & _ & (I1 & I2 & _) & (P1 & P2) & _). rewrite (minus_IZR (size_at N l) 1) in P2. apply place_lo in P1. apply place_hi in P2; [|apply Sz; lia].
    split; [lra|]. split; assumption. }
  destruct (reach_attained (/ 2 - / 2048 - B2R (lev l)) (Nr l - / 2 - B2R (lev l)) (fun P Q HP HQ => proj1 (R0 P Q HP HQ))) as [Ra Rb].
  pose proof (reach_bound ((IZR (most usecv) - 1) / 2 + / 8) ltac:(lra) Hw) as RB. 
  destruct (lev_bwd usecv n c l Hl Fl) as [Fc El]; [lra|]. apply Rabs_le_inv in El.
  assert (Q : forall i, (i < l)%nat -> / 2 + reach + / 128 <= X i <= Nr i - 3 / 4 - reach).
  { apply down.
    - intros j Ej. pose proof (levR_step usecv n c j) as S. pose proof (odd_real j) as O. pose proof (size_twice N j) as T. rewrite <- Ej in S, T. lra.
    - intros i Hi IH. pose proof (levR_step usecv n c i) as S. pose proof (odd_real i) as O. pose proof (size_twice N i) as T. lra. }
  intros i Hi x y Cx Cy. specialize (Q i Hi). pose proof (Nr_le i) as Bi.
  destruct (lev_fwd usecv n c i ltac:(lia) Fc) as [Fi Ei]; [lra|]. apply Rabs_le_inv in Ei.
  destruct (offset_val half x) as [Fx Ex]; [destruct Cx; lia|]. destruct (offset_val half y) as [Fy Ey]; [destruct Cy; lia|].
  pose proof (corner_off x Cx) as Ox. pose proof (corner_off y Cy) as Oy.
  destruct (R0 _ _ Ox Oy) as (_ & I1 & I2). pose proof (g_cases _ _ Ox Oy) as G. apply Rabs_le_inv in G.
  destruct (place_fits (B2R a) (B2R b) (B2R (lev i)) (IZR (x - half) + / 2) (IZR (y - half) + / 2) (size_at N i) (Sz i ltac:(lia)) I1 I2 ltac:(lra)) as [I R].
  rewrite <- Ex, <- Ey in I. apply place_fwd in I as [Fp Ep]; auto. rewrite Ex, Ey in Ep. rewrite <- Ep in R.
  exists (Zfloor (B2R (place32 k a b (lev i) half x y))).
  assert (B1 : (0 <= Zfloor (B2R (place32 k a b (lev i) half x y)))%Z) by (apply Zfloor_lub; lra).
  assert (B2 : (Zfloor (B2R (place32 k a b (lev i) half x y)) < size_at N i - 1)%Z).
  { apply lt_IZR. rewrite minus_IZR. apply Rle_lt_trans with (B2R (place32 k a b (lev i) half x y)); [apply Zfloor_lb|lra]. }
  pose proof (Sz i ltac:(lia)). split; [apply floor32_def; [exact Fp|lia]|lia].
Qed.
End Down.

(** ** not a number *)
Lemma level_number usecv n c l : (l <= 16)%nat -> is_nan c = false -> is_nan (level32 (center32 usecv n) c l) = false.
Proof.
  intros Hl Hc. destruct (shift_val usecv n l Hl) as [Fs _]. destruct (pow64_val (- Z.of_nat l) ltac:(lia)) as [Fp Ep].
  assert (Pp : 0 < B2R (pow64 (- Z.of_nat l))) by (rewrite Ep; apply bpow_gt_0).
  unfold level32. set (s := narrow (mul64 (widen (sub32 _ _)) _)) in *. clearbody s.
  destruct (is_finite c) eqn:Fc.
  - assert (A : F (narrow (mul64 (widen c) (pow64 (- Z.of_nat l))))).
    { destruct (widen_val c Fc) as [F1 E1].
      assert (L : Rabs (B2R c * pw (- Z.of_nat l)) <= Rabs (B2R c)).
      { rewrite Rabs_mult, (Rabs_pos_eq (pw _)) by apply bpow_ge_0. rewrite <- (Rmult_1_r (Rabs (B2R c))) at 2. apply Rmult_le_compat_l; [apply Rabs_pos|]. change 1 with (pw 0). apply bpow_le. lia. }
      pose proof (float_lt c) as Lc.
      destruct (mul_fwd 53 1024 q53 q1024 _ _ F1 Fp) as [F3 E3]; [rewrite E1, Ep, r64_scaled by lia; apply M64_of32; lra|]. rewrite E1, Ep, r64_scaled in E3 by lia.
      apply (conv_fwd 24 128 p24 p128 _ _ _ F3). rewrite E3. apply Rle_lt_trans with (Rabs (B2R c)); [|exact Lc].
      rewrite <- (rndf_B 24 128 c) at 2. destruct (Rle_dec 0 (B2R c)) as [S|S].
      + rewrite (Rabs_pos_eq (B2R c)) in L by exact S. apply Rabs_le_inv in L. rewrite (Rabs_pos_eq (r32 (B2R c))) by (rewrite (rndf_B 24 128); exact S).
        apply Rabs_le. rewrite <- (rndf_opp 24 128). split; apply r32_mono; lra.
      + rewrite (Rabs_left1 (B2R c)) in L by lra. apply Rabs_le_inv in L. rewrite (Rabs_left1 (r32 (B2R c))) by (rewrite (rndf_B 24 128); lra).
        apply Rabs_le. rewrite Ropp_involutive, <- (rndf_opp 24 128). split; apply r32_mono; lra. }
    set (t := narrow _) in *. clearbody t. unfold add32. destruct s as [?|?| |], t as [?|?| |]; try discriminate.
    + cbn. destruct (Bool.eqb _ _); reflexivity.
    + reflexivity.
    + reflexivity.
    + match goal with |- is_nan (Bplus _ ?x ?y) = _ => pose proof (Bplus_correct 24 128 p24 p128 mode_NE x y eq_refl eq_refl) as B; destruct (Bplus mode_NE x y) end; try reflexivity.
      destruct (Rlt_bool _ _) in B; [destruct B as (_ & B & _); discriminate|destruct B as [B _]; destruct (Bsign _) in B; discriminate].
  - destruct c as [?|sg| |]; try discriminate. destruct (pow64 (- Z.of_nat l)) as [?|?| |sp mp ep bp]; try discriminate; [cbn in Pp; lra|].
    destruct s as [?|?| |]; try discriminate; destruct sg, sp; reflexivity.
Qed.

(** ** both axes *)
Lemma corner_intro k im w cx cy half x y :
  (exists z, floor32 (place32 k (fw00 w) (fw01 w) cx half x y) = Some z /\ (0 <= z < bcols im - 1)%Z) ->
  (exists z, floor32 (place32 k (fw10 w) (fw11 w) cy half x y) = Some z /\ (0 <= z < brows im - 1)%Z) ->
  corner32 k im w cx cy half x y = Some true.
Proof.
  intros (u & Eu & Hu) (v & Ev & Hv). unfold corner32. rewrite Eu, Ev. cbn [obind].
  destruct (Z.ltb_spec u 0); [lia|]. destruct (Z.ltb_spec v 0); [lia|]. destruct (Z.leb_spec (bcols im - 1) u); [lia|]. destruct (Z.leb_spec (brows im - 1) v); [lia|]. reflexivity.
Qed.
Lemma all_corners_intro f l : (forall x y, In (x, y) l -> f x y = Some true) -> all_corners f l = Some true.
Proof.
  induction l as [|[x y] l IH]; cbn [all_corners In]; intros H; [reflexivity|]. rewrite (H x y) by tauto. cbn [obind]. apply IH. auto.
Qed.
Lemma ge_false (x : f32) z : F x -> (Z.abs z <= 16777216)%Z -> IZR z <= B2R x -> Bltb x (f32_of_Z z) = false.
Proof. intros Fx Hz H. destruct (of_Z32 z Hz) as [Fz Ez]. rewrite (Bltb_correct _ _ _ _ Fx Fz), Ez. apply Rlt_bool_false. exact H. Qed.
Lemma le_false (x : f32) z : F x -> (Z.abs z <= 16777216)%Z -> B2R x <= IZR z -> Bltb (f32_of_Z z) x = false.
Proof. intros Fx Hz H. destruct (of_Z32 z Hz) as [Fz Ez]. rewrite (Bltb_correct _ _ _ _ Fz Fx), Ez. apply Rlt_bool_false. exact H. Qed.

Lemma levels_accepted k n usecv w h py ident wp cx cy l border :
  ibuilt usecv w h py -> (0 <= w <= 65536)%Z -> (0 <= h <= 65536)%Z -> Nat.Even n -> (0 < n)%nat -> (Z.of_nat n <= 4194304)%Z -> (l <= 16)%nat ->
  (ident = true -> is_nan cx = false /\ is_nan cy = false) ->
  extends (patch_edge n border) ident wp (extent_needed usecv) ->
  ml_accepts k n py ident wp cx cy l border = Some true -> forall i, (i <= l)%nat -> ml_accepts k n py ident wp cx cy i border = Some true.
Proof.
  intros (Him & Hcx & Hcy) Hw Hh Ev Hn Hn' Hl Hnan Hx H i Hi.
  destruct (le_lt_eq_dec _ _ Hi) as [L|L]; [|subst; exact H].
  assert (LX : forall j, level32 (ip_cx py) cx j = level32 (center32 usecv h) cx j) by (intros j; unfold level32; rewrite !Hcx; reflexivity).
  assert (LY : forall j, level32 (ip_cy py) cy j = level32 (center32 usecv w) cy j) by (intros j; unfold level32; rewrite !Hcy; reflexivity).
  unfold ml_accepts in *. rewrite LX, LY in *. unfold accepts in *.
  pose proof (half_edge_range n border Hn') as Hr. pose proof (edge_real n border Ev) as Er.
  assert (Hp : (0 < half_edge n border)%Z).
  { unfold half_edge. destruct Ev as [m ->]. rewrite Nat.div2_double. destruct border; lia. }
  assert (Sz : forall N j, (0 <= N <= 65536)%Z -> (0 <= size_at N j <= 65536)%Z).
  { intros N j HN. pose proof (size_top N j ltac:(lia)). unfold size_at in *. split; [apply Z.div_pos; [lia|apply Z.pow_pos_nonneg; lia]|lia]. }
  set (half := half_edge n border) in *. clearbody half. destruct (Him l) as [Cl Rl]. destruct (Him i) as [Ci Ri].
  assert (Ed : INR (patch_edge n border) - 1 = 2 * (IZR half - / 2)) by lra. unfold extends in Hx. rewrite Ed in Hx.
  assert (Mo : IZR (most usecv) = if usecv then 2 else 1) by (destruct usecv; reflexivity).
  pose proof (Sz w l Hw) as Swl. pose proof (Sz h l Hh) as Shl. pose proof (Sz w i Hw) as Swi. pose proof (Sz h i Hh) as Shi.
  destruct ident.
  - destruct (Hnan eq_refl) as [N1 N2]. injection H as H. unfold accept_id in *. rewrite Cl, Rl in H. rewrite Ci, Ri. apply negb_true_iff in H.
    apply orb_false_iff in H as [H H4]. apply orb_false_iff in H as [H H3]. apply orb_false_iff in H as [H1 H2].
    apply (level_number usecv h cx l Hl) in N1. apply (level_number usecv w cy l Hl) in N2.
    destruct (id_axis half (size_at w l) _ Hr ltac:(lia) N1 H1 H3) as (F1 & B1 & _).
    destruct (id_axis half (size_at h l) _ Hr ltac:(lia) N2 H2 H4) as (F2 & B2 & _).
    assert (Hm : IZR (most usecv) <= IZR half).
    { rewrite Mo. unfold extent_needed in Hx. destruct usecv; [|apply IZR_le; lia]. assert (1 < half)%Z by (apply lt_IZR; lra). apply IZR_le. lia. }
    destruct (id_down usecv h w cx half l Hl Hw ltac:(lia) F1 Hm B1 i L) as [G1 D1].
    destruct (id_down usecv w h cy half l Hl Hh ltac:(lia) F2 Hm B2 i L) as [G2 D2].
    rewrite (ge_false _ _ G1), (ge_false _ _ G2), (le_false _ _ G1), (le_false _ _ G2); [reflexivity|lia|apply D2|lia|apply D1|lia|apply D2|lia|apply D1].
  - pose proof (corners_true _ _ _ _ _ _ Hp H) as C. rewrite Cl, Rl in C. unfold real in Hx. destruct Hx as [X1 X2].
    apply all_corners_intro. intros x y Hin.
    assert (O : on_corner half x /\ on_corner half y).
    { unfold corners in Hin. destruct (Z.leb_spec half 0); [lia|]. cbn [In] in Hin. unfold on_corner. destruct Hin as [E|[E|[E|[E|[]]]]]; injection E as <- <-; tauto. }
    destruct O as [Ox Oy]. apply corner_intro; rewrite ?Ci, ?Ri.
    + apply (warp_down usecv h w cx half l Hl Hw ltac:(lia)) with (i := i); auto; [|intros; apply C; assumption].
      unfold hm. rewrite Mo. unfold extent_needed in X1. destruct usecv; lra.
    + apply (warp_down usecv w h cy half l Hl Hh ltac:(lia)) with (i := i); auto; [|intros; apply C; assumption].
      unfold hm. rewrite Mo. unfold extent_needed in X2. destruct usecv; lra.
Qed.

(** ** accuracy of the level coordinates *)
Lemma moved_gap (usecv : bool) n l : let base := (if usecv then 2 ^ Z.of_nat l - 1 else 0)%Z in (base <= moved usecv n l <= base + (2 ^ Z.of_nat l - 1))%Z /\
  (even_below n l -> moved usecv n l = base).
Proof.
  cbv zeta. induction l as [|l [IH1 IH2]]; [destruct usecv; cbn; lia|]. cbn [moved]. unfold odd_at. rewrite Nat2Z.inj_succ, Z.pow_succ_r by lia.
  pose proof (Z.mod_pos_bound (size_at n l) 2 ltac:(lia)). pose proof (Z.pow_pos_nonneg 2 (Z.of_nat l) ltac:(lia) ltac:(lia)). split.
  - destruct usecv; nia.
  - intros Ev. rewrite IH2 by (intros i Hi; apply Ev; lia). specialize (Ev l ltac:(lia)). rewrite Zeven_mod in Ev. apply Zeq_bool_eq in Ev. rewrite Ev. destruct usecv; lia.
Qed.
Lemma pw_pow l : pw (- Z.of_nat l) = / 2 ^ l.
Proof. rewrite bpow_opp. f_equal. rewrite <- IZR_Zpower by lia. change (Zpower radix2 (Z.of_nat l)) with (2 ^ Z.of_nat l)%Z. rewrite <- pow_IZR. reflexivity. Qed.
Lemma levR_on (usecv : bool) n c l : 0 <= levR usecv n c l - on_level usecv l (B2R c) < / 2 /\ (even_below n l -> levR usecv n c l = on_level usecv l (B2R c)).
Proof.
  destruct (moved_gap usecv n l) as [G1 G2]. cbv zeta in *. set (base := (if usecv then 2 ^ Z.of_nat l - 1 else 0)%Z) in *.
  assert (P : 0 < 2 ^ l) by (apply pow_lt; lra). assert (PZ : IZR (2 ^ Z.of_nat l) = 2 ^ l) by (symmetry; apply pow_IZR).
  assert (E : levR usecv n c l = on_level usecv l (B2R c) + IZR (moved usecv n l - base) * / 2 * / 2 ^ l).
  { unfold levR, on_level. rewrite pw_pow, minus_IZR. change (pw (-1)) with (/ 2). unfold base. destruct usecv.
    - rewrite minus_IZR, PZ. field. lra.
    - field. lra. }
  rewrite E. split.
  - assert (L : 0 <= IZR (moved usecv n l - base) <= 2 ^ l - 1) by (rewrite <- PZ, <- minus_IZR; split; apply IZR_le; lia).
    assert (I : 0 < / 2 ^ l) by (apply Rinv_0_lt_compat; exact P). assert (U : 2 ^ l * / 2 ^ l = 1) by (field; lra). split; [|nra].
    assert (0 <= IZR (moved usecv n l - base) * / 2 * / 2 ^ l) by (apply Rmult_le_pos; lra). lra.
  - intros Ev. rewrite (G2 Ev), Z.sub_diag. lra.
Qed.
