(** Proofs about the conversion to float. *)
From Coq Require Import ZArith Reals List String Lia Lra.
From Flocq Require Import Core Binary Bits Relative.
From Flocq Require BinarySingleNaN.
From Verif Require Import Geo MsgModel MsgSpec ImsgModel ImsgSpec.
Local Open Scope R_scope.

Local Notation fe := (FLT_exp (-149) 24).
Local Instance P24 : Prec_gt_0 24 := eq_refl.
Local Instance VE : Valid_exp fe := FLT_exp_valid (-149) 24.

Lemma rnd_fmt r : generic_format radix2 fe (rnd32 r).
Proof. apply generic_format_round; typeclasses eauto. Qed.
Lemma float_of_small r : Rabs (rnd32 r) < bpow radix2 128 -> B2R 24 128 (float_of r) = rnd32 r /\ is_finite 24 128 (float_of r) = true.
Proof.
  intros H. unfold float_of. rewrite Rlt_bool_true by exact H.
  pose proof (binary_normalize_correct 24 128 prec32 emax32 BinarySingleNaN.mode_NE (Ztrunc (scaled_mantissa radix2 fe (rnd32 r))) (cexp radix2 fe (rnd32 r)) (Rlt_bool r 0)) as C.
  assert (F : F2R (Float radix2 (Ztrunc (scaled_mantissa radix2 fe (rnd32 r))) (cexp radix2 fe (rnd32 r))) = rnd32 r) by (symmetry; apply rnd_fmt).
  rewrite F in C. change (SpecFloat.fexp 24 128) with fe in C. cbn [BinarySingleNaN.round_mode] in C.
  assert (G : round radix2 fe ZnearestE (rnd32 r) = rnd32 r) by (apply round_generic; [typeclasses eauto|apply rnd_fmt]).
  rewrite G, Rlt_bool_true in C by exact H. destruct C as (C1 & C2 & _). split; [exact C1|exact C2].
Qed.
Lemma float_of_big r : bpow radix2 128 <= Rabs (rnd32 r) -> float_of r = B754_infinity 24 128 (Rlt_bool r 0).
Proof. intros H. unfold float_of. now rewrite Rlt_bool_false. Qed.
Lemma float_of_nan r : is_nan 24 128 (float_of r) = false.
Proof.
  destruct (Rlt_or_le (Rabs (rnd32 r)) (bpow radix2 128)) as [H|H].
  - destruct (float_of_small r H) as [_ F]. now destruct (float_of r).
  - now rewrite (float_of_big r H).
Qed.
Lemma decode f : b32_of_bits (bits_of_b32 f) = f.
Proof. exact (binary_float_of_bits_of_binary_float 23 8 eq_refl eq_refl eq_refl f). Qed.
Lemma bits_range f : (0 <= bits_of_b32 f < 4294967296)%Z.
Proof. exact (bits_of_binary_float_range 23 8 eq_refl eq_refl f). Qed.
Lemma largest_fmt : generic_format radix2 fe largest.
Proof.
  unfold largest. change (powerRZ 2 104) with (powerRZ (IZR radix2) 104). rewrite <- bpow_powerRZ.
  apply generic_format_FLT. exists (Float radix2 16777215 104); [reflexivity|cbn; lia|cbn; lia].
Qed.
Lemma largest_bound : largest < bpow radix2 128.
Proof.
  unfold largest. change (powerRZ 2 104) with (powerRZ (IZR radix2) 104). rewrite <- bpow_powerRZ.
  replace 128%Z with (24 + 104)%Z by reflexivity. rewrite bpow_plus. apply Rmult_lt_compat_r; [apply bpow_gt_0|]. change (bpow radix2 24) with (IZR 16777216). apply IZR_lt. lia.
Qed.
Lemma rnd_le a b : a <= b -> rnd32 a <= rnd32 b.
Proof. apply round_le; typeclasses eauto. Qed.
Lemma rnd_id r : generic_format radix2 fe r -> rnd32 r = r.
Proof. apply round_generic. typeclasses eauto. Qed.
Lemma in_range r : Rabs r <= largest -> Rabs (rnd32 r) < bpow radix2 128.
Proof.
  intros H. apply Rle_lt_trans with largest; [|exact largest_bound]. apply Rabs_le. apply Rabs_le_inv in H. split.
  - rewrite <- (rnd_id (- largest)) by (apply generic_format_opp, largest_fmt). apply rnd_le. lra.
  - rewrite <- (rnd_id largest) by apply largest_fmt. apply rnd_le. lra.
Qed.
Lemma two24 : / 2 * bpow radix2 (-24 + 1) = / 2 ^ 24.
Proof. replace (bpow radix2 (-24 + 1)) with (/ 8388608) by (cbn; reflexivity). field_simplify_eq; [|lra..]. reflexivity. Qed.
Lemma bpow_inv n : bpow radix2 (- Z.of_nat n) = / 2 ^ n.
Proof. rewrite bpow_opp. f_equal. rewrite bpow_powerRZ, <- pow_powerRZ. reflexivity. Qed.
Lemma rnd_error r : Rabs (rnd32 r - r) <= Rmax (Rabs r / 2 ^ 24) (/ 2 ^ 150).
Proof.
  destruct (Rle_or_lt (bpow radix2 (-149 + 24 - 1)) (Rabs r)) as [H|H].
  - eapply Rle_trans; [|apply Rmax_l]. unfold rnd32. pose proof (relative_error_N_FLT radix2 (-149) 24 eq_refl (fun x => negb (Z.even x)) r H) as E.
    eapply Rle_trans; [exact E|]. right. unfold Rdiv. rewrite (Rmult_comm (Rabs r)). f_equal. apply two24.
  - eapply Rle_trans; [|apply Rmax_r]. unfold rnd32. eapply Rle_trans; [apply error_le_half_ulp; typeclasses eauto|].
    assert (U : ulp radix2 fe r = bpow radix2 (-149)) by (apply ulp_FLT_small; [typeclasses eauto|]; eapply Rlt_le_trans; [exact H|apply bpow_le; lia]).
    rewrite U. change (-149)%Z with (- Z.of_nat 149)%Z. rewrite bpow_inv. change 150%nat with (1 + 149)%nat. rewrite pow_add, Rinv_mult. right. f_equal. lra.
Qed.
Lemma close_float r : Rabs r <= largest -> close (float_of r) r.
Proof.
  intros H. destruct (float_of_small r (in_range r H)) as [E F]. split; [exact F|]. unfold value. rewrite E. apply rnd_error.
Qed.
Lemma value_float r : Rabs r <= largest -> value (float_of r) = rnd32 r.
Proof. intros H. exact (proj1 (float_of_small r (in_range r H))). Qed.
Lemma tiny_fmt : generic_format radix2 fe (/ 2 ^ 149).
Proof. rewrite <- bpow_inv. apply generic_format_bpow. unfold FLT_exp. cbn. lia. Qed.
Lemma rnd_pos r : / 2 ^ 149 <= r -> / 2 ^ 149 <= rnd32 r.
Proof. intros H. rewrite <- (rnd_id (/ 2 ^ 149)) by apply tiny_fmt. now apply rnd_le. Qed.
Lemma rnd_tiny r : 0 < r < / 2 ^ 150 -> rnd32 r = 0.
Proof.
  intros H. assert (B : r < bpow radix2 (-150)) by (change (-150)%Z with (- Z.of_nat 150)%Z; rewrite bpow_inv; lra).
  unfold rnd32, round. assert (C : cexp radix2 fe r = (-149)%Z).
  { unfold cexp, FLT_exp. assert (mag radix2 r <= -150)%Z; [|lia]. apply mag_le_bpow; [lra|]. rewrite Rabs_pos_eq by lra. exact B. }
  unfold scaled_mantissa. rewrite C. replace (ZnearestE (r * bpow radix2 (- -149))) with 0%Z; [unfold F2R; cbn; ring|].
  symmetry. apply Znearest_imp. rewrite Rminus_0_r, Rabs_pos_eq by (apply Rmult_le_pos; [lra|apply bpow_ge_0]).
  apply Rlt_le_trans with (bpow radix2 (-150) * bpow radix2 (- -149)); [apply Rmult_lt_compat_r; [apply bpow_gt_0|exact B]|].
  rewrite <- bpow_plus. cbn. lra.
Qed.

(** rounding of a normal number of known binade *)
Lemma rnd_by r e n : (-125 <= e)%Z -> bpow radix2 (e - 1) <= r < bpow radix2 e -> Rabs (r * bpow radix2 (24 - e) - IZR n) < / 2 -> rnd32 r = IZR n * bpow radix2 (e - 24).
Proof.
  intros E B H. pose proof (bpow_gt_0 radix2 (e - 1)) as P. unfold rnd32, round.
  assert (M : mag radix2 r = e :> Z) by (apply mag_unique; rewrite Rabs_pos_eq by lra; exact B).
  assert (C : cexp radix2 fe r = (e - 24)%Z) by (unfold cexp, FLT_exp; rewrite M; lia).
  unfold scaled_mantissa. rewrite C. replace (- (e - 24))%Z with (24 - e)%Z by lia. rewrite (Znearest_imp _ _ n H). reflexivity.
Qed.
Lemma rnd_0 : rnd32 0 = 0.
Proof. apply round_0. typeclasses eauto. Qed.

(** a perturbation of the entries by at most [e] changes the quadratic form by at most 3 e |u|^2 *)
Lemma perturbed a b c d f g a' b' c' d' f' g' e x y z : 
  Rabs (a' - a) <= e -> Rabs (b' - b) <= e -> Rabs (c' - c) <= e -> Rabs (d' - d) <= e -> Rabs (f' - f) <= e -> Rabs (g' - g) <= e ->
  Rabs (dot (x, y, z) (mv (from_upper a' b' c' d' f' g') (x, y, z)) - dot (x, y, z) (mv (from_upper a b c d f g) (x, y, z))) <= 3 * e * (x * x + y * y + z * z).
Proof.
  intros A B C D F G.
  replace (dot (x, y, z) (mv (from_upper a' b' c' d' f' g') (x, y, z)) - dot (x, y, z) (mv (from_upper a b c d f g) (x, y, z)))
    with ((a' - a) * (x * x) + (b' - b) * (2 * (x * y)) + (c' - c) * (2 * (x * z)) + (d' - d) * (y * y) + (f' - f) * (2 * (y * z)) + (g' - g) * (z * z)) by (cbv [dot mv from_upper r0 r1 r2 vx vy vz fst snd]; ring).
  generalize (a' - a) (b' - b) (c' - c) (d' - d) (f' - f) (g' - g) A B C D F G. clear. intros p q r s t w A B C D F G.
  assert (T : forall k w v, Rabs k <= e -> Rabs w <= v -> Rabs (k * w) <= e * v).
  { intros k w0 v K W. rewrite Rabs_mult. pose proof (Rabs_pos k). pose proof (Rabs_pos w0). apply Rmult_le_compat; assumption. }
  assert (S : forall u, Rabs (u * u) <= u * u) by (intros u; rewrite Rabs_pos_eq; [right; reflexivity|apply Rle_0_sqr]).
  assert (X : forall u v, Rabs (2 * (u * v)) <= u * u + v * v) by (intros u v; apply Rabs_le; pose proof (Rle_0_sqr (u + v)); pose proof (Rle_0_sqr (u - v)); unfold Rsqr in *; lra).
  pose proof (T p _ _ A (S x)). pose proof (T q _ _ B (X x y)). pose proof (T r _ _ C (X x z)). pose proof (T s _ _ D (S y)). pose proof (T t _ _ F (X y z)). pose proof (T w _ _ G (S z)).
  repeat match goal with H : Rabs (_ * _) <= e * _ |- _ => apply Rabs_le_inv in H end. apply Rabs_le. lra.
Qed.
