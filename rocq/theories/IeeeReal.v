(** Real-number meaning of the single and double precision operations of IeeeModel. *)
From Coq Require Import List ZArith Bool Reals Lia Lra.
From Flocq Require Import Core BinarySingleNaN.
From Verif Require Import IeeeModel.
Import ListNotations.
Local Open Scope R_scope.

Section Format.
Variables p e : Z.
Hypothesis hp : Prec_gt_0 p.
Hypothesis he : Prec_lt_emax p e.
Notation fx := (SpecFloat.fexp p e).
Definition rndf (x : R) : R := round radix2 fx ZnearestE x.
Notation M := (bpow radix2 e).

Lemma fxv : Valid_exp fx. Proof. apply fexp_correct; exact hp. Qed.
Lemma fxm : Monotone_exp fx. Proof. apply fexp_monotone. Qed.
Local Existing Instance fxv.
Local Existing Instance fxm.

Lemma rndf_mono a b : a <= b -> rndf a <= rndf b.
Proof. apply round_le; typeclasses eauto. Qed.
Lemma rndf_0 : rndf 0 = 0.
Proof. apply round_0; typeclasses eauto. Qed.
Lemma rndf_opp a : rndf (- a) = - rndf a.
Proof. unfold rndf. apply round_NE_opp. Qed.
Lemma rndf_gen a : generic_format radix2 fx a -> rndf a = a.
Proof. intros; apply round_generic; [typeclasses eauto|assumption]. Qed.
Lemma rndf_B (x : binary_float p e) : rndf (B2R x) = B2R x.
Proof. apply rndf_gen, generic_format_B2R. Qed.
Lemma fmt_pow k : (fx (k + 1) <= k)%Z -> generic_format radix2 fx (bpow radix2 k).
Proof. apply generic_format_bpow. Qed.

Notation F x := (is_finite x = true).
Lemma overflow_not_finite (z : binary_float p e) s : B2SF z = binary_overflow p e mode_NE s -> ~ F z.
Proof. intros E H. destruct z; cbn in *; discriminate. Qed.

(** forwards: a result whose rounded value is in range is finite *)
Lemma mul_fwd x y : F x -> F y -> Rabs (rndf (B2R x * B2R y)) < M ->
  F (@Bmult p e hp he mode_NE x y) /\ B2R (@Bmult p e hp he mode_NE x y) = rndf (B2R x * B2R y).
Proof.
  intros Fx Fy H. pose proof (Bmult_correct p e hp he mode_NE x y) as C. cbn [round_mode] in C.
  unfold rndf in *. rewrite Rlt_bool_true in C by exact H. destruct C as (A & B & _). split; [rewrite B, Fx, Fy; reflexivity|exact A].
Qed.
Lemma add_fwd x y : F x -> F y -> Rabs (rndf (B2R x + B2R y)) < M ->
  F (@Bplus p e hp he mode_NE x y) /\ B2R (@Bplus p e hp he mode_NE x y) = rndf (B2R x + B2R y).
Proof.
  intros Fx Fy H. pose proof (Bplus_correct p e hp he mode_NE x y Fx Fy) as C. cbn [round_mode] in C.
  unfold rndf in *. rewrite Rlt_bool_true in C by exact H. destruct C as (A & B & _). auto.
Qed.
Lemma sub_fwd x y : F x -> F y -> Rabs (rndf (B2R x - B2R y)) < M ->
  F (@Bminus p e hp he mode_NE x y) /\ B2R (@Bminus p e hp he mode_NE x y) = rndf (B2R x - B2R y).
Proof.
  intros Fx Fy H. pose proof (Bminus_correct p e hp he mode_NE x y Fx Fy) as C. cbn [round_mode] in C.
  unfold rndf in *. rewrite Rlt_bool_true in C by exact H. destruct C as (A & B & _). auto.
Qed.
Lemma fma_fwd x y z : F x -> F y -> F z -> Rabs (rndf (B2R x * B2R y + B2R z)) < M ->
  F (@Bfma p e hp he mode_NE x y z) /\ B2R (@Bfma p e hp he mode_NE x y z) = rndf (B2R x * B2R y + B2R z).
Proof.
  intros Fx Fy Fz H. pose proof (Bfma_correct p e hp he mode_NE x y z Fx Fy Fz) as C. cbv zeta in C. cbn [round_mode] in C.
  unfold rndf in *. rewrite Rlt_bool_true in C by exact H. destruct C as (A & B & _). auto.
Qed.
Lemma norm_fwd m k s : Rabs (rndf (F2R (Float radix2 m k))) < M ->
  F (binary_normalize p e hp he mode_NE m k s) /\ B2R (binary_normalize p e hp he mode_NE m k s) = rndf (F2R (Float radix2 m k)).
Proof.
  intros H. pose proof (binary_normalize_correct p e hp he mode_NE m k s) as C. cbv zeta in C. cbn [round_mode] in C.
  unfold rndf in *. rewrite Rlt_bool_true in C by exact H. destruct C as (A & B & _). auto.
Qed.

(** backwards: a finite result comes from finite operands and is their rounded combination *)
Lemma mul_bwd x y : F (@Bmult p e hp he mode_NE x y) ->
  F x /\ F y /\ B2R (@Bmult p e hp he mode_NE x y) = rndf (B2R x * B2R y) /\ Rabs (rndf (B2R x * B2R y)) < M.
Proof.
  intros H. assert (F x /\ F y) as [Fx Fy] by (destruct x, y; cbn in H |- *; try discriminate; auto).
  pose proof (Bmult_correct p e hp he mode_NE x y) as C. cbn [round_mode] in C. unfold rndf.
  destruct (Rlt_bool_spec (Rabs (round radix2 fx ZnearestE (B2R x * B2R y))) M) as [L|L].
  - tauto.
  - exfalso. exact (overflow_not_finite _ _ C H).
Qed.
Lemma add_bwd x y : F (@Bplus p e hp he mode_NE x y) ->
  F x /\ F y /\ B2R (@Bplus p e hp he mode_NE x y) = rndf (B2R x + B2R y) /\ Rabs (rndf (B2R x + B2R y)) < M.
Proof.
  intros H. assert (F x /\ F y) as [Fx Fy].
  { destruct x as [?|[]| |], y as [?|[]| |]; cbn in H |- *; try discriminate; auto. }
  pose proof (Bplus_correct p e hp he mode_NE x y Fx Fy) as C. cbn [round_mode] in C. unfold rndf.
  destruct (Rlt_bool_spec (Rabs (round radix2 fx ZnearestE (B2R x + B2R y))) M) as [L|L].
  - tauto.
  - exfalso. destruct C as [C _]. exact (overflow_not_finite _ _ C H).
Qed.
Lemma sub_bwd x y : F (@Bminus p e hp he mode_NE x y) ->
  F x /\ F y /\ B2R (@Bminus p e hp he mode_NE x y) = rndf (B2R x - B2R y) /\ Rabs (rndf (B2R x - B2R y)) < M.
Proof.
  intros H. assert (F x /\ F y) as [Fx Fy].
  { destruct x as [?|[]| |], y as [?|[]| |]; cbn in H |- *; try discriminate; auto. }
  pose proof (Bminus_correct p e hp he mode_NE x y Fx Fy) as C. cbn [round_mode] in C. unfold rndf.
  destruct (Rlt_bool_spec (Rabs (round radix2 fx ZnearestE (B2R x - B2R y))) M) as [L|L].
  - tauto.
  - exfalso. destruct C as [C _]. exact (overflow_not_finite _ _ C H).
Qed.
Lemma fma_bwd x y z : F (@Bfma p e hp he mode_NE x y z) ->
  F x /\ F y /\ F z /\ B2R (@Bfma p e hp he mode_NE x y z) = rndf (B2R x * B2R y + B2R z) /\ Rabs (rndf (B2R x * B2R y + B2R z)) < M.
Proof.
  intros H. assert (F x /\ F y /\ F z) as (Fx & Fy & Fz).
  { unfold Bfma in H. destruct x as [?|[]| |[]], y as [?|[]| |[]], z as [?|[]| |]; cbn in H |- *; try discriminate; auto. }
  pose proof (Bfma_correct p e hp he mode_NE x y z Fx Fy Fz) as C. cbv zeta in C. cbn [round_mode] in C. unfold rndf.
  destruct (Rlt_bool_spec (Rabs (round radix2 fx ZnearestE (B2R x * B2R y + B2R z))) M) as [L|L].
  - tauto.
  - exfalso. exact (overflow_not_finite _ _ C H).
Qed.
Lemma norm_bwd m k s : F (binary_normalize p e hp he mode_NE m k s) ->
  B2R (binary_normalize p e hp he mode_NE m k s) = rndf (F2R (Float radix2 m k)) /\ Rabs (rndf (F2R (Float radix2 m k))) < M.
Proof.
  intros H. pose proof (binary_normalize_correct p e hp he mode_NE m k s) as C. cbv zeta in C. cbn [round_mode] in C. unfold rndf.
  destruct (Rlt_bool_spec (Rabs (round radix2 fx ZnearestE (F2R (Float radix2 m k)))) M) as [L|L].
  - tauto.
  - exfalso. exact (overflow_not_finite _ _ C H).
Qed.

(** change of format *)
Lemma conv_fwd p0 e0 (x : binary_float p0 e0) : is_finite x = true -> Rabs (rndf (B2R x)) < M ->
  F (fconv p e hp he x) /\ B2R (fconv p e hp he x) = rndf (B2R x).
Proof.
  destruct x as [s|s| |s m k b]; cbn [is_finite fconv]; try discriminate; intros _ H.
  - cbn. split; [reflexivity|]. symmetry; apply rndf_0.
  - apply norm_fwd. exact H.
Qed.
Lemma conv_bwd p0 e0 (x : binary_float p0 e0) : F (fconv p e hp he x) ->
  is_finite x = true /\ B2R (fconv p e hp he x) = rndf (B2R x) /\ Rabs (rndf (B2R x)) < M.
Proof.
  destruct x as [s|s| |s m k b]; cbn [is_finite fconv]; try discriminate; intros H.
  - cbn. rewrite rndf_0, Rabs_R0. repeat split. apply bpow_gt_0.
  - split; [reflexivity|]. apply norm_bwd in H. exact H.
Qed.

(** rounding error *)
Lemma rndf_err k x : Rabs x <= bpow radix2 k -> (fx (k + 1) <= k + 1 - p)%Z ->
  Rabs (rndf x - x) <= bpow radix2 (k - p).
Proof.
  intros H Hk. unfold rndf.
  pose proof (error_le_half_ulp radix2 fx (fun z => negb (Z.even z)) x) as E. fold ZnearestE in E.
  assert (U : ulp radix2 fx x <= bpow radix2 (k + 1 - p)).
  { eapply Rle_trans; [apply ulp_le with (y := bpow radix2 k); [typeclasses eauto|typeclasses eauto|]|].
    - rewrite (Rabs_pos_eq (bpow _ _)) by apply bpow_ge_0. exact H.
    - rewrite ulp_bpow. apply bpow_le. exact Hk. }
  replace (k + 1 - p)%Z with (1 + (k - p))%Z in U by ring. rewrite bpow_plus in U.
  assert (bpow radix2 1 = 2) as B1 by (cbn; lra). rewrite B1 in U.
  eapply Rle_trans; [exact E|]. lra.
Qed.
(** a rounded value below a power of two comes from a value below it *)
Lemma rndf_lt_pow k x : (fx (k + 1) <= k)%Z -> rndf x < bpow radix2 k -> x < bpow radix2 k.
Proof.
  intros Hk H. apply Rnot_le_lt. intros L. apply rndf_mono in L. rewrite (rndf_gen (bpow radix2 k)) in L by (apply fmt_pow; exact Hk). lra.
Qed.
Lemma rndf_le_pow k x : (fx (k + 1) <= k)%Z -> x <= bpow radix2 k -> rndf x <= bpow radix2 k.
Proof.
  intros Hk H. apply rndf_mono in H. rewrite (rndf_gen (bpow radix2 k)) in H by (apply fmt_pow; exact Hk). exact H.
Qed.
Lemma rndf_abs_le_pow k x : (fx (k + 1) <= k)%Z -> Rabs x <= bpow radix2 k -> Rabs (rndf x) <= bpow radix2 k.
Proof.
  intros Hk H. apply Rabs_le_inv in H. apply Rabs_le. split.
  - replace (- bpow radix2 k) with (rndf (- bpow radix2 k)) by (rewrite rndf_opp, (rndf_gen (bpow radix2 k)) by (apply fmt_pow; exact Hk); ring).
    apply rndf_mono. lra.
  - apply rndf_le_pow; [exact Hk|lra].
Qed.
(** integers in range *)
Lemma F2R_int z : F2R (Float radix2 z 0) = IZR z.
Proof. unfold F2R; cbn; ring. Qed.
Lemma rndf_int z : (Z.abs z <= 2 ^ p)%Z -> (3 - e - p <= 0)%Z -> (0 < p)%Z -> rndf (IZR z) = IZR z.
Proof.
  intros H H2 H3. destruct (Z.eq_dec (Z.abs z) (2 ^ p)) as [Q|Q].
  - assert (G : generic_format radix2 fx (bpow radix2 p)) by (apply generic_format_bpow; unfold SpecFloat.fexp, SpecFloat.emin; lia).
    assert (B : bpow radix2 p = IZR (2 ^ p)) by (rewrite <- IZR_Zpower by lia; reflexivity).
    assert (z = 2 ^ p \/ z = - 2 ^ p)%Z as [->| ->] by lia.
    + apply rndf_gen. rewrite <- B. exact G.
    + rewrite opp_IZR, rndf_opp. f_equal. apply rndf_gen. rewrite <- B. exact G.
  - apply rndf_gen. apply generic_format_FLT. exists (Float radix2 z 0).
    + rewrite F2R_int. reflexivity.
    + cbn [Fnum]. change (radix_val radix2) with 2%Z. lia.
    + cbn [Fexp]. unfold SpecFloat.emin. lia.
Qed.
End Format.

Lemma rndf_between p e (hp : Prec_gt_0 p) a x b m :
  a <= x -> x <= b -> Rabs (rndf p e a) < m -> Rabs (rndf p e b) < m -> Rabs (rndf p e x) < m.
Proof.
  intros H1 H2 A B. apply (rndf_mono p e hp) in H1. apply (rndf_mono p e hp) in H2. apply Rabs_def2 in A. apply Rabs_def2 in B. apply Rabs_def1; lra.
Qed.

(** floor *)
Lemma floor32_spec x z : floor32 x = Some z -> is_finite x = true /\ z = Zfloor (B2R x) /\ (-2147483648 <= z <= 2147483647)%Z.
Proof.
  destruct x as [s|s| |s m k b]; cbn [floor32]; try discriminate.
  - intros H; injection H as <-. change (B2R (B754_zero s)) with 0. rewrite Zfloor_IZR. repeat split; lia.
  - intros H. split; [reflexivity|].
    assert (E : (if (0 <=? k)%Z then cond_Zopp s (Zpos m) * 2 ^ k else cond_Zopp s (Zpos m) / 2 ^ - k)%Z = Zfloor (B2R (B754_finite s m k b))).
    { cbn [B2R]. unfold F2R. cbn [Fnum Fexp]. destruct (Z.leb_spec 0 k) as [L|L].
      - rewrite <- (IZR_Zpower radix2 k) by exact L. rewrite <- mult_IZR, Zfloor_IZR. reflexivity.
      - rewrite <- (Z.opp_involutive k) at 2. rewrite bpow_opp, <- (IZR_Zpower radix2 (- k)) by lia.
        change (IZR (cond_Zopp s (Zpos m)) * / IZR (Zpower radix2 (- k))) with (IZR (cond_Zopp s (Zpos m)) / IZR (2 ^ (- k))).
        rewrite Zfloor_div; [reflexivity|]. apply Z.pow_nonzero; lia. }
    cbv zeta in H. rewrite E in H. clear E. set (r := Zfloor (B2R (B754_finite s m k b))) in *.
    destruct ((-2147483648 <=? r)%Z && (r <=? 2147483647)%Z)%bool eqn:B in H; [|discriminate]. injection H as <-.
    apply andb_prop in B as [B1 B2]. apply Z.leb_le in B1, B2. repeat split; assumption.
Qed.
Lemma floor32_def x : is_finite x = true -> (-2147483648 <= Zfloor (B2R x) <= 2147483647)%Z -> floor32 x = Some (Zfloor (B2R x)).
Proof.
  destruct x as [s|s| |s m k b]; cbn [floor32 is_finite]; try discriminate; intros _ H.
  - change (B2R (B754_zero s)) with 0. rewrite Zfloor_IZR. reflexivity.
  - assert (E : (if (0 <=? k)%Z then cond_Zopp s (Zpos m) * 2 ^ k else cond_Zopp s (Zpos m) / 2 ^ - k)%Z = Zfloor (B2R (B754_finite s m k b))).
    { cbn [B2R]. unfold F2R. cbn [Fnum Fexp]. destruct (Z.leb_spec 0 k) as [L|L].
      - rewrite <- (IZR_Zpower radix2 k) by exact L. rewrite <- mult_IZR, Zfloor_IZR. reflexivity.
      - rewrite <- (Z.opp_involutive k) at 2. rewrite bpow_opp, <- (IZR_Zpower radix2 (- k)) by lia.
        change (IZR (cond_Zopp s (Zpos m)) * / IZR (Zpower radix2 (- k))) with (IZR (cond_Zopp s (Zpos m)) / IZR (2 ^ (- k))).
        rewrite Zfloor_div; [reflexivity|]. apply Z.pow_nonzero; lia. }
    cbv zeta. rewrite E. clear E. set (r := Zfloor (B2R (B754_finite s m k b))) in *. destruct H as [H1 H2]. apply Z.leb_le in H1, H2. rewrite H1, H2. reflexivity.
Qed.
