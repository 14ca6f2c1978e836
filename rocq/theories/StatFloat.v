(** FeatureStatistics with IEEE-754 binary64 quality values (Flocq), round to nearest even:
    every stored and reported quality is a finite number in [0,1] after any history. *)
From Coq Require Import List ZArith Reals Lia Lra.
From Flocq Require Import Core BinarySingleNaN Sterbenz.
From Verif Require Import Util StatModel StatSpec StatProofs.
Import ListNotations.
Local Open Scope R_scope.

Definition f64 := binary_float 53 1024.
Definition p53 : Prec_gt_0 53 := eq_refl.
Definition p1024 : Prec_lt_emax 53 1024 := eq_refl.
Definition f64_of_Z (z : Z) : f64 := binary_normalize 53 1024 p53 p1024 mode_NE z 0 false.
Definition f1 : f64 := @Bone 53 1024 p53 p1024.
Definition fmul (x y : f64) : f64 := @Bmult 53 1024 p53 p1024 mode_NE x y.
Definition fadd (x y : f64) : f64 := @Bplus 53 1024 p53 p1024 mode_NE x y.
Definition fsub (x y : f64) : f64 := @Bminus 53 1024 p53 p1024 mode_NE x y.
Definition fdiv (x y : f64) : f64 := @Bdiv 53 1024 p53 p1024 mode_NE x y.

(** q*(1-1.0/r) and q*(1-1.0/r)+1.0/r as evaluated in double precision
    (FeatureStatistics.hpp:119-142) *)
Definition f64_dec (r : Z) (q : f64) : f64 := fmul q (fsub f1 (fdiv f1 (f64_of_Z r))).
Definition f64_rai (r : Z) (q : f64) : f64 := fadd (f64_dec r q) (fdiv f1 (f64_of_Z r)).
Definition f64_ops : qops f64 := {| q_one := f1; q_rai := f64_rai; q_dec := f64_dec |}.

Definition f64_unit (x : f64) : Prop := is_finite x = true /\ 0 <= B2R x <= 1.

Notation fx := (SpecFloat.fexp 53 1024).
Notation rnd := (round radix2 fx ZnearestE).

Lemma fx_valid : Valid_exp fx.
Proof. apply fexp_correct; reflexivity. Qed.
Lemma fx_mono : Monotone_exp fx.
Proof. apply fexp_monotone. Qed.
Local Existing Instance fx_valid.
Local Existing Instance fx_mono.

Lemma fmt1 : generic_format radix2 fx 1.
Proof. change 1 with (bpow radix2 0); apply generic_format_bpow; unfold SpecFloat.fexp, SpecFloat.emin; lia. Qed.
Lemma rnd0 : rnd 0 = 0.
Proof. apply round_0; typeclasses eauto. Qed.
Lemma rnd1 : rnd 1 = 1.
Proof. apply round_generic; [typeclasses eauto|apply fmt1]. Qed.
Lemma rnd_mono a b : a <= b -> rnd a <= rnd b.
Proof. apply round_le; typeclasses eauto. Qed.
Lemma rnd_unitR a : 0 <= a <= 1 -> 0 <= rnd a <= 1.
Proof. intros [H1 H2]; split; [rewrite <- rnd0|rewrite <- rnd1]; apply rnd_mono; assumption. Qed.

Lemma ulp1 : ulp radix2 fx 1 = bpow radix2 (-52).
Proof. change 1 with (bpow radix2 0); rewrite ulp_bpow; f_equal; reflexivity. Qed.
Lemma succ1 : succ radix2 fx 1 = 1 + bpow radix2 (-52).
Proof. rewrite succ_eq_pos by lra; rewrite ulp1; reflexivity. Qed.

Lemma compl_le1 x : 0 <= x <= 1 -> generic_format radix2 fx x -> rnd (rnd (1 - x) + x) <= 1.
Proof.
  intros Hx Fx.
  destruct (Req_dec x 0) as [->|Nx].
  { rewrite Rminus_0_r, rnd1, Rplus_0_r, rnd1; lra. }
  destruct (Rle_or_lt x (1/2)) as [Hh|Hh].
  - apply round_N_le_midp; [typeclasses eauto|apply fmt1|].
    rewrite succ1.
    assert (U : ulp radix2 fx (1 - x) = bpow radix2 (-53)).
    { rewrite ulp_neq_0 by lra. f_equal. unfold cexp.
      rewrite (mag_unique radix2 (1 - x) 0); [reflexivity|].
      rewrite Rabs_pos_eq by lra; cbn; lra. }
    pose proof (error_le_half_ulp radix2 fx (fun z => negb (Z.even z)) (1 - x)) as E.
    fold ZnearestE in E; rewrite U in E; apply Rabs_le_inv in E.
    assert (bpow radix2 (-52) = 2 * bpow radix2 (-53)).
    { change (-52)%Z with (1 + -53)%Z; rewrite bpow_plus; reflexivity. }
    pose proof (bpow_gt_0 radix2 (-53)). lra.
  - rewrite (round_generic radix2 fx ZnearestE (1 - x)).
    + replace (1 - x + x) with 1 by ring; rewrite rnd1; lra.
    + apply sterbenz; [typeclasses eauto|typeclasses eauto|apply fmt1|exact Fx|lra].
Qed.

Lemma small_no_overflow a : 0 <= a <= 2 -> Rlt_bool (Rabs (rnd a)) (bpow radix2 1024) = true.
Proof.
  intros H; apply Rlt_bool_true.
  assert (F2 : generic_format radix2 fx 2)
    by (change 2 with (bpow radix2 1); apply generic_format_bpow; unfold SpecFloat.fexp, SpecFloat.emin; lia).
  assert (0 <= rnd a <= 2).
  { split; [rewrite <- rnd0; apply rnd_mono; lra|].
    rewrite <- (round_generic radix2 fx ZnearestE 2 F2); apply rnd_mono; lra. }
  rewrite Rabs_pos_eq by lra.
  assert (bpow radix2 1 < bpow radix2 1024) by (apply bpow_lt; lia).
  change (bpow radix2 1) with 2 in *; lra.
Qed.

Lemma fmul_ok x y : is_finite x = true -> is_finite y = true -> 0 <= B2R x * B2R y <= 2 ->
  is_finite (fmul x y) = true /\ B2R (fmul x y) = rnd (B2R x * B2R y).
Proof.
  intros Hx Hy H; pose proof (Bmult_correct 53 1024 p53 p1024 mode_NE x y) as C.
  change (round_mode mode_NE) with ZnearestE in C; rewrite small_no_overflow in C by exact H.
  destruct C as (A & B & _); split; [unfold fmul; rewrite B, Hx, Hy; reflexivity|exact A].
Qed.
Lemma fadd_ok x y : is_finite x = true -> is_finite y = true -> 0 <= B2R x + B2R y <= 2 ->
  is_finite (fadd x y) = true /\ B2R (fadd x y) = rnd (B2R x + B2R y).
Proof.
  intros Hx Hy H; pose proof (Bplus_correct 53 1024 p53 p1024 mode_NE x y Hx Hy) as C.
  change (round_mode mode_NE) with ZnearestE in C; rewrite small_no_overflow in C by exact H.
  destruct C as (A & B & _); split; assumption.
Qed.
Lemma fsub_ok x y : is_finite x = true -> is_finite y = true -> 0 <= B2R x - B2R y <= 2 ->
  is_finite (fsub x y) = true /\ B2R (fsub x y) = rnd (B2R x - B2R y).
Proof.
  intros Hx Hy H; pose proof (Bminus_correct 53 1024 p53 p1024 mode_NE x y Hx Hy) as C.
  change (round_mode mode_NE) with ZnearestE in C; rewrite small_no_overflow in C by exact H.
  destruct C as (A & B & _); split; assumption.
Qed.

Lemma f1_ok : f64_unit f1 /\ B2R f1 = 1.
Proof.
  assert (E : B2R f1 = 1) by (apply (Bone_correct 53 1024)).
  split; [split|exact E]; [apply is_finite_Bone|rewrite E; lra].
Qed.

(** 1.0/r for an int range r >= 1 *)
Lemma finv_ok r : (1 <= r)%Z ->
  is_finite (fdiv f1 (f64_of_Z r)) = true /\ 0 <= B2R (fdiv f1 (f64_of_Z r)) <= 1.
Proof.
  intros Hr; destruct f1_ok as [[F1 _] E1].
  pose proof (binary_normalize_correct 53 1024 p53 p1024 mode_NE r 0 false) as C; cbv zeta in C.
  change (round_mode mode_NE) with ZnearestE in C.
  assert (X : @F2R radix2 {| Fnum := r; Fexp := 0 |} = IZR r) by (unfold F2R; cbn; lra).
  rewrite X in C; fold (f64_of_Z r) in C.
  assert (R1 : 1 <= IZR r) by (apply IZR_le; exact Hr).
  destruct (Rlt_bool (Rabs (rnd (IZR r))) (bpow radix2 1024)) eqn:L.
  - destruct C as (A & B & _).
    assert (1 <= B2R (f64_of_Z r)) by (rewrite A, <- rnd1; apply rnd_mono; exact R1).
    pose proof (Bdiv_correct 53 1024 p53 p1024 mode_NE f1 (f64_of_Z r)) as D.
    change (round_mode mode_NE) with ZnearestE in D; rewrite E1 in D.
    assert (V : 0 <= 1 / B2R (f64_of_Z r) <= 1).
    { split; [apply Rle_mult_inv_pos; lra|].
      apply Rmult_le_reg_r with (B2R (f64_of_Z r)); [lra|]; unfold Rdiv; rewrite Rmult_assoc, Rinv_l; lra. }
    rewrite small_no_overflow in D by lra.
    destruct D as (D1 & D2 & _); [lra|]; split.
    + unfold fdiv; rewrite D2; exact F1.
    + unfold fdiv; rewrite D1; apply rnd_unitR; exact V.
  - rewrite Rlt_bool_false in C by lra.
    assert (I : f64_of_Z r = B754_infinity false) by (apply B2SF_inj; rewrite C; reflexivity).
    rewrite I. assert (N : fdiv f1 (B754_infinity false) = B754_zero false).
    { unfold fdiv, f1. vm_compute; reflexivity. }
    rewrite N; cbn; split; [reflexivity|lra].
Qed.

Lemma f64_dec_real r q : (1 <= r)%Z -> f64_unit q ->
  let i := B2R (fdiv f1 (f64_of_Z r)) in
  is_finite (f64_dec r q) = true /\ B2R (f64_dec r q) = rnd (B2R q * rnd (1 - i)).
Proof.
  intros Hr [Fq Hq] i; destruct (finv_ok r Hr) as [Fi Hi]; destruct f1_ok as [[F1 _] E1].
  destruct (fsub_ok f1 (fdiv f1 (f64_of_Z r)) F1 Fi) as [Fs Es]; [rewrite E1; fold i; fold i in Hi; lra|].
  rewrite E1 in Es; fold i in Es.
  assert (U : 0 <= rnd (1 - i) <= 1) by (apply rnd_unitR; unfold i; lra).
  unfold f64_dec; rewrite <- Es; apply fmul_ok; auto; rewrite Es; nra.
Qed.

Lemma f64_dec_unit r q : (1 <= r)%Z -> f64_unit q -> f64_unit (f64_dec r q).
Proof.
  intros Hr Hq; destruct (f64_dec_real r q Hr Hq) as [F E]; destruct (finv_ok r Hr) as [_ Hi].
  split; [exact F|]; rewrite E; destruct Hq as [_ Hq].
  assert (0 <= rnd (1 - B2R (fdiv f1 (f64_of_Z r))) <= 1) by (apply rnd_unitR; lra).
  apply rnd_unitR; nra.
Qed.

Lemma f64_rai_unit r q : (1 <= r)%Z -> f64_unit q -> f64_unit (f64_rai r q).
Proof.
  intros Hr Hq; destruct (f64_dec_real r q Hr Hq) as [F E]; destruct (finv_ok r Hr) as [Fi Hi].
  pose proof (f64_dec_unit r q Hr Hq) as [_ Hd]; destruct Hq as [_ Hq].
  destruct (fadd_ok (f64_dec r q) (fdiv f1 (f64_of_Z r)) F Fi) as [G1 G2]; [lra|].
  split; [exact G1|]; unfold f64_rai; rewrite G2.
  set (i := B2R (fdiv f1 (f64_of_Z r))) in *.
  assert (U : 0 <= rnd (1 - i) <= 1) by (apply rnd_unitR; lra).
  assert (B2R (f64_dec r q) <= rnd (1 - i)).
  { rewrite E. rewrite <- (round_generic radix2 fx ZnearestE (rnd (1 - i))) by (apply generic_format_round; typeclasses eauto).
    apply rnd_mono. rewrite (round_generic radix2 fx ZnearestE (rnd (1 - i))) by (apply generic_format_round; typeclasses eauto). nra. }
  split.
  - rewrite <- rnd0; apply rnd_mono; lra.
  - eapply Rle_trans; [|apply (compl_le1 i Hi)]; [apply rnd_mono; lra|].
    apply generic_format_B2R.
Qed.

Lemma f64_qualities ncam t0 os s :
  Forall ranges_ok os -> run f64_ops (init f64_ops ncam t0) os = Some s ->
  (forall i q, local_quality f64_ops s i = Some q -> f64_unit q) /\
  (forall i q, local_visibility f64_ops s i = Some q -> f64_unit q) /\
  f64_unit (average_local_quality f64_ops s) /\
  f64_unit (joint_local_visibility f64_ops s).
Proof.
  intros Ho Hr.
  apply (getters_ok f64_ops f64_unit f64_rai_unit f64_dec_unit).
  eapply (run_ok f64_ops f64_unit); [apply f1_ok|exact f64_rai_unit|exact f64_dec_unit| |exact Ho|exact Hr].
  apply init_ok; apply f1_ok.
Qed.
