(** Error bounds for the operations used by the corner score. *)
From Coq Require Import List ZArith Bool Reals Lia Lra Psatz.
From Flocq Require Import Core BinarySingleNaN Relative.
From Verif Require Import IeeeModel IeeeReal IeeeProofs IeeeAcc IeeePos IpyrProofs IscoreModel.
Import ListNotations.
Local Open Scope R_scope.

Definition eta : R := pw (-149).
Lemma eta_pos : 0 < eta. Proof. apply bpow_gt_0. Qed.
Lemma eta_small : eta <= / 713623846352979940529142984724747568191373312.
Proof. change (/ 713623846352979940529142984724747568191373312) with eta. lra. Qed.
Notation u := (/ 16777216).

Lemma rerr x : Rabs (r32 x - x) <= u * Rabs x + eta.
Proof.
  destruct (error_N_FLT radix2 (-149) 24 eq_refl (fun t => negb (Z.even t)) x) as (e1 & e2 & H1 & H2 & _ & E).
  change (round radix2 (FLT_exp (-149) 24) (Znearest (fun t => negb (Z.even t))) x) with (r32 x) in E. rewrite E.
  replace (x * (1 + e1) + e2 - x) with (e1 * x + e2) by ring. eapply Rle_trans; [apply Rabs_triang|].
  change (bpow radix2 (Z.opp 24 + 1)) with (/ 8388608) in H1. fold eta in H2. rewrite Rabs_mult. pose proof (Rabs_pos x). pose proof eta_pos.
  apply Rplus_le_compat; [apply Rmult_le_compat_r; lra|lra].
Qed.
Lemma M32_40 : 2199023255552 < M32.
Proof. change 2199023255552 with (pw 41). apply bpow_lt. lia. Qed.
(** values of at most 2^40 do not overflow *)
Lemma r32_fits x : Rabs x <= 1099511627776 -> Rabs (r32 x) < M32.
Proof.
  intros H. pose proof M32_40. apply Rle_lt_trans with 1099511627776; [|lra]. change 1099511627776 with (pw 40) in *. apply rndf_abs_le_pow; [exact p24|apply fx32; lia|exact H].
Qed.
Lemma mul_err (x y : f32) : F x -> F y -> Rabs (B2R x * B2R y) <= 1099511627776 ->
  F (mul32 x y) /\ B2R (mul32 x y) = r32 (B2R x * B2R y).
Proof. intros Fx Fy H. apply (mul_fwd 24 128 p24 p128 x y Fx Fy). apply r32_fits, H. Qed.
Lemma add_err (x y : f32) : F x -> F y -> Rabs (B2R x + B2R y) <= 1099511627776 ->
  F (add32 x y) /\ B2R (add32 x y) = r32 (B2R x + B2R y).
Proof. intros Fx Fy H. apply (add_fwd 24 128 p24 p128 x y Fx Fy). apply r32_fits, H. Qed.
Lemma sub_err (x y : f32) : F x -> F y -> Rabs (B2R x - B2R y) <= 1099511627776 ->
  F (sub32 x y) /\ B2R (sub32 x y) = r32 (B2R x - B2R y).
Proof. intros Fx Fy H. apply (sub_fwd 24 128 p24 p128 x y Fx Fy). apply r32_fits, H. Qed.
Lemma fma_err (x y z : f32) : F x -> F y -> F z -> Rabs (B2R x * B2R y + B2R z) <= 1099511627776 ->
  F (fma32 x y z) /\ B2R (fma32 x y z) = r32 (B2R x * B2R y + B2R z).
Proof. intros Fx Fy Fz H. apply (fma_fwd 24 128 p24 p128 x y z Fx Fy Fz). apply r32_fits, H. Qed.
Lemma div_err (x y : f32) : F x -> B2R y <> 0 -> Rabs (B2R x / B2R y) <= 1099511627776 ->
  F (div32 x y) /\ B2R (div32 x y) = r32 (B2R x / B2R y).
Proof.
  intros Fx Hy H. pose proof (Bdiv_correct 24 128 p24 p128 mode_NE x y Hy) as C. cbn [round_mode] in C.
  rewrite Rlt_bool_true in C by (apply r32_fits, H). destruct C as (A & B & _). split; [unfold div32; rewrite B; exact Fx|exact A].
Qed.
Lemma half_err (x : f32) : F x -> F (half32 x) /\ Rabs (B2R (half32 x) - B2R x / 2) <= u * Rabs (B2R x) + eta.
Proof.
  intros Fx. destruct (widen_val x Fx) as [F1 E1]. destruct half64_val as [Fh Eh].
  assert (P : / 2 * B2R x = B2R x * pw (Z.opp 1)) by (change (pw (Z.opp 1)) with (/ 2); ring).
  pose proof (float_lt x) as L. pose proof (Rabs_pos (B2R x)) as L0.
  assert (L2 : Rabs (B2R x * pw (Z.opp 1)) <= Rabs (B2R x)) by (rewrite <- P, Rabs_mult, (Rabs_pos_eq (/ 2)) by lra; lra).
  destruct (mul_fwd 53 1024 q53 q1024 _ _ Fh F1) as [F2 E2]; [rewrite Eh, E1, P, r64_scaled by lia; apply M64_of32; lra|].
  rewrite Eh, E1, P, r64_scaled in E2 by lia.
  destruct (conv_fwd 24 128 p24 p128 _ _ _ F2) as [F3 E3].
  - rewrite E2. apply Rle_lt_trans with (Rabs (B2R x)); [|exact L]. rewrite <- (rndf_B 24 128 x) at 2. fold (r32 (B2R x)).
    destruct (Rle_dec 0 (B2R x)) as [S|S].
    + rewrite (Rabs_pos_eq (B2R x)) in L2 by exact S. apply Rabs_le_inv in L2. rewrite (Rabs_pos_eq (r32 (B2R x))) by (rewrite (rndf_B 24 128); exact S).
      apply Rabs_le. rewrite <- (rndf_opp 24 128). split; apply r32_mono; lra.
    + rewrite (Rabs_left1 (B2R x)) in L2 by lra. apply Rabs_le_inv in L2. rewrite (Rabs_left1 (r32 (B2R x))) by (rewrite (rndf_B 24 128); lra).
      apply Rabs_le. rewrite Ropp_involutive, <- (rndf_opp 24 128). split; apply r32_mono; lra.
  - split; [exact F3|]. unfold half32, narrow, mul64. rewrite E3, E2. replace (B2R x / 2) with (B2R x * pw (Z.opp 1)) by (rewrite <- P; lra).
    eapply Rle_trans; [apply rerr|]. lra.
Qed.

(** a*x - b*y *)
Lemma diff_err k (a x b y : f32) P Q : F a -> F x -> F b -> F y -> Rabs (B2R a * B2R x) <= P -> Rabs (B2R b * B2R y) <= Q -> P + Q <= 137438953472 ->
  F (diff32 k a x b y) /\ Rabs (B2R (diff32 k a x b y) - (B2R a * B2R x - B2R b * B2R y)) <= 201 / 100 * u * (P + Q) + 4 * eta.
Proof.
  intros Fa Fx Fb Fy HP HQ HB. pose proof eta_pos as E0. pose proof eta_small as E1.
  pose proof (Rabs_pos (B2R a * B2R x)) as P0. pose proof (Rabs_pos (B2R b * B2R y)) as Q0.
  destruct (mul_err a x Fa Fx ltac:(lra)) as [F1 V1]. destruct (mul_err b y Fb Fy ltac:(lra)) as [F2 V2].
  pose proof (rerr (B2R a * B2R x)) as R1. pose proof (rerr (B2R b * B2R y)) as R2. rewrite <- V1 in R1. rewrite <- V2 in R2.
  apply Rabs_le_inv in HP, HQ. assert (R1' : Rabs (B2R (mul32 a x) - B2R a * B2R x) <= u * P + eta) by (eapply Rle_trans; [exact R1|]; apply Rplus_le_compat_r, Rmult_le_compat_l; [lra|apply Rabs_le; lra]).
  assert (R2' : Rabs (B2R (mul32 b y) - B2R b * B2R y) <= u * Q + eta) by (eapply Rle_trans; [exact R2|]; apply Rplus_le_compat_r, Rmult_le_compat_l; [lra|apply Rabs_le; lra]).
  clear R1 R2. apply Rabs_le_inv in R1', R2'. clear V1 V2.
  set (ax := B2R a * B2R x) in *. set (by' := B2R b * B2R y) in *. destruct k; cbn [diff32].
  - destruct (sub_err _ _ F1 F2) as [F3 V3]; [apply Rabs_le; lra|]. split; [exact F3|]. rewrite V3. pose proof (rerr (B2R (mul32 a x) - B2R (mul32 b y))) as R.
    assert (B : Rabs (B2R (mul32 a x) - B2R (mul32 b y)) <= P + Q + u * P + u * Q + 2 * eta) by (apply Rabs_le; lra).
    apply Rabs_le_inv in R. apply Rabs_le. lra.
  - assert (F2' : F (Bopp (mul32 b y))) by (rewrite is_finite_Bopp; exact F2). pose proof (B2R_Bopp 24 128 (mul32 b y)) as VO.
    destruct (fma_err a x _ Fa Fx F2') as [F3 V3]; [rewrite VO; apply Rabs_le; fold ax; lra|]. split; [exact F3|]. rewrite V3, VO. fold ax.
    pose proof (rerr (ax + - B2R (mul32 b y))) as R. assert (B : Rabs (ax + - B2R (mul32 b y)) <= P + Q + u * Q + eta) by (apply Rabs_le; lra).
    apply Rabs_le_inv in R. apply Rabs_le. lra.
  - assert (F2' : F (Bopp b)) by (rewrite is_finite_Bopp; exact Fb). pose proof (B2R_Bopp 24 128 b) as VO.
    assert (EQ : B2R (Bopp b) * B2R y + B2R (mul32 a x) = B2R (mul32 a x) - by') by (rewrite VO; unfold by'; ring).
    destruct (fma_err _ y _ F2' Fy F1) as [F3 V3]; [rewrite EQ; apply Rabs_le; lra|]. split; [exact F3|]. rewrite V3, EQ.
    pose proof (rerr (B2R (mul32 a x) - by')) as R. assert (B : Rabs (B2R (mul32 a x) - by') <= P + Q + u * P + eta) by (apply Rabs_le; lra).
    apply Rabs_le_inv in R. apply Rabs_le. lra.
Qed.

(** one step of a sum of products: [h] approximates H, [x]*[y] approximates p *)
Lemma acc_err fuse (h x y : f32) H p S P e e1 t t' : F h -> F x -> F y -> Rabs H <= S -> Rabs p <= P -> S <= 68719476736 -> P <= 68719476736 ->
  Rabs (B2R h - H) <= e * S + t -> Rabs (B2R x * B2R y - p) <= e1 * P + t' -> 0 <= e1 -> e1 + u <= e -> e <= / 1024 -> 0 <= t <= 1 -> 0 <= t' <= 1 ->
  F (acc32 fuse h x y) /\ Rabs (B2R (acc32 fuse h x y) - (H + p)) <= (e + 2 * u) * (S + P) + (1 + 3 * u) * (t + t') + 3 * eta.
Proof.
  intros Fh Fx Fy HS HP BS BP Hh Hxy He1 He He' Ht Ht'. pose proof eta_pos as E0. pose proof eta_small as E1.
  pose proof (Rabs_pos H) as S0. pose proof (Rabs_pos p) as P0. apply Rabs_le_inv in HS, HP, Hh, Hxy.
  assert (W : 0 <= e * S <= / 1024 * S) by (split; [apply Rmult_le_pos; lra|apply Rmult_le_compat_r; lra]).
  assert (V : 0 <= e1 * P <= / 1024 * P) by (split; [apply Rmult_le_pos; lra|apply Rmult_le_compat_r; lra]).
  assert (G : e1 * P + u * P <= e * P) by (rewrite <- Rmult_plus_distr_r; apply Rmult_le_compat_r; lra).
  set (w := e * S) in *. set (v := e1 * P) in *. set (g := e * P) in *. set (xy := B2R x * B2R y) in *.
  replace ((e + 2 * u) * (S + P)) with (w + g + 2 * u * S + 2 * u * P) by (unfold w, g; ring). unfold acc32. destruct fuse.
  - destruct (fma_err x y h Fx Fy Fh) as [F1 V1]; [fold xy; apply Rabs_le; lra|]. split; [exact F1|]. rewrite V1. fold xy.
    pose proof (rerr (xy + B2R h)) as R. assert (B : Rabs (xy + B2R h) <= S + w + t + P + v + t') by (apply Rabs_le; lra).
    apply Rabs_le_inv in R. apply Rabs_le. lra.
  - destruct (mul_err x y Fx Fy) as [F1 V1]; [fold xy; apply Rabs_le; lra|]. fold xy in V1. pose proof (rerr xy) as R1. rewrite <- V1 in R1.
    assert (B1 : Rabs xy <= P + v + t') by (apply Rabs_le; lra). apply Rabs_le_inv in R1.
    destruct (add_err h (mul32 x y) Fh F1) as [F2 V2]; [apply Rabs_le; lra|]. split; [exact F2|]. rewrite V2. pose proof (rerr (B2R h + B2R (mul32 x y))) as R.
    assert (B2 : Rabs (B2R h + B2R (mul32 x y)) <= S + w + t + P + v + t' + u * (P + v + t') + eta) by (apply Rabs_le; lra).
    apply Rabs_le_inv in R. apply Rabs_le. lra.
Qed.
