From Coq Require Import ZArith Bool Reals Lia Lra.
From Flocq Require Import Core BinarySingleNaN Relative Mult_error.
From Verif Require Import IeeeModel IeeeReal IeeeProofs IeeePos IpyrProofs StampModel StampProofs IbuckProofs IdistModel IdistSpec.
Local Open Scope R_scope.
Local Instance fxd' : Valid_exp (SpecFloat.fexp 53 1024) := fxv 53 1024 q53.

Definition mR : R := 4722366482869645 / 4722366482869645213696.
Lemma micro_val : F micro64 /\ B2R micro64 = mR.
Proof.
  split; [vm_compute; reflexivity|]. rewrite <- SF2R_B2SF.
  replace (B2SF micro64) with (SpecFloat.S754_finite false 4722366482869645 (-72)) by (vm_compute; reflexivity).
  unfold SF2R, F2R, mR. cbn [Fnum Fexp cond_Zopp]. change (bpow radix2 (-72)) with (/ 4722366482869645213696). unfold Rdiv. reflexivity.
Qed.
Lemma mR_pos : 0 < mR. Proof. unfold mR. lra. Qed.
Lemma mR_inv : r64 (1 / mR) = 1000000.
Proof.
  destruct one64_val as [F1 E1]. destruct micro_val as [Fm Em]. pose proof mR_pos as P.
  pose proof (Bdiv_correct 53 1024 q53 q1024 mode_NE one64 micro64 ltac:(rewrite Em; lra)) as C. cbn [round_mode] in C. rewrite E1, Em in C. fold (r64 (1 / mR)) in C.
  assert (I : 1 / mR <= 1000001) by (unfold mR; lra). assert (I' : 0 <= 1 / mR) by (unfold mR; lra).
  rewrite Rlt_bool_true in C by (apply r64_fits; rewrite Rabs_pos_eq; lra). destruct C as (V & _). rewrite <- V, <- SF2R_B2SF.
  replace (B2SF (Bdiv mode_NE one64 micro64)) with (SpecFloat.S754_finite false 8589934592000000 (-33)) by (vm_compute; reflexivity).
  unfold SF2R, F2R. cbn [Fnum Fexp cond_Zopp]. change (bpow radix2 (-33)) with (/ 8589934592). lra.
Qed.
Lemma r64_micro : r64 (/ 1000000) = mR.
Proof.
  destruct one64_val as [F1 E1]. destruct (of_Z64' 1000000 ltac:(lia)) as [F2 E2].
  pose proof (Bdiv_correct 53 1024 q53 q1024 mode_NE one64 (g64_of_Z 1000000) ltac:(rewrite E2; lra)) as C. cbn [round_mode] in C. rewrite E1, E2 in C. replace (1 / 1000000) with (/ 1000000) in C by lra. fold (r64 (/ 1000000)) in C.
  rewrite Rlt_bool_true in C by (apply r64_fits; rewrite Rabs_pos_eq; lra). destruct C as (V & _). rewrite <- V. exact (proj2 micro_val).
Qed.

Definition nzR (p : R) : R := if Rlt_dec p mR then if Rle_dec 0 p then mR else if Rlt_dec (- mR) p then - mR else p else p.
Lemma nz_val p : F p -> F (non_zero64 p) /\ B2R (non_zero64 p) = nzR (B2R p).
Proof.
  intros Fp. destruct micro_val as [Fm Em]. destruct (of_Z64' 0 ltac:(lia)) as [F0 E0]. unfold non_zero64, nzR, zero64.
  rewrite (Bltb_correct 53 1024 p micro64 Fp Fm), (Bleb_correct 53 1024 _ p F0 Fp), Em, E0.
  rewrite (Bltb_correct 53 1024 (Bopp micro64) p) by (rewrite ?is_finite_Bopp; assumption). rewrite B2R_Bopp, Em.
  destruct (Rlt_dec (B2R p) mR) as [L|L]; [rewrite Rlt_bool_true by exact L|rewrite Rlt_bool_false by lra; auto].
  destruct (Rle_dec 0 (B2R p)) as [Z|Z]; [rewrite Rle_bool_true by exact Z; auto|rewrite Rle_bool_false by lra].
  destruct (Rlt_dec (- mR) (B2R p)) as [Q|Q]; [rewrite Rlt_bool_true by exact Q|rewrite Rlt_bool_false by lra; auto].
  rewrite is_finite_Bopp, B2R_Bopp, Em. auto.
Qed.
Lemma nzR_cases p : (0 <= p -> mR <= nzR p /\ p <= nzR p) /\ (p < 0 -> nzR p <= - mR /\ nzR p <= p) /\ (mR <= Rabs p -> nzR p = p).
Proof.
  pose proof mR_pos as P. unfold nzR. split; [|split]; intros H.
  - destruct (Rlt_dec p mR); [destruct (Rle_dec 0 p); [|destruct (Rlt_dec (- mR) p)]|]; lra.
  - destruct (Rlt_dec p mR); [destruct (Rle_dec 0 p); [|destruct (Rlt_dec (- mR) p)]|]; lra.
  - destruct (Rlt_dec p mR); [destruct (Rle_dec 0 p); [|destruct (Rlt_dec (- mR) p)]|]; try reflexivity; exfalso; [rewrite Rabs_pos_eq in H by lra|rewrite Rabs_left in H by lra]; lra.
Qed.
Lemma nzR_abs p : mR <= Rabs (nzR p).
Proof.
  destruct (nzR_cases p) as (A & B & _). destruct (Rle_dec 0 p) as [Z|Z]; [destruct (A Z); rewrite Rabs_pos_eq; lra|]. destruct (B ltac:(lra)). pose proof mR_pos. rewrite Rabs_left; lra.
Qed.
Lemma nzR_neq p : nzR p <> 0.
Proof. intros E. pose proof (nzR_abs p) as A. rewrite E, Rabs_R0 in A. pose proof mR_pos. lra. Qed.
Lemma nzR_mono p q : p <= q -> nzR p <= nzR q.
Proof.
  pose proof mR_pos. unfold nzR. intros. repeat match goal with |- context [if ?x then _ else _] => destruct x end; lra.
Qed.
Lemma inv_le a b : 0 < a -> a <= b -> 1 / b <= 1 / a.
Proof. intros. unfold Rdiv. rewrite !Rmult_1_l. apply Rinv_le_contravar; lra. Qed.
Lemma inv_neg a : 1 / - a = - (1 / a).
Proof. unfold Rdiv. rewrite !Rmult_1_l. rewrite <- Rinv_opp. reflexivity. Qed.
(** a bounded reciprocal *)
Lemma recip_bound q : mR <= q -> 0 <= r64 (1 / q) <= 1000000.
Proof.
  intros H. pose proof mR_pos as P. split.
  - rewrite <- (rndf_0 53 1024). apply r64_mono. unfold Rdiv. rewrite Rmult_1_l. left. apply Rinv_0_lt_compat. lra.
  - rewrite <- mR_inv. apply r64_mono, inv_le; lra.
Qed.
Lemma recip_abs q : mR <= Rabs q -> Rabs (r64 (1 / q)) <= 1000000.
Proof.
  intros H. pose proof mR_pos. destruct (Rle_dec 0 q) as [Z|Z].
  - rewrite Rabs_pos_eq in H by exact Z. pose proof (recip_bound q H). rewrite Rabs_pos_eq; lra.
  - rewrite Rabs_left in H by lra. pose proof (recip_bound (- q) H) as B. rewrite inv_neg, (rndf_opp 53 1024) in B. rewrite Rabs_left1; lra.
Qed.
(** the reciprocal of any double is not rounded to zero *)
Lemma recip_pos q : 0 < q -> q < bpow radix2 1024 -> 0 < r64 (1 / q).
Proof.
  intros H U. apply Rlt_le_trans with (bpow radix2 (-1024)); [apply bpow_gt_0|].
  assert (E : r64 (pw (-1024)) = pw (-1024)) by (apply fmt_pw; lia). rewrite <- E. apply r64_mono. unfold Rdiv. rewrite Rmult_1_l.
  change (-1024)%Z with (- (1024))%Z. rewrite bpow_opp. apply Rinv_le_contravar; [exact H|lra].
Qed.
Lemma inv_val p : F p -> F (inverse_distance p) /\ B2R (inverse_distance p) = r64 (1 / nzR (B2R p)).
Proof.
  intros Fp. destruct (nz_val p Fp) as [Fn En]. destruct one64_val as [F1 E1]. unfold inverse_distance.
  pose proof (Bdiv_correct 53 1024 q53 q1024 mode_NE one64 (non_zero64 p) ltac:(rewrite En; apply nzR_neq)) as C. cbn [round_mode] in C. rewrite E1, En in C. fold (r64 (1 / nzR (B2R p))) in C.
  rewrite Rlt_bool_true in C.
  - destruct C as (V & FF & _). split; [unfold div64; rewrite FF; exact F1|exact V].
  - eapply Rle_lt_trans; [apply recip_abs, nzR_abs|]. apply Rlt_trans with (bpow radix2 20); [change (bpow radix2 20) with 1048576; lra|apply bpow_lt; lia].
Qed.
Lemma nzR_max (p : g64) : F p -> Rabs (nzR (B2R p)) < bpow radix2 1024.
Proof. intros Fp. destruct (nz_val p Fp) as [_ <-]. apply abs_B2R_lt_emax. Qed.
Lemma distance_ok p : F p -> F (inverse_distance p) /\ 0 < Rabs (B2R (inverse_distance p)) <= 1000000 /\
  (0 <= B2R p -> 0 < B2R (inverse_distance p)) /\ (B2R p < 0 -> B2R (inverse_distance p) < 0).
Proof.
  intros Fp. destruct (inv_val p Fp) as [A E]. split; [exact A|]. rewrite E. pose proof (nzR_max p Fp) as U. pose proof mR_pos as P.
  destruct (nzR_cases (B2R p)) as (N1 & N2 & _).
  assert (S1 : 0 <= B2R p -> 0 < r64 (1 / nzR (B2R p))) by (intros Z; destruct (N1 Z); rewrite Rabs_pos_eq in U by lra; apply recip_pos; lra).
  assert (S2 : B2R p < 0 -> r64 (1 / nzR (B2R p)) < 0).
  { intros Z. destruct (N2 Z). rewrite Rabs_left in U by lra. replace (nzR (B2R p)) with (- - nzR (B2R p)) by ring. rewrite inv_neg, (rndf_opp 53 1024).
    pose proof (recip_pos (- nzR (B2R p)) ltac:(lra) U). lra. }
  split; [|split; assumption]. split; [|apply recip_abs, nzR_abs]. apply Rabs_pos_lt. destruct (Rle_dec 0 (B2R p)); [specialize (S1 r)|specialize (S2 ltac:(lra))]; lra.
Qed.
Lemma distance_mono p q : F p -> F q -> B2R p <= B2R q -> (0 <= B2R p \/ B2R q < 0) -> B2R (inverse_distance q) <= B2R (inverse_distance p).
Proof.
  intros Fp Fq L S. rewrite (proj2 (inv_val p Fp)), (proj2 (inv_val q Fq)). apply r64_mono. pose proof (nzR_mono _ _ L) as M. pose proof mR_pos.
  destruct S as [S|S].
  - destruct (nzR_cases (B2R p)) as (N & _). destruct (N S). apply inv_le; lra.
  - destruct (nzR_cases (B2R q)) as (_ & N & _). destruct (N S). pose proof (inv_le (- nzR (B2R q)) (- nzR (B2R p)) ltac:(lra) ltac:(lra)) as I. rewrite !inv_neg in I. lra.
Qed.
(** relative error of one rounding *)
Lemma r64_rel x : bpow radix2 (-1022) <= Rabs x -> Rabs (r64 x - x) <= bpow radix2 (-53) * Rabs x.
Proof.
  intros H. pose proof (relative_error_N_FLT radix2 (-1074) 53 ltac:(lia) (fun z => negb (Z.even z)) x H) as E.
  replace (bpow radix2 (-53)) with (/ 2 * bpow radix2 (-53 + 1)) by (rewrite bpow_plus; change (bpow radix2 1) with 2; lra). exact E.
Qed.
Lemma r64_rel' x : bpow radix2 (-1022) <= Rabs x -> exists e, Rabs e <= bpow radix2 (-53) / (1 + bpow radix2 (-53)) /\ r64 x = x * (1 + e).
Proof.
  intros H. pose proof (relative_error_N_FLX'_ex radix2 53 ltac:(lia) (fun z => negb (Z.even z)) x) as (e & B & E).
  exists e. split.
  - replace (bpow radix2 (-53)) with (u_ro radix2 53); [exact B|]. unfold u_ro. rewrite bpow_plus. change (bpow radix2 1) with 2. change (- (53))%Z with (-53)%Z. lra.
  - rewrite <- E. unfold rndf. change (SpecFloat.fexp 53 1024) with (FLT_exp (-1074) 53). apply round_FLT_FLX. exact H.
Qed.
Lemma recip_normal q : 0 < Rabs q -> Rabs q <= bpow radix2 1022 -> bpow radix2 (-1022) <= Rabs (1 / q).
Proof.
  intros P U. unfold Rdiv. rewrite Rmult_1_l, Rabs_inv. change (-1022)%Z with (- (1022))%Z. rewrite bpow_opp. apply Rinv_le_contravar; assumption.
Qed.
Lemma distance_close p : F p -> mR <= Rabs (B2R p) -> Rabs (B2R p) <= bpow radix2 1022 ->
  rel_close 53 (B2R (inverse_distance p)) (1 / B2R p).
Proof.
  intros Fp L U. rewrite (proj2 (inv_val p Fp)). destruct (nzR_cases (B2R p)) as (_ & _ & N). rewrite (N L). unfold rel_close. apply r64_rel, recip_normal; [pose proof mR_pos; lra|exact U].
Qed.
Lemma trip_ok d : F d -> mR <= Rabs (B2R d) -> Rabs (B2R d) <= 1000000 ->
  rel_close 52 (B2R (inverse_distance (inverse_param d))) (B2R d).
Proof.
  intros Fd L U. pose proof mR_pos as P. change (inverse_param d) with (inverse_distance d). destruct (inv_val d Fd) as [Fx Ex]. destruct (nzR_cases (B2R d)) as (_ & _ & N). rewrite (N L) in Ex. clear N.
  assert (D : B2R d <> 0) by (intros D; rewrite D, Rabs_R0 in L; lra).
  assert (X : mR <= Rabs (B2R (inverse_distance d))).
  { rewrite Ex, <- r64_micro. destruct (Rle_dec 0 (B2R d)) as [Z|Z].
    - rewrite Rabs_pos_eq in U by exact Z. assert (r64 (/ 1000000) <= r64 (1 / B2R d)).
      { apply r64_mono. unfold Rdiv. rewrite Rmult_1_l. apply Rinv_le_contravar; lra. } rewrite Rabs_pos_eq; [assumption|]. rewrite r64_micro in H. lra.
    - rewrite Rabs_left in U by lra. assert (r64 (/ 1000000) <= r64 (1 / - B2R d)).
      { apply r64_mono. unfold Rdiv. rewrite Rmult_1_l. apply Rinv_le_contravar; lra. } rewrite inv_neg, (rndf_opp 53 1024) in H. rewrite Rabs_left1; [assumption|]. rewrite r64_micro in H. lra. }
  rewrite (proj2 (inv_val _ Fx)). destruct (nzR_cases (B2R (inverse_distance d))) as (_ & _ & N). rewrite (N X). clear N.
  assert (X2 : Rabs (B2R (inverse_distance d)) <= 1000000) by apply (distance_ok d Fd).
  assert (B22 : 1000000 <= bpow radix2 1022) by (apply Rle_trans with (bpow radix2 20); [change (bpow radix2 20) with 1048576; lra|apply bpow_le; lia]).
  destruct (r64_rel' (1 / B2R d)) as (e1 & B1 & E1); [apply recip_normal; [lra|lra]|].
  destruct (r64_rel' (1 / B2R (inverse_distance d))) as (e2 & B2 & E2); [apply recip_normal; lra|].
  rewrite E2. rewrite Ex, E1. set (u := bpow radix2 (-53)) in *. assert (Pu : 0 < u) by apply bpow_gt_0. assert (Uu : u <= / 2) by (unfold u; change (/ 2) with (bpow radix2 (-1)); apply bpow_le; lia).
  assert (K : u / (1 + u) <= / 2).
  { apply Rmult_le_reg_r with (1 + u); [lra|]. unfold Rdiv. rewrite Rmult_assoc, Rinv_l by lra. lra. }
  assert (N1 : 1 + e1 <> 0) by (apply Rabs_le_inv in B1; lra).
  replace (1 / (1 / B2R d * (1 + e1)) * (1 + e2)) with (B2R d * ((1 + e2) / (1 + e1))) by (field; split; assumption).
  unfold rel_close. replace (B2R d * ((1 + e2) / (1 + e1)) - B2R d) with (((1 + e2) / (1 + e1) - 1) * B2R d) by ring. rewrite Rabs_mult. apply Rmult_le_compat_r; [apply Rabs_pos|].
  replace ((1 + e2) / (1 + e1) - 1) with ((e2 - e1) / (1 + e1)) by (field; exact N1).
  replace (bpow radix2 (- (52))) with (2 * u) by (unfold u; change (-53)%Z with (- (52) + -1)%Z; rewrite bpow_plus; change (bpow radix2 (-1)) with (/ 2); lra).
  set (c := u / (1 + u)) in *. assert (Ec : c * (1 + u) = u) by (unfold c; field; lra).
  unfold Rdiv. rewrite Rabs_mult, Rabs_inv. assert (A1 : Rabs (e2 - e1) <= 2 * c) by (apply Rabs_le_inv in B1; apply Rabs_le_inv in B2; apply Rabs_le; lra).
  assert (A2 : 1 - c <= Rabs (1 + e1)) by (apply Rabs_le_inv in B1; rewrite Rabs_pos_eq; lra).
  apply Rmult_le_reg_r with (Rabs (1 + e1)); [apply Rabs_pos_lt; exact N1|]. rewrite Rmult_assoc, Rinv_l, Rmult_1_r by (apply Rabs_no_R0; exact N1).
  eapply Rle_trans; [exact A1|]. apply Rle_trans with (2 * u * (1 - c)); [|apply Rmult_le_compat_l; lra].
  (* u (1-c) = u - u c = c (1+u) - u c = c *) assert (u * (1 - c) = c) by lra. lra.
Qed.
(** saturation *)
Lemma r64_mR : r64 mR = mR. Proof. destruct micro_val as [_ E]. rewrite <- E. apply r64_B. Qed.
Lemma nzR_small p : 0 <= p -> p <= mR -> nzR p = mR.
Proof. intros. unfold nzR. destruct (Rlt_dec p mR); [destruct (Rle_dec 0 p)|]; lra. Qed.
Lemma nzR_small' p : p < 0 -> - mR <= p -> nzR p = - mR.
Proof. intros. pose proof mR_pos. unfold nzR. destruct (Rlt_dec p mR); [destruct (Rle_dec 0 p); [|destruct (Rlt_dec (- mR) p)]|]; lra. Qed.
Lemma sat_small d : F d -> 0 <= B2R d -> B2R d <= mR -> B2R (inverse_distance (inverse_param d)) = mR.
Proof.
  intros Fd L U. change (inverse_param d) with (inverse_distance d). destruct (inv_val d Fd) as [Fx Ex]. rewrite (proj2 (inv_val _ Fx)), Ex, (nzR_small _ L U), mR_inv.
  destruct (nzR_cases 1000000) as (_ & _ & N). rewrite N by (rewrite Rabs_pos_eq; unfold mR; lra). replace (1 / 1000000) with (/ 1000000) by lra. apply r64_micro.
Qed.
Lemma sat_small' d : F d -> B2R d < 0 -> - mR <= B2R d -> B2R (inverse_distance (inverse_param d)) = - mR.
Proof.
  intros Fd L U. change (inverse_param d) with (inverse_distance d). destruct (inv_val d Fd) as [Fx Ex]. rewrite (proj2 (inv_val _ Fx)), Ex, (nzR_small' _ L U), inv_neg, (rndf_opp 53 1024), mR_inv.
  destruct (nzR_cases (- (1000000))) as (_ & _ & N). rewrite N by (rewrite Rabs_left; unfold mR; lra). rewrite inv_neg, (rndf_opp 53 1024). replace (1 / 1000000) with (/ 1000000) by lra. rewrite r64_micro. reflexivity.
Qed.
Lemma sat_large d : F d -> 1000000 <= B2R d -> B2R (inverse_distance (inverse_param d)) = 1000000.
Proof.
  intros Fd L. change (inverse_param d) with (inverse_distance d). destruct (inv_val d Fd) as [Fx Ex]. destruct (distance_ok d Fd) as (_ & _ & S & _). specialize (S ltac:(lra)).
  rewrite (proj2 (inv_val _ Fx)). rewrite nzR_small; [apply mR_inv|lra|]. rewrite Ex. destruct (nzR_cases (B2R d)) as (_ & _ & N). rewrite N by (rewrite Rabs_pos_eq by lra; unfold mR; lra).
  rewrite <- r64_micro. apply r64_mono. replace (/ 1000000) with (1 / 1000000) by lra. apply inv_le; lra.
Qed.
Lemma sat_large' d : F d -> B2R d <= - 1000000 -> B2R (inverse_distance (inverse_param d)) = - 1000000.
Proof.
  intros Fd L. change (inverse_param d) with (inverse_distance d). destruct (inv_val d Fd) as [Fx Ex]. destruct (distance_ok d Fd) as (_ & _ & _ & S). specialize (S ltac:(lra)).
  rewrite (proj2 (inv_val _ Fx)). rewrite nzR_small'; [rewrite inv_neg, (rndf_opp 53 1024), mR_inv; reflexivity|lra|]. rewrite Ex. destruct (nzR_cases (B2R d)) as (_ & _ & N). rewrite N by (rewrite Rabs_left by lra; unfold mR; lra).
  rewrite <- r64_micro, <- (rndf_opp 53 1024). apply r64_mono. replace (- / 1000000) with (- (1 / 1000000)) by lra. replace (1 / B2R d) with (- (1 / - B2R d)) by (rewrite inv_neg; ring).
  apply Ropp_le_contravar, inv_le; lra.
Qed.
(** derivatives *)
Definition m2R : R := 4951760157141521 * / 4951760157141521099596496896.
Lemma m2_val : r64 (mR * mR) = m2R.
Proof.
  destruct micro_val as [Fm Em]. destruct (mul_fwd 53 1024 q53 q1024 micro64 micro64 Fm Fm) as [_ B].
  - rewrite Em. apply r64_fits. rewrite Rabs_pos_eq by (unfold mR; lra). unfold mR. lra.
  - rewrite Em in B. rewrite <- B, <- SF2R_B2SF.
    replace (B2SF (Bmult mode_NE micro64 micro64)) with (SpecFloat.S754_finite false 4951760157141521 (-92)) by (vm_compute; reflexivity).
    unfold SF2R, F2R. cbn [Fnum Fexp cond_Zopp]. change (bpow radix2 (-92)) with (/ 4951760157141521099596496896). unfold m2R. reflexivity.
Qed.
Lemma m2_inv : r64 (1 / m2R) = 1000000000000.
Proof.
  destruct one64_val as [F1 E1]. destruct micro_val as [Fm Em]. destruct (mul_fwd 53 1024 q53 q1024 micro64 micro64 Fm Fm) as [Fq Bq].
  { rewrite Em. apply r64_fits. rewrite Rabs_pos_eq by (unfold mR; lra). unfold mR. lra. }
  rewrite Em in Bq. change (rndf 53 1024 (mR * mR)) with (r64 (mR * mR)) in Bq. rewrite m2_val in Bq. change (Bmult mode_NE micro64 micro64) with (mul64 micro64 micro64) in *.
  pose proof (Bdiv_correct 53 1024 q53 q1024 mode_NE one64 (mul64 micro64 micro64) ltac:(rewrite Bq; unfold m2R; lra)) as C. cbn [round_mode] in C. rewrite E1, Bq in C. fold (r64 (1 / m2R)) in C.
  assert (I : 1 / m2R <= 1099511627776) by (unfold m2R; lra). assert (I' : 0 <= 1 / m2R) by (unfold m2R; lra).
  rewrite Rlt_bool_true in C by (apply r64_fits; rewrite Rabs_pos_eq; lra). destruct C as (V & _). rewrite <- V, <- SF2R_B2SF.
  replace (B2SF (Bdiv mode_NE one64 (mul64 micro64 micro64))) with (SpecFloat.S754_finite false 8192000000000000 (-13)) by (vm_compute; reflexivity).
  unfold SF2R, F2R. cbn [Fnum Fexp cond_Zopp]. change (bpow radix2 (-13)) with (/ 8192). lra.
Qed.
Lemma square_ge q : mR <= Rabs q -> mR * mR <= q * q.
Proof.
  intros H. pose proof mR_pos. replace (q * q) with (Rabs q * Rabs q) by (rewrite <- Rabs_mult; apply Rabs_pos_eq, Rle_0_sqr). apply Rmult_le_compat; lra.
Qed.
(** the square is a positive number, or infinite *)
Lemma square_val (q : g64) : F q -> mR <= Rabs (B2R q) ->
  (F (mul64 q q) /\ B2R (mul64 q q) = r64 (B2R q * B2R q)) \/ mul64 q q = B754_infinity false.
Proof.
  intros Fq H. pose proof (Bmult_correct 53 1024 q53 q1024 mode_NE q q) as C. cbn [round_mode] in C. fold (r64 (B2R q * B2R q)) in C.
  destruct (Rlt_bool (Rabs (r64 (B2R q * B2R q))) (bpow radix2 1024)).
  - left. destruct C as (A & B & _). rewrite Fq in B. split; [exact B|exact A].
  - right. rewrite xorb_nilpotent in C. unfold mul64. destruct (Bmult mode_NE q q); cbn in C; congruence.
Qed.
Lemma square_pos q : mR <= Rabs q -> m2R <= r64 (q * q).
Proof. intros H. rewrite <- m2_val. apply r64_mono, square_ge, H. Qed.
Lemma m2_pos : 0 < m2R. Proof. unfold m2R. lra. Qed.
Lemma dd_ok p : F p -> F (inverse_distance_derivative p) /\ -1000000000000 <= B2R (inverse_distance_derivative p) <= 0.
Proof.
  intros Fp. destruct (nz_val p Fp) as [Fn En]. unfold inverse_distance_derivative. cbv zeta. pose proof (nzR_abs (B2R p)) as A. rewrite <- En in A. set (q := non_zero64 p) in *.
  destruct one64_val as [F1 E1]. destruct (square_val q Fn A) as [[Fs Es]|Es].
  - pose proof (square_pos _ A) as S. pose proof m2_pos as M2. rewrite <- Es in S.
    pose proof (Bdiv_correct 53 1024 q53 q1024 mode_NE (Bopp one64) (mul64 q q) ltac:(lra)) as C. cbn [round_mode] in C. rewrite B2R_Bopp, E1 in C.
    replace (- (1) / B2R (mul64 q q)) with (- (1 / B2R (mul64 q q))) in C by (unfold Rdiv; ring). fold (r64 (- (1 / B2R (mul64 q q)))) in C. rewrite (rndf_opp 53 1024) in C.
    assert (B : 0 <= r64 (1 / B2R (mul64 q q)) <= 1000000000000).
    { split.
      - rewrite <- (rndf_0 53 1024). apply r64_mono. unfold Rdiv. rewrite Rmult_1_l. left. apply Rinv_0_lt_compat. lra.
      - rewrite <- m2_inv. apply r64_mono, inv_le; lra. }
    change (rndf 53 1024 (1 / B2R (mul64 q q))) with (r64 (1 / B2R (mul64 q q))) in C. rewrite Rlt_bool_true in C.
    + destruct C as (V & FF & _). unfold div64. rewrite FF, is_finite_Bopp. split; [exact F1|]. rewrite V. lra.
    + rewrite Rabs_Ropp, Rabs_pos_eq by lra. apply Rle_lt_trans with (bpow radix2 40); [change (bpow radix2 40) with 1099511627776; lra|apply bpow_lt; lia].
  - rewrite Es. assert (E : div64 (Bopp one64) (B754_infinity false) = B754_zero true) by reflexivity. rewrite E. split; [reflexivity|cbn [B2R]; lra].
Qed.
Lemma dp_ok p : F p -> Rabs (B2R p) <= bpow radix2 500 -> F (inverse_param_derivative p) /\
  B2R (inverse_param_derivative p) = - r64 (nzR (B2R p) * nzR (B2R p)) /\ B2R (mul64 (non_zero64 p) (non_zero64 p)) = r64 (nzR (B2R p) * nzR (B2R p)) /\ F (mul64 (non_zero64 p) (non_zero64 p)).
Proof.
  intros Fp U. destruct (nz_val p Fp) as [Fn En]. unfold inverse_param_derivative. cbv zeta.
  assert (B : Rabs (r64 (nzR (B2R p) * nzR (B2R p))) < M64).
  { apply Rle_lt_trans with (pw 1000); [|apply bpow_lt; lia]. apply rndf_abs_le_pow; [exact q53|apply fx64; lia|]. rewrite Rabs_mult. change (pw 1000) with (bpow radix2 (500 + 500)). rewrite bpow_plus.
    assert (N : Rabs (nzR (B2R p)) <= bpow radix2 500).
    { assert (S5 : mR <= bpow radix2 500) by (apply Rle_trans with (bpow radix2 0); [change (bpow radix2 0) with 1; unfold mR; lra|apply bpow_le; lia]). pose proof mR_pos.
      unfold nzR. destruct (Rlt_dec (B2R p) mR); [destruct (Rle_dec 0 (B2R p)); [|destruct (Rlt_dec (- mR) (B2R p))]|]; try assumption; rewrite ?Rabs_Ropp, Rabs_pos_eq; lra. }
    apply Rmult_le_compat; try apply Rabs_pos; exact N. }
  destruct (mul_fwd 53 1024 q53 q1024 (Bopp (non_zero64 p)) (non_zero64 p)) as [A E]; [rewrite is_finite_Bopp; exact Fn|exact Fn|rewrite B2R_Bopp, En, Ropp_mult_distr_l_reverse, (rndf_opp 53 1024), Rabs_Ropp; exact B|].
  rewrite B2R_Bopp, En, Ropp_mult_distr_l_reverse, (rndf_opp 53 1024) in E.
  destruct (mul_fwd 53 1024 q53 q1024 (non_zero64 p) (non_zero64 p) Fn Fn) as [A' E']; [rewrite En; exact B|]. rewrite En in E'. auto.
Qed.
Lemma product_ok p : F p -> Rabs (B2R p) <= bpow radix2 500 ->
  rel_close 53 (B2R (inverse_distance_derivative p) * B2R (inverse_param_derivative p)) 1 /\ B2R (inverse_param_derivative p) < 0 /\ B2R (inverse_distance_derivative p) < 0.
Proof.
  intros Fp U. destruct (dp_ok p Fp U) as (Fd & Ed & Es & Fs). rewrite Ed. clear Ed Fd. pose proof (square_pos _ (nzR_abs (B2R p))) as S. rewrite <- Es in S |- *. pose proof m2_pos as M2.
  unfold inverse_distance_derivative. cbv zeta. set (s := mul64 (non_zero64 p) (non_zero64 p)) in *. destruct one64_val as [F1 E1].
  assert (Us : B2R s <= bpow radix2 1022).
  { pose proof (abs_B2R_lt_emax 53 1024 s) as _. rewrite Es. assert (H : Rabs (r64 (nzR (B2R p) * nzR (B2R p))) <= pw 1000).
    { apply rndf_abs_le_pow; [exact q53|apply fx64; lia|]. rewrite Rabs_mult. change (pw 1000) with (bpow radix2 (500 + 500)). rewrite bpow_plus.
      assert (N : Rabs (nzR (B2R p)) <= bpow radix2 500).
      { assert (S5 : mR <= bpow radix2 500) by (apply Rle_trans with (bpow radix2 0); [change (bpow radix2 0) with 1; unfold mR; lra|apply bpow_le; lia]). pose proof mR_pos.
        unfold nzR. destruct (Rlt_dec (B2R p) mR); [destruct (Rle_dec 0 (B2R p)); [|destruct (Rlt_dec (- mR) (B2R p))]|]; try assumption; rewrite ?Rabs_Ropp, Rabs_pos_eq; lra. }
      apply Rmult_le_compat; try apply Rabs_pos; exact N. }
    apply Rle_trans with (pw 1000); [|apply bpow_le; lia]. apply Rabs_le_inv in H. lra. }
  pose proof (Bdiv_correct 53 1024 q53 q1024 mode_NE (Bopp one64) s ltac:(lra)) as C. cbn [round_mode] in C. rewrite B2R_Bopp, E1 in C.
  replace (- (1) / B2R s) with (- (1 / B2R s)) in C by (unfold Rdiv; ring). fold (r64 (- (1 / B2R s))) in C. rewrite (rndf_opp 53 1024) in C. change (rndf 53 1024 (1 / B2R s)) with (r64 (1 / B2R s)) in C.
  assert (B : r64 (1 / B2R s) <= 1000000000000) by (rewrite <- m2_inv; apply r64_mono, inv_le; lra).
  assert (P : 0 < r64 (1 / B2R s)) by (apply recip_pos; [lra|apply Rle_lt_trans with (1 := Us), bpow_lt; lia]).
  rewrite Rlt_bool_true in C by (rewrite Rabs_Ropp, Rabs_pos_eq by lra; apply Rle_lt_trans with (bpow radix2 40); [change (bpow radix2 40) with 1099511627776; lra|apply bpow_lt; lia]).
  destruct C as (V & _). unfold div64. rewrite V. split; [|lra].
  pose proof (r64_rel (1 / B2R s)) as RR. assert (Pn : bpow radix2 (-1022) <= Rabs (1 / B2R s)) by (apply recip_normal; rewrite Rabs_pos_eq; lra). specialize (RR Pn).
  unfold rel_close. rewrite Rabs_R1, Rmult_1_r. replace (- r64 (1 / B2R s) * - B2R s - 1) with ((r64 (1 / B2R s) - 1 / B2R s) * B2R s) by (field; lra).
  rewrite Rabs_mult. apply Rle_trans with (bpow radix2 (-53) * Rabs (1 / B2R s) * Rabs (B2R s)); [apply Rmult_le_compat_r; [apply Rabs_pos|exact RR]|].
  rewrite Rmult_assoc, <- Rabs_mult. replace (1 / B2R s * B2R s) with 1 by (field; lra). rewrite Rabs_R1, Rmult_1_r. apply Rle_refl.
Qed.
Lemma dc_ok p : F p -> mR <= Rabs (B2R p) -> Rabs (B2R p) <= bpow radix2 1000 -> F (inverse_combined_derivative p) /\ B2R (inverse_combined_derivative p) = -2 * B2R p.
Proof.
  intros Fp L U. destruct (nz_val p Fp) as [Fn En]. destruct (nzR_cases (B2R p)) as (_ & _ & N). rewrite (N L) in En. destruct (of_Z64' (-2) ltac:(lia)) as [F2 E2].
  assert (X : r64 (-2 * B2R p) = -2 * B2R p).
  { replace (-2 * B2R p) with (- (B2R p * bpow radix2 1)) by (change (bpow radix2 1) with 2; ring). rewrite (rndf_opp 53 1024). f_equal.
    destruct (Req_dec (B2R p) 0) as [Z|Z]; [rewrite Z, Rmult_0_l; apply (rndf_0 53 1024)|].
    apply (rndf_gen 53 1024). apply (mult_bpow_pos_exact_FLT radix2 (-1074) 53); [|lia]. change (FLT_exp (-1074) 53) with (SpecFloat.fexp 53 1024). apply generic_format_B2R. }
  destruct (mul_fwd 53 1024 q53 q1024 (g64_of_Z (-2)) (non_zero64 p) F2 Fn) as [A E]; rewrite E2, En in *.
  - change (rndf 53 1024 (-2 * B2R p)) with (r64 (-2 * B2R p)). rewrite X, Rabs_mult. replace (Rabs (-2)) with (bpow radix2 1) by (rewrite Rabs_left by lra; change (bpow radix2 1) with 2; lra).
    apply Rle_lt_trans with (bpow radix2 1 * bpow radix2 1000); [apply Rmult_le_compat_l; [apply bpow_ge_0|exact U]|]. rewrite <- bpow_plus. apply bpow_lt. lia.
  - unfold inverse_combined_derivative. split; [exact A|]. change (rndf 53 1024 (-2 * B2R p)) with (r64 (-2 * B2R p)) in E. rewrite X in E. exact E.
Qed.
