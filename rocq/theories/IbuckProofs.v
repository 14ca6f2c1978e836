From Coq Require Import List ZArith Bool Reals Lia Lra.
From Flocq Require Import Core BinarySingleNaN.
From Verif Require Import IeeeModel IeeeReal IeeeProofs IeeePos IpyrProofs StampModel StampProofs IbuckModel IbuckSpec.
Local Open Scope R_scope.

Lemma ceil_val {p e} (x : binary_float p e) : is_finite x = true -> bceil x = Some (Zceil (B2R x)).
Proof.
  destruct x as [s|s| |s m k b]; try discriminate; intros _; cbn [bceil B2R]; [now rewrite Zceil_IZR|]. f_equal. set (z := cond_Zopp s (Z.pos m)).
  unfold F2R. cbn [Fnum Fexp]. destruct (Z.leb_spec 0 k) as [L|L].
  - rewrite <- IZR_Zpower by exact L. rewrite <- mult_IZR, Zceil_IZR. reflexivity.
  - unfold Zceil. f_equal. rewrite <- Zfloor_div; [|apply Z.pow_nonzero; lia]. f_equal. replace k with (- (- k))%Z at 2 by lia. rewrite bpow_opp, <- IZR_Zpower by lia. change (radix_val radix2) with 2%Z. rewrite opp_IZR. unfold Rdiv. ring.
Qed.
Lemma trunc_val {p e} (x : binary_float p e) : is_finite x = true -> btrunc x = Some (Ztrunc (B2R x)).
Proof.
  destruct x as [s|s| |s m k b]; try discriminate; intros _; cbn [btrunc B2R]; [now rewrite Ztrunc_IZR|]. f_equal. set (z := cond_Zopp s (Z.pos m)).
  unfold F2R. cbn [Fnum Fexp]. destruct (Z.leb_spec 0 k) as [L|L].
  - rewrite <- IZR_Zpower by exact L. rewrite <- mult_IZR, Ztrunc_IZR. reflexivity.
  - rewrite <- Ztrunc_div; [|apply Z.pow_nonzero; lia]. f_equal. replace k with (- (- k))%Z at 2 by lia. rewrite bpow_opp, <- IZR_Zpower by lia. reflexivity.
Qed.
Lemma conv32 z : (0 <= z <= 2147483647)%Z -> F (f32_of_Z z) /\ 0 <= B2R (f32_of_Z z) <= 2147483648.
Proof.
  intros [H0 H1]. apply IZR_le in H0. apply IZR_le in H1. pose proof (norm_fwd 24 128 p24 p128 z 0 false) as N. rewrite F2R_int in N.
  assert (B : 0 <= r32 (IZR z) <= 2147483648).
  { assert (K : r32 2147483648 = 2147483648) by (change 2147483648 with (pw 31); apply fmt_pw; lia).
    pose proof (r32_mono 0 (IZR z) ltac:(lra)) as A1. pose proof (r32_mono (IZR z) 2147483648 ltac:(lra)) as A2. rewrite (rndf_0 24 128) in A1. lra. }
  destruct N as [FN VN].
  - apply Rle_lt_trans with 2147483648; [apply Rabs_le; lra|]. change 2147483648 with (pw 31). apply bpow_lt. lia.
  - unfold f32_of_Z. rewrite VN. split; [exact FN|exact B].
Qed.
Lemma prod32 z (p : f32) : (0 <= z <= 2147483647)%Z -> within 0 1 p -> F (mul32 (f32_of_Z z) p) /\ 0 <= B2R (mul32 (f32_of_Z z) p) <= 2147483648.
Proof.
  intros Hz [Fp Bp]. destruct (conv32 z Hz) as [Fz Bz]. set (a := B2R (f32_of_Z z)) in *.
  assert (P : 0 <= a * B2R p <= a) by (split; [apply Rmult_le_pos; lra|rewrite <- (Rmult_1_r a) at 2; apply Rmult_le_compat_l; lra]).
  assert (R : 0 <= r32 (a * B2R p) <= a).
  { pose proof (r32_mono 0 (a * B2R p) ltac:(lra)) as A1. pose proof (r32_mono (a * B2R p) a ltac:(lra)) as A2. rewrite (rndf_0 24 128) in A1. unfold a in A2 at 2. rewrite (rndf_B 24 128) in A2. fold a in A2. lra. }
  destruct (mul_fwd 24 128 p24 p128 (f32_of_Z z) p Fz Fp) as [A B].
  - apply Rle_lt_trans with 2147483648; [fold a; apply Rabs_le; lra|]. change 2147483648 with (pw 31). apply bpow_lt. lia.
  - unfold mul32. rewrite B. fold a. split; [exact A|lra].
Qed.
Lemma prod64 z (p : g64) : (0 <= z <= 2147483647)%Z -> within 0 1 p -> F (mul64 (g64_of_Z z) p) /\ 0 <= B2R (mul64 (g64_of_Z z) p) <= IZR z /\ B2R (mul64 (g64_of_Z z) p) = r64 (IZR z * B2R p).
Proof.
  intros Hz [Fp Bp]. destruct (of_Z64' z ltac:(lia)) as [Fz Ez]. destruct Hz as [H0 H1]. pose proof H0 as H0'. apply IZR_le in H0. apply IZR_le in H1.
  assert (P : 0 <= IZR z * B2R p <= IZR z) by (split; [apply Rmult_le_pos; lra|rewrite <- (Rmult_1_r (IZR z)) at 2; apply Rmult_le_compat_l; lra]).
  destruct (mul_fwd 53 1024 q53 q1024 (g64_of_Z z) p Fz Fp) as [A B]; [rewrite Ez; apply r64_fits, Rabs_le; lra|]. rewrite Ez in B. unfold mul64. rewrite B. split; [exact A|]. split; [|reflexivity].
  pose proof (r64_mono 0 (IZR z * B2R p) ltac:(lra)) as A1. pose proof (r64_mono (IZR z * B2R p) (IZR z) ltac:(lra)) as A2. rewrite (rndf_0 53 1024) in A1. rewrite r64_int in A2 by (apply le_IZR in H1; lia). lra.
Qed.
Lemma clamp_ok nb z : (1 <= nb <= 2147483647)%Z -> (0 <= z <= 2147483648)%Z ->
  obind (to_u32 z) (fun b => Some (if (nb - 1 <? b)%Z then (nb - 1)%Z else b)) = Some (Z.min z (nb - 1)).
Proof.
  intros Hn Hz. unfold to_u32. replace ((0 <=? z)%Z && (z <? 4294967296)%Z) with true by (symmetry; apply andb_true_intro; split; [apply Z.leb_le|apply Z.ltb_lt]; lia).
  cbn [obind]. f_equal. destruct (Z.ltb_spec (nb - 1) z); lia.
Qed.
Lemma bucket_ok nb p : (1 <= nb <= 2147483647)%Z -> pow_in_unit p -> exists b, score_bucket nb p = Some b /\ (0 <= b <= nb - 1)%Z.
Proof.
  intros Hn Hp. unfold score_bucket. assert (C : exists z, (0 <= z <= 2147483648)%Z /\ match p with PowF p => bceil (mul32 (f32_of_Z (nb - 1)) p) | PowD p => bceil (mul64 (g64_of_Z (nb - 1)) p) end = Some z).
  { destruct p as [p|p]; cbn [pow_in_unit] in Hp.
    - destruct (prod32 (nb - 1) p ltac:(lia) Hp) as [A B]. rewrite (ceil_val _ A). eexists. split; [|reflexivity]. split; [apply le_IZR; eapply Rle_trans; [apply B|apply Zceil_ub]|apply Zceil_glb, B].
    - destruct (prod64 (nb - 1) p ltac:(lia) Hp) as (A & B & _). rewrite (ceil_val _ A). eexists. split; [|reflexivity]. split; [apply le_IZR; eapply Rle_trans; [apply B|apply Zceil_ub]|].
      apply Zceil_glb. eapply Rle_trans; [apply B|]. apply IZR_le. lia. }
  destruct C as (z & Hz & ->). cbn [obind]. rewrite (clamp_ok nb z Hn Hz). eexists. split; [reflexivity|]. lia.
Qed.
Lemma bucket_top nb p : (1 <= nb <= 16777216)%Z -> pow_one p -> score_bucket nb p = Some (nb - 1)%Z.
Proof.
  intros Hn Hp. unfold score_bucket. assert (C : match p with PowF p => bceil (mul32 (f32_of_Z (nb - 1)) p) | PowD p => bceil (mul64 (g64_of_Z (nb - 1)) p) end = Some (nb - 1)%Z).
  { destruct p as [p|p]; cbn [pow_one] in Hp; destruct Hp as [Fp Bp]; assert (E : B2R p = 1) by lra.
    - destruct (of_Z32 (nb - 1) ltac:(lia)) as [Fz Ez]. destruct (mul_fwd 24 128 p24 p128 (f32_of_Z (nb - 1)) p Fz Fp) as [A B].
      + rewrite E, Rmult_1_r, (rndf_B 24 128). apply abs_B2R_lt_emax.
      + rewrite E, Rmult_1_r, (rndf_B 24 128), Ez in B. unfold mul32. rewrite (ceil_val _ A), B, Zceil_IZR. reflexivity.
    - destruct (prod64 (nb - 1) p ltac:(lia) ltac:(split; [exact Fp|lra])) as (A & _ & B). rewrite (ceil_val _ A), B, E, Rmult_1_r, r64_int, Zceil_IZR by lia. reflexivity. }
  rewrite C. cbn [obind]. rewrite clamp_ok by lia. f_equal. lia.
Qed.

(** ** moves *)
Lemma r64_B (x : g64) : r64 (B2R x) = B2R x. Proof. apply (rndf_B 53 1024). Qed.
Lemma quot_ok (t2 d2 : g64) : F t2 -> 0 < B2R t2 -> F d2 -> 0 <= B2R d2 -> B2R d2 < B2R t2 ->
  F (div64 (sub64 t2 d2) t2) /\ 0 <= B2R (div64 (sub64 t2 d2) t2) <= 1 /\ (B2R d2 = 0 -> B2R (div64 (sub64 t2 d2) t2) = 1).
Proof.
  intros Ft Pt Fd Pd L. pose proof (r64_mono 0 (B2R t2 - B2R d2) ltac:(lra)) as A1. pose proof (r64_mono (B2R t2 - B2R d2) (B2R t2) ltac:(lra)) as A2. rewrite (rndf_0 53 1024) in A1. rewrite r64_B in A2.
  destruct (sub_fwd 53 1024 q53 q1024 t2 d2 Ft Fd) as [Fs Es].
  { apply Rle_lt_trans with (B2R t2); [apply Rabs_le; lra|]. pose proof (abs_B2R_lt_emax 53 1024 t2). rewrite Rabs_pos_eq in H by lra. exact H. }
  change (B2R (sub64 t2 d2) = r64 (B2R t2 - B2R d2)) in Es. set (s := B2R (sub64 t2 d2)) in *. 
  assert (Q : 0 <= s / B2R t2 <= 1) by (split; [apply Rmult_le_reg_r with (B2R t2)|apply Rmult_le_reg_r with (B2R t2)]; try exact Pt; unfold Rdiv; rewrite Rmult_assoc, Rinv_l by lra; lra).
  pose proof (Bdiv_correct 53 1024 q53 q1024 mode_NE (sub64 t2 d2) t2 ltac:(lra)) as C. cbn [round_mode] in C. fold s in C. fold (r64 (s / B2R t2)) in C.
  pose proof (r64_mono 0 (s / B2R t2) ltac:(lra)) as B1. pose proof (r64_mono (s / B2R t2) 1 ltac:(lra)) as B2. rewrite (rndf_0 53 1024) in B1. rewrite (r64_int 1) in B2 by lia.
  rewrite Rlt_bool_true in C by (apply r64_fits, Rabs_le; lra). destruct C as (V & FF & _). unfold div64. split; [rewrite FF; exact Fs|]. rewrite V. split; [lra|].
  intros D0. assert (S1 : s = B2R t2) by (rewrite Es, D0, Rminus_0_r; apply r64_B). rewrite S1. unfold Rdiv. rewrite Rinv_r by lra. apply (r64_int 1). lia.
Qed.
Lemma moved_ok fuse t2 d2 pen b : F t2 -> 0 < B2R t2 -> F d2 -> 0 <= B2R d2 -> B2R d2 < B2R t2 -> within 0 1073741824 pen -> (0 <= b <= 2147483646)%Z ->
  exists b', moved_bucket fuse t2 d2 pen b = Some b' /\ (0 <= b' <= b)%Z /\
  (B2R d2 = 0 -> forall n, B2R pen = IZR n -> b' = Z.max (b - n) 0).
Proof.
  intros Ft Pt Fd Pd L [Fp Bp] Hb. destruct (quot_ok t2 d2 Ft Pt Fd Pd L) as (Fq & Bq & Q1). set (q := div64 (sub64 t2 d2) t2) in *. destruct (of_Z64' b ltac:(lia)) as [Fb Eb].
  pose proof Hb as [H0 H1]. apply IZR_le in H0. apply IZR_le in H1.
  assert (P : 0 <= B2R q * B2R pen <= B2R pen) by (split; [apply Rmult_le_pos; lra|rewrite <- (Rmult_1_l (B2R pen)) at 2; apply Rmult_le_compat_r; lra]).
  assert (X : exists x, (if fuse then fma64 (Bopp q) pen (g64_of_Z b) else sub64 (g64_of_Z b) (mul64 q pen)) = x /\ F x /\ -1073741824 <= B2R x <= IZR b /\
    (B2R d2 = 0 -> forall n, B2R pen = IZR n -> B2R x = IZR (b - n))).
  { eexists. split; [reflexivity|]. assert (M1 : r64 (-1073741824) = -1073741824) by (apply (r64_int (-1073741824)); lia). destruct fuse.
    - destruct (fma_fwd 53 1024 q53 q1024 (Bopp q) pen (g64_of_Z b)) as [A B]; [rewrite is_finite_Bopp; exact Fq|exact Fp|exact Fb|rewrite B2R_Bopp, Eb; apply r64_fits, Rabs_le; lra|].
      rewrite B2R_Bopp, Eb in B. unfold fma64. rewrite B. split; [exact A|]. split.
      + pose proof (r64_mono (-1073741824) (- B2R q * B2R pen + IZR b) ltac:(lra)) as A1. pose proof (r64_mono (- B2R q * B2R pen + IZR b) (IZR b) ltac:(lra)) as A2. rewrite M1 in A1. rewrite (r64_int b) in A2 by lia. lra.
      + intros D n En. rewrite (Q1 D), En. replace (- (1) * IZR n + IZR b) with (IZR (b - n)) by (rewrite minus_IZR; ring). apply r64_int. rewrite En in Bp. destruct Bp as [B0 B1]. apply le_IZR in B0, B1. lia.
    - destruct (mul_fwd 53 1024 q53 q1024 q pen Fq Fp) as [A B]; [apply r64_fits, Rabs_le; lra|].
      pose proof (r64_mono 0 (B2R q * B2R pen) ltac:(lra)) as A1. pose proof (r64_mono (B2R q * B2R pen) (B2R pen) ltac:(lra)) as A2. rewrite (rndf_0 53 1024) in A1. rewrite r64_B in A2. rewrite <- B in A1, A2.
      change (Bmult mode_NE q pen) with (mul64 q pen) in *. set (m := B2R (mul64 q pen)) in *.
      destruct (sub_fwd 53 1024 q53 q1024 (g64_of_Z b) (mul64 q pen) Fb A) as [A' B']; [rewrite Eb; fold m; apply r64_fits, Rabs_le; lra|]. rewrite Eb in B'. fold m in B'. unfold sub64. rewrite B'. split; [exact A'|]. split.
      + pose proof (r64_mono (-1073741824) (IZR b - m) ltac:(lra)) as C1. pose proof (r64_mono (IZR b - m) (IZR b) ltac:(lra)) as C2. rewrite M1 in C1. rewrite (r64_int b) in C2 by lia. lra.
      + intros D n En. rewrite En in Bp. destruct Bp as [B0 B1]. apply le_IZR in B0, B1. assert (Em : m = IZR n) by (rewrite B, (Q1 D), En, Rmult_1_l; apply r64_int; lia). rewrite Em, <- minus_IZR. apply r64_int. lia. }
  destruct X as (x & Ex & Fx & Bx & Nx). unfold moved_bucket. fold q. cbv zeta. rewrite Ex. rewrite (trunc_val x Fx). cbn [obind].
  assert (T : (-1073741824 <= Ztrunc (B2R x) <= b)%Z).
  { split; [rewrite <- (Ztrunc_IZR (-1073741824)); apply Ztrunc_le; lra|]. rewrite <- (Ztrunc_IZR b). apply Ztrunc_le. lra. }
  unfold to_i32. replace ((-2147483648 <=? Ztrunc (B2R x))%Z && (Ztrunc (B2R x) <=? 2147483647)%Z) with true by (symmetry; apply andb_true_intro; split; apply Z.leb_le; lia).
  cbn [obind]. eexists. split; [reflexivity|]. split; [lia|]. intros D n En. rewrite (Nx D n En), Ztrunc_IZR. reflexivity.
Qed.
Lemma lt_finite (d t2 : g64) : F t2 -> not_negative d -> Bltb d t2 = true -> F d /\ 0 <= B2R d /\ B2R d < B2R t2.
Proof.
  intros Ft Nd L. unfold not_negative in Nd.
  assert (Fd : F d) by (destruct d as [[]|[]| |[] m k h]; try reflexivity; try discriminate Nd; destruct t2 as [[]|[]| |[] m' k' h']; discriminate).
  split; [exact Fd|]. rewrite Bltb_correct in Nd, L by (assumption || reflexivity). cbn [B2R] in Nd. split.
  - destruct (Rlt_bool_spec (B2R d) 0); [discriminate|assumption].
  - destruct (Rlt_bool_spec (B2R d) (B2R t2)); [assumption|discriminate].
Qed.
Lemma compare_ok fuse t2 pen b d : within 0 1073741824 pen -> F t2 -> not_negative d -> (0 <= b <= 2147483646)%Z ->
  exists b', compare_bucket fuse t2 pen b d = Some b' /\ (0 <= b' <= b)%Z.
Proof.
  intros Hp Ft Nd Hb. unfold compare_bucket. destruct (Bltb d t2) eqn:E; [|eexists; split; [reflexivity|lia]].
  destruct (lt_finite d t2 Ft Nd E) as (Fd & P & L). destruct (moved_ok fuse t2 d pen b Ft ltac:(lra) Fd P L Hp Hb) as (b' & A & B & _). eauto.
Qed.
Lemma all_ok fuse t2 pen ds : within 0 1073741824 pen -> F t2 -> Forall not_negative ds -> forall b, (0 <= b <= 2147483646)%Z ->
  exists b', compare_all fuse t2 pen b ds = Some b' /\ (0 <= b' <= b)%Z.
Proof.
  intros Hp Ft. induction 1 as [|d ds Nd _ IH]; intros b Hb; cbn [compare_all]; [eexists; split; [reflexivity|lia]|].
  destruct (b <? 1)%Z; [eexists; split; [reflexivity|lia]|]. destruct (compare_ok fuse t2 pen b d Hp Ft Nd Hb) as (b1 & E1 & B1). rewrite E1. cbn [obind].
  destruct (IH b1 ltac:(lia)) as (b2 & E2 & B2). exists b2. split; [exact E2|lia].
Qed.
