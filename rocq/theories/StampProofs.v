From Coq Require Import List ZArith Bool Reals Lia Lra.
From Flocq Require Import Core BinarySingleNaN.
From Verif Require Import IeeeModel IeeeReal IeeeProofs IeeePos IpyrProofs StampModel StampSpec.
Local Open Scope R_scope.

Lemma of_Z64' z : (Z.abs z <= 9007199254740992)%Z -> F (g64_of_Z z) /\ B2R (g64_of_Z z) = IZR z.
Proof.
  intros H. assert (E : r64 (IZR z) = IZR z) by (apply (rndf_int 53 1024); lia).
  pose proof (norm_fwd 53 1024 q53 q1024 z 0 false) as N. rewrite F2R_int, E in N. apply N.
  rewrite <- abs_IZR. apply Rle_lt_trans with (IZR 9007199254740992); [apply IZR_le; exact H|].
  change (IZR 9007199254740992) with (bpow radix2 53). apply bpow_lt. lia.
Qed.
Lemma r64_int z : (Z.abs z <= 9007199254740992)%Z -> r64 (IZR z) = IZR z.
Proof. intros H. apply (rndf_int 53 1024); lia. Qed.
Local Instance fxd : Valid_exp (SpecFloat.fexp 53 1024) := fxv 53 1024 q53.
(** half an ulp below 2^k *)
Lemma r64_err k x : (-900 <= k <= 900)%Z -> Rabs x <= pw k -> Rabs (r64 x - x) <= pw (k - 54).
Proof.
  intros Hk H. destruct (Req_dec (Rabs x) (pw k)) as [E|E].
  - assert (r64 x = x).
    { assert (P : r64 (pw k) = pw k) by (apply fmt_pw; lia). destruct (Rcase_abs x) as [L|L].
      - rewrite Rabs_left in E by exact L. replace x with (- pw k) by lra. rewrite (rndf_opp 53 1024), P. reflexivity.
      - rewrite Rabs_right in E by exact L. now rewrite E. }
    rewrite H0. replace (x - x) with 0 by ring. rewrite Rabs_R0. apply bpow_ge_0.
  - destruct (Req_dec x 0) as [->|N]; [rewrite (rndf_0 53 1024), Rminus_0_r, Rabs_R0; apply bpow_ge_0|].
    pose proof (error_le_half_ulp radix2 (SpecFloat.fexp 53 1024) (fun z => negb (Z.even z)) x) as U. fold ZnearestE in U. fold (r64 x) in U.
    eapply Rle_trans; [exact U|]. rewrite ulp_neq_0 by exact N. unfold cexp. pose proof (mag_le_bpow radix2 x k N ltac:(lra)) as Mg.
    replace (/ 2) with (pw (Z.opp 1)) by reflexivity. rewrite <- bpow_plus. apply bpow_le. unfold SpecFloat.fexp, SpecFloat.emin. lia.
Qed.
Lemma r64_fits x : Rabs x <= 1099511627776 -> Rabs (r64 x) < M64.
Proof.
  intros H. apply Rle_lt_trans with (pw 40); [apply rndf_abs_le_pow; [exact q53|apply fx64; lia|exact H]|apply bpow_lt; lia].
Qed.

Lemma giga_val : F giga64 /\ B2R giga64 = 1000000000.
Proof. apply of_Z64'. lia. Qed.
Lemma nano_val : F nano64 /\ Rabs (B2R nano64 - / 1000000000) <= pw (-83).
Proof.
  destruct one64_val as [F1 E1]. destruct giga_val as [F2 E2].
  assert (B : Rabs (/ 1000000000) <= pw (-29)) by (rewrite Rabs_pos_eq by lra; change (pw (-29)) with (/ 536870912); lra).
  pose proof (Bdiv_correct 53 1024 q53 q1024 mode_NE one64 giga64 ltac:(rewrite E2; lra)) as C. cbn [round_mode] in C. rewrite E1, E2 in C.
  replace (1 / 1000000000) with (/ 1000000000) in C by lra. fold (r64 (/ 1000000000)) in C.
  rewrite Rlt_bool_true in C.
  - destruct C as (V & FF & _). unfold nano64, div64. split; [rewrite FF; exact F1|]. rewrite V. exact (r64_err (-29) _ ltac:(lia) B).
  - apply r64_fits. rewrite Rabs_pos_eq by lra. lra.
Qed.
(** the fraction of a second *)
Definition part (fuse : bool) (n : Z) : R := let x := B2R nano64 * IZR n in if fuse then x else r64 x.
Lemma raw_part n : (0 <= n < 1000000000)%Z -> 0 <= B2R nano64 * IZR n <= 1 /\ Rabs (B2R nano64 * IZR n - IZR n / 1000000000) <= pw (-53).
Proof.
  intros [H0 H1]. apply IZR_le in H0. assert (H2 : IZR n <= 999999999) by (apply IZR_le; lia). destruct nano_val as [_ E]. change (pw (-83)) with (/ 9671406556917033397649408) in E. change (pw (-53)) with (/ 9007199254740992).
  assert (D : Rabs ((B2R nano64 - / 1000000000) * IZR n) <= / 9671406556917033397649408 * 999999999) by (rewrite Rabs_mult, (Rabs_pos_eq (IZR n)) by lra; apply Rmult_le_compat; [apply Rabs_pos|lra|lra|lra]).
  replace ((B2R nano64 - / 1000000000) * IZR n) with (B2R nano64 * IZR n - IZR n / 1000000000) in D by (unfold Rdiv; ring).
  split; [|lra]. apply Rabs_le_inv in E. split; [apply Rmult_le_pos; lra|]. apply Rabs_le_inv in D. lra.
Qed.
Lemma part_val fuse n : (0 <= n < 1000000000)%Z -> 0 <= part fuse n <= 1 /\ Rabs (part fuse n - IZR n / 1000000000) <= pw (-53) + pw (-54).
Proof.
  intros H. destruct (raw_part n H) as [B E]. pose proof (bpow_ge_0 radix2 (-54)) as P. unfold part. destruct fuse; [split; [exact B|]; lra|].
  split.
  - split; [rewrite <- (rndf_0 53 1024); apply r64_mono; lra|]. rewrite <- (r64_int 1) by lia. apply r64_mono. lra.
  - pose proof (r64_err 0 (B2R nano64 * IZR n) ltac:(lia)) as K. change (pw 0) with 1 in K. specialize (K ltac:(apply Rabs_le; lra)). change (0 - 54)%Z with (-54)%Z in K.
    replace (r64 (B2R nano64 * IZR n) - IZR n / 1000000000) with ((r64 (B2R nano64 * IZR n) - B2R nano64 * IZR n) + (B2R nano64 * IZR n - IZR n / 1000000000)) by ring.
    eapply Rle_trans; [apply Rabs_triang|]. lra.
Qed.
Lemma part_mono fuse n m : (n <= m)%Z -> part fuse n <= part fuse m.
Proof.
  intros H. apply IZR_le in H. destruct nano_val as [_ E]. change (pw (-83)) with (/ 9671406556917033397649408) in E. apply Rabs_le_inv in E.
  assert (K : B2R nano64 * IZR n <= B2R nano64 * IZR m) by (apply Rmult_le_compat_l; lra). unfold part. destruct fuse; [exact K|now apply r64_mono].
Qed.

Lemma to_sec_val fuse s : well_formed s -> F (to_sec fuse s) /\ seconds (to_sec fuse s) = r64 (IZR (sec s) + part fuse (nsec s)).
Proof.
  intros [[S0 S1] N]. destruct (of_Z64' (sec s) ltac:(lia)) as [Fs Es]. destruct (of_Z64' (nsec s) ltac:(lia)) as [Fn En]. destruct nano_val as [Fk _].
  destruct (part_val fuse (nsec s) N) as [PB _]. destruct (raw_part (nsec s) N) as [RB _]. apply IZR_le in S0. assert (S2 : IZR (sec s) <= 4294967296) by (apply IZR_le; lia).
  unfold to_sec, seconds, part in *. destruct fuse.
  - destruct (fma_fwd 53 1024 q53 q1024 nano64 (g64_of_Z (nsec s)) (g64_of_Z (sec s)) Fk Fn Fs) as [A B].
    + rewrite En, Es. apply r64_fits. apply Rabs_le. lra.
    + split; [exact A|]. unfold fma64. rewrite B, En, Es. f_equal. ring.
  - destruct (mul_fwd 53 1024 q53 q1024 nano64 (g64_of_Z (nsec s)) Fk Fn) as [A B]; [rewrite En; apply r64_fits; apply Rabs_le; lra|]. rewrite En in B.
    destruct (add_fwd 53 1024 q53 q1024 (g64_of_Z (sec s)) (mul64 nano64 (g64_of_Z (nsec s))) Fs A) as [A' B'].
    + unfold mul64. rewrite B, Es. apply r64_fits. apply Rabs_le. lra.
    + split; [exact A'|]. unfold add64. rewrite B'. unfold mul64. rewrite B, Es. reflexivity.
Qed.
Lemma to_sec_between fuse s : well_formed s -> IZR (sec s) <= seconds (to_sec fuse s) <= IZR (sec s) + 1.
Proof.
  intros W. destruct (to_sec_val fuse s W) as [_ E]. destruct W as [[S0 S1] N]. destruct (part_val fuse (nsec s) N) as [PB _]. rewrite E. split.
  - rewrite <- (r64_int (sec s)) at 1 by lia. apply r64_mono. lra.
  - rewrite <- (plus_IZR _ 1), <- (r64_int (sec s + 1)) by lia. apply r64_mono. rewrite plus_IZR. lra.
Qed.
Lemma to_sec_close fuse s k : well_formed s -> (0 <= k <= 32)%Z -> (sec s < 2 ^ k)%Z ->
  Rabs (seconds (to_sec fuse s) - IZR (nanos s) / 1000000000) <= pw (k - 54) + pw (-52).
Proof.
  intros W Hk L. destruct (to_sec_val fuse s W) as [_ E]. destruct W as [[S0 S1] N]. destruct (part_val fuse (nsec s) N) as [PB PE].
  assert (S2 : IZR (sec s) + 1 <= pw k) by (rewrite <- IZR_Zpower by lia; rewrite <- plus_IZR; apply IZR_le; change (radix_val radix2) with 2%Z; lia). apply IZR_le in S0.
  pose proof (r64_err k (IZR (sec s) + part fuse (nsec s)) ltac:(lia) ltac:(apply Rabs_le; lra)) as K. rewrite E. unfold nanos. rewrite plus_IZR, mult_IZR.
  change (pw (-53)) with (/ 9007199254740992) in PE. change (pw (-54)) with (/ 18014398509481984) in PE. change (pw (-52)) with (/ 4503599627370496).
  apply Rabs_le_inv in K. apply Rabs_le_inv in PE. apply Rabs_le. lra.
Qed.

(** ** back *)
Lemma floor64_val (t : g64) : F t -> floor64 t = Some (Zfloor (B2R t)).
Proof.
  destruct t as [s|s| |s m k b]; try discriminate; intros _; cbn [floor64 B2R]; [now rewrite Zfloor_IZR|]. f_equal. set (z := cond_Zopp s (Z.pos m)).
  unfold F2R. cbn [Fnum Fexp]. destruct (Z.leb_spec 0 k) as [L|L].
  - rewrite <- IZR_Zpower by exact L. rewrite <- mult_IZR, Zfloor_IZR. reflexivity.
  - rewrite <- Zfloor_div; [|apply Z.pow_nonzero; lia]. f_equal. replace k with (- (- k))%Z at 2 by lia. rewrite bpow_opp, <- IZR_Zpower by lia. reflexivity.
Qed.
(** the fractional part of a double is a double *)
Lemma frac_exact (t : g64) : F t -> 0 <= B2R t -> r64 (B2R t - IZR (Zfloor (B2R t))) = B2R t - IZR (Zfloor (B2R t)).
Proof.
  intros Ft Pt. pose proof (floor64_val t Ft) as Fl. destruct t as [s|s| |s m k b]; try discriminate.
  - cbn [B2R]. rewrite Zfloor_IZR, Rminus_0_r. apply (rndf_0 53 1024).
  - cbn [floor64 B2R] in *. injection Fl as Fl. rewrite <- Fl. destruct s.
    { exfalso. unfold F2R in Pt. cbn [Fnum Fexp cond_Zopp Z.opp] in Pt. pose proof (bpow_gt_0 radix2 k). assert (IZR (Z.neg m) <= -1) by (apply IZR_le; lia). nra. }
    cbn [cond_Zopp] in *. unfold F2R in *. cbn [Fnum Fexp] in *. destruct (Z.leb_spec 0 k) as [L|L].
    + rewrite mult_IZR, <- (IZR_Zpower radix2 k) by exact L. change (radix_val radix2) with 2%Z. replace (_ - _) with 0 by ring. apply (rndf_0 53 1024).
    + assert (Q : (0 < 2 ^ (- k))%Z) by (apply Z.pow_pos_nonneg; lia).
      assert (EQ : IZR (Z.pos m) * pw k - IZR (Z.pos m / 2 ^ (- k)) = IZR (Z.pos m mod 2 ^ (- k)) * pw k).
      { rewrite (Z.div_mod (Z.pos m) (2 ^ (- k))) at 1 by lia. rewrite plus_IZR, mult_IZR. assert (P1 : IZR (2 ^ (- k)) * pw k = 1).
        { replace k with (- (- k))%Z at 2 by lia. rewrite bpow_opp, <- IZR_Zpower by lia. change (radix_val radix2) with 2%Z. apply Rinv_r. apply not_0_IZR. lia. }
        transitivity (IZR (Z.pos m / 2 ^ (- k)) * (IZR (2 ^ (- k)) * pw k) - IZR (Z.pos m / 2 ^ (- k)) + IZR (Z.pos m mod 2 ^ (- k)) * pw k); [ring|]. rewrite P1. ring. }
      rewrite EQ. apply rndf_gen. apply generic_format_FLT.
      pose proof (Z.mod_pos_bound (Z.pos m) (2 ^ (- k)) Q) as MB. pose proof (Z.mod_le (Z.pos m) (2 ^ (- k)) ltac:(lia) Q) as ML.
      clear Ft. unfold SpecFloat.bounded, SpecFloat.canonical_mantissa in b. apply andb_prop in b as [b1 b2]. apply Zeq_bool_eq in b1. unfold SpecFloat.fexp, SpecFloat.emin in b1.
      exists (Float radix2 (Z.pos m mod 2 ^ (- k)) k); [reflexivity| |cbn [Fexp]; unfold SpecFloat.emin; lia].
      cbn [Fnum]. change (radix_val radix2) with 2%Z. rewrite Z.abs_eq by lia. eapply Z.le_lt_trans; [exact ML|].
      assert (D : (Zpos (Digits.digits2_pos m) <= 53)%Z) by lia. rewrite Digits.Zpos_digits2_pos in D. pose proof (Digits.Zdigits_correct radix2 (Zpos m)) as [_ C]. cbn [Z.abs] in C.
      eapply Z.lt_le_trans; [exact C|]. change (2 ^ 53)%Z with (Zpower radix2 53). apply Zpower_le. exact D.
Qed.
(** nanoseconds handed to the rounding *)
Definition frac (t : g64) : g64 := mul64 (sub64 t (g64_of_Z (Zfloor (B2R t)))) giga64.
Lemma frac_val (t : g64) : F t -> 0 <= B2R t < 4294967296 ->
  F (frac t) /\ 0 <= seconds (frac t) <= 1000000000 /\ seconds (frac t) = r64 ((B2R t - IZR (Zfloor (B2R t))) * 1000000000) /\
  Rabs (seconds (frac t) - (B2R t - IZR (Zfloor (B2R t))) * 1000000000) <= pw (-24).
Proof.
  intros Ft [T0 T1]. set (z := Zfloor (B2R t)). assert (Zb : IZR z <= B2R t < IZR z + 1) by (split; [apply Zfloor_lb|apply Zfloor_ub]).
  assert (Z0 : (0 <= z)%Z) by (apply Zfloor_lub; exact T0). assert (Z1 : (z < 4294967296)%Z) by (apply lt_IZR; lra).
  destruct (of_Z64' z ltac:(lia)) as [Fz Ez]. destruct giga_val as [Fg Eg]. pose proof (frac_exact t Ft T0) as FE. fold z in FE.
  destruct (sub_fwd 53 1024 q53 q1024 t (g64_of_Z z) Ft Fz) as [Fd Ed]; [rewrite Ez; apply r64_fits; apply Rabs_le; lra|]. rewrite Ez, FE in Ed.
  destruct (mul_fwd 53 1024 q53 q1024 _ giga64 Fd Fg) as [Fv Ev]; [rewrite Ed, Eg; apply r64_fits; apply Rabs_le; lra|]. rewrite Ed, Eg in Ev.
  unfold frac, seconds. fold z. split; [exact Fv|]. change (B2R (mul64 (sub64 t (g64_of_Z z)) giga64) = r64 ((B2R t - IZR z) * 1000000000)) in Ev. rewrite Ev. split; [|split; [reflexivity|]].
  - pose proof (r64_mono 0 ((B2R t - IZR z) * 1000000000) ltac:(lra)) as A1. pose proof (r64_mono ((B2R t - IZR z) * 1000000000) 1000000000 ltac:(lra)) as A2.
    rewrite (rndf_0 53 1024) in A1. rewrite (r64_int 1000000000) in A2 by lia. lra.
  - apply (r64_err 30); [lia|]. change (pw 30) with 1073741824. apply Rabs_le. lra.
Qed.
Lemma from_sec_val rd t : rounds rd -> F t -> 0 <= B2R t < 4294967295 ->
  exists s, from_sec rd t = Some s /\ well_formed s /\ nanos s = (Zfloor (B2R t) * 1000000000 + rd (frac t))%Z /\
  Rabs (IZR (nanos s) - B2R t * 1000000000) <= / 2 + / 2 ^ 19 /\ (0 <= rd (frac t) <= 1000000000)%Z.
Proof.
  intros HR Ft [T0 T1]. unfold from_sec. rewrite (floor64_val t Ft). set (z := Zfloor (B2R t)).
  assert (Zb : IZR z <= B2R t < IZR z + 1) by (split; [apply Zfloor_lb|apply Zfloor_ub]).
  assert (Z0 : (0 <= z)%Z) by (apply Zfloor_lub; exact T0). assert (Z1 : (z < 4294967295)%Z) by (apply lt_IZR; lra).
  destruct (frac_val t Ft ltac:(lra)) as (Fv & Bv & _ & Cv). fold z in Cv. specialize (HR (frac t) Fv Bv). fold z. change (mul64 (sub64 t (g64_of_Z z)) giga64) with (frac t).
  replace (2 ^ 20) with 1048576 in HR by ring. replace (2 ^ 19) with 524288 by ring. change (pw (-24)) with (/ 16777216) in Cv. apply Rabs_le_inv in HR. apply Rabs_le_inv in Cv.
  set (n := rd (frac t)) in *. assert (N0 : (0 <= n)%Z) by (apply Z.lt_pred_le; apply lt_IZR; change (Z.pred 0) with (-1)%Z; lra).
  assert (N1 : (n <= 1000000000)%Z) by (apply Zlt_succ_le; apply lt_IZR; unfold Z.succ; rewrite plus_IZR; lra).
  replace ((0 <=? z)%Z && (z <=? 4294967295)%Z) with true by (symmetry; apply andb_true_intro; split; apply Z.leb_le; lia).
  eexists. split; [reflexivity|].
  assert (Q : (n = 1000000000 * (n / 1000000000) + n mod 1000000000)%Z) by (apply Z.div_mod; lia). pose proof (Z.mod_pos_bound n 1000000000 ltac:(lia)) as Mb.
  assert (QB : (0 <= n / 1000000000 <= 1)%Z) by lia.
  assert (E : nanos {| sec := ((z + n / 1000000000) mod 4294967296)%Z; nsec := (n mod 1000000000)%Z |} = (z * 1000000000 + n)%Z).
  { unfold nanos. cbn [sec nsec]. rewrite Z.mod_small by lia. lia. }
  split; [unfold well_formed; cbn [sec nsec]; rewrite (Z.mod_small (z + _)) by lia; change (2 ^ 32)%Z with 4294967296%Z; lia|]. split; [exact E|]. split; [|lia].
  rewrite E, plus_IZR, mult_IZR. apply Rabs_le. lra.
Qed.

(** ** properties *)
Lemma to_sec_mono fuse a b : well_formed a -> well_formed b -> (nanos a <= nanos b)%Z -> seconds (to_sec fuse a) <= seconds (to_sec fuse b).
Proof.
  intros Wa Wb H. destruct (Z.eq_dec (sec a) (sec b)) as [E|E].
  - destruct (to_sec_val fuse a Wa) as [_ Ea]. destruct (to_sec_val fuse b Wb) as [_ Eb]. rewrite Ea, Eb, E. apply r64_mono.
    assert (nsec a <= nsec b)%Z by (unfold nanos in H; rewrite E in H; lia). pose proof (part_mono fuse _ _ H0). lra.
  - pose proof (to_sec_between fuse a Wa) as Ba. pose proof (to_sec_between fuse b Wb) as Bb. destruct Wa as [Sa Na], Wb as [Sb Nb]. unfold nanos in H.
    assert (L : (sec a + 1 <= sec b)%Z) by lia. apply IZR_le in L. rewrite plus_IZR in L. lra.
Qed.
Lemma close31 fuse s : well_formed s -> (sec s < 2 ^ 31)%Z -> Rabs (seconds (to_sec fuse s) - IZR (nanos s) / 1000000000) <= 119210 / 1000000000000.
Proof.
  intros W L. pose proof (to_sec_close fuse s 31 W ltac:(lia) L) as K. change (pw (31 - 54)) with (/ 8388608) in K. change (pw (-52)) with (/ 4503599627370496) in K. lra.
Qed.
Lemma to_sec_apart fuse a b : well_formed a -> well_formed b -> (sec a < 2 ^ 31)%Z -> (sec b < 2 ^ 31)%Z -> (nanos a + 239 <= nanos b)%Z ->
  seconds (to_sec fuse a) < seconds (to_sec fuse b).
Proof.
  intros Wa Wb La Lb H. pose proof (close31 fuse a Wa La) as Ca. pose proof (close31 fuse b Wb Lb) as Cb. apply IZR_le in H. rewrite plus_IZR in H.
  apply Rabs_le_inv in Ca. apply Rabs_le_inv in Cb. lra.
Qed.
Lemma trip rd fuse s k : rounds rd -> well_formed s -> (0 <= k <= 31)%Z -> (sec s < 2 ^ k)%Z ->
  exists s', from_sec rd (to_sec fuse s) = Some s' /\ well_formed s' /\
  Rabs (IZR (nanos s') - IZR (nanos s)) <= (pw (k - 54) + pw (-52)) * 1000000000 + / 2 + / 2 ^ 19.
Proof.
  intros HR W Hk L. pose proof (to_sec_between fuse s W) as B. pose proof (to_sec_close fuse s k W ltac:(lia) L) as C. destruct (to_sec_val fuse s W) as [FT _].
  destruct W as [[S0 S1] N]. assert (L' : (sec s + 1 <= 2147483648)%Z) by (assert (2 ^ k <= 2 ^ 31)%Z by (apply Z.pow_le_mono_r; lia); change (2 ^ 31)%Z with 2147483648%Z in *; lia).
  apply IZR_le in S0. apply IZR_le in L'. rewrite plus_IZR in L'. unfold seconds in *.
  destruct (from_sec_val rd (to_sec fuse s) HR FT ltac:(lra)) as (s' & E & W' & _ & A & _). exists s'. split; [exact E|]. split; [exact W'|].
  apply Rabs_le_inv in A. apply Rabs_le_inv in C. set (e := pw (k - 54) + pw (-52)) in *. apply Rabs_le. lra.
Qed.
Lemma int_small z m : Rabs (IZR z) < IZR m + 1 -> (Z.abs z <= m)%Z.
Proof. intros H. rewrite <- abs_IZR, <- plus_IZR in H. apply lt_IZR in H. lia. Qed.
Lemma trip31 rd fuse s : rounds rd -> well_formed s -> (sec s < 2 ^ 31)%Z ->
  exists s', from_sec rd (to_sec fuse s) = Some s' /\ well_formed s' /\ (Z.abs (nanos s' - nanos s) <= 119)%Z.
Proof.
  intros HR W L. destruct (trip rd fuse s 31 HR W ltac:(lia) L) as (s' & E & W' & A). exists s'. split; [exact E|]. split; [exact W'|].
  change (pw (31 - 54)) with (/ 8388608) in A. change (pw (-52)) with (/ 4503599627370496) in A. replace (2 ^ 19) with 524288 in A by ring.
  apply int_small. rewrite minus_IZR. lra.
Qed.
Lemma nanos_inj a b : well_formed a -> well_formed b -> nanos a = nanos b -> a = b.
Proof. destruct a as [x y], b as [z w]. unfold well_formed, nanos. cbn. intros. assert (x = z) by lia. assert (y = w) by lia. congruence. Qed.
Lemma trip23 rd fuse s : rounds rd -> well_formed s -> (sec s < 2 ^ 23)%Z -> from_sec rd (to_sec fuse s) = Some s.
Proof.
  intros HR W L. destruct (trip rd fuse s 23 HR W ltac:(lia) L) as (s' & E & W' & A). rewrite E. f_equal. apply nanos_inj; auto.
  change (pw (23 - 54)) with (/ 2147483648) in A. change (pw (-52)) with (/ 4503599627370496) in A. replace (2 ^ 19) with 524288 in A by ring.
  assert (Z.abs (nanos s' - nanos s) <= 0)%Z; [|lia]. apply int_small. rewrite minus_IZR. lra.
Qed.
(** spacing of doubles from 2^23 on *)
Lemma grid (t : g64) : 8388608 <= B2R t -> exists n, B2R t = IZR n * pw (-29).
Proof.
  intros H. pose proof (generic_format_B2R 53 1024 t) as G. rewrite G. unfold F2R. cbn [Fnum Fexp]. set (c := cexp _ _ _). set (m := Ztrunc _).
  assert (C : (-29 <= c)%Z).
  { unfold c, cexp. assert (24 <= mag radix2 (B2R t))%Z by (apply mag_ge_bpow; rewrite Rabs_pos_eq by lra; exact H). unfold SpecFloat.fexp, SpecFloat.emin. lia. }
  exists (m * 2 ^ (c + 29))%Z. rewrite mult_IZR. change 2%Z with (radix_val radix2). rewrite IZR_Zpower by lia. rewrite Rmult_assoc, <- bpow_plus. do 2 f_equal. lia.
Qed.
Lemma published_strict rd t1 t2 : rounds rd -> F t1 -> F t2 -> 8388608 <= B2R t1 -> B2R t1 < B2R t2 -> B2R t2 < 4294967295 ->
  exists a b, from_sec rd t1 = Some a /\ from_sec rd t2 = Some b /\ well_formed a /\ well_formed b /\ (nanos a < nanos b)%Z.
Proof.
  intros HR F1 F2 L H U. destruct (from_sec_val rd t1 HR F1 ltac:(lra)) as (a & Ea & Wa & _ & Aa & _). destruct (from_sec_val rd t2 HR F2 ltac:(lra)) as (b & Eb & Wb & _ & Ab & _).
  exists a, b. repeat (split; [assumption|]). destruct (grid t1 L) as [n1 G1]. destruct (grid t2 ltac:(lra)) as [n2 G2].
  change (pw (-29)) with (/ 536870912) in *. assert (N : (n1 + 1 <= n2)%Z) by (apply Zlt_le_succ, lt_IZR; lra). apply IZR_le in N. rewrite plus_IZR in N.
  replace (2 ^ 19) with 524288 in * by ring. apply Rabs_le_inv in Aa. apply Rabs_le_inv in Ab. apply lt_IZR. lra.
Qed.
Lemma published_of_stamps rd fuse a b : rounds rd -> well_formed a -> well_formed b -> (sec b < 2 ^ 32 - 2)%Z -> seconds (to_sec fuse a) < seconds (to_sec fuse b) ->
  exists a' b', from_sec rd (to_sec fuse a) = Some a' /\ from_sec rd (to_sec fuse b) = Some b' /\ well_formed a' /\ well_formed b' /\ (nanos a' < nanos b')%Z.
Proof.
  intros HR Wa Wb Lb H. pose proof (to_sec_between fuse a Wa) as Ba. pose proof (to_sec_between fuse b Wb) as Bb.
  destruct (to_sec_val fuse a Wa) as [Fa _]. destruct (to_sec_val fuse b Wb) as [Fb _]. unfold seconds in *.
  assert (Ub : B2R (to_sec fuse b) < 4294967295) by (assert (sec b <= 4294967293)%Z by lia; apply IZR_le in H0; lra).
  destruct (Rle_dec 8388608 (B2R (to_sec fuse a))) as [L|L]; [now apply published_strict|].
  assert (La : (sec a < 2 ^ 23)%Z) by (apply lt_IZR; change (IZR (2 ^ 23)) with 8388608; lra).
  pose proof (trip23 rd fuse a HR Wa La) as Ea. exists a.
  destruct (Rle_dec 8388608 (B2R (to_sec fuse b))) as [K|K].
  - destruct (from_sec_val rd (to_sec fuse b) HR Fb ltac:(lra)) as (b' & Eb & Wb' & Nb & _ & Rb). exists b'. repeat (split; [assumption|]). rewrite Nb.
    assert (8388608 <= Zfloor (B2R (to_sec fuse b)))%Z by (apply Zfloor_lub; exact K). unfold nanos. destruct Wa as [_ Na]. change (2 ^ 23)%Z with 8388608%Z in La. lia.
  - assert (Lb' : (sec b < 2 ^ 23)%Z) by (apply lt_IZR; change (IZR (2 ^ 23)) with 8388608; lra).
    pose proof (trip23 rd fuse b HR Wb Lb') as Eb. exists b. repeat (split; [assumption|]).
    apply Z.nle_gt. intros N. pose proof (to_sec_mono fuse b a Wb Wa N) as K'. unfold seconds in K'. lra.
Qed.
Lemma published_mono rd t1 t2 : rounds rd -> monotone rd -> F t1 -> F t2 -> 0 <= B2R t1 -> B2R t1 <= B2R t2 -> B2R t2 < 4294967295 ->
  exists a b, from_sec rd t1 = Some a /\ from_sec rd t2 = Some b /\ well_formed a /\ well_formed b /\ (nanos a <= nanos b)%Z.
Proof.
  intros HR HM F1 F2 L H U. destruct (from_sec_val rd t1 HR F1 ltac:(lra)) as (a & Ea & Wa & Na & _ & Ra). destruct (from_sec_val rd t2 HR F2 ltac:(lra)) as (b & Eb & Wb & Nb & _ & Rb).
  exists a, b. repeat (split; [assumption|]). rewrite Na, Nb. pose proof (Zfloor_le _ _ H) as Z. destruct (Z.eq_dec (Zfloor (B2R t1)) (Zfloor (B2R t2))) as [E|E]; [|lia].
  destruct (frac_val t1 F1 ltac:(lra)) as (Fv & _ & Ev & _). destruct (frac_val t2 F2 ltac:(lra)) as (Fw & _ & Ew & _).
  assert (rd (frac t1) <= rd (frac t2))%Z by (apply HM; auto; rewrite Ev, Ew, E; apply r64_mono; lra). lia.
Qed.
Lemma interval_close fuse a b : well_formed a -> well_formed b -> (sec a < 2 ^ 31)%Z -> (sec b < 2 ^ 31)%Z -> (Z.abs (nanos b - nanos a) <= 1000000000)%Z ->
  F (interval (to_sec fuse a) (to_sec fuse b)) /\
  Rabs (seconds (interval (to_sec fuse a) (to_sec fuse b)) - IZR (nanos b - nanos a) / 1000000000) <= 239 / 1000000000.
Proof.
  intros Wa Wb La Lb D. pose proof (close31 fuse a Wa La) as Ca. pose proof (close31 fuse b Wb Lb) as Cb. destruct (to_sec_val fuse a Wa) as [Fa _]. destruct (to_sec_val fuse b Wb) as [Fb _].
  apply IZR_le in D. rewrite abs_IZR in D. rewrite minus_IZR in *. apply Rabs_le_inv in Ca. apply Rabs_le_inv in Cb. apply Rabs_le_inv in D. unfold seconds, interval in *.
  destruct (sub_fwd 53 1024 q53 q1024 (to_sec fuse b) (to_sec fuse a) Fb Fa) as [FS ES]; [apply r64_fits; apply Rabs_le; lra|]. split; [exact FS|]. unfold sub64. rewrite ES.
  pose proof (r64_err 1 (B2R (to_sec fuse b) - B2R (to_sec fuse a)) ltac:(lia)) as K. change (pw 1) with 2 in K. specialize (K ltac:(apply Rabs_le; lra)).
  change (pw (1 - 54)) with (/ 9007199254740992) in K. apply Rabs_le_inv in K. apply Rabs_le. lra.
Qed.
(** the rounding with halves up *)
Lemma round_up_val (v : g64) : F v -> round_up64 v = Zfloor (B2R v + / 2).
Proof.
  destruct v as [s|s| |s m k b]; try discriminate; intros _; cbn [round_up64 B2R].
  - symmetry. apply Zfloor_imp. cbn. lra.
  - set (z := cond_Zopp s (Z.pos m)). unfold F2R. cbn [Fnum Fexp]. destruct (Z.leb_spec 0 k) as [L|L].
    + symmetry. apply Zfloor_imp. rewrite plus_IZR, mult_IZR. change (2 ^ k)%Z with (radix_val radix2 ^ k)%Z. rewrite IZR_Zpower by exact L. lra.
    + assert (Q : (0 < 2 ^ (- k))%Z) by (apply Z.pow_pos_nonneg; lia). rewrite <- Zfloor_div by lia. f_equal.
      rewrite plus_IZR, !mult_IZR. assert (Q1 : 0 < IZR (2 ^ (- k))) by (now apply IZR_lt).
      replace (pw k) with (/ IZR (2 ^ (- k))) by (replace k with (- (- k))%Z at 2 by lia; rewrite bpow_opp, <- IZR_Zpower by lia; reflexivity). field. lra.
Qed.
Lemma round_up_ok : rounds round_up64 /\ monotone round_up64.
Proof.
  split.
  - intros v Fv _. rewrite (round_up_val v Fv). pose proof (Zfloor_lb (B2R v + / 2)). pose proof (Zfloor_ub (B2R v + / 2)). unfold seconds. assert (0 < / 2 ^ 20) by (apply Rinv_0_lt_compat, pow_lt; lra).
    apply Rabs_le. lra.
  - intros v w Fv Fw H. rewrite (round_up_val v Fv), (round_up_val w Fw). apply Zfloor_le. unfold seconds in H. lra.
Qed.
