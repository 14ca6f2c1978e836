(** Error of the equidistant projection in doubles. *)
From Coq Require Import ZArith Bool Reals Ratan Lia Lra Psatz.
From Flocq Require Import Core BinarySingleNaN Relative.
From Verif Require Import IeeeModel IeeeSpec IeeeReal StampModel IcamModel IcamSpec IcamAccSpec IcamProofs IcamAcc IcamSph.
Local Open Scope R_scope.

Local Notation fe := (SpecFloat.fexp 53 1024).
Local Notation rn := (round radix2 fe ZnearestE).
Definition eta : R := bpow radix2 (-1000).
Lemma rn_mix w : Rabs (rn w - w) <= hu * Rabs w + eta.
Proof.
  pose proof (Rabs_pos w) as A. pose proof hu_pos. assert (E0 : 0 < eta) by apply bpow_gt_0.
  destruct (Rle_or_lt (bpow radix2 (-1022)) (Rabs w)) as [H1|H1].
  - pose proof (relative_error_N_FLT radix2 (-1074) 53 ltac:(lia) (fun z => negb (Z.even z)) w H1) as E.
    replace (/ 2 * bpow radix2 (- (53) + 1)) with hu in E by (unfold hu; rewrite bpow_plus; cbn; lra).
    apply Rle_trans with (hu * Rabs w); [exact E|lra].
  - pose proof (rndf_err 53 1024 q53 (-1022) w ltac:(lra) ltac:(unfold SpecFloat.fexp, SpecFloat.emin; lia)) as E. unfold rndf in E.
    assert (bpow radix2 (-1022 - 53) <= eta) by (apply bpow_le; lia). nra.
Qed.
Lemma atan_lip a b : Rabs (atan a - atan b) <= Rabs (a - b).
Proof.
  assert (W : forall x y, x < y -> 0 <= atan y - atan x <= y - x).
  { intros x y L. destruct (MVT_cor2 atan (fun t => / (1 + t ^ 2)) x y L) as (t & E & _).
    - intros t _. pose proof (derivable_pt_lim_atan t) as D. exact D.
    - rewrite E. assert (0 < / (1 + t ^ 2) <= 1) by (split; [apply Rinv_0_lt_compat; nra|rewrite <- Rinv_1; apply Rinv_le_contravar; nra]). nra. }
  destruct (Rtotal_order a b) as [L|[->|L]].
  - specialize (W a b L). rewrite (Rabs_minus_sym a b), (Rabs_minus_sym (atan a)), !Rabs_pos_eq; lra.
  - rewrite !Rminus_diag_eq by reflexivity. lra.
  - specialize (W b a L). rewrite !Rabs_pos_eq; lra.
Qed.
Lemma atan_le_self a : 0 <= a -> 0 <= atan a <= a.
Proof.
  intros H. assert (P : 0 <= atan a) by (destruct H as [H| <-]; [rewrite <- atan_0; left; now apply atan_increasing|rewrite atan_0; lra]).
  pose proof (atan_lip a 0) as L. rewrite atan_0, !Rminus_0_r, !Rabs_pos_eq in L by lra. lra.
Qed.
(** the sum of squares, relative to itself *)
Lemma sq_rel k a q x y : bd 2 x -> bd 2 y -> q = B2R x * B2R x + B2R y * B2R y -> bpow radix2 (-60) <= q -> a = B2R (sop k x x y y) -> Rabs (a - q) <= 3 * hu * q.
Proof.
  intros X Y Q L ->. assert (X2 : 0 <= B2R x * B2R x) by nra. assert (Y2 : 0 <= B2R y * B2R y) by nra.
  destruct (mul_val 2 2 x x X X ltac:(lia)) as [PX EX]. destruct (mul_val 2 2 y y Y Y ltac:(lia)) as [PY EY].
  pose proof (rn_mix (B2R x * B2R x)) as MX. pose proof (rn_mix (B2R y * B2R y)) as MY. rewrite <- EX in MX. rewrite <- EY in MY. rewrite (Rabs_pos_eq _ X2) in MX. rewrite (Rabs_pos_eq _ Y2) in MY.
  assert (T : eta <= hu * q / 1000).
  { unfold eta. replace (bpow radix2 (-1000)) with (bpow radix2 (-940) * bpow radix2 (-60)) by (rewrite <- bpow_plus; reflexivity).
    assert (bpow radix2 (-940) <= hu / 1000) by (apply Rle_trans with (bpow radix2 (-64)); [apply bpow_le; lia|unfold hu; cbn; lra]).
    pose proof (bpow_gt_0 radix2 (-940)). pose proof (bpow_gt_0 radix2 (-60)). nra. }
  assert (Hq : 0 < hu * q) by (pose proof hu_pos; pose proof (bpow_gt_0 radix2 (-60)); nra). assert (Hh : hu * (hu * q) <= hu * q / 1000) by (unfold hu in *; lra).
  assert (FIN : forall t, Rabs (t - q) <= hu * q + 2 * eta -> Rabs (rn t - q) <= 3 * hu * q).
  { intros t T1. pose proof (rn_mix t) as M. assert (S : Rabs t <= q + (hu * q + 2 * eta)) by (apply (size _ q); [rewrite Rabs_pos_eq; lra|exact T1]).
    pose proof (tri (rn t) t q). pose proof hu_pos. assert (hu * Rabs t <= hu * q + hu * (hu * q) + 2 * (hu * eta)) by nra. assert (hu * eta <= eta) by (assert (0 < eta) by apply bpow_gt_0; unfold hu; lra). lra. }
  assert (P1 : forall t s, Rabs (t - B2R x * B2R x) <= hu * (B2R x * B2R x) + eta -> Rabs (s - B2R y * B2R y) <= hu * (B2R y * B2R y) + eta -> Rabs (t + s - q) <= hu * q + 2 * eta).
  { intros t s A B. replace (t + s - q) with ((t - B2R x * B2R x) + (s - B2R y * B2R y)) by (rewrite Q; ring). eapply Rle_trans; [apply Rabs_triang|]. rewrite Q. lra. }
  assert (Z : forall t, 0 <= t -> Rabs (t - t) <= hu * t + eta) by (intros t Ht; rewrite Rminus_diag_eq, Rabs_R0 by reflexivity; assert (0 < eta) by apply bpow_gt_0; pose proof hu_pos; nra).
  change (2 + 2)%Z with 4%Z in PX, PY.
  destruct k; cbn [sop].
  - rewrite (proj2 (add_val 4 _ _ PX PY ltac:(lia))). apply FIN, P1; assumption.
  - rewrite (proj2 (fma_val 2 2 4 _ _ _ X X PY ltac:(lia) ltac:(lia))). apply FIN, P1; [apply Z|]; assumption.
  - rewrite (proj2 (fma_val 2 2 4 _ _ _ Y Y PX ltac:(lia) ltac:(lia))). rewrite Rplus_comm. apply FIN, P1; [|apply Z]; assumption.
Qed.
Lemma eta_small q : bpow radix2 (-70) <= q -> 0 < eta <= hu * q / 1000.
Proof.
  intros H. split; [apply bpow_gt_0|]. unfold eta. replace (bpow radix2 (-1000)) with (bpow radix2 (-930) * bpow radix2 (-70)) by (rewrite <- bpow_plus; reflexivity).
  assert (bpow radix2 (-930) <= hu / 1000) by (apply Rle_trans with (bpow radix2 (-64)); [apply bpow_le; lia|unfold hu; cbn; lra]).
  pose proof (bpow_gt_0 radix2 (-930)). pose proof (bpow_gt_0 radix2 (-70)). nra.
Qed.
Lemma sq_close a v : Rabs v <= 2 -> Rabs (a - v) <= hu * Rabs v + eta -> Rabs (a * a - v * v) <= 3 * hu * (v * v) + 8 * eta.
Proof.
  intros V H. assert (E0 : 0 < eta <= 1) by (split; [apply bpow_gt_0|change 1 with (bpow radix2 0); apply bpow_le; lia]). pose proof (Rabs_pos v) as P.
  replace (a * a - v * v) with ((a - v) * (2 * v + (a - v))) by ring. rewrite Rabs_mult.
  assert (T : Rabs (2 * v + (a - v)) <= 2 * Rabs v + (hu * Rabs v + eta)) by (eapply Rle_trans; [apply Rabs_triang|]; rewrite Rabs_mult, (Rabs_pos_eq 2) by lra; lra).
  replace (v * v) with (Rabs v * Rabs v) by (rewrite <- Rabs_mult, Rabs_pos_eq; nra).
  set (n := Rabs v) in *. clearbody n. pose proof (Rabs_pos (a - v)). pose proof (Rabs_pos (2 * v + (a - v))).
  apply Rle_trans with ((hu * n + eta) * (2 * n + (hu * n + eta))); [apply Rmult_le_compat; assumption|]. pose proof hu_pos. assert (hu <= / 1000) by (unfold hu; lra).
  assert (0 <= n * n) by nra. assert (0 <= n * eta <= 2 * eta) by nra. assert (0 <= eta * eta <= eta) by nra. assert (hu * (n * eta) <= eta / 100) by nra. assert (hu * (hu * (n * n)) <= hu * (n * n)) by nra. nra.
Qed.
Lemma sqrt_rel r2 q : 0 < q -> 0 <= r2 -> Rabs (r2 - q) <= 7 * hu * q -> Rabs (sqrt r2 - sqrt q) <= 7 * hu * sqrt q.
Proof.
  intros Q A H. pose proof (sqrt_lt_R0 q Q) as S1. pose proof (sqrt_pos r2) as S2.
  assert (E : r2 - q = (sqrt r2 - sqrt q) * (sqrt r2 + sqrt q)).
  { replace r2 with (sqrt r2 * sqrt r2) at 1 by (apply sqrt_sqrt; lra). replace q with (sqrt q * sqrt q) at 1 by (apply sqrt_sqrt; lra). ring. }
  rewrite E, Rabs_mult, (Rabs_pos_eq (sqrt r2 + sqrt q)) in H by lra. replace q with (sqrt q * sqrt q) in H at 3 by (apply sqrt_sqrt; lra). pose proof (Rabs_pos (sqrt r2 - sqrt q)).
  apply Rmult_le_reg_r with (sqrt q); [exact S1|]. nra.
Qed.

Section E.
Variables (cz : nat -> contraction) (at64 : g64 -> g64) (c : camera64).
Hypotheses (Us : usual c) (K4 : at_most 1 (c_k4 c)) (At : accurate_atan at64).
Definition rel (x : g64) (v : R) : Prop := ap 2 (2 * hu) x v /\ Rabs (B2R x - v) <= hu * Rabs v + eta.
Lemma nano_val : is_finite nano10 = true /\ bpow radix2 (-27) <= B2R nano10 < bpow radix2 (-26).
Proof. split; [vm_compute; reflexivity|]. rewrite <- SF2R_B2SF. replace (B2SF nano10) with (SpecFloat.S754_finite false 6044629098073146 (-79)) by (vm_compute; reflexivity). unfold SF2R, F2R. cbn. lra. Qed.
(** the radius, when the short cut is not taken *)
Lemma radius x y v w : rel x v -> rel y w -> let r := sqrt64 (sop (cz 0) x x y y) in let R := sqrt (v * v + w * w) in
  bpow radix2 (-27) <= B2R r -> bpow radix2 (-31) <= R <= 3 /\ Rabs (B2R r - R) <= 9 * hu * R.
Proof.
  intros [X XR] [Y YR] r R H.
  assert (BX : bd 2 x) by (apply (ap_bd _ _ _ _ 4 2 X); side). assert (BY : bd 2 y) by (apply (ap_bd _ _ _ _ 4 2 Y); side).
  assert (B2 : bd 6 (sop (cz 0) x x y y)) by (apply (bd_up 5); [apply (bd_sop _ 2 2 2 2 4); auto; lia|lia]).
  assert (GE : 0 <= B2R (sop (cz 0) x x y y)) by (apply r2_ge; apply (bd_up 2); (assumption || lia)).
  destruct (sqrt_val 3 _ B2 ltac:(lia) GE) as [_ Er]. fold r in Er.
  set (q' := B2R x * B2R x + B2R y * B2R y).
  assert (L : bpow radix2 (-60) <= q').
  { apply Rnot_lt_le. intros C. assert (S : forall t, t * t <= q' -> Rabs t <= bpow radix2 (-30)).
    { intros t T. apply Rnot_lt_le. intros D. pose proof (bpow_gt_0 radix2 (-30)). assert (bpow radix2 (-60) < Rabs t * Rabs t) by (change (-60)%Z with (-30 + -30)%Z; rewrite bpow_plus; nra). rewrite <- Rabs_mult, Rabs_pos_eq in H1 by nra. lra. }
    assert (SX : bd (-30) x) by (split; [exact (proj1 X)|apply S; unfold q'; nra]). assert (SY : bd (-30) y) by (split; [exact (proj1 Y)|apply S; unfold q'; nra]).
    pose proof (bd_sop (cz 0) _ _ _ _ (-60) _ _ _ _ SX SX SY SY ltac:(lia) ltac:(lia) ltac:(lia) ltac:(lia) ltac:(lia)) as [_ SS]. rewrite Rabs_pos_eq in SS by exact GE.
    assert (T : Rabs (sqrt (B2R (sop (cz 0) x x y y))) <= bpow radix2 (-29)).
    { rewrite Rabs_pos_eq by apply sqrt_pos. rewrite <- (sqrt_square (bpow radix2 (-29))) by apply bpow_ge_0. apply sqrt_le_1_alt. rewrite <- bpow_plus. eapply Rle_trans; [exact SS|apply bpow_le; lia]. }
    apply (rn_le (-29)) in T; [|lia]. rewrite <- Er in T. pose proof (Rle_abs (B2R r)). pose proof (bpow_lt radix2 (-29) (-27) ltac:(lia)). lra. }
  pose proof (sq_rel (cz 0) _ q' x y BX BY eq_refl L eq_refl) as SR. set (r2 := B2R (sop (cz 0) x x y y)) in *. clearbody r2.
  destruct X as (Fx & Xb & _). destruct Y as (Fy & Yb & _).
  pose proof (sq_close _ _ Xb XR) as CX. pose proof (sq_close _ _ Yb YR) as CY. set (q := v * v + w * w) in *.
  assert (Q : Rabs (q' - q) <= 3 * hu * q + 16 * eta).
  { replace (q' - q) with ((B2R x * B2R x - v * v) + (B2R y * B2R y - w * w)) by (unfold q', q; ring). eapply Rle_trans; [apply Rabs_triang|]. unfold q. lra. }
  destruct (eta_small q') as [E0 E1]; [eapply Rle_trans; [|exact L]; apply bpow_le; lia|]. pose proof hu_pos as HP.
  assert (Q8 : 0 <= q <= 8) by (apply Rabs_le_inv in Xb, Yb; unfold q; nra).
  apply Rabs_le_inv in Q. assert (QP : bpow radix2 (-61) <= q).
  { change (-61)%Z with (-60 + -1)%Z. rewrite bpow_plus. change (bpow radix2 (-1)) with (/ 2). unfold hu in *. lra. }
  assert (RR : Rabs (r2 - q) <= 7 * hu * q) by (apply Rabs_le_inv in SR; apply Rabs_le; unfold hu in *; lra).
  pose proof (bpow_gt_0 radix2 (-61)) as P61. pose proof (sqrt_rel r2 q ltac:(lra) GE RR) as SQ. fold R in SQ.
  assert (RL : bpow radix2 (-31) <= R).
  { unfold R. rewrite <- (sqrt_square (bpow radix2 (-31))) by apply bpow_ge_0. apply sqrt_le_1_alt. rewrite <- bpow_plus. eapply Rle_trans; [|exact QP]. apply bpow_le. lia. }
  assert (RU : R <= 3) by (unfold R; rewrite <- (sqrt_square 3) by lra; apply sqrt_le_1_alt; lra).
  split; [split; assumption|]. rewrite Er. destruct (eta_small R) as [_ E2]; [eapply Rle_trans; [|exact RL]; apply bpow_le; lia|].
  pose proof (rn_mix (sqrt r2)) as M. pose proof (bpow_gt_0 radix2 (-31)). pose proof (size (sqrt r2) R _ R ltac:(rewrite Rabs_pos_eq; lra) SQ) as S.
  pose proof (tri (rn (sqrt r2)) (sqrt r2) R). unfold hu in *. lra.
Qed.
Lemma equi_acc x y v w : rel x v -> rel y w ->
  ap 1200 (/ 60000000) (fst (equidist64 cz at64 c x y)) (fst (exact_equi c v w)) /\ ap 1200 (/ 60000000) (snd (equidist64 cz at64 c x y)) (snd (exact_equi c v w)).
Proof.
  intros XX YY. pose proof XX as [X XR]. pose proof YY as [Y YR]. destruct Us as (K1 & K2 & K3 & _). pose proof K4 as K4'.
  pose proof (proj2 K1) as B1. pose proof (proj2 K2) as B2. pose proof (proj2 K3) as B3. pose proof (proj2 K4) as B4. apply ap_exact in K1, K2, K3, K4'.
  unfold equidist64, exact_equi. cbv zeta. pose proof (radius x y v w XX YY) as RA. cbv zeta in RA. unfold val64 in *.
  set (k1 := B2R (c_k1 c)) in *. set (k2 := B2R (c_k2 c)) in *. set (k3 := B2R (c_k3 c)) in *. set (k4 := B2R (c_k4 c)) in *.
  assert (BX : bd 2 x) by (apply (ap_bd _ _ _ _ 4 2 X); side). assert (BY : bd 2 y) by (apply (ap_bd _ _ _ _ 4 2 Y); side).
  apply (bd_up _ 101) in BX; [|lia]. apply (bd_up _ 101) in BY; [|lia].
  assert (GE : 0 <= B2R (sop (cz 0) x x y y)) by (apply r2_ge; assumption).
  assert (BB : bd 204 (sop (cz 0) x x y y)) by (apply (bd_up 203); [apply (bd_sop _ 101 101 101 101 202); auto; lia|lia]).
  destruct (sqrt_val 102 _ BB ltac:(lia) GE) as [[Fr _] Er].
  pose proof (r2_big cz x y BX BY) as BIG. set (r2 := sop (cz 0) x x y y) in *. clearbody r2. set (r := sqrt64 r2) in *. clearbody r.
  assert (Q0 : 0 <= v * v + w * w) by nra. set (R := sqrt (v * v + w * w)) in *. set (t := atan R).
  assert (R0 : 0 <= R) by apply sqrt_pos. pose proof (atan_le_self R R0) as T0. fold t in T0. pose proof hu_pos as HP.
  destruct (Bltb r nano10) eqn:B; cbn [fst snd].
  { clear RA. apply ltb_true in B; [|exact Fr|exact (proj1 nano_val)]. pose proof (proj2 nano_val) as NV.
    assert (SM : Rabs (B2R x) <= bpow radix2 (-26) /\ Rabs (B2R y) <= bpow radix2 (-26)).
    { assert (NO : ~ bpow radix2 (-52) <= B2R r2).
      { intros C. assert (bpow radix2 (-26) <= B2R r); [|lra]. rewrite Er. apply rn_ge; [apply fmt_bpow; lia|]. rewrite <- (sqrt_square (bpow radix2 (-26))) by apply bpow_ge_0. apply sqrt_le_1_alt. rewrite <- bpow_plus. exact C. }
      split; apply Rnot_lt_le; intros C; apply NO, BIG; [left|right]; exact C. }
    destruct SM as [SX SY]. change (bpow radix2 (-26)) with (/ 67108864) in SX, SY.
    assert (RS : R <= / 1000).
    { unfold R. rewrite <- (sqrt_square (/ 1000)) by lra. apply sqrt_le_1_alt. destruct X as (_ & _ & EX). destruct Y as (_ & _ & EY). apply Rabs_le_inv in EX, EY, SX, SY.
      assert (- / 2000 <= v <= / 2000) by (unfold hu in *; lra). assert (- / 2000 <= w <= / 2000) by (unfold hu in *; lra). nra. }
    set (p := 1 + k1 * t ^ 2 + k2 * t ^ 4 + k3 * t ^ 6 + k4 * t ^ 8).
    assert (PB : / 2 <= p <= 2).
    { assert (TP : forall n, 0 <= t ^ S n <= / 1000).
      { intros n. split; [apply pow_le; lra|]. cbn [pow]. assert (0 <= t ^ n <= 1) by (split; [apply pow_le; lra|rewrite <- (pow1 n); apply pow_incr; lra]). nra. }
      pose proof (TP 1%nat). pose proof (TP 3%nat). pose proof (TP 5%nat). pose proof (TP 7%nat). apply Rabs_le_inv in B1, B2, B3, B4.
      assert (KB : forall k z, -1 <= k <= 1 -> 0 <= z <= / 1000 -> - / 1000 <= k * z <= / 1000) by (intros k z; nra).
      pose proof (KB k1 _ B1 H). pose proof (KB k2 _ B2 H0). pose proof (KB k3 _ B3 H1). pose proof (KB k4 _ B4 H2). unfold p. lra. }
    assert (S : 0 <= t * p / R <= 2).
    { destruct R0 as [RP|RZ].
      - split; [apply Rmult_le_pos; [nra|apply Rlt_le, Rinv_0_lt_compat; exact RP]|]. apply Rmult_le_reg_r with R; [exact RP|]. unfold Rdiv. rewrite Rmult_assoc, Rinv_l by lra. nra.
      - assert (t = 0) by lra. rewrite H. unfold Rdiv. rewrite !Rmult_0_l. lra. }
    split; (apply (ap_up 4 (/ 60000000)); [apply short_cut; assumption|lra|lra]). }
  apply not_less in B; [|exact Fr|exact (proj1 nano_val)]. pose proof (proj2 nano_val) as NV. clear BIG GE BB Er.
  destruct (RA ltac:(lra)) as [[RL RU] RE]. clear RA. pose proof (bpow_gt_0 radix2 (-31)) as P31. pose proof (bpow_gt_0 radix2 (-27)) as P27.
  assert (RP : 0 < R) by lra. destruct (eta_small R) as [E0 E1]; [eapply Rle_trans; [|exact RL]; apply bpow_le; lia|].
  destruct (At r Fr ltac:(unfold val64; lra)) as [Ft Et]. unfold val64 in Et. replace (/ 2 ^ 52) with (2 * hu) in Et by (unfold hu; lra).
  assert (TE : Rabs (B2R (at64 r) - t) <= 12 * hu * R).
  { pose proof (tri (B2R (at64 r)) (atan (B2R r)) t) as TT. pose proof (atan_lip (B2R r) R) as LL. fold t in LL. apply Rabs_le_inv in RE as RE'.
    assert (2 * hu * B2R r <= 3 * hu * R) by (unfold hu in *; lra). lra. }
  assert (T2 : t <= 2) by (pose proof (atan_bound R) as [_ A2]; pose proof PI_4; unfold t; lra).
  set (th := at64 r) in *. clearbody th. clear Et.
  assert (A1 : ap 2 (36 * hu) th t) by (split; [exact Ft|split; [rewrite Rabs_pos_eq; lra|unfold hu in *; lra]]).
  assert (A2 : ap 4 (153 * hu) (mul64 th th) (t * t)) by (apply (ap_mul 3 8 2 (36 * hu) 2 (36 * hu)); auto; side). set (th2 := mul64 th th) in *. clearbody th2.
  assert (A4 : ap 16 (1260 * hu) (mul64 th2 th2) (t * t * (t * t))) by (apply (ap_mul 5 32 4 (153 * hu) 4 (153 * hu)); auto; side). set (th4 := mul64 th2 th2) in *. clearbody th4.
  assert (A6 : ap 64 (7700 * hu) (mul64 th2 th4) (t * t * (t * t * (t * t)))) by (apply (ap_mul 7 128 4 (153 * hu) 16 (1260 * hu)); auto; side). set (th6 := mul64 th2 th4) in *. clearbody th6.
  assert (A8 : ap 256 (41200 * hu) (mul64 th2 th6) (t * t * (t * t * (t * t * (t * t))))) by (apply (ap_mul 9 512 4 (153 * hu) 64 (7700 * hu)); auto; side). set (th8 := mul64 th2 th6) in *. clearbody th8.
  pose proof one_ap as O.
  assert (C1 : ap 5 (170 * hu) (mac (cz 1) (c_k1 c) th2 one64) (k1 * (t * t) + 1)) by (apply (ap_mac _ 3 8 1 0 4 (153 * hu) 1 0); auto; side). set (e1 := mac (cz 1) _ _ _) in *. clearbody e1.
  assert (C2 : ap 21 (1500 * hu) (mac (cz 2) (c_k2 c) th4 e1) (k2 * (t * t * (t * t)) + (k1 * (t * t) + 1))) by (apply (ap_mac _ 5 32 1 0 16 (1260 * hu) 5 (170 * hu)); auto; side). set (e2 := mac (cz 2) _ _ _) in *. clearbody e2.
  assert (C3 : ap 85 (9500 * hu) (mac (cz 3) (c_k3 c) th6 e2) (k3 * (t * t * (t * t * (t * t))) + (k2 * (t * t * (t * t)) + (k1 * (t * t) + 1)))) by (apply (ap_mac _ 7 128 1 0 64 (7700 * hu) 21 (1500 * hu)); auto; side). set (e3 := mac (cz 3) _ _ _) in *. clearbody e3.
  set (p := 1 + k1 * t ^ 2 + k2 * t ^ 4 + k3 * t ^ 6 + k4 * t ^ 8).
  assert (C4 : ap 341 (52000 * hu) (mac (cz 4) (c_k4 c) th8 e3) p).
  { replace p with (k4 * (t * t * (t * t * (t * t * (t * t)))) + (k3 * (t * t * (t * t * (t * t))) + (k2 * (t * t * (t * t)) + (k1 * (t * t) + 1)))) by (unfold p; ring).
    apply (ap_mac _ 9 512 1 0 256 (41200 * hu) 85 (9500 * hu)); auto; side. }
  set (e4 := mac (cz 4) _ _ _) in *. clearbody e4. clearbody p.
  (* theta_d, relative to the radius *)
  assert (BT : bd 2 th) by (apply (ap_bd _ _ _ _ 4 2 A1); side). assert (BE : bd 9 e4) by (apply (ap_bd _ _ _ _ 512 9 C4); side).
  destruct (mul_val 2 9 th e4 BT BE ltac:(lia)) as [BD ED]. destruct C4 as (_ & PB & PE).
  assert (XD : Rabs (B2R th * B2R e4 - t * p) <= 57000 * hu * R /\ Rabs (t * p) <= 341 * R).
  { split; [|rewrite Rabs_mult, (Rabs_pos_eq t) by lra; pose proof (Rabs_pos p); nra].
    replace (B2R th * B2R e4 - t * p) with ((B2R th - t) * B2R e4 + t * (B2R e4 - p)) by ring. eapply Rle_trans; [apply Rabs_triang|]. rewrite !Rabs_mult, (Rabs_pos_eq t) by lra.
    pose proof (size _ _ _ _ PB PE) as SE. assert (SE' : Rabs (B2R e4) <= 342) by (unfold hu in *; lra). pose proof (Rabs_pos (B2R e4)). pose proof (Rabs_pos (B2R th - t)). pose proof (Rabs_pos (B2R e4 - p)).
    assert (Rabs (B2R th - t) * Rabs (B2R e4) <= 12 * hu * R * 342) by (apply Rmult_le_compat; assumption). assert (t * Rabs (B2R e4 - p) <= R * (52000 * hu)) by (apply Rmult_le_compat; lra). lra. }
  destruct XD as [XD XB]. pose proof (rn_mix (B2R th * B2R e4)) as MD. rewrite <- ED in MD. pose proof (size _ _ _ _ XB XD) as SD.
  assert (TD : Rabs (B2R (mul64 th e4) - t * p) <= 58000 * hu * R).
  { pose proof (tri (B2R (mul64 th e4)) (B2R th * B2R e4) (t * p)). assert (hu * Rabs (B2R th * B2R e4) <= 342 * hu * R) by (unfold hu in *; lra). lra. }
  destruct (div_val 11 (-27) (mul64 th e4) r BD Fr ltac:(lra) ltac:(lia)) as [[FS _] ES]. set (td := mul64 th e4) in *. clearbody td.
  assert (RM : R * (99 / 100) <= B2R r) by (apply Rabs_le_inv in RE; unfold hu in *; lra).
  assert (DD : Rabs (B2R td / B2R r - t * p / R) <= 63000 * hu).
  { replace (B2R td / B2R r - t * p / R) with (((B2R td - t * p) * R + t * p * (R - B2R r)) * (/ (B2R r * R))) by (field; lra).
    assert (0 < B2R r * R) by nra. rewrite Rabs_mult, (Rabs_pos_eq (/ _)) by (apply Rlt_le, Rinv_0_lt_compat; assumption).
    apply Rmult_le_reg_r with (B2R r * R); [assumption|]. rewrite Rmult_assoc, Rinv_l, Rmult_1_r by lra.
    eapply Rle_trans; [apply Rabs_triang|]. rewrite (Rabs_mult (B2R td - t * p)), (Rabs_mult (t * p)), (Rabs_pos_eq R), (Rabs_minus_sym R) by lra.
    apply Rle_trans with (62000 * hu * (R * R)); [|assert (R * R * (99 / 100) <= B2R r * R) by nra; assert (0 < R * R) by nra; unfold hu in *; lra].
    assert (Rabs (B2R td - t * p) * R <= 58000 * hu * R * R) by (apply Rmult_le_compat_r; lra).
    assert (Rabs (t * p) * Rabs (B2R r - R) <= 341 * R * (9 * hu * R)) by (apply Rmult_le_compat; try apply Rabs_pos; assumption). assert (0 < hu * (R * R)) by (apply Rmult_lt_0_compat; nra). nra. }
  assert (SB : Rabs (t * p / R) <= 341).
  { unfold Rdiv. rewrite Rabs_mult, (Rabs_pos_eq (/ R)) by (apply Rlt_le, Rinv_0_lt_compat; exact RP). apply Rmult_le_reg_r with R; [exact RP|]. rewrite Rmult_assoc, Rinv_l by lra. lra. }
  pose proof (size _ _ _ _ SB DD) as SS. assert (p512 : 512 = bpow radix2 9) by reflexivity.
  pose proof (rn_err 9 512 (B2R td / B2R r) ltac:(lia) p512 ltac:(unfold hu in *; lra)) as ME. rewrite <- ES in ME.
  assert (AS : ap 341 (64000 * hu) (div64 td r) (t * p / R)).
  { split; [exact FS|]. split; [exact SB|]. pose proof (tri (B2R (div64 td r)) (B2R td / B2R r) (t * p / R)). unfold hu in *. lra. }
  set (s := div64 td r) in *. clearbody s.
  split; (apply (ap_mul 10 1024 2 (2 * hu) 341 (64000 * hu)); auto; side).
Qed.
End E.
