(** The length of a back-projected bearing. *)
From Coq Require Import ZArith Bool Reals Lia Lra Psatz.
From Flocq Require Import Core BinarySingleNaN Relative.
From Verif Require Import IeeeModel IeeeSpec IeeeReal StampModel IcamModel IcamSpec IcamProofs IcamAcc IcamSph IcamEqui IbackModel IbackSpec IbackProofs.
Local Open Scope R_scope.
Local Notation fe := (SpecFloat.fexp 53 1024).
Local Notation rn := (round radix2 fe ZnearestE).

(** one rounding of something known up to [k] units relative to [q >= 1] *)
Lemma rn_rel k q t : 1 <= q -> 0 <= k <= 10 -> Rabs (t - q) <= k * hu * q -> Rabs (rn t - q) <= (k + 101 / 100) * hu * q.
Proof.
  intros L K H. pose proof (rn_mix t) as M. destruct (eta_small q) as [E0 E1]; [apply Rle_trans with 1; [change 1 with (bpow radix2 0); apply bpow_le; lia|exact L]|].
  assert (S : Rabs t <= q + k * hu * q) by (apply (size _ q); [rewrite Rabs_pos_eq; lra|exact H]). pose proof (tri (rn t) t q). pose proof hu_pos as P.
  assert (Q : 0 < hu * q) by nra. assert (k * hu * q <= 10 * (hu * q)) by nra. assert (Hh : hu * (k * hu * q) <= hu * q / 1000) by (apply Rle_trans with (hu * (10 * (hu * q))); [nra|unfold hu in *; lra]).
  assert (hu * Rabs t <= hu * q + hu * (k * hu * q)) by nra. lra.
Qed.
Lemma sq_rel1 k (y : g64) : bd 100 y -> bd 201 (sop k y y one64 one64) /\ Rabs (B2R (sop k y y one64 one64) - (B2R y * B2R y + 1)) <= 203 / 100 * hu * (B2R y * B2R y + 1).
Proof.
  intros Y. destruct one_val as [O VO]. split; [apply (bd_sop _ 100 100 0 0 200); auto; lia|].
  assert (Y2 : 0 <= B2R y * B2R y) by nra. set (q := B2R y * B2R y + 1). pose proof hu_pos as P.
  destruct (mul_val 100 100 y y Y Y ltac:(lia)) as [PY EY]. destruct (mul_val 0 0 one64 one64 O O ltac:(lia)) as [PO EO]. rewrite VO, Rmult_1_r in EO. rewrite round_generic in EO by (exact fmt1 || typeclasses eauto).
  change (100 + 100)%Z with 200%Z in PY. change (0 + 0)%Z with 0%Z in PO. apply (fun H => bd_up 0 200 _ H ltac:(lia)) in PO.
  destruct (eta_small 1) as [E0 E1]; [change 1 with (bpow radix2 0) at 1; apply bpow_le; lia|].
  assert (MY : Rabs (B2R (mul64 y y) + 1 - q) <= 101 / 100 * hu * q).
  { replace (B2R (mul64 y y) + 1 - q) with (B2R (mul64 y y) - B2R y * B2R y) by (unfold q; ring). rewrite EY. pose proof (rn_mix (B2R y * B2R y)) as M. rewrite (Rabs_pos_eq _ Y2) in M. unfold q. nra. }
  assert (ZQ : Rabs (q - q) <= 0 * hu * q) by (rewrite Rminus_diag_eq, Rabs_R0 by reflexivity; lra).
  assert (Q1 : 1 <= q) by (unfold q; lra). assert (0 <= hu * q) by nra.
  destruct k; cbn [sop].
  - rewrite (proj2 (add_val 200 _ _ PY PO ltac:(lia))), EO. eapply Rle_trans; [apply (rn_rel (101 / 100)); [exact Q1|lra|exact MY]|]. lra.
  - rewrite (proj2 (fma_val 100 100 200 _ _ _ Y Y PO ltac:(lia) ltac:(lia))), EO. fold q. eapply Rle_trans; [apply (rn_rel 0); [exact Q1|lra|exact ZQ]|]. lra.
  - rewrite (proj2 (fma_val 0 0 200 _ _ _ O O PY ltac:(lia) ltac:(lia))), VO, Rmult_1_r, Rplus_comm. eapply Rle_trans; [apply (rn_rel (101 / 100)); [exact Q1|lra|exact MY]|]. lra.
Qed.
Lemma sq_rel2 k k' (x y : g64) : bd 100 x -> bd 100 y -> let s := B2R x * B2R x + (B2R y * B2R y + 1) in let n := mac k x x (sop k' y y one64 one64) in
  bd 202 n /\ Rabs (B2R n - s) <= 41 / 10 * hu * s.
Proof.
  intros X Y s n. destruct (sq_rel1 k' y Y) as [A EA]. unfold n. set (a := sop k' _ _ _ _) in *. clearbody a.
  split; [apply (bd_mac _ 100 100 201); auto; lia|].
  assert (X2 : 0 <= B2R x * B2R x) by nra. assert (Y2 : 0 <= B2R y * B2R y) by nra. pose proof hu_pos as P. assert (S1 : 1 <= s) by (unfold s; lra). assert (0 <= hu * s) by nra.
  destruct (mul_val 100 100 x x X X ltac:(lia)) as [PX EX]. change (100 + 100)%Z with 200%Z in PX. apply (fun H => bd_up 200 201 _ H ltac:(lia)) in PX.
  destruct (eta_small 1) as [E0 E1]; [change 1 with (bpow radix2 0) at 1; apply bpow_le; lia|].
  assert (F1 : Rabs (B2R x * B2R x + B2R a - s) <= 203 / 100 * hu * s).
  { replace (B2R x * B2R x + B2R a - s) with (B2R a - (B2R y * B2R y + 1)) by (unfold s; ring). eapply Rle_trans; [exact EA|]. unfold s. nra. }
  assert (F2 : Rabs (B2R (mul64 x x) + B2R a - s) <= 305 / 100 * hu * s).
  { replace (B2R (mul64 x x) + B2R a - s) with ((B2R (mul64 x x) - B2R x * B2R x) + (B2R a - (B2R y * B2R y + 1))) by (unfold s; ring). eapply Rle_trans; [apply Rabs_triang|]. rewrite EX at 1.
    pose proof (rn_mix (B2R x * B2R x)) as M. rewrite (Rabs_pos_eq _ X2) in M. unfold s. assert (0 <= hu * (B2R x * B2R x)) by nra. assert (0 <= hu * (B2R y * B2R y)) by nra. lra. }
  assert (FU : Rabs (B2R (fma64 x x a) - s) <= 41 / 10 * hu * s).
  { rewrite (proj2 (fma_val 100 100 201 _ _ _ X X A ltac:(lia) ltac:(lia))). eapply Rle_trans; [apply (rn_rel (203 / 100)); [exact S1|lra|exact F1]|]. lra. }
  destruct k; cbn [mac]; [|exact FU..].
  rewrite (proj2 (add_val 201 _ _ PX A ltac:(lia))). eapply Rle_trans; [apply (rn_rel (305 / 100)); [exact S1|lra|exact F2]|]. lra.
Qed.
(** the square of the computed length *)
Lemma length_rel k k' (x y : g64) : bd 100 x -> bd 100 y -> let s := B2R x * B2R x + (B2R y * B2R y + 1) in let q := sqrt64 (mac k x x (sop k' y y one64 one64)) in
  bd 101 q /\ / 2 <= B2R q /\ Rabs (B2R q * B2R q - s) <= 65 / 10 * hu * s.
Proof.
  intros X Y s q. destruct (sq_rel2 k k' x y X Y) as [N EN]. fold s in EN. unfold q. set (n := mac _ _ _ _) in *. clearbody n. clear q.
  assert (X2 : 0 <= B2R x * B2R x) by nra. assert (Y2 : 0 <= B2R y * B2R y) by nra. pose proof hu_pos as P. assert (S1 : 1 <= s) by (unfold s; lra). clearbody s.
  assert (Hs : 0 < hu * s) by nra. assert (Hq : hu * (hu * s) <= hu * s / 1000) by (unfold hu in *; lra). assert (Hs2 : hu * s <= s / 1000) by (unfold hu; lra).
  apply Rabs_le_inv in EN. assert (NP : 9 / 10 <= B2R n) by lra.
  assert (N0 : 0 <= B2R n) by lra. destruct (sqrt_val 101 n N ltac:(lia) N0) as [Q EQ]. split; [exact Q|]. rewrite EQ. set (r := sqrt (B2R n)). assert (RR : r * r = B2R n) by (apply sqrt_sqrt; lra). assert (R0 : 0 <= r) by apply sqrt_pos.
  assert (R1 : 9 / 10 <= r) by nra. pose proof (rn_mix r) as M. rewrite (Rabs_pos_eq r) in M by exact R0.
  destruct (eta_small r) as [E0 E1]; [apply Rle_trans with (bpow radix2 (-1)); [apply bpow_le; lia|cbn; lra]|].
  assert (D : Rabs (rn r - r) <= 101 / 100 * hu * r) by lra. set (t := rn r) in *. clearbody t r. clear M E0 E1 EQ Q. apply Rabs_le_inv in D.
  assert (Hr : hu * r <= r / 1000) by (unfold hu; lra). split; [lra|].
  assert (HR : hu * (r * r) <= 101 / 100 * (hu * s)) by (rewrite RR; nra).
  assert (D2 : Rabs (t * t - r * r) <= 203 / 100 * (hu * (r * r))).
  { replace (t * t - r * r) with ((t - r) * (t + r)) by ring. rewrite Rabs_mult. assert (Rabs (t - r) <= 101 / 100 * hu * r) by (apply Rabs_le; lra). assert (0 <= t + r <= 2001 / 1000 * r) by (split; [lra|unfold hu in *; lra]).
    rewrite (Rabs_pos_eq (t + r)) by lra. apply Rle_trans with (101 / 100 * hu * r * (2001 / 1000 * r)); [apply Rmult_le_compat; try lra; apply Rabs_pos|]. assert (0 <= hu * (r * r)) by nra. lra. }
  apply Rabs_le_inv in D2. rewrite RR in D2, HR. apply Rabs_le. split; lra.
Qed.
(** one division by the length *)
Lemma div_rel a (x q : g64) : bd a x -> (0 <= a <= 100)%Z -> is_finite q = true -> / 2 <= B2R q -> is_finite (div64 x q) = true /\ Rabs (B2R (div64 x q) - B2R x / B2R q) <= hu * Rabs (B2R x / B2R q) + eta.
Proof.
  intros X L F Q. destruct (div_val a (-1) x q X F ltac:(cbn; lra) ltac:(lia)) as [[FD _] ED]. split; [exact FD|]. rewrite ED. apply rn_mix.
Qed.
Lemma sq_near (b v : R) : Rabs b <= 101 / 100 -> Rabs (v - b) <= hu * Rabs b + eta -> Rabs (v * v - b * b) <= 23 / 10 * hu.
Proof.
  intros B D. destruct (eta_small 1) as [E0 E1]; [change 1 with (bpow radix2 0) at 1; apply bpow_le; lia|]. pose proof hu_pos as P. pose proof (Rabs_pos b).
  replace (v * v - b * b) with ((v - b) * (2 * b + (v - b))) by ring. rewrite Rabs_mult.
  assert (D1 : Rabs (v - b) <= 102 / 100 * hu) by nra. assert (D2 : Rabs (2 * b + (v - b)) <= 203 / 100).
  { eapply Rle_trans; [apply Rabs_triang|]. rewrite Rabs_mult, (Rabs_pos_eq 2) by lra. assert (hu <= / 1000) by (unfold hu; lra). lra. }
  apply Rle_trans with (102 / 100 * hu * (203 / 100)); [apply Rmult_le_compat; try apply Rabs_pos; assumption|]. nra.
Qed.
Lemma unit_length cz (x y : g64) : bd 100 x -> bd 100 y -> unit_forward (normalized64 cz x y).
Proof.
  intros X Y. unfold normalized64, unit_forward. cbv zeta. destruct (length_rel (cz 53%nat) (cz 52%nat) x y X Y) as (Q & Q2 & E). set (q := sqrt64 _) in *. clearbody q. destruct Q as [FQ NB].
  rewrite (Rabs_pos_eq _ (Rle_trans _ _ _ (ltac:(lra) : 0 <= / 2) Q2)) in NB. destruct (div_rel 100 x q X ltac:(lia) FQ Q2) as [FX DX]. destruct (div_rel 100 y q Y ltac:(lia) FQ Q2) as [FY DY]. destruct one_val as [O VO]. destruct (div_rel 0 one64 q O ltac:(lia) FQ Q2) as [FZ DZ].
  split; [exact FX|]. split; [exact FY|]. split; [exact FZ|]. unfold val64. set (vx := B2R (div64 x q)) in *. set (vy := B2R (div64 y q)) in *. set (vz := B2R (div64 one64 q)) in *. clearbody vx vy vz. rewrite VO in DZ.
  set (p := B2R x) in *. set (r := B2R y) in *. set (n := B2R q) in *. set (s := p * p + (r * r + 1)) in *.
  assert (S1 : 1 <= s) by (unfold s; nra). pose proof hu_pos as P. assert (Hs2 : hu * s <= s / 1000) by (unfold hu; lra).
  assert (N2 : 0 < n * n) by nra. assert (SN : s / (n * n) <= 1001 / 1000 + / 100) by (apply Rmult_le_reg_r with (n * n); [exact N2|]; unfold Rdiv; rewrite Rmult_assoc, Rinv_l by lra; apply Rabs_le_inv in E; lra).
  assert (SUM : p / n * (p / n) + r / n * (r / n) + 1 / n * (1 / n) = s / (n * n)) by (unfold s; field; lra).
  assert (S0 : Rabs (s / (n * n) - 1) <= 67 / 10 * hu).
  { replace (s / (n * n) - 1) with (- ((n * n - s) * / (n * n))) by (field; lra). rewrite Rabs_Ropp, Rabs_mult, (Rabs_pos_eq (/ (n * n))) by (left; now apply Rinv_0_lt_compat).
    apply Rle_trans with (65 / 10 * hu * s * / (n * n)); [apply Rmult_le_compat_r; [left; now apply Rinv_0_lt_compat|exact E]|]. replace (65 / 10 * hu * s * / (n * n)) with (65 / 10 * hu * (s / (n * n))) by (unfold Rdiv; ring). nra. }
  assert (C : forall b, b * b <= s / (n * n) -> Rabs b <= 101 / 100) by (intros b Hb; apply Rabs_le; nra).
  assert (P1 : 0 <= p / n * (p / n)) by nra. assert (P2 : 0 <= r / n * (r / n)) by nra. assert (P3 : 0 <= 1 / n * (1 / n)) by nra.
  pose proof (sq_near (p / n) vx (C (p / n) ltac:(lra)) DX) as A1. pose proof (sq_near (r / n) vy (C (r / n) ltac:(lra)) DY) as A2. pose proof (sq_near (1 / n) vz (C (1 / n) ltac:(lra)) DZ) as A3.
  split.
  - assert (I0 : 0 < 1 / n) by (apply Rdiv_lt_0_compat; lra). rewrite (Rabs_pos_eq (1 / n)) in DZ by lra.
    assert (L : bpow radix2 (-101) <= 1 / n).
    { change (-101)%Z with (- (101))%Z. rewrite bpow_opp. unfold Rdiv. rewrite Rmult_1_l. apply Rinv_le_contravar; [lra|exact NB]. }
    assert (EH : eta <= bpow radix2 (-101) * / 2) by (change (/ 2) with (bpow radix2 (-1)); rewrite <- bpow_plus; apply bpow_le; lia).
    assert (hu * (1 / n) <= 1 / n / 4) by (unfold hu; lra). pose proof (bpow_gt_0 radix2 (-101)). apply Rabs_le_inv in DZ. lra.
  - apply Rabs_le_inv in A1, A2, A3, S0. apply Rabs_le. replace (/ 2 ^ 49) with (16 * hu) by (unfold hu; lra). lra.
Qed.
(** near the axis the bearing is well in front and its direction is that of the point *)
Lemma direction cz (x y : g64) : is_finite x = true -> is_finite y = true -> Rabs (B2R x) <= 19 / 10 -> Rabs (B2R y) <= 19 / 10 ->
  let b := normalized64 cz x y in
  in_front (fst (fst b)) (snd (fst b)) (snd b) /\ Rabs (val64 (fst (fst b)) / val64 (snd b) - B2R x) <= 6 * hu /\ Rabs (val64 (snd (fst b)) / val64 (snd b) - B2R y) <= 6 * hu.
Proof.
  intros Fx Fy Hx Hy b. assert (B1 : 19 / 10 <= bpow radix2 1) by (cbn; lra).
  assert (X : bd 1 x) by (split; [exact Fx|lra]). assert (Y : bd 1 y) by (split; [exact Fy|lra]).
  destruct (length_rel (cz 53%nat) (cz 52%nat) x y (bd_up 1 100 _ X ltac:(lia)) (bd_up 1 100 _ Y ltac:(lia))) as (Q & Q2 & E).
  unfold b, normalized64. cbv zeta. cbn [fst snd]. clear b. set (q := sqrt64 _) in *. clearbody q. destruct Q as [FQ _].
  destruct (div_rel 1 x q X ltac:(lia) FQ Q2) as [FX DX]. destruct (div_rel 1 y q Y ltac:(lia) FQ Q2) as [FY DY]. destruct one_val as [O VO]. destruct (div_rel 0 one64 q O ltac:(lia) FQ Q2) as [FZ DZ].
  unfold in_front, at_most, val64. rewrite VO in DZ. set (vx := B2R (div64 x q)) in *. set (vy := B2R (div64 y q)) in *. set (vz := B2R (div64 one64 q)) in *. clearbody vx vy vz.
  set (p := B2R x) in *. set (r := B2R y) in *. set (n := B2R q) in *. set (s := p * p + (r * r + 1)) in *. clearbody p r n.
  apply Rabs_le_inv in Hx, Hy. assert (S1 : p * p <= s - 1 /\ r * r <= s - 1 /\ 1 <= s <= 9) by (unfold s; nra). clearbody s. pose proof hu_pos as P. assert (Hs2 : hu * s <= s / 1000) by (unfold hu; lra). assert (0 <= hu * s) by nra.
  apply Rabs_le_inv in E. assert (NB : 9 / 10 <= n <= 31 / 10) by nra.
  assert (I : / (31 / 10) <= / n <= / (9 / 10)) by (split; apply Rinv_le_contravar; lra). assert (PN : Rabs (p / n) <= 101 / 100 /\ Rabs (r / n) <= 101 / 100).
  { assert (W : forall t, t * t <= s - 1 -> Rabs (t / n) <= 101 / 100); [|destruct S1 as (S2 & S3 & _); split; apply W; assumption]. intros t T. apply Rabs_le. assert (t / n * n = t) by (field; lra). set (w := t / n) in *. clearbody w. subst t. assert (w * w * (n * n) <= 101 / 100 * (n * n)) by (replace (w * w * (n * n)) with (w * n * (w * n)) by ring; lra). assert (w * w <= 101 / 100) by (apply Rmult_le_reg_r with (n * n); [nra|assumption]). nra. }
  destruct (eta_small 1) as [E0 E1]; [change 1 with (bpow radix2 0) at 1; apply bpow_le; lia|].
  assert (IN : 1 / n = / n) by (unfold Rdiv; ring). rewrite IN in DZ. rewrite (Rabs_pos_eq (/ n)) in DZ by lra. assert (hu <= / 1000000) by (unfold hu; lra).
  assert (DZ2 : Rabs (vz - / n) <= 12 / 10 * hu) by nra. pose proof DZ2 as DZ3. apply Rabs_le_inv in DZ3. assert (VZ : 3 / 10 <= vz <= 12 / 10) by lra.
  assert (NEAR : forall t v, Rabs (t / n) <= 101 / 100 -> Rabs (v - t / n) <= hu * Rabs (t / n) + eta -> Rabs v <= 2).
  { intros t v T D. replace v with (t / n + (v - t / n)) by ring. eapply Rle_trans; [apply Rabs_triang|]. pose proof (Rabs_pos (t / n)). nra. }
  assert (RAT : forall t v, - (19 / 10) <= t <= 19 / 10 -> Rabs (t / n) <= 101 / 100 -> Rabs (v - t / n) <= hu * Rabs (t / n) + eta -> Rabs (v / vz - t) <= 6 * hu).
  { intros t v HT T D. replace (v / vz - t) with (((v - t / n) + - (t * (vz - / n))) * / vz) by (field; lra). rewrite Rabs_mult, (Rabs_pos_eq (/ vz)) by (left; apply Rinv_0_lt_compat; lra).
    assert (TN : Rabs (t / n) = Rabs t * / n) by (unfold Rdiv; rewrite Rabs_mult, (Rabs_pos_eq (/ n)) by lra; reflexivity).
    assert (T2 : 0 <= Rabs t <= 19 / 10) by (split; [apply Rabs_pos|apply Rabs_le; lra]).
    assert (A : Rabs (v - t / n + - (t * (vz - / n))) <= hu * (Rabs t * / n) + eta + Rabs t * (hu * / n + eta)).
    { eapply Rle_trans; [apply Rabs_triang|]. rewrite Rabs_Ropp, Rabs_mult. rewrite TN in D. pose proof (Rabs_pos (vz - / n)). nra. }
    assert (VI : hu * / n <= 101 / 100 * (hu * vz)) by (assert (/ n <= 101 / 100 * vz) by lra; nra).
    assert (A2 : hu * (Rabs t * / n) + eta + Rabs t * (hu * / n + eta) <= 58 / 10 * hu * vz).
    { replace (hu * (Rabs t * / n)) with (Rabs t * (hu * / n)) by ring. assert (Rabs t * (hu * / n) <= 19 / 10 * (101 / 100 * (hu * vz))) by (apply Rmult_le_compat; nra). assert (Rabs t * eta <= 2 * eta) by nra. assert (hu * (3 / 10) <= hu * vz) by nra. lra. }
    apply Rmult_le_reg_r with vz; [lra|]. rewrite Rmult_assoc, Rinv_l, Rmult_1_r by lra. assert (0 <= hu * vz) by nra. lra. }
  destruct PN as [PN RN]. split; [|split; [apply RAT|apply RAT]; assumption].
  split; [split; [exact FX|now apply (NEAR p)]|]. split; [split; [exact FY|now apply (NEAR r)]|]. split; [split; [exact FZ|rewrite Rabs_pos_eq; lra]|].
  apply Rle_trans with (/ 4); [|lra]. apply Rinv_le_contravar; [lra|]. replace 4 with (2 ^ 2) by lra. apply Rle_pow; [lra|lia].
Qed.
