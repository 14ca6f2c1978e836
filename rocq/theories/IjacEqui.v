(** Error of the equidistant Jacobian in doubles. *)
From Coq Require Import ZArith Bool Reals Ratan Lia Lra Psatz.
From Coquelicot Require Import Coquelicot.
From Flocq Require Import Core BinarySingleNaN.
From Verif Require Import IeeeModel IeeeSpec IeeeReal StampModel IcamModel IcamSpec IcamAccSpec IcamProofs IcamAcc IcamSph IcamEqui IbackModel IbjacModel IjacSpec IjacProofs.
Local Open Scope R_scope.
Local Notation fe := (SpecFloat.fexp 53 1024).
Local Notation rn := (round radix2 fe ZnearestE).

Lemma three_ap : ap 3 0 (g64_of_Z 3) 3.
Proof. apply (int_ap 3 6755399441055744 (-51)); [vm_compute; reflexivity|unfold F2R; cbn; lra|lra]. Qed.
Lemma five_ap : ap 5 0 (g64_of_Z 5) 5.
Proof. apply (int_ap 5 5629499534213120 (-50)); [vm_compute; reflexivity|unfold F2R; cbn; lra|lra]. Qed.
Lemma seven_ap : ap 7 0 (g64_of_Z 7) 7.
Proof. apply (int_ap 7 7881299347898368 (-50)); [vm_compute; reflexivity|unfold F2R; cbn; lra|lra]. Qed.
Lemma nine_ap : ap 9 0 (g64_of_Z 9) 9.
Proof. apply (int_ap 9 5066549580791808 (-49)); [vm_compute; reflexivity|unfold F2R; cbn; lra|lra]. Qed.

(** approximations of numbers of magnitude [K] *)
Definition sc (K b e : R) (x : g64) (v : R) : Prop := is_finite x = true /\ Rabs v <= b * K /\ Rabs (B2R x - v) <= e * K.
Definition scale (K : R) : Prop := bpow radix2 (-70) <= K <= bpow radix2 40.
Lemma scale_pos K : scale K -> 0 < K. Proof. intros [H _]. pose proof (bpow_gt_0 radix2 (-70)). lra. Qed.
Lemma sc_size K b e x v : sc K b e x v -> Rabs (B2R x) <= (b + e) * K.
Proof. intros (_ & V & E). replace (B2R x) with (v + (B2R x - v)) by ring. eapply Rle_trans; [apply Rabs_triang|]. lra. Qed.
Lemma sc_bd K b e x v : scale K -> sc K b e x v -> 0 <= b + e <= 1048576 -> bd 60 x.
Proof.
  intros S X H. pose proof (sc_size _ _ _ _ _ X) as Z. split; [exact (proj1 X)|]. pose proof (scale_pos K S). destruct S as [_ S]. replace (bpow radix2 60) with (1048576 * bpow radix2 40) by (change 60%Z with (20 + 40)%Z; rewrite bpow_plus; reflexivity). pose proof (bpow_gt_0 radix2 40). nra.
Qed.
Lemma sc_rn K w b : scale K -> Rabs w <= b * K -> Rabs (rn w - w) <= (b + 1) * hu * K.
Proof. intros S H. destruct (eta_small K (proj1 S)) as [_ E]. pose proof (rn_mix w) as M. pose proof hu_pos. pose proof (scale_pos K S). assert (hu * Rabs w <= hu * (b * K)) by nra. assert (0 < hu * K) by nra. nra. Qed.
Lemma sc_mul K1 K2 b1 e1 b2 e2 e x y v w : scale K1 -> scale K2 -> scale (K1 * K2) -> sc K1 b1 e1 x v -> sc K2 b2 e2 y w -> 0 <= b1 -> 0 <= e1 -> 0 <= b2 -> 0 <= e2 -> b1 + e1 <= 1048576 -> b2 + e2 <= 1048576 ->
  b1 * e2 + b2 * e1 + e1 * e2 + (b1 * b2 + (b1 * e2 + b2 * e1 + e1 * e2) + 1) * hu <= e -> sc (K1 * K2) (b1 * b2) e (mul64 x y) (v * w).
Proof.
  intros S1 S2 S X Y P1 Q1 P2 Q2 L1 L2 H. destruct (mul_val 60 60 x y (sc_bd _ _ _ _ _ S1 X ltac:(lra)) (sc_bd _ _ _ _ _ S2 Y ltac:(lra)) ltac:(lia)) as [[F _] E].
  pose proof (scale_pos _ S1) as T1. pose proof (scale_pos _ S2) as T2. destruct X as (_ & V & D1). destruct Y as (_ & W & D2).
  pose proof (Rabs_pos v). pose proof (Rabs_pos w). pose proof (Rabs_pos (B2R x - v)). pose proof (Rabs_pos (B2R y - w)).
  assert (VW : Rabs (v * w) <= b1 * b2 * (K1 * K2)) by (rewrite Rabs_mult; replace (b1 * b2 * (K1 * K2)) with ((b1 * K1) * (b2 * K2)) by ring; apply Rmult_le_compat; assumption).
  set (d := b1 * e2 + b2 * e1 + e1 * e2) in *.
  assert (C : Rabs (B2R x * B2R y - v * w) <= d * (K1 * K2)).
  { replace (B2R x * B2R y - v * w) with (v * (B2R y - w) + w * (B2R x - v) + (B2R x - v) * (B2R y - w)) by ring.
    eapply Rle_trans; [apply Rabs_triang|]. eapply Rle_trans; [apply Rplus_le_compat_r, Rabs_triang|]. rewrite !Rabs_mult.
    replace (d * (K1 * K2)) with ((b1 * K1) * (e2 * K2) + (b2 * K2) * (e1 * K1) + (e1 * K1) * (e2 * K2)) by (unfold d; ring).
    apply Rplus_le_compat; [apply Rplus_le_compat|]; apply Rmult_le_compat; assumption. }
  split; [exact F|]. split; [exact VW|]. rewrite E. pose proof (size _ _ _ _ VW C) as Z. rewrite <- Rmult_plus_distr_r in Z. pose proof (sc_rn _ _ _ S Z) as M.
  pose proof (tri (rn (B2R x * B2R y)) (B2R x * B2R y) (v * w)). pose proof (scale_pos _ S). nra.
Qed.
Lemma sc_sub K b1 e1 b2 e2 e x y v w : scale K -> sc K b1 e1 x v -> sc K b2 e2 y w -> 0 <= b1 + e1 -> 0 <= b2 + e2 -> b1 + e1 <= 1048576 -> b2 + e2 <= 1048576 ->
  e1 + e2 + (b1 + b2 + (e1 + e2) + 1) * hu <= e -> sc K (b1 + b2) e (sub64 x y) (v - w).
Proof.
  intros S X Y P1 P2 L1 L2 H. destruct (sub_val 60 x y (sc_bd _ _ _ _ _ S X ltac:(lra)) (sc_bd _ _ _ _ _ S Y ltac:(lra)) ltac:(lia)) as [[F _] E].
  destruct X as (_ & V & D1). destruct Y as (_ & W & D2). assert (VW : Rabs (v - w) <= (b1 + b2) * K) by (unfold Rminus; eapply Rle_trans; [apply Rabs_triang|]; rewrite Rabs_Ropp; lra).
  assert (C : Rabs (B2R x - B2R y - (v - w)) <= (e1 + e2) * K) by (replace (B2R x - B2R y - (v - w)) with ((B2R x - v) + - (B2R y - w)) by ring; eapply Rle_trans; [apply Rabs_triang|]; rewrite Rabs_Ropp; lra).
  split; [exact F|]. split; [exact VW|]. rewrite E. pose proof (size _ _ _ _ VW C) as Z. rewrite <- Rmult_plus_distr_r in Z. pose proof (sc_rn _ _ _ S Z) as M.
  pose proof (tri (rn (B2R x - B2R y)) (B2R x - B2R y) (v - w)). pose proof (scale_pos _ S). nra.
Qed.
(** a quotient by something close to [D] *)
Lemma sc_div K D b1 e1 e2 e x y v : scale K -> scale D -> scale (K / D) -> sc K b1 e1 x v -> sc D 1 e2 y D -> 0 <= b1 -> 0 <= e1 -> 0 <= e2 <= / 1000 -> b1 + e1 <= 1048576 ->
  102 / 100 * (e1 + b1 * e2) + (b1 + 102 / 100 * (e1 + b1 * e2) + 1) * hu <= e -> sc (K / D) b1 e (div64 x y) (v / D).
Proof.
  intros S1 S2 S X (Fy & _ & Y) P1 Q1 Q2 L1 H. pose proof (scale_pos _ S1) as T1. pose proof (scale_pos _ S2) as T2. pose proof (scale_pos _ S) as T3.
  assert (YD : 999 / 1000 * D <= B2R y) by (apply Rabs_le_inv in Y; nra).
  assert (YL : bpow radix2 (-71) <= B2R y) by (change (-71)%Z with (-70 + -1)%Z; rewrite bpow_plus; change (bpow radix2 (-1)) with (/ 2); destruct S2; lra).
  destruct (div_val 60 (-71) x y (sc_bd _ _ _ _ _ S1 X ltac:(lra)) Fy YL ltac:(lia)) as [[F _] E]. destruct X as (_ & V & D1).
  assert (VW : Rabs (v / D) <= b1 * (K / D)).
  { unfold Rdiv. rewrite Rabs_mult, (Rabs_pos_eq (/ D)) by (apply Rlt_le, Rinv_0_lt_compat; exact T2). rewrite <- Rmult_assoc. apply Rmult_le_compat_r; [apply Rlt_le, Rinv_0_lt_compat; exact T2|exact V]. }
  assert (C : Rabs (B2R x / B2R y - v / D) <= 102 / 100 * (e1 + b1 * e2) * (K / D)).
  { replace (B2R x / B2R y - v / D) with (((B2R x - v) * D + v * (D - B2R y)) * / (B2R y * D)) by (field; lra).
    assert (0 < B2R y * D) by nra. rewrite Rabs_mult, (Rabs_pos_eq (/ _)) by (apply Rlt_le, Rinv_0_lt_compat; assumption).
    apply Rmult_le_reg_r with (B2R y * D); [assumption|]. rewrite Rmult_assoc, Rinv_l, Rmult_1_r by lra.
    eapply Rle_trans; [apply Rabs_triang|]. rewrite (Rabs_mult (B2R x - v)), (Rabs_mult v), (Rabs_pos_eq D), (Rabs_minus_sym D) by lra.
    pose proof (Rabs_pos v). pose proof (Rabs_pos (B2R x - v)). pose proof (Rabs_pos (B2R y - D)).
    assert (Rabs (B2R x - v) * D <= e1 * K * D) by (apply Rmult_le_compat_r; lra). assert (Rabs v * Rabs (B2R y - D) <= b1 * K * (e2 * D)) by (apply Rmult_le_compat; assumption).
    replace (102 / 100 * (e1 + b1 * e2) * (K / D) * (B2R y * D)) with (102 / 100 * ((e1 + b1 * e2) * K) * B2R y) by (field; lra).
    assert (0 <= (e1 + b1 * e2) * K) by nra. set (z := (e1 + b1 * e2) * K) in *. assert (z * D <= 102 / 100 * z * B2R y) by nra. assert (e1 * K * D + b1 * K * (e2 * D) = z * D) by (unfold z; ring). lra. }
  split; [exact F|]. split; [exact VW|]. rewrite E. pose proof (size _ _ _ _ VW C) as Z. rewrite <- Rmult_plus_distr_r in Z. pose proof (sc_rn _ _ _ S Z) as M.
  pose proof (tri (rn (B2R x / B2R y)) (B2R x / B2R y) (v / D)). nra.
Qed.
Lemma sc_ap b e x v : ap b e x v -> sc 1 b e x v. Proof. intros (F & V & E). repeat split; lra || exact F. Qed.
Lemma ap_sc b e x v : sc 1 b e x v -> ap b e x v. Proof. intros (F & V & E). repeat split; lra || exact F. Qed.

(** the slope of theta_d / r *)
Lemma equi_slopes (k1 k2 k3 k4 : R) v w : 0 < v * v + w * w -> let R := sqrt (v * v + w * w) in let t := atan R in
  is_derive (fun z => atan (sqrt (z * z + w * w)) * (1 + k1 * atan (sqrt (z * z + w * w)) ^ 2 + k2 * atan (sqrt (z * z + w * w)) ^ 4 + k3 * atan (sqrt (z * z + w * w)) ^ 6 + k4 * atan (sqrt (z * z + w * w)) ^ 8) / sqrt (z * z + w * w)) v
   (((9 * k4 * (t * t * (t * t * (t * t * (t * t)))) + (7 * k3 * (t * t * (t * t * (t * t))) + (5 * k2 * (t * t * (t * t)) + (3 * k1 * (t * t) + 1)))) * / (R * R + 1) / R
     - t * (1 + k1 * t ^ 2 + k2 * t ^ 4 + k3 * t ^ 6 + k4 * t ^ 8) / (R * R)) * (v / R)).
Proof.
  intros Q R t. assert (RP : 0 < R) by (apply sqrt_lt_R0; exact Q).
  assert (DR : is_derive (fun z => sqrt (z * z + w * w)) v (v / R)) by (auto_derive; [exact Q|fold R; field; lra]).
  assert (DH : is_derive (fun r => atan r * (1 + k1 * atan r ^ 2 + k2 * atan r ^ 4 + k3 * atan r ^ 6 + k4 * atan r ^ 8) / r) R
    ((9 * k4 * (t * t * (t * t * (t * t * (t * t)))) + (7 * k3 * (t * t * (t * t * (t * t))) + (5 * k2 * (t * t * (t * t)) + (3 * k1 * (t * t) + 1)))) * / (R * R + 1) / R
     - t * (1 + k1 * t ^ 2 + k2 * t ^ 4 + k3 * t ^ 6 + k4 * t ^ 8) / (R * R))).
  { assert (DA : is_derive atan R (/ (R * R + 1))) by (apply is_derive_Reals; replace (/ (R * R + 1)) with (/ (1 + R ^ 2)) by (f_equal; ring); apply derivable_pt_lim_atan).
    assert (DG : is_derive (fun a => a * (1 + k1 * a ^ 2 + k2 * a ^ 4 + k3 * a ^ 6 + k4 * a ^ 8)) t (9 * k4 * (t * t * (t * t * (t * t * (t * t)))) + (7 * k3 * (t * t * (t * t * (t * t))) + (5 * k2 * (t * t * (t * t)) + (3 * k1 * (t * t) + 1))))) by (auto_derive; [trivial|ring]).
    pose proof (is_derive_comp _ _ _ _ _ DG DA) as DC. cbv beta in DC. apply is_derive_Reals in DC. apply is_derive_Reals.
    pose proof (derivable_pt_lim_div _ _ _ _ _ DC (derivable_pt_lim_id R) (Rgt_not_eq _ _ RP)) as DD. unfold id in DD. fold t in DD.
    match goal with H : derivable_pt_lim _ _ ?a |- derivable_pt_lim _ _ ?b => replace b with a; [exact H|] end.
    unfold scal, Rsqr. assert (0 < R * R + 1) by nra. cbn. unfold mult. cbn. field. split; lra. }
  pose proof (is_derive_comp _ (fun z => sqrt (z * z + w * w)) v _ _ DH DR) as DC. match goal with |- is_derive _ _ (?a * ?b) => replace (a * b) with (scal b a) by (unfold scal; cbn; unfold mult; cbn; apply Rmult_comm) end. exact DC.
Qed.

Section E.
Variables (cz : nat -> contraction) (at64 : g64 -> g64) (c : camera64).
Hypotheses (Us : usual c) (K4 : at_most 1 (c_k4 c)) (At : accurate_atan at64).
Lemma equi_jac x y : off_centre x y -> at_most 2 x -> at_most 2 y ->
  jac_in (/ 2 ^ 32) (exact_equi c) (val64 x) (val64 y) (snd (equidist_jac64 cz at64 c x y)).
Proof.
  intros OC XM YM. assert (XX : rel x (B2R x)).
  { split; [apply (ap_up 2 0); [now apply ap_exact|lra|pose proof hu_pos; lra]|]. replace (B2R x - B2R x) with 0 by ring. rewrite Rabs_R0. pose proof hu_pos. pose proof (Rabs_pos (B2R x)). assert (0 < eta) by apply bpow_gt_0. nra. }
  assert (YY : rel y (B2R y)).
  { split; [apply (ap_up 2 0); [now apply ap_exact|lra|pose proof hu_pos; lra]|]. replace (B2R y - B2R y) with 0 by ring. rewrite Rabs_R0. pose proof hu_pos. pose proof (Rabs_pos (B2R y)). assert (0 < eta) by apply bpow_gt_0. nra. }
  destruct Us as (K1 & K2 & K3 & _). pose proof K4 as K4'. apply ap_exact in K1, K2, K3, K4'. pose proof (ap_exact _ _ XM) as X. pose proof (ap_exact _ _ YM) as Y.
  unfold jac_in, equidist_jac64. cbv zeta. pose proof (radius cz x y _ _ XX YY) as RA. cbv zeta in RA. unfold off_centre, val64 in *. clear XX YY.
  set (v := B2R x) in *. set (w := B2R y) in *. set (k1 := B2R (c_k1 c)) in *. set (k2 := B2R (c_k2 c)) in *. set (k3 := B2R (c_k3 c)) in *. set (k4 := B2R (c_k4 c)) in *.
  assert (BX : bd 101 x) by (apply (bd_up 2); [apply (ap_bd _ _ _ _ 4 2 X); side|lia]). assert (BY : bd 101 y) by (apply (bd_up 2); [apply (ap_bd _ _ _ _ 4 2 Y); side|lia]).
  assert (GE : 0 <= B2R (sop (cz 0) x x y y)) by (apply r2_ge; assumption).
  assert (BB : bd 204 (sop (cz 0) x x y y)) by (apply (bd_up 203); [apply (bd_sop _ 101 101 101 101 202); auto; lia|lia]).
  destruct (sqrt_val 102 _ BB ltac:(lia) GE) as [[Fr _] Er].
  assert (BIG : bpow radix2 (-52) <= B2R (sop (cz 0) x x y y)) by (apply (r2_big cz x y BX BY); change (bpow radix2 (-26)) with (/ 67108864); fold v w; destruct OC as [C|C]; [left|right]; lra).
  set (r2 := sop (cz 0) x x y y) in *. clearbody r2. set (r := sqrt64 r2) in *. clearbody r.
  assert (RB : bpow radix2 (-26) <= B2R r).
  { rewrite Er. apply rn_ge; [apply fmt_bpow; lia|]. rewrite <- (sqrt_square (bpow radix2 (-26))) by apply bpow_ge_0. apply sqrt_le_1_alt. rewrite <- bpow_plus. exact BIG. }
  assert (NB : Bltb r nano10 = false).
  { destruct (Bltb r nano10) eqn:B; [|reflexivity]. apply ltb_true in B; [|exact Fr|exact (proj1 nano_val)]. pose proof (proj2 nano_val). lra. }
  rewrite NB. cbn [fst snd m00 m01 m10 m11]. clear NB BIG GE BB Er OC.
  assert (B : bpow radix2 (-27) <= B2R r) by (eapply Rle_trans; [|exact RB]; apply bpow_le; lia). clear RB.
  assert (Q0 : 0 <= v * v + w * w) by nra. set (R := sqrt (v * v + w * w)) in *. set (t := atan R).
  assert (R0 : 0 <= R) by apply sqrt_pos. pose proof (atan_le_self R R0) as T0. fold t in T0. pose proof hu_pos as HP.
  destruct (RA ltac:(lra)) as [[RL RU] RE]. clear RA. pose proof (bpow_gt_0 radix2 (-31)) as P31. pose proof (bpow_gt_0 radix2 (-27)) as P27.
  assert (RP : 0 < R) by lra. destruct (eta_small R) as [E0 E1]; [eapply Rle_trans; [|exact RL]; apply bpow_le; lia|].
  destruct (At r Fr ltac:(unfold val64; lra)) as [Ft Et]. unfold val64 in Et. replace (/ 2 ^ 52) with (2 * hu) in Et by (unfold hu; lra).
  assert (TE : Rabs (B2R (at64 r) - t) <= 12 * hu * R).
  { pose proof (tri (B2R (at64 r)) (atan (B2R r)) t) as TT. pose proof (atan_lip (B2R r) R) as LL. fold t in LL. apply Rabs_le_inv in RE as RE'.
    assert (2 * hu * B2R r <= 3 * hu * R) by (unfold hu in *; lra). lra. }
  assert (T2 : t <= 2) by (pose proof (atan_bound R) as [_ A2]; pose proof PI_4; unfold t; lra).
  set (th := at64 r) in *. clearbody th. clear Et.
  assert (A1 : ap 2 (36 * hu) th t) by (split; [exact Ft|split; [rewrite Rabs_pos_eq; lra|unfold hu in *; lra]]).
  assert (A2 : ap 4 (153 * hu) (mul64 th th) (t * t)) by (apply (ap_mul 3 8 2 (36 * hu) 2 (36 * hu)); auto; side). set (th2 := mul64 th th) in *. clearbody th2.
  assert (A4 : ap 16 (1260 * hu) (mul64 th2 th2) (t * t * (t * t))) by (apply (ap_mul 5 32 4 (153 * hu) 4 (153 * hu)); auto; side). set (th4 := mul64 th2 th2) in *. clearbody th4.
  assert (A6 : ap 64 (7700 * hu) (mul64 th2 th4) (t * t * (t * t * (t * t)))) by (apply (ap_mul 7 128 4 (153 * hu) 16 (1260 * hu)); auto; side). set (th6 := mul64 th2 th4) in *. clearbody th6.
  assert (A8 : ap 256 (41200 * hu) (mul64 th2 th6) (t * t * (t * t * (t * t * (t * t))))) by (apply (ap_mul 9 512 4 (153 * hu) 64 (7700 * hu)); auto; side). set (th8 := mul64 th2 th6) in *. clearbody th8.
  pose proof one_ap as O.
  assert (C1 : ap 5 (170 * hu) (mac (cz 1) (c_k1 c) th2 one64) (k1 * (t * t) + 1)) by (apply (ap_mac _ 3 8 1 0 4 (153 * hu) 1 0); auto; side). set (e1 := mac (cz 1) _ _ _) in *. clearbody e1.
  assert (C2 : ap 21 (1500 * hu) (mac (cz 2) (c_k2 c) th4 e1) (k2 * (t * t * (t * t)) + (k1 * (t * t) + 1))) by (apply (ap_mac _ 5 32 1 0 16 (1260 * hu) 5 (170 * hu)); auto; side). set (e2 := mac (cz 2) _ _ _) in *. clearbody e2.
  assert (C3 : ap 85 (9500 * hu) (mac (cz 3) (c_k3 c) th6 e2) (k3 * (t * t * (t * t * (t * t))) + (k2 * (t * t * (t * t)) + (k1 * (t * t) + 1)))) by (apply (ap_mac _ 7 128 1 0 64 (7700 * hu) 21 (1500 * hu)); auto; side). set (e3 := mac (cz 3) _ _ _) in *. clearbody e3.
  set (p := 1 + k1 * t ^ 2 + k2 * t ^ 4 + k3 * t ^ 6 + k4 * t ^ 8).
  assert (C4 : ap 341 (52000 * hu) (mac (cz 4) (c_k4 c) th8 e3) p).
  { replace p with (k4 * (t * t * (t * t * (t * t * (t * t)))) + (k3 * (t * t * (t * t * (t * t))) + (k2 * (t * t * (t * t)) + (k1 * (t * t) + 1)))) by (unfold p; ring).
    apply (ap_mac _ 9 512 1 0 256 (41200 * hu) 85 (9500 * hu)); auto; side. }
  set (e4 := mac (cz 4) _ _ _) in *. clearbody e4.
  assert (G9 : ap 9 (16 * hu) (mul64 (g64_of_Z 9) (c_k4 c)) (9 * k4)) by (apply (ap_mul 4 16 9 0 1 0); auto using nine_ap; side).
  assert (G7 : ap 7 (8 * hu) (mul64 (g64_of_Z 7) (c_k3 c)) (7 * k3)) by (apply (ap_mul 3 8 7 0 1 0); auto using seven_ap; side).
  assert (G5 : ap 5 (8 * hu) (mul64 (g64_of_Z 5) (c_k2 c)) (5 * k2)) by (apply (ap_mul 3 8 5 0 1 0); auto using five_ap; side).
  assert (G3 : ap 3 (4 * hu) (mul64 (g64_of_Z 3) (c_k1 c)) (3 * k1)) by (apply (ap_mul 2 4 3 0 1 0); auto using three_ap; side).
  set (g9 := mul64 (g64_of_Z 9) _) in *. set (g7 := mul64 (g64_of_Z 7) _) in *. set (g5 := mul64 (g64_of_Z 5) _) in *. set (g3 := mul64 (g64_of_Z 3) _) in *. clearbody g9 g7 g5 g3.
  assert (F4 : ap 2845 (447000 * hu) (mac (cz 9) g9 th8 (mac (cz 8) g7 th6 (mac (cz 7) g5 th4 (mac (cz 6) g3 th2 one64))))
    (9 * k4 * (t * t * (t * t * (t * t * (t * t)))) + (7 * k3 * (t * t * (t * t * (t * t))) + (5 * k2 * (t * t * (t * t)) + (3 * k1 * (t * t) + 1))))).
  { apply (ap_mac _ 12 4096 9 (16 * hu) 256 (41200 * hu) 541 (63700 * hu)); auto; try side. apply (ap_mac _ 10 1024 7 (8 * hu) 64 (7700 * hu) 93 (7200 * hu)); auto; try side.
    apply (ap_mac _ 7 128 5 (8 * hu) 16 (1260 * hu) 13 (510 * hu)); auto; try side. apply (ap_mac _ 4 16 3 (4 * hu) 4 (153 * hu) 1 0); auto; side. }
  set (f4 := mac (cz 9) _ _ _) in *. clearbody f4. set (dp := 9 * k4 * _ + _) in *. clear G9 G7 G5 G3 A2 A4 A6 A8.
  (* theta_d, relative to the radius *)
  assert (BT : bd 2 th) by (apply (ap_bd _ _ _ _ 4 2 A1); side). assert (BE : bd 9 e4) by (apply (ap_bd _ _ _ _ 512 9 C4); side).
  destruct (mul_val 2 9 th e4 BT BE ltac:(lia)) as [BD ED]. destruct C4 as (_ & PB & PE).
  assert (XD : Rabs (B2R th * B2R e4 - t * p) <= 57000 * hu * R /\ Rabs (t * p) <= 341 * R).
  { split; [|rewrite Rabs_mult, (Rabs_pos_eq t) by lra; pose proof (Rabs_pos p); nra].
    replace (B2R th * B2R e4 - t * p) with ((B2R th - t) * B2R e4 + t * (B2R e4 - p)) by ring. eapply Rle_trans; [apply Rabs_triang|]. rewrite !Rabs_mult, (Rabs_pos_eq t) by lra.
    pose proof (size _ _ _ _ PB PE) as SE. assert (SE' : Rabs (B2R e4) <= 342) by (unfold hu in *; lra). pose proof (Rabs_pos (B2R e4)). pose proof (Rabs_pos (B2R th - t)). pose proof (Rabs_pos (B2R e4 - p)).
    assert (Rabs (B2R th - t) * Rabs (B2R e4) <= 12 * hu * R * 342) by (apply Rmult_le_compat; assumption). assert (t * Rabs (B2R e4 - p) <= R * (52000 * hu)) by (apply Rmult_le_compat; lra). lra. }
  destruct XD as [XD XB]. pose proof (rn_mix (B2R th * B2R e4)) as MD. rewrite <- ED in MD. pose proof (size _ _ _ _ XB XD) as SD.
  assert (TD : Rabs (B2R (mul64 th e4) - t * p) <= 58000 * hu * R).
  { pose proof (tri (B2R (mul64 th e4)) (B2R th * B2R e4) (t * p)). assert (hu * Rabs (B2R th * B2R e4) <= 342 * hu * R) by (unfold hu in *; lra). lra. }
  destruct (div_val 11 (-27) (mul64 th e4) r BD Fr ltac:(lra) ltac:(lia)) as [[FS _] ES]. set (td := mul64 th e4) in *. clearbody td.
  assert (RM : R * (99 / 100) <= B2R r) by (apply Rabs_le_inv in RE; unfold hu in *; lra).
  assert (DD : Rabs (B2R td / B2R r - t * p / R) <= 63000 * hu).
  { replace (B2R td / B2R r - t * p / R) with (((B2R td - t * p) * R + t * p * (R - B2R r)) * (/ (B2R r * R))) by (field; lra).
    assert (0 < B2R r * R) by nra. rewrite Rabs_mult, (Rabs_pos_eq (/ _)) by (apply Rlt_le, Rinv_0_lt_compat; assumption).
    apply Rmult_le_reg_r with (B2R r * R); [assumption|]. rewrite Rmult_assoc, Rinv_l, Rmult_1_r by lra.
    eapply Rle_trans; [apply Rabs_triang|]. rewrite (Rabs_mult (B2R td - t * p)), (Rabs_mult (t * p)), (Rabs_pos_eq R), (Rabs_minus_sym R) by lra.
    apply Rle_trans with (62000 * hu * (R * R)); [|assert (R * R * (99 / 100) <= B2R r * R) by nra; assert (0 < R * R) by nra; unfold hu in *; lra].
    assert (Rabs (B2R td - t * p) * R <= 58000 * hu * R * R) by (apply Rmult_le_compat_r; lra).
    assert (Rabs (t * p) * Rabs (B2R r - R) <= 341 * R * (9 * hu * R)) by (apply Rmult_le_compat; try apply Rabs_pos; assumption). assert (0 < hu * (R * R)) by (apply Rmult_lt_0_compat; nra). nra. }
  assert (SB : Rabs (t * p / R) <= 341).
  { unfold Rdiv. rewrite Rabs_mult, (Rabs_pos_eq (/ R)) by (apply Rlt_le, Rinv_0_lt_compat; exact RP). apply Rmult_le_reg_r with R; [exact RP|]. rewrite Rmult_assoc, Rinv_l by lra. lra. }
  pose proof (size _ _ _ _ SB DD) as SS. assert (p512 : 512 = bpow radix2 9) by reflexivity.
  pose proof (rn_err 9 512 (B2R td / B2R r) ltac:(lia) p512 ltac:(unfold hu in *; lra)) as ME. rewrite <- ES in ME.
  assert (AS : ap 341 (64000 * hu) (div64 td r) (t * p / R)).
  { split; [exact FS|]. split; [exact SB|]. pose proof (tri (B2R (div64 td r)) (B2R td / B2R r) (t * p / R)). unfold hu in *. lra. }
  (* the pieces at their scales *)
  assert (SR : scale R) by (split; [eapply Rle_trans; [|exact RL]; apply bpow_le; lia|eapply Rle_trans; [exact RU|]; change 3 with (IZR 3); eapply Rle_trans; [|apply bpow_le with (e1 := 2%Z); lia]; cbn; lra]).
  assert (SRR : scale (R * R)).
  { split; [|apply Rle_trans with 9; [nra|eapply Rle_trans; [|apply bpow_le with (e1 := 4%Z); lia]; cbn; lra]].
    apply Rle_trans with (bpow radix2 (-31) * bpow radix2 (-31)); [rewrite <- bpow_plus; apply bpow_le; lia|apply Rmult_le_compat; lra]. }
  assert (S1 : scale 1) by (split; [change 1 with (bpow radix2 0); apply bpow_le; lia|change 1 with (bpow radix2 0); apply bpow_le; lia]).
  assert (SI : scale (1 / R)).
  { unfold Rdiv. rewrite Rmult_1_l. split.
    - apply Rle_trans with (/ 3); [apply Rle_trans with (bpow radix2 (-2)); [apply bpow_le; lia|cbn; lra]|apply Rinv_le_contravar; lra].
    - apply Rle_trans with (/ bpow radix2 (-31)); [apply Rinv_le_contravar; lra|rewrite <- bpow_opp; apply bpow_le; lia]. }
  assert (CR : sc R 1 (9 * hu) r R) by (split; [exact Fr|split; [rewrite Rabs_pos_eq; lra|exact RE]]).
  assert (CRR : sc (R * R) (1 * 1) (21 * hu) (mul64 r r) (R * R)) by (apply (sc_mul R R 1 (9 * hu) 1 (9 * hu)); auto; unfold hu; lra). rewrite Rmult_1_r in CRR.
  assert (VR : forall z u, z * z + u * u = v * v + w * w -> Rabs z <= R).
  { intros z u H. rewrite <- sqrt_Rsqr_abs. unfold R. apply sqrt_le_1_alt. unfold Rsqr. nra. }
  assert (CX : sc R 1 0 x v) by (split; [exact (proj1 X)|split; [rewrite Rmult_1_l; apply (VR v w); reflexivity|fold v; replace (v - v) with 0 by ring; rewrite Rabs_R0; lra]]).
  assert (CY : sc R 1 0 y w) by (split; [exact (proj1 Y)|split; [rewrite Rmult_1_l; apply (VR w v); ring|fold w; replace (w - w) with 0 by ring; rewrite Rabs_R0; lra]]).
  assert (AR : ap 3 (27 * hu) r R) by (split; [exact Fr|split; [rewrite Rabs_pos_eq; lra|nra]]).
  assert (RQ : ap 10 (200 * hu) (mac (cz 5) r r one64) (R * R + 1)) by (apply (ap_mac _ 4 16 3 (27 * hu) 3 (27 * hu) 1 0); auto; side).
  pose proof (ap_inv _ _ _ _ RQ ltac:(nra) ltac:(unfold hu; lra)) as TR. set (thr := div64 one64 (mac (cz 5) r r one64)) in *. clearbody thr.
  assert (CU : ap 2845 (1600000 * hu) (mul64 f4 thr) (dp * / (R * R + 1))) by (apply (ap_mul 12 4096 2845 (447000 * hu) 1 (2 * (200 * hu) + 2 * hu)); auto; side). set (uu := mul64 f4 thr) in *. clearbody uu.
  assert (G1 : sc (1 / R) 2845 (1662000 * hu) (div64 uu r) (dp * / (R * R + 1) / R)) by (apply (sc_div 1 R 2845 (1600000 * hu) (9 * hu)); auto using sc_ap; try (unfold hu; lra)). set (g1 := div64 uu r) in *. clearbody g1.
  assert (CD : sc R 341 (58000 * hu) td (t * p)) by (split; [exact (proj1 BD)|split; [exact XB|exact TD]]).
  assert (G2 : sc (1 / R) 341 (67000 * hu) (div64 td (mul64 r r)) (t * p / (R * R))).
  { replace (1 / R) with (R / (R * R)) by (field; lra). apply (sc_div R (R * R) 341 (58000 * hu) (21 * hu)); auto; try (unfold hu; lra). replace (R / (R * R)) with (1 / R) by (field; lra). exact SI. }
  set (g2 := div64 td (mul64 r r)) in *. clearbody g2.
  assert (GS : sc (1 / R) (2845 + 341) (1733000 * hu) (sub64 g1 g2) (dp * / (R * R + 1) / R - t * p / (R * R))) by (apply (sc_sub _ _ (1662000 * hu) _ (67000 * hu)); auto; unfold hu; lra).
  replace (2845 + 341) with 3186 in GS by lra. set (sr := sub64 g1 g2) in *. clearbody sr. set (ds := dp * / (R * R + 1) / R - t * p / (R * R)) in *.
  assert (CI : sc (1 / R) 1 (12 * hu) (div64 one64 r) (1 / R)) by (apply (sc_div 1 R 1 0 (9 * hu)); auto using sc_ap; try (unfold hu; lra)). set (ir := div64 one64 r) in *. clearbody ir.
  assert (RI : R * (1 / R) = 1) by (field; lra). assert (IR : 1 / R * R = 1) by (field; lra).
  assert (GO : forall z zv, sc R 1 0 z zv -> ap 3186 (1737000 * hu) (mul64 z sr) (zv * ds) /\ ap 1 (15 * hu) (mul64 ir z) (zv / R)).
  { intros z zv Z. split; apply ap_sc.
    - assert (H : sc (R * (1 / R)) (1 * 3186) (1737000 * hu) (mul64 z sr) (zv * ds)).
      { apply (sc_mul R (1 / R) 1 0 3186 (1733000 * hu)); auto; try (unfold hu; lra). rewrite RI. exact S1. }
      rewrite RI, Rmult_1_l in H. exact H.
    - replace (zv / R) with (1 / R * zv) by (field; lra). assert (H : sc (1 / R * R) (1 * 1) (15 * hu) (mul64 ir z) (1 / R * zv)).
      { apply (sc_mul (1 / R) R 1 (12 * hu) 1 0); auto; try (unfold hu; lra). rewrite IR. exact S1. }
      rewrite IR, Rmult_1_r in H. exact H. }
  destruct (GO x v CX) as [XS RX]. destruct (GO y w CY) as [YS RY]. clear GO.
  set (xs := mul64 x sr) in *. set (ys := mul64 y sr) in *. set (rx := mul64 ir x) in *. set (ry := mul64 ir y) in *. clearbody xs ys rx ry.
  set (s := div64 td r) in *. clearbody s.
  assert (M00 : ap 3600 (1900000 * hu) (mac (cz 12) xs rx s) (v * ds * (v / R) + t * p / R)) by (apply (ap_mac _ 12 4096 3186 (1737000 * hu) 1 (15 * hu) 341 (64000 * hu)); auto; side).
  assert (M11 : ap 3600 (1900000 * hu) (mac (cz 13) ys ry s) (w * ds * (w / R) + t * p / R)) by (apply (ap_mac _ 12 4096 3186 (1737000 * hu) 1 (15 * hu) 341 (64000 * hu)); auto; side).
  assert (M01 : ap 3600 (1900000 * hu) (mul64 xs ry) (v * ds * (w / R))) by (apply (ap_mul 12 4096 3186 (1737000 * hu) 1 (15 * hu)); auto; side).
  assert (M10 : ap 3600 (1900000 * hu) (mul64 ys rx) (w * ds * (v / R))) by (apply (ap_mul 12 4096 3186 (1737000 * hu) 1 (15 * hu)); auto; side).
  assert (SM : 1900000 * hu <= / 2 ^ 32) by (unfold hu; lra).
  assert (QP : 0 < v * v + w * w) by (destruct Q0 as [Q0|Q0]; [exact Q0|exfalso; unfold R in RP; rewrite <- Q0, sqrt_0 in RP; lra]).
  pose proof (equi_slopes k1 k2 k3 k4 v w QP) as SX. cbv beta zeta in SX. fold R in SX. fold t in SX. fold p in SX. fold dp in SX. fold ds in SX.
  pose proof (equi_slopes k1 k2 k3 k4 w v ltac:(lra)) as SY. cbv beta zeta in SY. rewrite (Rplus_comm (w * w) (v * v)) in SY. fold R in SY. fold t in SY. fold p in SY. fold dp in SY. fold ds in SY.
  split; [|split; [|split]].
  - eapply slope_ap; [exact M00|lra|exact SM|]. replace (v * ds * (v / R) + t * p / R) with (1 * (t * p / R) + v * (ds * (v / R))) by ring. exact (times_id _ v _ SX).
  - eapply slope_ap; [exact M01|lra|exact SM|]. replace (v * ds * (w / R)) with (v * (ds * (w / R))) by ring.
    eapply is_derive_ext; [|apply (is_derive_scal _ w v _ SY)]. intros z. unfold exact_equi. cbv zeta. cbn [fst]. rewrite (Rplus_comm (v * v)). reflexivity.
  - eapply slope_ap; [exact M10|lra|exact SM|]. replace (w * ds * (v / R)) with (w * (ds * (v / R))) by ring. exact (is_derive_scal _ v w _ SX).
  - eapply slope_ap; [exact M11|lra|exact SM|]. replace (w * ds * (w / R) + t * p / R) with (1 * (t * p / R) + w * (ds * (w / R))) by ring.
    pose proof (times_id _ w _ SY) as TS. cbv beta in TS. rewrite (Rplus_comm (w * w) (v * v)) in TS. eapply is_derive_ext; [|exact TS]. intros z. unfold exact_equi. cbv zeta. cbn [snd]. rewrite (Rplus_comm (v * v)). reflexivity.
Qed.
End E.
