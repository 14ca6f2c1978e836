(** Error of the distortion Jacobians in doubles. *)
From Coq Require Import ZArith Bool Reals Lia Lra Psatz.
From Coquelicot Require Import Coquelicot.
From Flocq Require Import Core BinarySingleNaN.
From Verif Require Import IeeeModel IeeeSpec IeeeReal StampModel IcamModel IcamSpec IcamAccSpec IcamProofs IcamAcc IcamSph IbackModel IbjacModel IjacSpec.
Local Open Scope R_scope.
Local Notation fe := (SpecFloat.fexp 53 1024).
Local Notation rn := (round radix2 fe ZnearestE).

Lemma int_ap n m e : B2SF (g64_of_Z n) = SpecFloat.S754_finite false m e -> F2R (Float radix2 (Zpos m) e) = IZR n -> 0 <= IZR n -> ap (IZR n) 0 (g64_of_Z n) (IZR n).
Proof.
  intros E V P. assert (W : B2R (g64_of_Z n) = IZR n) by (rewrite <- SF2R_B2SF, E; exact V).
  split; [rewrite <- is_finite_SF_B2SF, E; reflexivity|]. rewrite W. replace (IZR n - IZR n) with 0 by ring. rewrite Rabs_R0, Rabs_pos_eq by exact P. lra.
Qed.
Lemma four_ap : ap 4 0 four64 4.
Proof. apply (int_ap 4 4503599627370496 (-50)); [vm_compute; reflexivity|unfold F2R; cbn; lra|lra]. Qed.
Lemma six_ap : ap 6 0 six64 6.
Proof. apply (int_ap 6 6755399441055744 (-50)); [vm_compute; reflexivity|unfold F2R; cbn; lra|lra]. Qed.
Lemma ap_opp b e x v : ap b e x v -> ap b e (opp64 x) (- v).
Proof.
  intros (F & V & E). unfold opp64. split; [now rewrite is_finite_Bopp|]. rewrite Rabs_Ropp, B2R_Bopp. split; [exact V|].
  replace (- B2R x - - v) with (- (B2R x - v)) by ring. now rewrite Rabs_Ropp.
Qed.
Lemma ap_sub m P b1 e1 b2 e2 b e x y v w : ap b1 e1 x v -> ap b2 e2 y w -> (0 <= m < 500)%Z -> P = bpow radix2 m -> 0 <= b1 + e1 -> 0 <= b2 + e2 ->
  b1 + b2 + (e1 + e2) <= P -> b1 + b2 <= b -> e1 + e2 + P * hu <= e -> ap b e (sub64 x y) (v - w).
Proof.
  intros X Y L EP H1 H2 H3 H4 H5. pose proof (ap_bd _ _ _ _ P m X EP ltac:(lra)) as B1. pose proof (ap_bd _ _ _ _ P m Y EP ltac:(lra)) as B2.
  destruct X as (_ & V & E1). destruct Y as (_ & W & E2). destruct (sub_val m x y B1 B2 ltac:(lia)) as [[F _] E].
  pose proof (Rabs_triang v (- w)) as T. rewrite Rabs_Ropp in T. unfold Rminus. split; [exact F|]. split; [lra|]. rewrite E.
  assert (D : Rabs (B2R x - B2R y - (v - w)) <= e1 + e2) by (replace (B2R x - B2R y - (v - w)) with ((B2R x - v) + - (B2R y - w)) by ring; eapply Rle_trans; [apply Rabs_triang|]; rewrite Rabs_Ropp; lra).
  assert (S : Rabs (B2R x - B2R y) <= P) by (eapply Rle_trans; [apply (size _ (v - w) (e1 + e2) (b1 + b2)); [unfold Rminus; lra|exact D]|lra]).
  pose proof (rn_err m P _ ltac:(lia) EP S). pose proof (tri (rn (B2R x - B2R y)) (B2R x - B2R y) (v - w)). unfold Rminus in *. lra.
Qed.
Lemma ap_dop k m P b1 e1 b2 e2 b3 e3 b4 e4 b e x y z u v w t s : ap b1 e1 x v -> ap b2 e2 y w -> ap b3 e3 z t -> ap b4 e4 u s -> (0 <= m < 500)%Z -> P = bpow radix2 m ->
  b1 + e1 <= P -> b2 + e2 <= P -> b3 + e3 <= P -> b4 + e4 <= P ->
  0 <= b1 -> 0 <= b2 -> 0 <= b3 -> 0 <= b4 -> 0 <= e1 -> 0 <= e2 -> 0 <= e3 -> 0 <= e4 ->
  b1 * b2 + b3 * b4 + (b1 * e2 + b2 * e1 + e1 * e2 + (b3 * e4 + b4 * e3 + e3 * e4) + P * hu + P * hu) <= P -> b1 * b2 + b3 * b4 <= b ->
  b1 * e2 + b2 * e1 + e1 * e2 + (b3 * e4 + b4 * e3 + e3 * e4) + P * hu + P * hu + P * hu <= e -> ap b e (dop k x y z u) (v * w - t * s).
Proof.
  intros X Y Z U L EP H1 H2 H1' H2' P1 P2 P3 P4 Q1 Q2 Q3 Q4 H3 H4 H5.
  assert (0 <= b1 * e2 + b2 * e1 + e1 * e2) by nra. assert (0 <= b1 * b2) by nra. assert (0 <= b3 * e4 + b4 * e3 + e3 * e4) by nra. assert (0 <= b3 * b4) by nra.
  assert (0 <= P * hu) by (pose proof hu_pos; subst P; pose proof (bpow_ge_0 radix2 m); nra).
  assert (A : ap (b1 * b2) (b1 * e2 + b2 * e1 + e1 * e2 + P * hu) (mul64 x y) (v * w)) by (apply (ap_mul m P b1 e1 b2 e2); auto; lra).
  assert (B : ap (b3 * b4) (b3 * e4 + b4 * e3 + e3 * e4 + P * hu) (mul64 z u) (t * s)) by (apply (ap_mul m P b3 e3 b4 e4); auto; lra).
  destruct k; cbn [dop].
  - apply (ap_sub m P _ _ _ _ _ _ _ _ _ _ A B); auto; lra.
  - unfold Rminus. apply (ap_fma m P b1 e1 b2 e2 _ _ _ _ _ _ _ _ _ _ X Y (ap_opp _ _ _ _ B)); auto; lra.
  - replace (v * w - t * s) with (- t * s + v * w) by ring. apply (ap_fma m P b3 e3 b4 e4 _ _ _ _ _ _ _ _ _ _ (ap_opp _ _ _ _ Z) U A); auto; lra.
Qed.
(** a quotient with a divisor of at least one *)
Lemma ap_quot m P b1 e1 b2 e2 e x y v w : ap b1 e1 x v -> ap b2 e2 y w -> 1 <= w -> 0 <= e2 <= / 2 -> 0 <= e1 -> 0 <= b1 -> (0 <= m < 500)%Z -> P = bpow radix2 m -> b1 + e1 <= P ->
  b1 + (2 * e1 + 2 * b1 * e2) <= P -> 2 * e1 + 2 * b1 * e2 + P * hu <= e -> ap b1 e (div64 x y) (v / w).
Proof.
  intros X (F & _ & D) W L P1 P2 Lm EP H1 H2 H3. assert (A : / 2 <= B2R y) by (apply Rabs_le_inv in D; lra). pose proof (ap_bd _ _ _ _ _ _ X EP H1) as BX. destruct X as (FX & V & E).
  destruct (div_val m (-1) x y BX F A ltac:(lia)) as [[Fd _] Ed].
  assert (I1 : 0 < / B2R y <= 2) by (split; [apply Rinv_0_lt_compat; lra|replace 2 with (/ / 2) by lra; apply Rinv_le_contravar; lra]).
  assert (I2 : 0 < / w <= 1) by (split; [apply Rinv_0_lt_compat; lra|rewrite <- Rinv_1; apply Rinv_le_contravar; lra]).
  pose proof (Rabs_pos v) as PV. pose proof (Rabs_pos (B2R x - v)) as PE. pose proof (Rabs_pos (B2R y - w)) as PD.
  assert (VW : Rabs (v / w) <= b1) by (unfold Rdiv; rewrite Rabs_mult, (Rabs_pos_eq (/ w)) by lra; nra).
  assert (C : Rabs (B2R x / B2R y - v / w) <= 2 * e1 + 2 * b1 * e2).
  { replace (B2R x / B2R y - v / w) with ((B2R x - v) * / B2R y + v * (w - B2R y) * (/ B2R y * / w)) by (field; lra).
    eapply Rle_trans; [apply Rabs_triang|]. rewrite !Rabs_mult, (Rabs_minus_sym w), (Rabs_pos_eq (/ B2R y)), (Rabs_pos_eq (/ w)) by lra.
    assert (Rabs (B2R x - v) * / B2R y <= 2 * e1) by nra. assert (0 <= Rabs v * Rabs (B2R y - w) <= b1 * e2) by nra. assert (0 <= / B2R y * / w <= 2) by nra. nra. }
  split; [exact Fd|]. split; [exact VW|]. rewrite Ed. assert (S : Rabs (B2R x / B2R y) <= P) by (eapply Rle_trans; [apply (size _ (v / w) _ b1 VW C)|lra]).
  pose proof (rn_err m P _ ltac:(lia) EP S). pose proof (tri (rn (B2R x / B2R y)) (B2R x / B2R y) (v / w)). lra.
Qed.
(** a slope of bounded size, and its approximation *)
Definition slope_in (eps : R) (f : R -> R) (a : R) (j : g64) : Prop := is_finite j = true /\ exists d, derivable_pt_lim f a d /\ Rabs d <= 3600 /\ Rabs (val64 j - d) <= eps.
Definition jac_in (eps : R) (f : R -> R -> R * R) (x y : R) (j : mat64) : Prop :=
  slope_in eps (fun t => fst (f t y)) x (m00 j) /\ slope_in eps (fun t => fst (f x t)) y (m01 j) /\
  slope_in eps (fun t => snd (f t y)) x (m10 j) /\ slope_in eps (fun t => snd (f x t)) y (m11 j).
Lemma slope_out eps eps' f a j : slope_in eps f a j -> eps <= eps' -> slope_in eps' f a j /\ slope_within eps' f a j.
Proof. intros (F & d & D & B & E) L. split; (split; [exact F|]); exists d; split; try split; try exact D; lra. Qed.
Lemma jac_out eps eps' f x y j : jac_in eps f x y j -> eps <= eps' -> jac_in eps' f x y j /\ jacobian_within eps' f x y j.
Proof.
  intros (A & B & C & D) L. destruct (slope_out _ _ _ _ _ A L). destruct (slope_out _ _ _ _ _ B L). destruct (slope_out _ _ _ _ _ C L). destruct (slope_out _ _ _ _ _ D L).
  split; (split; [|split; [|split]]); assumption.
Qed.
Lemma slope_ap eps f a j b e d : ap b e j d -> b <= 3600 -> e <= eps -> is_derive f a d -> slope_in eps f a j.
Proof. intros (F & B & E) L1 L D. split; [exact F|]. exists d. split; [now apply is_derive_Reals|]. split; [lra|unfold val64; lra]. Qed.

Lemma times_id (s : R -> R) a d : is_derive s a d -> is_derive (fun t => t * s t) a (1 * s a + a * d).
Proof. intros D. apply is_derive_Reals. apply is_derive_Reals in D. apply (derivable_pt_lim_mult id s); [apply derivable_pt_lim_id|exact D]. Qed.

Section J.
Variables (cz : nat -> contraction) (c : camera64).
Hypothesis Us : usual c.
Lemma radtan_jac x y : at_most 2 x -> at_most 2 y -> jac_in (/ 2 ^ 36) (exact_radtan c) (val64 x) (val64 y) (snd (radtan_jac64 cz c x y)).
Proof.
  intros X Y. apply ap_exact in X, Y. destruct Us as (K1 & K2 & K3 & P1 & P2 & _). apply ap_exact in K1, K2, K3, P1, P2.
  unfold jac_in, radtan_jac64. cbv zeta. cbn [fst snd m00 m01 m10 m11]. unfold val64. set (v := B2R x) in *. set (w := B2R y) in *.
  assert (R2 : ap 8 (80 * hu) (sop (cz 0) x x y y) (v * v + w * w)) by (apply (ap_sop _ 4 16 2 0 2 0 2 0 2 0); auto; side).
  set (r2 := sop (cz 0) x x y y) in *. clearbody r2. set (q := v * v + w * w) in *.
  assert (KR : ap 585 (24000 * hu) (mac (cz 3) (mac (cz 2) (mac (cz 1) (c_k3 c) r2 (c_k2 c)) r2 (c_k1 c)) r2 one64) (((B2R (c_k3 c) * q + B2R (c_k2 c)) * q + B2R (c_k1 c)) * q + 1)).
  { apply (ap_mac _ 10 1024 73 (1900 * hu) 8 (80 * hu) 1 0); auto using one_ap; try side.
    apply (ap_mac _ 7 128 9 (113 * hu) 8 (80 * hu) 1 0); auto; try side.
    apply (ap_mac _ 4 16 1 0 8 (80 * hu) 1 0); auto; side. }
  set (kr := mac (cz 3) _ _ _) in *. clearbody kr.
  assert (XY : ap 4 (17 * hu) (mul64 x y) (v * w)) by (apply (ap_mul 3 8 2 0 2 0); auto; side).
  assert (X2 : ap 4 (17 * hu) (mul64 x x) (v * v)) by (apply (ap_mul 3 8 2 0 2 0); auto; side).
  assert (Y2 : ap 4 (17 * hu) (mul64 y y) (w * w)) by (apply (ap_mul 3 8 2 0 2 0); auto; side).
  set (xx := mul64 x x) in *. set (yy := mul64 y y) in *. set (xy := mul64 x y) in *. clearbody xx yy xy.
  assert (T1 : ap 2 (2 * hu) (mul64 two64 (c_k1 c)) (2 * B2R (c_k1 c))) by (apply (ap_mul 1 2 2 0 1 0); auto using two_ap; side).
  assert (T2 : ap 4 (4 * hu) (mul64 four64 (c_k2 c)) (4 * B2R (c_k2 c))) by (apply (ap_mul 2 4 4 0 1 0); auto using four_ap; side).
  assert (T3 : ap 6 (8 * hu) (mul64 six64 (c_k3 c)) (6 * B2R (c_k3 c))) by (apply (ap_mul 3 8 6 0 1 0); auto using six_ap; side).
  assert (A1 : ap 2 (2 * hu) (mul64 two64 (c_p1 c)) (2 * B2R (c_p1 c))) by (apply (ap_mul 1 2 2 0 1 0); auto using two_ap; side).
  assert (A2 : ap 2 (2 * hu) (mul64 two64 (c_p2 c)) (2 * B2R (c_p2 c))) by (apply (ap_mul 1 2 2 0 1 0); auto using two_ap; side).
  assert (B1 : ap 6 (8 * hu) (mul64 six64 (c_p1 c)) (6 * B2R (c_p1 c))) by (apply (ap_mul 3 8 6 0 1 0); auto using six_ap; side).
  assert (B2 : ap 6 (8 * hu) (mul64 six64 (c_p2 c)) (6 * B2R (c_p2 c))) by (apply (ap_mul 3 8 6 0 1 0); auto using six_ap; side).
  set (t1 := mul64 two64 (c_k1 c)) in *. set (t2 := mul64 four64 (c_k2 c)) in *. set (t3 := mul64 six64 (c_k3 c)) in *. set (a1 := mul64 two64 (c_p1 c)) in *. set (a2 := mul64 two64 (c_p2 c)) in *.
  set (b1 := mul64 six64 (c_p1 c)) in *. set (b2 := mul64 six64 (c_p2 c)) in *. clearbody t1 t2 t3 a1 a2 b1 b2.
  set (k1 := B2R (c_k1 c)) in *. set (k2 := B2R (c_k2 c)) in *. set (k3 := B2R (c_k3 c)) in *. set (p1 := B2R (c_p1 c)) in *. set (p2 := B2R (c_p2 c)) in *.
  assert (DIAG : forall zz z a b pa pb ra rb i j k l m, ap 4 (17 * hu) zz (z * z) -> ap 2 (2 * hu) pa ra -> ap 6 (8 * hu) pb rb -> ap 2 0 a (B2R a) -> ap 2 0 b (B2R b) ->
    ap 2280 (110000 * hu) (mac (cz i) pb a (mac (cz j) pa b (mac (cz k) (mul64 (mul64 t3 zz) r2) r2 (mac (cz l) (mul64 t2 zz) r2 (mac (cz m) t1 zz kr)))))
      (rb * B2R a + (ra * B2R b + (6 * k3 * (z * z) * q * q + (4 * k2 * (z * z) * q + (2 * k1 * (z * z) + (((k3 * q + k2) * q + k1) * q + 1))))))).
  { intros zz z a b pa pb ra rb i j k l m ZZ PA PB A B.
    apply (ap_mac _ 12 4096 6 (8 * hu) 2 0 2261 (91000 * hu)); auto; try side. apply (ap_mac _ 12 4096 2 (2 * hu) 2 0 2257 (82500 * hu)); auto; try side.
    apply (ap_mac _ 12 4096 192 (3560 * hu) 8 (80 * hu) 721 (30400 * hu)); auto; try side.
    - apply (ap_mul 8 256 24 (171 * hu) 8 (80 * hu)); auto; try side. apply (ap_mul 5 32 6 (8 * hu) 4 (17 * hu)); auto; side.
    - apply (ap_mac _ 10 1024 16 (120 * hu) 8 (80 * hu) 593 (26100 * hu)); auto; try side.
      + apply (ap_mul 5 32 4 (4 * hu) 4 (17 * hu)); auto; side.
      + apply (ap_mac _ 10 1024 2 (2 * hu) 4 (17 * hu) 585 (24000 * hu)); auto; side. }
  assert (OFF : ap 1700 (60000 * hu) (mac (cz 28) a2 y (mac (cz 27) a1 x (mac (cz 26) (mul64 (mul64 t3 xy) r2) r2 (sop (cz 25) t1 xy (mul64 t2 xy) r2))))
      (2 * p2 * w + (2 * p1 * v + (6 * k3 * (v * w) * q * q + (2 * k1 * (v * w) + 4 * k2 * (v * w) * q))))).
  { apply (ap_mac _ 11 2048 2 (2 * hu) 2 0 1676 (55300 * hu)); auto; try side. apply (ap_mac _ 11 2048 2 (2 * hu) 2 0 1672 (51100 * hu)); auto; try side.
    apply (ap_mac _ 11 2048 192 (3560 * hu) 8 (80 * hu) 136 (3080 * hu)); auto; try side.
    - apply (ap_mul 8 256 24 (171 * hu) 8 (80 * hu)); auto; try side. apply (ap_mul 5 32 6 (8 * hu) 4 (17 * hu)); auto; side.
    - apply (ap_sop _ 8 256 2 (2 * hu) 4 (17 * hu) 16 (120 * hu) 8 (80 * hu)); auto; try side. apply (ap_mul 5 32 4 (4 * hu) 4 (17 * hu)); auto; side. }
  assert (SM : 110000 * hu <= / 2 ^ 36) by (unfold hu; lra). assert (SM' : 60000 * hu <= / 2 ^ 36) by (unfold hu; lra).
  split; [|split; [|split]].
  - eapply slope_ap; [apply (DIAG xx v x y a1 b2 _ _ 24%nat 23%nat 22%nat 21%nat 20%nat X2 A1 B2 X Y)|lra|exact SM|]. unfold exact_radtan, val64. cbv zeta. cbn [fst]. fold k1 k2 k3 p1 p2. fold v w. unfold q. auto_derive; [trivial|ring].
  - eapply slope_ap; [exact OFF|lra|exact SM'|]. unfold exact_radtan, val64. cbv zeta. cbn [fst]. fold k1 k2 k3 p1 p2. unfold q. auto_derive; [trivial|ring].
  - eapply slope_ap; [exact OFF|lra|exact SM'|]. unfold exact_radtan, val64. cbv zeta. cbn [snd]. fold k1 k2 k3 p1 p2. unfold q. auto_derive; [trivial|ring].
  - assert (J : ap 2280 (110000 * hu) (mac (cz 33) a2 x (mac (cz 32) b1 y (mac (cz 31) (mul64 (mul64 t3 yy) r2) r2 (mac (cz 30) (mul64 t2 yy) r2 (mac (cz 29) t1 yy kr)))))
      (2 * p2 * v + (6 * p1 * w + (6 * k3 * (w * w) * q * q + (4 * k2 * (w * w) * q + (2 * k1 * (w * w) + (((k3 * q + k2) * q + k1) * q + 1))))))).
    { apply (ap_mac _ 12 4096 2 (2 * hu) 2 0 2269 (91000 * hu)); auto; try side. apply (ap_mac _ 12 4096 6 (8 * hu) 2 0 2257 (82500 * hu)); auto; try side.
      apply (ap_mac _ 12 4096 192 (3560 * hu) 8 (80 * hu) 721 (30400 * hu)); auto; try side.
      - apply (ap_mul 8 256 24 (171 * hu) 8 (80 * hu)); auto; try side. apply (ap_mul 5 32 6 (8 * hu) 4 (17 * hu)); auto; side.
      - apply (ap_mac _ 10 1024 16 (120 * hu) 8 (80 * hu) 593 (26100 * hu)); auto; try side.
        + apply (ap_mul 5 32 4 (4 * hu) 4 (17 * hu)); auto; side.
        + apply (ap_mac _ 10 1024 2 (2 * hu) 4 (17 * hu) 585 (24000 * hu)); auto; side. }
    eapply slope_ap; [exact J|lra|exact SM|]. unfold exact_radtan, val64. cbv zeta. cbn [snd]. fold k1 k2 k3 p1 p2. unfold q. auto_derive; [trivial|ring].
Qed.
Lemma sphere_slopes (k1 k2 : R) v w : 0 <= k1 -> 0 <= k2 <= 1 ->
  let n v w := k2 * sqrt (v * v + w * w + (k1 * sqrt (v * v + w * w + 1) + 1) * (k1 * sqrt (v * v + w * w + 1) + 1)) + (1 - k2) * (k1 * sqrt (v * v + w * w + 1) + 1) in
  let d1 := sqrt (v * v + w * w + 1) in let e := k1 * d1 + 1 in let d2 := sqrt (v * v + w * w + e * e) in
  is_derive (fun t => / n t w) v (- ((v / d1 * k1 * e + v) / d2 * k2 - v / d1 * k1 * (k2 - 1)) * (/ n v w * / n v w)).
Proof.
  intros H1 H2 n d1 e d2. assert (D1 : 1 <= d1) by (unfold d1; rewrite <- sqrt_1 at 1; apply sqrt_le_1_alt; nra). assert (E1 : 1 <= e) by (unfold e; nra).
  assert (D2 : 1 <= d2) by (unfold d2; rewrite <- sqrt_1 at 1; apply sqrt_le_1_alt; nra).
  assert (N : n v w = k2 * d2 + (1 - k2) * e) by reflexivity. assert (N1 : 1 <= n v w) by (rewrite N; nra).
  rewrite N in *. unfold n. auto_derive; fold d1; fold e; fold d2; fold d1.
  - repeat split; nra.
  - field. repeat split; lra.
Qed.
Lemma sphere_jac x y : 0 <= val64 (c_k1 c) -> 0 <= val64 (c_k2 c) -> off_centre x y -> at_most 2 x -> at_most 2 y ->
  jac_in (/ 2 ^ 35) (exact_sphere c) (val64 x) (val64 y) (snd (sphere_jac64 cz c x y)).
Proof.
  intros K1p K2p OC X Y. destruct Us as (K1 & K2 & _). pose proof (proj2 K1) as K1b. pose proof (proj2 K2) as K2b. rewrite Rabs_pos_eq in K1b, K2b by assumption.
  apply ap_exact in K1, K2, X, Y. unfold jac_in, sphere_jac64. cbv zeta.
  assert (BX : bd 101 x) by (apply (bd_up 2); [apply (ap_bd _ _ _ _ 4 2 X); side|lia]). assert (BY : bd 101 y) by (apply (bd_up 2); [apply (ap_bd _ _ _ _ 4 2 Y); side|lia]).
  unfold off_centre, val64 in *. set (v := B2R x) in *. set (w := B2R y) in *.
  assert (R2 : ap 8 (80 * hu) (sop (cz 0) x x y y) (v * v + w * w)) by (apply (ap_sop _ 4 16 2 0 2 0 2 0 2 0); auto; side).
  assert (BIG : bpow radix2 (-52) <= B2R (sop (cz 0) x x y y)) by (apply (r2_big cz x y BX BY); change (bpow radix2 (-26)) with (/ 67108864); fold v w; destruct OC as [C|C]; [left|right]; lra).
  set (r2 := sop (cz 0) x x y y) in *. clearbody r2. assert (Q0 : 0 <= v * v + w * w) by nra.
  assert (NB : Bltb r2 nano10_2 = false).
  { destruct (Bltb r2 nano10_2) eqn:B; [|reflexivity]. apply ltb_true in B; [|exact (proj1 R2)|exact (proj1 nano2_val)]. pose proof (proj2 nano2_val). lra. }
  rewrite NB. clear NB BIG OC. cbn [fst snd m00 m01 m10 m11].
  set (k1 := B2R (c_k1 c)) in *. set (k2 := B2R (c_k2 c)) in *.
  pose proof (sphere_slopes k1 k2 v w K1p ltac:(lra)) as SX. pose proof (sphere_slopes k1 k2 w v K1p ltac:(lra)) as SY. cbv beta zeta in SX, SY.
  assert (DX : forall t, fst (exact_sphere c t w) = t * / (k2 * sqrt (t * t + w * w + (k1 * sqrt (t * t + w * w + 1) + 1) * (k1 * sqrt (t * t + w * w + 1) + 1)) + (1 - k2) * (k1 * sqrt (t * t + w * w + 1) + 1))) by reflexivity.
  assert (DX' : forall t, snd (exact_sphere c t w) = w * / (k2 * sqrt (t * t + w * w + (k1 * sqrt (t * t + w * w + 1) + 1) * (k1 * sqrt (t * t + w * w + 1) + 1)) + (1 - k2) * (k1 * sqrt (t * t + w * w + 1) + 1))) by reflexivity.
  assert (DY : forall t, fst (exact_sphere c v t) = v * / (k2 * sqrt (t * t + v * v + (k1 * sqrt (t * t + v * v + 1) + 1) * (k1 * sqrt (t * t + v * v + 1) + 1)) + (1 - k2) * (k1 * sqrt (t * t + v * v + 1) + 1))) by (intros t; rewrite (Rplus_comm (t * t)); reflexivity).
  assert (DY' : forall t, snd (exact_sphere c v t) = t * / (k2 * sqrt (t * t + v * v + (k1 * sqrt (t * t + v * v + 1) + 1) * (k1 * sqrt (t * t + v * v + 1) + 1)) + (1 - k2) * (k1 * sqrt (t * t + v * v + 1) + 1))) by (intros t; rewrite (Rplus_comm (t * t)); reflexivity).
  rewrite (Rplus_comm (w * w) (v * v)) in SY. set (q := v * v + w * w) in *.
  assert (D1 : 1 <= sqrt (q + 1)) by (rewrite <- sqrt_1 at 1; apply sqrt_le_1_alt; lra). set (d1 := sqrt (q + 1)) in *.
  set (e := k1 * d1 + 1) in *. assert (E1 : 1 <= e) by (unfold e; nra).
  assert (D2 : 1 <= sqrt (q + e * e)) by (rewrite <- sqrt_1 at 1; apply sqrt_le_1_alt; nra). set (d2 := sqrt (q + e * e)) in *.
  set (n := k2 * d2 + (1 - k2) * e) in *. assert (N1 : 1 <= n) by (unfold n; nra).
  pose proof one_ap as O.
  assert (A1 : ap 9 (96 * hu) (add64 r2 one64) (q + 1)) by (apply (ap_add 4 16 8 (80 * hu) 1 0); auto; side). set (a1 := add64 r2 one64) in *. clearbody a1.
  assert (A2 : ap 3 (112 * hu) (sqrt64 a1) d1) by (apply (ap_sqrt 4 16 9 (96 * hu)); auto; try side; lra). set (a2 := sqrt64 a1) in *. clearbody a2.
  assert (A3 : ap 4 (130 * hu) (mac (cz 1) (c_k1 c) a2 one64) e) by (apply (ap_mac _ 3 8 1 0 3 (112 * hu) 1 0); auto; side). set (a3 := mac (cz 1) _ _ _) in *. clearbody a3.
  assert (A4 : ap 24 (1200 * hu) (mac (cz 2) a3 a3 r2) (q + e * e)) by (rewrite Rplus_comm; apply (ap_mac _ 5 32 4 (130 * hu) 4 (130 * hu) 8 (80 * hu)); auto; side). set (a4 := mac (cz 2) _ _ _) in *. clearbody a4.
  assert (A5 : ap 5 (1240 * hu) (sqrt64 a4) d2) by (apply (ap_sqrt 5 32 24 (1200 * hu)); auto; try side; nra). set (a5 := sqrt64 a4) in *. clearbody a5.
  assert (A6 : ap 2 (3 * hu) (sub64 one64 (c_k2 c)) (1 - k2)) by (apply (ap_sub 1 2 1 0 1 0); auto; side).
  assert (A6' : ap 1 (3 * hu) (sub64 (c_k2 c) one64) (k2 - 1)).
  { assert (G : ap 2 (3 * hu) (sub64 (c_k2 c) one64) (k2 - 1)) by (apply (ap_sub 1 2 1 0 1 0); auto; side). destruct G as (G1 & _ & G3). split; [exact G1|]. split; [apply Rabs_le; lra|exact G3]. }
  assert (A6'' : ap 1 (3 * hu) (sub64 one64 (c_k2 c)) (1 - k2)) by (destruct A6 as (G1 & _ & G3); split; [exact G1|]; split; [apply Rabs_le; lra|exact G3]). clear A6.
  set (a6 := sub64 one64 (c_k2 c)) in *. clearbody a6. set (b6 := sub64 (c_k2 c) one64) in *. clearbody b6.
  assert (A7 : ap 9 (1500 * hu) (sop (cz 3) (c_k2 c) a5 a6 a3) n) by (apply (ap_sop _ 4 16 1 0 5 (1240 * hu) 1 (3 * hu) 4 (130 * hu)); auto; side). set (a7 := sop (cz 3) _ _ _ _) in *. clearbody a7.
  pose proof (ap_inv _ _ _ _ A7 N1 ltac:(unfold hu; lra)) as A8. set (s := div64 one64 a7) in *. clearbody s.
  assert (SLOPE : forall z k k', at_most 2 z -> ap 12 (30000 * hu) (dop (cz k) (div64 (mac (cz k') (mul64 (div64 z a2) (c_k1 c)) a3 z) a5) (c_k2 c) (mul64 (div64 z a2) (c_k1 c)) b6)
     ((B2R z / d1 * k1 * e + B2R z) / d2 * k2 - B2R z / d1 * k1 * (k2 - 1))).
  { intros z k k' Z. apply ap_exact in Z. assert (Z1 : ap 2 (460 * hu) (div64 z a2) (B2R z / d1)) by (apply (ap_quot 2 4 2 0 3 (112 * hu)); auto; side). set (z1 := div64 z a2) in *. clearbody z1.
    assert (Z2 : ap 2 (470 * hu) (mul64 z1 (c_k1 c)) (B2R z / d1 * k1)) by (apply (ap_mul 2 4 2 (460 * hu) 1 0); auto; side). set (z2 := mul64 z1 _) in *. clearbody z2.
    assert (Z3 : ap 10 (2200 * hu) (mac (cz k') z2 a3 z) (B2R z / d1 * k1 * e + B2R z)) by (apply (ap_mac _ 4 16 2 (470 * hu) 4 (130 * hu) 2 0); auto; side). set (z3 := mac _ _ _ _) in *. clearbody z3.
    assert (Z4 : ap 10 (29300 * hu) (div64 z3 a5) ((B2R z / d1 * k1 * e + B2R z) / d2)) by (apply (ap_quot 4 16 10 (2200 * hu) 5 (1240 * hu)); auto; side). set (z4 := div64 _ _) in *. clearbody z4.
    apply (ap_dop _ 4 16 10 (29300 * hu) 1 0 2 (470 * hu) 1 (3 * hu)); auto; side. }
  assert (XS : at_most 2 x) by (split; [exact (proj1 X)|exact (proj1 (proj2 X))]). assert (YS : at_most 2 y) by (split; [exact (proj1 Y)|exact (proj1 (proj2 Y))]).
  pose proof (SLOPE x 8%nat 6%nat XS) as GX. pose proof (SLOPE y 9%nat 7%nat YS) as GY. clear SLOPE. fold v in GX. fold w in GY.
  set (ax := dop (cz 8) _ _ _ _) in *. set (ay := dop (cz 9) _ _ _ _) in *. clearbody ax ay. set (gx := (v / d1 * k1 * e + v) / d2 * k2 - v / d1 * k1 * (k2 - 1)) in *. set (gy := (w / d1 * k1 * e + w) / d2 * k2 - w / d1 * k1 * (k2 - 1)) in *.
  assert (DIAG : forall z g gv k, ap 2 0 z (B2R z) -> ap 12 (30000 * hu) g gv -> ap 25 (220000 * hu) (mac (cz k) (mul64 (mul64 (opp64 z) g) s) s s) (- B2R z * gv * / n * / n + / n)).
  { intros z g gv k Z G. apply (ap_mac _ 5 32 24 (133000 * hu) 1 (3002 * hu) 1 (3002 * hu)); try side; try (apply (ap_up _ _ _ _ _ _ A8); num).
    apply (ap_mul 5 32 24 (60100 * hu) 1 (3002 * hu)); try side; try (apply (ap_up _ _ _ _ _ _ A8); num). apply (ap_mul 5 32 2 0 12 (30000 * hu)); auto using ap_opp; side. }
  assert (OFF : forall z g gv, ap 2 0 z (B2R z) -> ap 12 (30000 * hu) g gv -> ap 24 (220000 * hu) (mul64 (mul64 (mul64 (opp64 s) s) z) g) (- / n * / n * B2R z * gv)).
  { intros z g gv Z G. apply (ap_mul 5 32 2 (12100 * hu) 12 (30000 * hu)); auto; try side. apply (ap_mul 2 4 1 (6020 * hu) 2 0); auto; try side.
    apply (ap_mul 1 2 1 (3002 * hu) 1 (3002 * hu)); try side; [apply ap_opp|]; apply (ap_up _ _ _ _ _ _ A8); num. }
  assert (SM : 220000 * hu <= / 2 ^ 35) by (unfold hu; lra).
  split; [|split; [|split]].
  - eapply slope_ap; [apply (DIAG x ax gx 10%nat X GX)|lra|exact SM|]. eapply is_derive_ext; [intros t; symmetry; apply DX|].
    replace (- B2R x * gx * / n * / n + / n) with (1 * / n + v * (- gx * (/ n * / n))) by (fold v; ring). exact (times_id _ v _ SX).
  - eapply slope_ap; [apply (OFF x ay gy X GY)|lra|exact SM|]. eapply is_derive_ext; [intros t; symmetry; apply DY|].
    replace (- / n * / n * B2R x * gy) with (v * (- gy * (/ n * / n))) by (fold v; ring). apply (is_derive_scal _ w v _ SY).
  - eapply slope_ap; [apply (OFF y ax gx Y GX)|lra|exact SM|]. eapply is_derive_ext; [intros t; symmetry; apply DX'|].
    replace (- / n * / n * B2R y * gx) with (w * (- gx * (/ n * / n))) by (fold w; ring). apply (is_derive_scal _ v w _ SX).
  - eapply slope_ap; [apply (DIAG y ay gy 11%nat Y GY)|lra|exact SM|]. eapply is_derive_ext; [intros t; symmetry; apply DY'|].
    replace (- B2R y * gy * / n * / n + / n) with (1 * / n + w * (- gy * (/ n * / n))) by (fold w; ring). pose proof (times_id _ w _ SY) as TS. cbv beta in TS. rewrite (Rplus_comm (w * w) (v * v)) in TS. exact TS.
Qed.
End J.
