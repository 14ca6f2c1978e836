(** Error of the double-sphere projection in doubles. *)
From Coq Require Import ZArith Bool Reals Lia Lra Psatz.
From Flocq Require Import Core BinarySingleNaN.
From Verif Require Import IeeeModel IeeeSpec IeeeReal StampModel IcamModel IcamSpec IcamAccSpec IcamProofs IcamAcc.
Local Open Scope R_scope.

Local Notation fe := (SpecFloat.fexp 53 1024).
Local Notation rn := (round radix2 fe ZnearestE).
Lemma sqrt_close e a v : 1 <= v -> 0 <= a -> Rabs (a - v) <= e -> Rabs (sqrt a - sqrt v) <= e.
Proof.
  intros V A H. assert (S1 : 1 <= sqrt v) by (rewrite <- sqrt_1; now apply sqrt_le_1_alt). pose proof (sqrt_pos a) as S2.
  assert (E : a - v = (sqrt a - sqrt v) * (sqrt a + sqrt v)).
  { replace a with (sqrt a * sqrt a) at 1 by (apply sqrt_sqrt; lra). replace v with (sqrt v * sqrt v) at 1 by (apply sqrt_sqrt; lra). ring. }
  rewrite E, Rabs_mult, (Rabs_pos_eq (sqrt a + sqrt v)) in H by lra. pose proof (Rabs_pos (sqrt a - sqrt v)). nra.
Qed.
Lemma ap_sqrt m P b e B E x v : ap b e x v -> 1 <= v -> 0 <= e <= / 2 -> (0 <= m < 500)%Z -> P = bpow radix2 m -> b + e <= P -> b <= B * B -> 0 <= B -> B + e <= P -> e + P * hu <= E -> ap B E (sqrt64 x) (sqrt v).
Proof.
  intros X V L Lm EP H1 H2 HB H3 H4. pose proof (ap_bd _ _ _ _ P m X EP H1) as BX. destruct X as (F & Vb & D). rewrite Rabs_pos_eq in Vb by lra.
  assert (A : 0 <= B2R x) by (apply Rabs_le_inv in D; lra).
  destruct (sqrt_val m x ltac:(apply (bd_up m); [exact BX|lia]) ltac:(lia) A) as [[Fs _] Es].
  assert (S : sqrt v <= B) by (rewrite <- (sqrt_square B) by exact HB; apply sqrt_le_1_alt; lra). pose proof (sqrt_pos v).
  split; [exact Fs|]. split; [rewrite Rabs_pos_eq by lra; exact S|]. rewrite Es. pose proof (sqrt_close e _ _ V A D) as C.
  assert (Z : Rabs (sqrt (B2R x)) <= P) by (eapply Rle_trans; [apply (size _ (sqrt v) e B); [rewrite Rabs_pos_eq; lra|exact C]|lra]).
  pose proof (rn_err m P _ ltac:(lia) EP Z). pose proof (tri (rn (sqrt (B2R x))) (sqrt (B2R x)) (sqrt v)). lra.
Qed.
Lemma ap_inv b e y w : ap b e y w -> 1 <= w -> 0 <= e <= / 2 -> ap 1 (2 * e + 2 * hu) (div64 one64 y) (/ w).
Proof.
  intros (F & _ & D) W L. assert (A : / 2 <= B2R y) by (apply Rabs_le_inv in D; lra).
  destruct one_val as [O1 O2]. destruct (div_val 0 (-1) one64 y O1 F A ltac:(lia)) as [[Fd _] Ed]. rewrite O2 in Ed.
  split; [exact Fd|]. split; [rewrite Rabs_pos_eq by (apply Rlt_le, Rinv_0_lt_compat; lra); rewrite <- Rinv_1; apply Rinv_le_contravar; lra|]. rewrite Ed.
  assert (C : Rabs (1 / B2R y - / w) <= 2 * e).
  { replace (1 / B2R y - / w) with ((w - B2R y) * (/ B2R y * / w)) by (field; lra). rewrite Rabs_mult, Rabs_minus_sym.
    assert (0 < / B2R y <= 2) by (split; [apply Rinv_0_lt_compat; lra|replace 2 with (/ / 2) by lra; apply Rinv_le_contravar; lra]).
    assert (0 < / w <= 1) by (split; [apply Rinv_0_lt_compat; lra|rewrite <- Rinv_1; apply Rinv_le_contravar; lra]).
    assert (0 <= / B2R y * / w <= 2) by nra. rewrite (Rabs_pos_eq (/ B2R y * / w)) by lra. pose proof (Rabs_pos (B2R y - w)). nra. }
  assert (two' : 2 = bpow radix2 1) by reflexivity.
  assert (Z : Rabs (1 / B2R y) <= 2).
  { unfold Rdiv. rewrite Rmult_1_l, Rabs_pos_eq by (apply Rlt_le, Rinv_0_lt_compat; lra). replace 2 with (/ / 2) by lra. apply Rinv_le_contravar; lra. }
  pose proof (rn_err 1 2 _ ltac:(lia) two' Z). pose proof (tri (rn (1 / B2R y)) (1 / B2R y) (/ w)). lra.
Qed.

Section S.
Variables (cz : nat -> contraction) (c : camera64).
Hypothesis Us : usual c.
(** a large coordinate makes a large radius *)
Lemma r2_big x y : bd 101 x -> bd 101 y -> bpow radix2 (-26) < Rabs (B2R x) \/ bpow radix2 (-26) < Rabs (B2R y) -> bpow radix2 (-52) <= B2R (sop (cz 0) x x y y).
Proof.
  intros X Y H. assert (Q : forall t, bpow radix2 (-26) < Rabs t -> bpow radix2 (-52) <= t * t).
  { intros t T. change (-52)%Z with (-26 + -26)%Z. rewrite bpow_plus. pose proof (bpow_gt_0 radix2 (-26)). rewrite <- (Rabs_pos_eq (t * t)) by nra. rewrite Rabs_mult. nra. }
  pose proof fmt0 as G0. pose proof (fmt_bpow (-52) ltac:(lia)) as G1.
  destruct H as [H|H]; apply Q in H.
  - rewrite <- (Rplus_0_r (bpow radix2 (-52))). apply (sop_ge _ 101 101 101 101 202); auto; try lia; [rewrite Rplus_0_r; exact G1|nra].
  - rewrite <- (Rplus_0_l (bpow radix2 (-52))). apply (sop_ge _ 101 101 101 101 202); auto; try lia; [rewrite Rplus_0_l; exact G1|nra].
Qed.
Lemma nano2_val : is_finite nano10_2 = true /\ B2R nano10_2 < bpow radix2 (-52).
Proof. split; [vm_compute; reflexivity|]. rewrite <- SF2R_B2SF. replace (B2SF nano10_2) with (SpecFloat.S754_finite false 8112963841460668 (-106)) by (vm_compute; reflexivity). unfold SF2R, F2R. cbn. lra. Qed.
(** leaving a tiny coordinate alone *)
Lemma short_cut x v s : ap 2 (2 * hu) x v -> Rabs (B2R x) <= bpow radix2 (-26) -> 0 <= s <= 2 -> ap 4 (/ 60000000) x (v * s).
Proof.
  intros (F & V & E) H S. change (bpow radix2 (-26)) with (/ 67108864) in H. split; [exact F|].
  apply Rabs_le_inv in V, E, H. split; [apply Rabs_le; nra|].
  assert (W : Rabs v <= / 67000000) by (apply Rabs_le; unfold hu in *; lra). apply Rabs_le_inv in W.
  replace (B2R x - v * s) with ((B2R x - v) + v * (1 - s)) by ring. apply Rabs_le. unfold hu in *. nra.
Qed.
Lemma ltb_true (x y : g64) : is_finite x = true -> is_finite y = true -> Bltb x y = true -> B2R x < B2R y.
Proof. intros X Y H. rewrite Bltb_correct in H by assumption. destruct (Rlt_bool_spec (B2R x) (B2R y)); [assumption|discriminate]. Qed.
Lemma sphere_acc x y v w : 0 <= val64 (c_k1 c) -> 0 <= val64 (c_k2 c) -> ap 2 (2 * hu) x v -> ap 2 (2 * hu) y w ->
  ap 4 (/ 60000000) (fst (sphere64 cz c x y)) (fst (exact_sphere c v w)) /\ ap 4 (/ 60000000) (snd (sphere64 cz c x y)) (snd (exact_sphere c v w)).
Proof.
  intros K1p K2p X Y. destruct Us as (K1 & K2 & _). pose proof (proj2 K1) as K1b. pose proof (proj2 K2) as K2b. rewrite Rabs_pos_eq in K1b, K2b by assumption.
  apply ap_exact in K1, K2. unfold sphere64, exact_sphere. cbv zeta. cbn [fst snd].
  assert (BX : bd 101 x) by (apply (bd_up 2); [apply (ap_bd _ _ _ _ 4 2 X); side|lia]). assert (BY : bd 101 y) by (apply (bd_up 2); [apply (ap_bd _ _ _ _ 4 2 Y); side|lia]).
  assert (R2 : ap 8 (80 * hu) (sop (cz 0) x x y y) (v * v + w * w)) by (apply (ap_sop _ 4 16 2 (2 * hu) 2 (2 * hu) 2 (2 * hu) 2 (2 * hu)); auto; side).
  pose proof (r2_big x y BX BY) as BIG. set (r2 := sop (cz 0) x x y y) in *. clearbody r2. assert (Q0 : 0 <= v * v + w * w) by nra. set (q := v * v + w * w) in *.
  unfold val64 in *. set (k1 := B2R (c_k1 c)) in *. set (k2 := B2R (c_k2 c)) in *.
  assert (D1 : 1 <= sqrt (q + 1)) by (rewrite <- sqrt_1 at 1; apply sqrt_le_1_alt; lra). set (d1 := sqrt (q + 1)) in *.
  set (e := k1 * d1 + 1). assert (E1 : 1 <= e) by (unfold e; nra).
  assert (D2 : 1 <= sqrt (q + e * e)) by (rewrite <- sqrt_1 at 1; apply sqrt_le_1_alt; nra). set (d2 := sqrt (q + e * e)) in *.
  set (n := k2 * d2 + (1 - k2) * e). assert (N1 : 1 <= n) by (unfold n; nra).
  assert (S01 : 0 <= / n <= 1) by (split; [apply Rlt_le, Rinv_0_lt_compat; lra|rewrite <- Rinv_1; apply Rinv_le_contravar; lra]).
  destruct (Bltb r2 nano10_2) eqn:B; cbn [fst snd].
  { apply ltb_true in B; [|exact (proj1 R2)|exact (proj1 nano2_val)]. pose proof (proj2 nano2_val) as NV.
    split; (apply short_cut; [assumption| |lra]); apply Rnot_lt_le; intros C; [specialize (BIG (or_introl C))|specialize (BIG (or_intror C))]; lra. }
  clear B BIG. pose proof one_ap as O.
  assert (A1 : ap 9 (96 * hu) (add64 r2 one64) (q + 1)) by (apply (ap_add 4 16 8 (80 * hu) 1 0); auto; side). set (a1 := add64 r2 one64) in *. clearbody a1.
  assert (A2 : ap 3 (112 * hu) (sqrt64 a1) d1) by (apply (ap_sqrt 4 16 9 (96 * hu)); auto; try side; lra). set (a2 := sqrt64 a1) in *. clearbody a2.
  assert (A3 : ap 4 (130 * hu) (mac (cz 1) (c_k1 c) a2 one64) e) by (apply (ap_mac _ 3 8 1 0 3 (112 * hu) 1 0); auto; side). set (a3 := mac (cz 1) _ _ _) in *. clearbody a3.
  assert (A4 : ap 24 (1200 * hu) (mac (cz 2) a3 a3 r2) (q + e * e)) by (rewrite Rplus_comm; apply (ap_mac _ 5 32 4 (130 * hu) 4 (130 * hu) 8 (80 * hu)); auto; side). set (a4 := mac (cz 2) _ _ _) in *. clearbody a4.
  assert (A5 : ap 5 (1240 * hu) (sqrt64 a4) d2) by (apply (ap_sqrt 5 32 24 (1200 * hu)); auto; try side; nra). set (a5 := sqrt64 a4) in *. clearbody a5.
  assert (K2' : bd 0 (c_k2 c)) by (split; [exact (proj1 K2)|fold k2; rewrite Rabs_pos_eq by lra; exact K2b]).
  destruct one_val as [O1 O2]. destruct (sub_val 0 one64 (c_k2 c) O1 K2' ltac:(lia)) as [[U1 _] U2]. rewrite O2 in U2. fold k2 in U2.
  assert (A6 : ap 1 hu (sub64 one64 (c_k2 c)) (1 - k2)).
  { split; [exact U1|]. split; [rewrite Rabs_pos_eq; lra|]. rewrite U2. replace hu with (1 * hu) by ring. apply (rn_err 0 1); [lia|reflexivity|rewrite Rabs_pos_eq; lra]. }
  set (a6 := sub64 one64 (c_k2 c)) in *. clearbody a6.
  assert (A7 : ap 9 (1500 * hu) (sop (cz 3) (c_k2 c) a5 a6 a3) n) by (apply (ap_sop _ 4 16 1 0 5 (1240 * hu) 1 hu 4 (130 * hu)); auto; side). set (a7 := sop (cz 3) _ _ _ _) in *. clearbody a7.
  pose proof (ap_inv _ _ _ _ A7 N1 ltac:(unfold hu; lra)) as A8. set (a8 := div64 one64 a7) in *. clearbody a8.
  split; (apply (ap_mul 2 4 2 (2 * hu) 1 (2 * (1500 * hu) + 2 * hu)); auto; side).
Qed.
End S.
