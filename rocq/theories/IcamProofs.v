(** Proofs about the double-precision projection: magnitudes through the operations. *)
From Coq Require Import ZArith Bool Reals Lia Lra.
From Flocq Require Import Core BinarySingleNaN.
From Verif Require Import IeeeModel StampModel IcamModel IcamSpec.
Local Open Scope R_scope.

Local Notation fe := (SpecFloat.fexp 53 1024).
Local Notation rn := (round radix2 fe ZnearestE).
Local Instance VE : Valid_exp fe := fexp_correct 53 1024 q53.
Lemma fmt_bpow e : (-1074 <= e)%Z -> generic_format radix2 fe (bpow radix2 e).
Proof. intros H. apply generic_format_bpow. unfold SpecFloat.fexp, SpecFloat.emin. lia. Qed.
Lemma rn_le e v : (-1074 <= e)%Z -> Rabs v <= bpow radix2 e -> Rabs (rn v) <= bpow radix2 e.
Proof. intros E H. apply abs_round_le_generic; [typeclasses eauto..|now apply fmt_bpow|exact H]. Qed.
Lemma rn_small e v : (-1074 <= e < 1024)%Z -> Rabs v <= bpow radix2 e -> Rlt_bool (Rabs (rn v)) (bpow radix2 1024) = true.
Proof. intros E H. apply Rlt_bool_true. apply Rle_lt_trans with (bpow radix2 e); [apply rn_le; [lia|exact H]|apply bpow_lt; lia]. Qed.
Lemma rn_ge l v : generic_format radix2 fe l -> l <= v -> l <= rn v.
Proof. intros G H. apply round_ge_generic; [typeclasses eauto..|exact G|exact H]. Qed.

(** finite and at most 2^e *)
Definition bd (e : Z) (x : g64) : Prop := is_finite x = true /\ Rabs (B2R x) <= bpow radix2 e.
Lemma bd_up e e' x : bd e x -> (e <= e')%Z -> bd e' x.
Proof. intros [F H] L. split; [exact F|]. eapply Rle_trans; [exact H|now apply bpow_le]. Qed.
Lemma mul_abs a b x y : Rabs x <= bpow radix2 a -> Rabs y <= bpow radix2 b -> Rabs (x * y) <= bpow radix2 (a + b).
Proof. intros A B. rewrite Rabs_mult, bpow_plus. apply Rmult_le_compat; auto using Rabs_pos. Qed.
Lemma add_abs m x y : Rabs x <= bpow radix2 m -> Rabs y <= bpow radix2 m -> Rabs (x + y) <= bpow radix2 (m + 1).
Proof. intros A B. rewrite bpow_plus. change (bpow radix2 1) with 2. eapply Rle_trans; [apply Rabs_triang|]. lra. Qed.
Lemma mul_val a b x y : bd a x -> bd b y -> (-1074 <= a + b < 1024)%Z -> bd (a + b) (mul64 x y) /\ B2R (mul64 x y) = rn (B2R x * B2R y).
Proof.
  intros [Fx X] [Fy Y] L. pose proof (Bmult_correct 53 1024 q53 q1024 mode_NE x y) as C. cbn [round_mode] in C.
  pose proof (mul_abs a b _ _ X Y) as M. rewrite (rn_small (a + b)) in C by (exact M || lia). destruct C as (E & F & _). unfold bd, mul64. rewrite F, Fx, Fy, E. split; [|reflexivity]. split; [reflexivity|]. apply rn_le; [lia|exact M].
Qed.
Lemma add_val m x y : bd m x -> bd m y -> (-1074 <= m + 1 < 1024)%Z -> bd (m + 1) (add64 x y) /\ B2R (add64 x y) = rn (B2R x + B2R y).
Proof.
  intros [Fx X] [Fy Y] L. pose proof (Bplus_correct 53 1024 q53 q1024 mode_NE x y Fx Fy) as C. cbn [round_mode] in C.
  pose proof (add_abs m _ _ X Y) as M. rewrite (rn_small (m + 1)) in C by (exact M || lia). destruct C as (E & F & _). unfold bd, add64. rewrite F, E. split; [|reflexivity]. split; [reflexivity|]. apply rn_le; [lia|exact M].
Qed.
Lemma sub_val m x y : bd m x -> bd m y -> (-1074 <= m + 1 < 1024)%Z -> bd (m + 1) (sub64 x y) /\ B2R (sub64 x y) = rn (B2R x - B2R y).
Proof.
  intros [Fx X] [Fy Y] L. pose proof (Bminus_correct 53 1024 q53 q1024 mode_NE x y Fx Fy) as C. cbn [round_mode] in C.
  assert (M : Rabs (B2R x - B2R y) <= bpow radix2 (m + 1)) by (apply add_abs; [exact X|rewrite Rabs_Ropp; exact Y]).
  rewrite (rn_small (m + 1)) in C by (exact M || lia). destruct C as (E & F & _). unfold bd, sub64. rewrite F, E. split; [|reflexivity]. split; [reflexivity|]. apply rn_le; [lia|exact M].
Qed.
Lemma fma_val a b m x y z : bd a x -> bd b y -> bd m z -> (a + b <= m)%Z -> (-1074 <= m + 1 < 1024)%Z -> bd (m + 1) (fma64 x y z) /\ B2R (fma64 x y z) = rn (B2R x * B2R y + B2R z).
Proof.
  intros [Fx X] [Fy Y] [Fz Z] L L'. pose proof (Bfma_correct 53 1024 q53 q1024 mode_NE x y z Fx Fy Fz) as C. cbv zeta in C. cbn [round_mode] in C.
  assert (M : Rabs (B2R x * B2R y + B2R z) <= bpow radix2 (m + 1)).
  { apply add_abs; [|exact Z]. eapply Rle_trans; [exact (mul_abs a b _ _ X Y)|now apply bpow_le]. }
  rewrite (rn_small (m + 1)) in C by (exact M || lia). destruct C as (E & F & _). unfold bd, fma64. rewrite F, E. split; [|reflexivity]. split; [reflexivity|]. apply rn_le; [lia|exact M].
Qed.
Lemma bd_mac k a b m x y z : bd a x -> bd b y -> bd m z -> (a + b <= m)%Z -> (-1074 <= a + b)%Z -> (m + 1 < 1024)%Z -> bd (m + 1) (mac k x y z).
Proof.
  intros X Y Z L L0 L1. assert (P : bd (m + 1) (fma64 x y z)) by (apply (fma_val a b m); auto; lia). destruct k; [|exact P..].
  cbn [mac]. apply add_val; [|exact Z|lia]. apply (bd_up (a + b)); [apply mul_val; auto; lia|exact L].
Qed.
Lemma bd_sop k a b c d m x y z w : bd a x -> bd b y -> bd c z -> bd d w -> (a + b <= m)%Z -> (c + d <= m)%Z -> (-1074 <= a + b)%Z -> (-1074 <= c + d)%Z -> (m + 1 < 1024)%Z -> bd (m + 1) (sop k x y z w).
Proof.
  intros X Y Z W L L' L0 L0' L1.
  assert (P : bd m (mul64 x y)) by (apply (bd_up (a + b)); [apply mul_val; auto; lia|exact L]).
  assert (Q : bd m (mul64 z w)) by (apply (bd_up (c + d)); [apply mul_val; auto; lia|exact L']).
  destruct k; cbn [sop]; [apply add_val; auto; lia|apply (fma_val a b m); auto; lia|apply (fma_val c d m); auto; lia].
Qed.
Lemma bd_mul a b x y : bd a x -> bd b y -> (-1074 <= a + b < 1024)%Z -> bd (a + b) (mul64 x y).
Proof. intros X Y L. now apply mul_val. Qed.
Lemma div_val a l x y : bd a x -> is_finite y = true -> bpow radix2 l <= B2R y -> (-1074 <= a - l < 1024)%Z -> bd (a - l) (div64 x y) /\ B2R (div64 x y) = rn (B2R x / B2R y).
Proof.
  intros [Fx X] Fy Y L. pose proof (bpow_gt_0 radix2 l) as P. pose proof (Bdiv_correct 53 1024 q53 q1024 mode_NE x y ltac:(lra)) as C. cbn [round_mode] in C.
  assert (M : Rabs (B2R x / B2R y) <= bpow radix2 (a - l)).
  { unfold Rdiv. apply mul_abs; [exact X|]. rewrite Rabs_pos_eq by (apply Rlt_le, Rinv_0_lt_compat; lra). rewrite bpow_opp. apply Rinv_le_contravar; assumption. }
  rewrite (rn_small (a - l)) in C by (exact M || lia). destruct C as (E & F & _). unfold bd, div64. rewrite F, Fx, E. split; [|reflexivity]. split; [reflexivity|]. apply rn_le; [lia|exact M].
Qed.
Lemma sqrt_val a x : bd (2 * a) x -> (0 <= a < 1024)%Z -> 0 <= B2R x -> bd a (sqrt64 x) /\ B2R (sqrt64 x) = rn (sqrt (B2R x)).
Proof.
  intros [Fx X] L P. destruct (Bsqrt_correct 53 1024 q53 q1024 mode_NE x) as (E & F & _). cbn [round_mode] in E.
  assert (FF : is_finite (sqrt64 x) = true).
  { unfold sqrt64. rewrite F. destruct x as [s|s| |[|] m k H]; try reflexivity; try discriminate Fx. exfalso. cbn in P. assert (F2R (Float radix2 (Zneg m) k) < 0) by (apply F2R_lt_0; reflexivity). lra. }
  unfold bd. split; [|exact E]. split; [exact FF|]. unfold sqrt64. rewrite E. apply rn_le; [lia|]. rewrite Rabs_pos_eq by apply sqrt_pos.
  apply Rle_trans with (sqrt (bpow radix2 (2 * a))); [apply sqrt_le_1_alt; rewrite Rabs_pos_eq in X by exact P; exact X|].
  replace (2 * a)%Z with (a + a)%Z by lia. rewrite bpow_plus, sqrt_square by apply bpow_ge_0. lra.
Qed.
Lemma bd_val b e x : at_most b x -> b <= bpow radix2 e -> bd e x.
Proof. intros [F H] L. split; [exact F|]. unfold val64 in H. lra. Qed.
Lemma pow_bpow n : 2 ^ n = bpow radix2 (Z.of_nat n).
Proof. rewrite bpow_powerRZ, <- pow_powerRZ. reflexivity. Qed.
Lemma one_val : bd 0 one64 /\ B2R one64 = 1.
Proof. assert (E : B2R one64 = 1) by (rewrite <- SF2R_B2SF; replace (B2SF one64) with (SpecFloat.S754_finite false 4503599627370496 (-52)) by (vm_compute; reflexivity); unfold SF2R, F2R; cbn; lra).
  split; [|exact E]. split; [vm_compute; reflexivity|]. rewrite E, Rabs_pos_eq by lra. cbn. lra. Qed.
Lemma two_val : bd 1 two64.
Proof. split; [vm_compute; reflexivity|]. rewrite <- SF2R_B2SF. replace (B2SF two64) with (SpecFloat.S754_finite false 4503599627370496 (-51)) by (vm_compute; reflexivity). unfold SF2R, F2R. cbn. rewrite Rabs_pos_eq; lra. Qed.
Lemma fmt0 : generic_format radix2 fe 0. Proof. apply generic_format_0. Qed.
Lemma sop_ge k a b c d m l1 l2 x y z w : bd a x -> bd b y -> bd c z -> bd d w -> (a + b <= m)%Z -> (c + d <= m)%Z -> (-1074 <= a + b)%Z -> (-1074 <= c + d)%Z -> (m + 1 < 1024)%Z ->
  generic_format radix2 fe l1 -> generic_format radix2 fe l2 -> generic_format radix2 fe (l1 + l2) -> l1 <= B2R x * B2R y -> l2 <= B2R z * B2R w -> l1 + l2 <= B2R (sop k x y z w).
Proof.
  intros X Y Z W L L' L0 L0' L1 G1 G2 G H1 H2.
  destruct (mul_val a b x y X Y ltac:(lia)) as [P P']. destruct (mul_val c d z w Z W ltac:(lia)) as [Q Q'].
  pose proof (rn_ge _ _ G1 H1) as R1. pose proof (rn_ge _ _ G2 H2) as R2. rewrite <- P' in R1. rewrite <- Q' in R2.
  apply (bd_up _ m) in P; [|exact L]. apply (bd_up _ m) in Q; [|exact L'].
  destruct k; cbn [sop].
  - rewrite (proj2 (add_val m _ _ P Q ltac:(lia))). apply rn_ge; [exact G|lra].
  - rewrite (proj2 (fma_val a b m _ _ _ X Y Q ltac:(lia) ltac:(lia))). apply rn_ge; [exact G|lra].
  - rewrite (proj2 (fma_val c d m _ _ _ Z W P ltac:(lia) ltac:(lia))). apply rn_ge; [exact G|lra].
Qed.
Lemma mac_ge k a b m l1 x y z : bd a x -> bd b y -> bd m z -> (a + b <= m)%Z -> (-1074 <= a + b)%Z -> (m + 1 < 1024)%Z ->
  generic_format radix2 fe l1 -> generic_format radix2 fe (l1 + B2R z) -> l1 <= B2R x * B2R y -> l1 + B2R z <= B2R (mac k x y z).
Proof.
  intros X Y Z L L0 L1 G1 G H1.
  assert (F : l1 + B2R z <= B2R (fma64 x y z)) by (rewrite (proj2 (fma_val a b m _ _ _ X Y Z ltac:(lia) ltac:(lia))); apply rn_ge; [exact G|lra]).
  destruct k; [|exact F..]. cbn [mac]. destruct (mul_val a b x y X Y ltac:(lia)) as [P P']. apply (bd_up _ m) in P; [|exact L].
  pose proof (rn_ge _ _ G1 H1) as R1. rewrite <- P' in R1. rewrite (proj2 (add_val m _ _ P Z ltac:(lia))). apply rn_ge; [exact G|lra].
Qed.
Lemma fmt1 : generic_format radix2 fe 1. Proof. exact (fmt_bpow 0 ltac:(lia)). Qed.
Lemma fmth : generic_format radix2 fe (/ 2). Proof. exact (fmt_bpow (-1) ltac:(lia)). Qed.
Lemma not_less (x y : g64) : is_finite x = true -> is_finite y = true -> Bltb x y = false -> B2R y <= B2R x.
Proof. intros X Y H. rewrite Bltb_correct in H by assumption. apply Rnot_lt_le. intros L. apply Rlt_bool_true in L. congruence. Qed.

Section B.
Variables (cz : nat -> contraction) (atan64 : g64 -> g64) (c : camera64).
Hypotheses (M : moderate c) (A : good_atan atan64).
Lemma big : 2 ^ 100 <= bpow radix2 100. Proof. rewrite pow_bpow. apply Rle_refl. Qed.
Lemma radtan_bd x y : bd 101 x -> bd 101 y -> bd 815 (fst (radtan64 cz c x y)) /\ bd 815 (snd (radtan64 cz c x y)).
Proof.
  intros X Y. destruct M as (K1 & K2 & K3 & _ & P1 & P2 & _). apply (fun H => bd_val _ 100 _ H big) in K1, K2, K3, P1, P2.
  unfold radtan64. cbv zeta. cbn [fst snd].
  assert (R2 : bd 203 (sop (cz 0) x x y y)) by (apply (bd_sop _ 101 101 101 101 202); auto; lia).
  set (r2 := sop (cz 0) x x y y) in *. clearbody r2.
  assert (KR : bd 712 (mac (cz 3) (mac (cz 2) (mac (cz 1) (c_k3 c) r2 (c_k2 c)) r2 (c_k1 c)) r2 one64)).
  { apply (bd_mac _ 508 203 711); try lia; [|exact R2|apply (bd_up 0); [exact (proj1 one_val)|lia]].
    apply (bd_mac _ 304 203 507); try lia; [|exact R2|apply (bd_up 100); [exact K1|lia]].
    apply (bd_mac _ 100 203 303); try lia; [exact K3|exact R2|apply (bd_up 100); [exact K2|lia]]. }
  set (kr := mac (cz 3) _ _ _) in *. clearbody kr.
  assert (XY : bd 202 (mul64 x y)) by (apply (bd_mul 101 101); auto; lia).
  assert (X2 : bd 202 (mul64 x x)) by (apply (bd_mul 101 101); auto; lia).
  assert (Y2 : bd 202 (mul64 y y)) by (apply (bd_mul 101 101); auto; lia).
  assert (P12 : bd 101 (mul64 (c_p1 c) two64)) by (apply (bd_mul 100 1); auto using two_val; lia).
  assert (P22 : bd 101 (mul64 (c_p2 c) two64)) by (apply (bd_mul 100 1); auto using two_val; lia).
  assert (RX : bd 204 (mac (cz 5) two64 (mul64 x x) r2)) by (apply (bd_mac _ 1 202 203); auto using two_val; lia).
  assert (RY : bd 204 (mac (cz 8) two64 (mul64 y y) r2)) by (apply (bd_mac _ 1 202 203); auto using two_val; lia).
  split.
  - apply (bd_mac _ 100 204 814); auto; try lia. apply (bd_sop _ 101 712 101 202 813); auto; lia.
  - apply (bd_mac _ 101 202 814); auto; try lia. apply (bd_sop _ 101 712 100 204 813); auto; lia.
Qed.
Lemma r2_ge x y : bd 101 x -> bd 101 y -> 0 <= B2R (sop (cz 0) x x y y).
Proof. intros X Y. replace 0 with (0 + 0) by ring. apply (sop_ge _ 101 101 101 101 202); auto using fmt0; try lia; try nra. rewrite Rplus_0_r. apply fmt0. Qed.
Lemma nano_ge : is_finite nano10 = true /\ bpow radix2 (-27) <= B2R nano10.
Proof. split; [vm_compute; reflexivity|]. rewrite <- SF2R_B2SF. replace (B2SF nano10) with (SpecFloat.S754_finite false 6044629098073146 (-79)) by (vm_compute; reflexivity). unfold SF2R, F2R. cbn. lra. Qed.
Lemma equi_bd x y : bd 101 x -> bd 101 y -> bd 815 (fst (equidist64 cz atan64 c x y)) /\ bd 815 (snd (equidist64 cz atan64 c x y)).
Proof.
  intros X Y. destruct M as (K1 & K2 & K3 & K4 & _). apply (fun H => bd_val _ 100 _ H big) in K1, K2, K3, K4.
  unfold equidist64. cbv zeta.
  assert (R2 : bd 203 (sop (cz 0) x x y y)) by (apply (bd_sop _ 101 101 101 101 202); auto; lia).
  pose proof (r2_ge x y X Y) as R0.
  assert (RR : bd 102 (sqrt64 (sop (cz 0) x x y y))) by (apply sqrt_val; [apply (bd_up 203); [exact R2|lia]|lia|exact R0]).
  set (r := sqrt64 _) in *. clearbody r.
  destruct (Bltb r nano10) eqn:B; [split; apply (bd_up 101); (assumption || lia)|].
  apply not_less in B; [|exact (proj1 RR)|exact (proj1 nano_ge)]. pose proof (proj2 nano_ge) as NG.
  assert (T : bd 1 (atan64 r)) by (apply (bd_val 2); [apply A; destruct RR as [F _]; destruct r; (reflexivity || discriminate)|cbn; lra]).
  set (th := atan64 r) in *. clearbody th.
  assert (T2 : bd 2 (mul64 th th)) by (apply (bd_mul 1 1); auto; lia). set (th2 := mul64 th th) in *. clearbody th2.
  assert (T4 : bd 4 (mul64 th2 th2)) by (apply (bd_mul 2 2); auto; lia). set (th4 := mul64 th2 th2) in *. clearbody th4.
  assert (T6 : bd 6 (mul64 th2 th4)) by (apply (bd_mul 2 4); auto; lia). set (th6 := mul64 th2 th4) in *. clearbody th6.
  assert (T8 : bd 8 (mul64 th2 th6)) by (apply (bd_mul 2 6); auto; lia). set (th8 := mul64 th2 th6) in *. clearbody th8.
  assert (E1 : bd 103 (mac (cz 1) (c_k1 c) th2 one64)) by (apply (bd_mac _ 100 2 102); auto; try lia; apply (bd_up 0); [exact (proj1 one_val)|lia]).
  set (e1 := mac (cz 1) _ _ _) in *. clearbody e1.
  assert (E2 : bd 105 (mac (cz 2) (c_k2 c) th4 e1)) by (apply (bd_mac _ 100 4 104); auto; try lia; apply (bd_up 103); [exact E1|lia]). set (e2 := mac (cz 2) _ _ _) in *. clearbody e2.
  assert (E3 : bd 107 (mac (cz 3) (c_k3 c) th6 e2)) by (apply (bd_mac _ 100 6 106); auto; try lia; apply (bd_up 105); [exact E2|lia]). set (e3 := mac (cz 3) _ _ _) in *. clearbody e3.
  assert (E4 : bd 109 (mac (cz 4) (c_k4 c) th8 e3)) by (apply (bd_mac _ 100 8 108); auto; try lia; apply (bd_up 107); [exact E3|lia]). set (e4 := mac (cz 4) _ _ _) in *. clearbody e4.
  assert (TD : bd 110 (mul64 th e4)) by (apply (bd_mul 1 109); auto; lia).
  assert (SS : bd 137 (div64 (mul64 th e4) r)) by (apply (div_val 110 (-27)); [exact TD|exact (proj1 RR)|lra|lia]).
  split; apply (bd_up 238); try lia; apply (bd_mul 101 137); auto; lia.
Qed.
Lemma sphere_bd x y : c_model c = DoubleSphere64 -> bd 101 x -> bd 101 y -> bd 815 (fst (sphere64 cz c x y)) /\ bd 815 (snd (sphere64 cz c x y)).
Proof.
  intros DS X Y. destruct M as (K1 & K2 & _ & _ & _ & _ & _ & _ & _ & _ & D). destruct (D DS) as (D1 & D2 & D3). unfold val64 in D1, D2, D3.
  apply (fun H => bd_val _ 100 _ H big) in K1, K2.
  unfold sphere64. cbv zeta.
  assert (R2 : bd 203 (sop (cz 0) x x y y)) by (apply (bd_sop _ 101 101 101 101 202); auto; lia).
  pose proof (r2_ge x y X Y) as R0. set (r2 := sop (cz 0) x x y y) in *. clearbody r2.
  destruct (Bltb r2 nano10_2); [split; apply (bd_up 101); (assumption || lia)|].
  destruct one_val as [O1 O2]. pose proof fmt0 as G0. pose proof fmt1 as G1. pose proof fmth as GH.
  assert (O' : bd 203 one64) by (apply (bd_up 0); [exact O1|lia]).
  destruct (add_val 203 r2 one64 R2 O' ltac:(lia)) as [S1 S2]. set (q := add64 r2 one64) in *. clearbody q.
  assert (Q : 1 <= B2R q) by (rewrite S2, O2; apply rn_ge; [exact G1|lra]).
  destruct (sqrt_val 102 q S1 ltac:(lia) ltac:(lra)) as [V1 V2].
  assert (V : 1 <= B2R (sqrt64 q)) by (rewrite V2; apply rn_ge; [exact G1|]; rewrite <- sqrt_1; apply sqrt_le_1_alt; exact Q).
  set (d1 := sqrt64 q) in *. clearbody d1.
  assert (E1 : bd 203 (mac (cz 1) (c_k1 c) d1 one64)) by (apply (bd_mac _ 100 102 202); auto; try lia; apply (bd_up 0); [exact O1|lia]).
  assert (E2 : 1 <= B2R (mac (cz 1) (c_k1 c) d1 one64)).
  { rewrite <- O2. replace (B2R one64) with (0 + B2R one64) by ring. apply (mac_ge _ 100 102 202); auto; try lia; [apply (bd_up 0); [exact O1|lia]|rewrite Rplus_0_l, O2; exact G1|nra]. }
  set (e := mac (cz 1) _ _ _) in *. clearbody e.
  assert (F1 : bd 408 (mac (cz 2) e e r2)) by (apply (bd_mac _ 203 203 407); auto; try lia; apply (bd_up 203); [exact R2|lia]).
  assert (F2 : 1 <= B2R (mac (cz 2) e e r2)).
  { assert (H1 : 1 <= B2R e * B2R e) by nra.
    destruct (mul_val 203 203 e e E1 E1 ltac:(lia)) as [P P']. pose proof (rn_ge _ _ G1 H1) as RR. rewrite <- P' in RR.
    assert (R2' : bd 406 r2) by (apply (bd_up 203); [exact R2|lia]).
    destruct (cz 2); cbn [mac]; [rewrite (proj2 (add_val 406 _ _ P R2' ltac:(lia)))|rewrite (proj2 (fma_val 203 203 406 _ _ _ E1 E1 R2' ltac:(lia) ltac:(lia)))..]; apply rn_ge; try exact G1; lra. }
  destruct (sqrt_val 204 _ F1 ltac:(lia) ltac:(lra)) as [W1 W2].
  assert (W : 1 <= B2R (sqrt64 (mac (cz 2) e e r2))) by (rewrite W2; apply rn_ge; [exact G1|]; rewrite <- sqrt_1; apply sqrt_le_1_alt; exact F2).
  set (d2 := sqrt64 _) in *. clearbody d2.
  assert (K2' : bd 0 (c_k2 c)) by (split; [exact (proj1 K2)|rewrite Rabs_pos_eq by exact D2; cbn; exact D3]).
  destruct (sub_val 0 one64 (c_k2 c) O1 K2' ltac:(lia)) as [U1 U2]. rewrite O2 in U2. set (u := sub64 one64 (c_k2 c)) in *. clearbody u.
  assert (U0 : 0 <= B2R u) by (rewrite U2; apply rn_ge; [exact G0|lra]).
  assert (N1 : bd 208 (sop (cz 3) (c_k2 c) d2 u e)) by (apply (bd_sop _ 0 204 1 203 207); auto; lia).
  assert (N2 : / 2 <= B2R (sop (cz 3) (c_k2 c) d2 u e)).
  { destruct (Rle_or_lt (/ 2) (B2R (c_k2 c))) as [H|H].
    - replace (/ 2) with (/ 2 + 0) by ring. apply (sop_ge _ 0 204 1 203 207); auto; try lia; [rewrite Rplus_0_r; exact GH|nra|nra].
    - assert (/ 2 <= B2R u) by (rewrite U2; apply rn_ge; [exact GH|lra]).
      replace (/ 2) with (0 + / 2) by ring. apply (sop_ge _ 0 204 1 203 207); auto; try lia; [rewrite Rplus_0_l; exact GH|nra|nra]. }
  set (dn := sop (cz 3) _ _ _ _) in *. clearbody dn.
  assert (SS : bd 1 (div64 one64 dn)) by (apply (div_val 0 (-1)); [exact O1|exact (proj1 N1)|cbn; lra|lia]).
  split; apply (bd_up 102); try lia; apply (bd_mul 101 1); auto; lia.
Qed.
End B.
Lemma bn_nan s m e z b : is_nan (binary_normalize 24 128 s m mode_NE e z b) = false.
Proof.
  pose proof (binary_normalize_correct 24 128 s m mode_NE e z b) as C. cbv zeta in C. destruct (Rlt_bool _ _).
  - destruct C as (_ & F & _). destruct (binary_normalize _ _ _ _ _ _ _ _); (reflexivity || discriminate).
  - destruct (binary_normalize _ _ _ _ _ _ _ _); try reflexivity. cbn in C. unfold binary_overflow in C. discriminate C.
Qed.
Lemma narrow_number (x : g64) : is_finite x = true -> is_nan (narrow x) = false.
Proof. intros F. unfold narrow, fconv. destruct x; try discriminate F; try reflexivity. apply bn_nan. Qed.
