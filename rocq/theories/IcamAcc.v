(** Error of the double-precision radial-tangential projection. *)
From Coq Require Import ZArith Bool Reals Lia Lra Psatz.
From Flocq Require Import Core BinarySingleNaN.
From Verif Require Import IeeeModel IeeeSpec IeeeReal StampModel IcamModel IcamSpec IcamProofs.
Local Open Scope R_scope.

Local Notation fe := (SpecFloat.fexp 53 1024).
Local Notation rn := (round radix2 fe ZnearestE).
(** half an ulp of one *)
Definition hu : R := / 9007199254740992.
Lemma rn_err m P w : (0 <= m < 1000)%Z -> P = bpow radix2 m -> Rabs w <= P -> Rabs (rn w - w) <= P * hu.
Proof.
  intros L -> H. pose proof (rndf_err 53 1024 q53 m w H) as E. unfold rndf in E.
  replace (bpow radix2 m * hu) with (bpow radix2 (m - 53)); [apply E; unfold SpecFloat.fexp, SpecFloat.emin; lia|].
  unfold Zminus. rewrite bpow_plus. reflexivity.
Qed.
(** a double within [e] of a real number of magnitude at most [b] *)
Definition ap (b e : R) (x : g64) (v : R) : Prop := is_finite x = true /\ Rabs v <= b /\ Rabs (B2R x - v) <= e.
Lemma ap_bd b e x v P m : ap b e x v -> P = bpow radix2 m -> b + e <= P -> bd m x.
Proof. intros (F & V & E) -> H. split; [exact F|]. replace (B2R x) with (v + (B2R x - v)) by ring. eapply Rle_trans; [apply Rabs_triang|]. lra. Qed.
Lemma ap_up b e b' e' x v : ap b e x v -> b <= b' -> e <= e' -> ap b' e' x v.
Proof. intros (F & V & E) H H'. split; [exact F|]. split; lra. Qed.
(** the exact product of approximations *)
Lemma prod_err b1 e1 b2 e2 x y v w : ap b1 e1 x v -> ap b2 e2 y w ->
  Rabs (v * w) <= b1 * b2 /\ Rabs (B2R x * B2R y - v * w) <= b1 * e2 + b2 * e1 + e1 * e2.
Proof.
  intros (_ & V & E) (_ & W & D). pose proof (Rabs_pos v). pose proof (Rabs_pos w). pose proof (Rabs_pos (B2R x - v)). pose proof (Rabs_pos (B2R y - w)).
  split; [rewrite Rabs_mult; nra|].
  replace (B2R x * B2R y - v * w) with (v * (B2R y - w) + w * (B2R x - v) + (B2R x - v) * (B2R y - w)) by ring.
  eapply Rle_trans; [apply Rabs_triang|]. eapply Rle_trans; [apply Rplus_le_compat_r, Rabs_triang|]. rewrite !Rabs_mult. nra.
Qed.
Lemma tri a b c : Rabs (a - c) <= Rabs (a - b) + Rabs (b - c).
Proof. replace (a - c) with ((a - b) + (b - c)) by ring. apply Rabs_triang. Qed.
Lemma size w v e b : Rabs v <= b -> Rabs (w - v) <= e -> Rabs w <= b + e.
Proof. intros H E. replace w with (v + (w - v)) by ring. eapply Rle_trans; [apply Rabs_triang|]. lra. Qed.
Lemma ap_mul m P b1 e1 b2 e2 b e x y v w : ap b1 e1 x v -> ap b2 e2 y w -> (0 <= m < 500)%Z -> P = bpow radix2 m -> b1 + e1 <= P -> b2 + e2 <= P ->
  b1 * b2 + (b1 * e2 + b2 * e1 + e1 * e2) <= P -> b1 * b2 <= b -> b1 * e2 + b2 * e1 + e1 * e2 + P * hu <= e -> ap b e (mul64 x y) (v * w).
Proof.
  intros X Y L EP H1 H2 H3 H4 H5. pose proof (ap_bd _ _ _ _ _ _ X EP H1) as B1. pose proof (ap_bd _ _ _ _ _ _ Y EP H2) as B2.
  destruct (prod_err _ _ _ _ _ _ _ _ X Y) as [PV PE]. destruct (mul_val m m x y B1 B2 ltac:(lia)) as [[F _] E].
  split; [exact F|]. split; [lra|]. rewrite E. pose proof (size _ _ _ _ PV PE) as S.
  pose proof (rn_err m P _ ltac:(lia) EP (Rle_trans _ _ _ S H3)). pose proof (tri (rn (B2R x * B2R y)) (B2R x * B2R y) (v * w)). lra.
Qed.
Lemma ap_add m P b1 e1 b2 e2 b e x y v w : ap b1 e1 x v -> ap b2 e2 y w -> (0 <= m < 500)%Z -> P = bpow radix2 m -> 0 <= b1 + e1 -> 0 <= b2 + e2 ->
  b1 + b2 + (e1 + e2) <= P -> b1 + b2 <= b -> e1 + e2 + P * hu <= e -> ap b e (add64 x y) (v + w).
Proof.
  intros X Y L EP H1 H2 H3 H4 H5. pose proof (ap_bd _ _ _ _ P m X EP ltac:(lra)) as B1. pose proof (ap_bd _ _ _ _ P m Y EP ltac:(lra)) as B2.
  destruct X as (_ & V & E1). destruct Y as (_ & W & E2). destruct (add_val m x y B1 B2 ltac:(lia)) as [[F _] E].
  pose proof (Rabs_triang v w). split; [exact F|]. split; [lra|]. rewrite E.
  assert (D : Rabs (B2R x + B2R y - (v + w)) <= e1 + e2) by (replace (B2R x + B2R y - (v + w)) with ((B2R x - v) + (B2R y - w)) by ring; eapply Rle_trans; [apply Rabs_triang|]; lra).
  assert (S : Rabs (B2R x + B2R y) <= P) by (eapply Rle_trans; [apply (size _ (v + w) (e1 + e2) (b1 + b2)); lra|lra]).
  pose proof (rn_err m P _ ltac:(lia) EP S). pose proof (tri (rn (B2R x + B2R y)) (B2R x + B2R y) (v + w)). lra.
Qed.
Lemma ap_fma m P b1 e1 b2 e2 b3 e3 b e x y z v w t : ap b1 e1 x v -> ap b2 e2 y w -> ap b3 e3 z t -> (0 <= m < 500)%Z -> P = bpow radix2 m -> b1 + e1 <= P -> b2 + e2 <= P ->
  0 <= b1 -> 0 <= b2 -> 0 <= e1 -> 0 <= e2 -> 0 <= b3 + e3 -> b1 * b2 + b3 + (b1 * e2 + b2 * e1 + e1 * e2 + e3) <= P -> b1 * b2 + b3 <= b -> b1 * e2 + b2 * e1 + e1 * e2 + e3 + P * hu <= e -> ap b e (fma64 x y z) (v * w + t).
Proof.
  intros X Y Z L EP H1 H2 P1 P2 Q1 Q2 P3 H3 H4 H5. assert (0 <= b1 * e2 + b2 * e1 + e1 * e2) by nra. assert (0 <= b1 * b2) by nra.
  pose proof (ap_bd _ _ _ _ _ _ X EP H1) as B1. pose proof (ap_bd _ _ _ _ _ _ Y EP H2) as B2. pose proof (ap_bd _ _ _ _ P m Z EP ltac:(lra)) as B3.
  destruct (prod_err _ _ _ _ _ _ _ _ X Y) as [PV PE]. destruct Z as (Fz & T & E3).
  destruct (fma_val m m (m + m) x y z B1 B2 ltac:(apply (bd_up m); [exact B3|lia]) ltac:(lia) ltac:(lia)) as [[F _] E].
  pose proof (Rabs_triang (v * w) t). split; [exact F|]. split; [lra|]. rewrite E.
  set (q := B2R x * B2R y) in *. clearbody q.
  assert (D : Rabs (q + B2R z - (v * w + t)) <= b1 * e2 + b2 * e1 + e1 * e2 + e3) by (replace (q + B2R z - (v * w + t)) with ((q - v * w) + (B2R z - t)) by ring; eapply Rle_trans; [apply Rabs_triang|]; lra).
  assert (S : Rabs (q + B2R z) <= P) by (eapply Rle_trans; [apply (size _ (v * w + t) _ (b1 * b2 + b3) ltac:(lra) D)|lra]).
  pose proof (rn_err m P _ ltac:(lia) EP S). pose proof (tri (rn (q + B2R z)) (q + B2R z) (v * w + t)). lra.
Qed.
Lemma hu_pos : 0 < hu. Proof. unfold hu. lra. Qed.
(** both roundings counted *)
Lemma ap_mac k m P b1 e1 b2 e2 b3 e3 b e x y z v w t : ap b1 e1 x v -> ap b2 e2 y w -> ap b3 e3 z t -> (0 <= m < 500)%Z -> P = bpow radix2 m -> b1 + e1 <= P -> b2 + e2 <= P ->
  0 <= b1 -> 0 <= b2 -> 0 <= b3 -> 0 <= e1 -> 0 <= e2 -> 0 <= e3 -> b1 * b2 + b3 + (b1 * e2 + b2 * e1 + e1 * e2 + e3 + P * hu) <= P -> b1 * b2 + b3 <= b ->
  b1 * e2 + b2 * e1 + e1 * e2 + e3 + P * hu + P * hu <= e -> ap b e (mac k x y z) (v * w + t).
Proof.
  intros X Y Z L EP H1 H2 P1 P2 P3 Q1 Q2 Q3 H3 H4 H5. assert (0 <= b1 * e2 + b2 * e1 + e1 * e2) by nra. assert (0 <= b1 * b2) by nra.
  assert (0 <= P * hu) by (pose proof hu_pos; subst P; pose proof (bpow_ge_0 radix2 m); nra).
  assert (A : ap b e (fma64 x y z) (v * w + t)) by (apply (ap_fma m P b1 e1 b2 e2 b3 e3); auto; lra). destruct k; [|exact A..].
  cbn [mac]. apply (ap_add m P (b1 * b2) (b1 * e2 + b2 * e1 + e1 * e2 + P * hu) b3 e3); auto; try lra. apply (ap_mul m P b1 e1 b2 e2); auto; lra.
Qed.
Lemma ap_sop k m P b1 e1 b2 e2 b3 e3 b4 e4 b e x y z u v w t s : ap b1 e1 x v -> ap b2 e2 y w -> ap b3 e3 z t -> ap b4 e4 u s -> (0 <= m < 500)%Z -> P = bpow radix2 m ->
  b1 + e1 <= P -> b2 + e2 <= P -> b3 + e3 <= P -> b4 + e4 <= P ->
  0 <= b1 -> 0 <= b2 -> 0 <= b3 -> 0 <= b4 -> 0 <= e1 -> 0 <= e2 -> 0 <= e3 -> 0 <= e4 ->
  b1 * b2 + b3 * b4 + (b1 * e2 + b2 * e1 + e1 * e2 + (b3 * e4 + b4 * e3 + e3 * e4) + P * hu + P * hu) <= P -> b1 * b2 + b3 * b4 <= b ->
  b1 * e2 + b2 * e1 + e1 * e2 + (b3 * e4 + b4 * e3 + e3 * e4) + P * hu + P * hu + P * hu <= e -> ap b e (sop k x y z u) (v * w + t * s).
Proof.
  intros X Y Z U L EP H1 H2 H1' H2' P1 P2 P3 P4 Q1 Q2 Q3 Q4 H3 H4 H5.
  assert (0 <= b1 * e2 + b2 * e1 + e1 * e2) by nra. assert (0 <= b1 * b2) by nra. assert (0 <= b3 * e4 + b4 * e3 + e3 * e4) by nra. assert (0 <= b3 * b4) by nra.
  assert (0 <= P * hu) by (pose proof hu_pos; subst P; pose proof (bpow_ge_0 radix2 m); nra).
  assert (A : ap (b1 * b2) (b1 * e2 + b2 * e1 + e1 * e2 + P * hu) (mul64 x y) (v * w)) by (apply (ap_mul m P b1 e1 b2 e2); auto; lra).
  assert (B : ap (b3 * b4) (b3 * e4 + b4 * e3 + e3 * e4 + P * hu) (mul64 z u) (t * s)) by (apply (ap_mul m P b3 e3 b4 e4); auto; lra).
  destruct k; cbn [sop].
  - apply (ap_add m P _ _ _ _ _ _ _ _ _ _ A B); auto; lra.
  - apply (ap_fma m P b1 e1 b2 e2 _ _ _ _ _ _ _ _ _ _ X Y B); auto; lra.
  - rewrite Rplus_comm. apply (ap_fma m P b3 e3 b4 e4 _ _ _ _ _ _ _ _ _ _ Z U A); auto; lra.
Qed.
Lemma ap_div m P a l x y : bd a x -> is_finite y = true -> bpow radix2 l <= B2R y -> (-1074 <= a - l < 1024)%Z -> (0 <= m < 500)%Z -> P = bpow radix2 m -> Rabs (B2R x / B2R y) <= P ->
  ap P (P * hu) (div64 x y) (B2R x / B2R y).
Proof. intros X Y H L L' EP B. destruct (div_val a l x y X Y H L) as [[F _] E]. split; [exact F|]. split; [exact B|]. rewrite E. apply (rn_err m); [lia|exact EP|exact B]. Qed.
Lemma ap_exact b x : at_most b x -> ap b 0 x (B2R x).
Proof. intros [F H]. split; [exact F|]. split; [exact H|]. replace (B2R x - B2R x) with 0 by ring. rewrite Rabs_R0. lra. Qed.
Lemma one_ap : ap 1 0 one64 1.
Proof. destruct one_val as [[F _] E]. split; [exact F|]. rewrite E. replace (1 - 1) with 0 by ring. rewrite Rabs_R0, Rabs_pos_eq by lra. lra. Qed.
Lemma two_ap : ap 2 0 two64 2.
Proof. split; [vm_compute; reflexivity|]. assert (E : B2R two64 = 2) by (rewrite <- SF2R_B2SF; replace (B2SF two64) with (SpecFloat.S754_finite false 4503599627370496 (-51)) by (vm_compute; reflexivity); unfold SF2R, F2R; cbn; lra).
  rewrite E. replace (2 - 2) with 0 by ring. rewrite Rabs_R0, Rabs_pos_eq by lra. lra. Qed.

Ltac num := unfold hu in *; lra.
Ltac side := first [lia | reflexivity | num].
Section A.
Variables (cz : nat -> contraction) (c : camera64).
Hypothesis Us : usual c.
Lemma radtan_acc x y v w : ap 2 (2 * hu) x v -> ap 2 (2 * hu) y w ->
  ap 1200 (61000 * hu) (fst (radtan64 cz c x y)) (fst (exact_radtan c v w)) /\ ap 1200 (61000 * hu) (snd (radtan64 cz c x y)) (snd (exact_radtan c v w)).
Proof.
  intros X Y. destruct Us as (K1 & K2 & K3 & P1 & P2 & _). apply ap_exact in K1, K2, K3, P1, P2.
  unfold radtan64, exact_radtan. cbv zeta. cbn [fst snd]. unfold val64.
  assert (R2 : ap 8 (80 * hu) (sop (cz 0) x x y y) (v * v + w * w)) by (apply (ap_sop _ 4 16 2 (2 * hu) 2 (2 * hu) 2 (2 * hu) 2 (2 * hu)); auto; side).
  set (r2 := sop (cz 0) x x y y) in *. clearbody r2. set (q := v * v + w * w) in *.
  assert (KR : ap 585 (24000 * hu) (mac (cz 3) (mac (cz 2) (mac (cz 1) (c_k3 c) r2 (c_k2 c)) r2 (c_k1 c)) r2 one64) (((B2R (c_k3 c) * q + B2R (c_k2 c)) * q + B2R (c_k1 c)) * q + 1)).
  { apply (ap_mac _ 10 1024 73 (1900 * hu) 8 (80 * hu) 1 0); auto using one_ap; try side.
    apply (ap_mac _ 7 128 9 (113 * hu) 8 (80 * hu) 1 0); auto; try side.
    apply (ap_mac _ 4 16 1 0 8 (80 * hu) 1 0); auto; side. }
  set (kr := mac (cz 3) _ _ _) in *. clearbody kr.
  assert (XY : ap 4 (17 * hu) (mul64 x y) (v * w)) by (apply (ap_mul 3 8 2 (2 * hu) 2 (2 * hu)); auto; side).
  assert (X2 : ap 4 (17 * hu) (mul64 x x) (v * v)) by (apply (ap_mul 3 8 2 (2 * hu) 2 (2 * hu)); auto; side).
  assert (Y2 : ap 4 (17 * hu) (mul64 y y) (w * w)) by (apply (ap_mul 3 8 2 (2 * hu) 2 (2 * hu)); auto; side).
  assert (P12 : ap 2 (2 * hu) (mul64 (c_p1 c) two64) (B2R (c_p1 c) * 2)) by (apply (ap_mul 1 2 1 0 2 0); auto using two_ap; side).
  assert (P22 : ap 2 (2 * hu) (mul64 (c_p2 c) two64) (B2R (c_p2 c) * 2)) by (apply (ap_mul 1 2 1 0 2 0); auto using two_ap; side).
  assert (RX : ap 16 (180 * hu) (mac (cz 5) two64 (mul64 x x) r2) (2 * (v * v) + q)) by (apply (ap_mac _ 5 32 2 0 4 (17 * hu) 8 (80 * hu)); auto using two_ap; side).
  assert (RY : ap 16 (180 * hu) (mac (cz 8) two64 (mul64 y y) r2) (2 * (w * w) + q)) by (apply (ap_mac _ 5 32 2 0 4 (17 * hu) 8 (80 * hu)); auto using two_ap; side).
  clearbody q. split.
  - match goal with |- ap _ _ ?f ?t => replace t with (B2R (c_p2 c) * (2 * (v * v) + q) + (v * (((B2R (c_k3 c) * q + B2R (c_k2 c)) * q + B2R (c_k1 c)) * q + 1) + B2R (c_p1 c) * 2 * (v * w))) by ring end.
    apply (ap_mac _ 11 2048 1 0 16 (180 * hu) 1180 (56000 * hu)); auto; try side.
    apply (ap_sop _ 11 2048 2 (2 * hu) 585 (24000 * hu) 2 (2 * hu) 4 (17 * hu)); auto; side.
  - match goal with |- ap _ _ ?f ?t => replace t with (B2R (c_p2 c) * 2 * (v * w) + (w * (((B2R (c_k3 c) * q + B2R (c_k2 c)) * q + B2R (c_k1 c)) * q + 1) + B2R (c_p1 c) * (2 * (w * w) + q))) by ring end.
    apply (ap_mac _ 11 2048 2 (2 * hu) 4 (17 * hu) 1190 (56000 * hu)); auto; try side.
    apply (ap_sop _ 11 2048 2 (2 * hu) 585 (24000 * hu) 1 0 16 (180 * hu)); auto; side.
Qed.
End A.
