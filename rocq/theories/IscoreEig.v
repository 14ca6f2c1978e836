(** Rounding errors of the eigenvalues of a 2x2 matrix with rounded entries. *)
From Coq Require Import List ZArith Bool Reals Lia Lra Psatz.
From Flocq Require Import Core BinarySingleNaN.
From Verif Require Import IeeeModel IeeeReal IeeeProofs IeeeAcc IeeePos IpyrProofs IeeeSpec IscoreModel IscoreReal.
Import ListNotations.
Local Open Scope R_scope.

Lemma abs_mult_le x y a b : Rabs x <= a -> Rabs y <= b -> Rabs (x * y) <= a * b.
Proof. intros. rewrite Rabs_mult. apply Rmult_le_compat; auto using Rabs_pos. Qed.
Lemma sqrt_close x y r : 0 <= x -> 0 <= y -> 0 <= r -> Rabs (x - y) <= r * r -> Rabs (sqrt x - sqrt y) <= r.
Proof.
  intros X Y Hr H. pose proof (sqrt_pos x) as PX. pose proof (sqrt_pos y) as PY. pose proof (sqrt_sqrt x X) as SX. pose proof (sqrt_sqrt y Y) as SY.
  apply Rabs_le_inv in H. set (p := sqrt x) in *. set (q := sqrt y) in *. apply Rabs_le. split.
  - destruct (Rle_dec (- r) (p - q)) as [K|K]; [exact K|]. exfalso. assert (r < q - p) by lra. assert (r * r < (q - p) * (q - p)) by nra. nra.
  - destruct (Rle_dec (p - q) r) as [K|K]; [exact K|]. exfalso. assert (r < p - q) by lra. assert (r * r < (p - q) * (p - q)) by nra. nra.
Qed.

(** the argument of the square root *)
Lemma disc_err kc (a b c : f32) M : F a -> F b -> F c -> 0 <= M <= 140000 -> Rabs (B2R a + B2R b) <= M -> Rabs (B2R a * B2R b) <= M * M / 4 -> Rabs (B2R c) <= M / 2 ->
  F (disc32 kc a b c) /\ Rabs (B2R (disc32 kc a b c) - ((B2R a - B2R b) * (B2R a - B2R b) + 4 * (B2R c * B2R c))) <= 61 / 5 * u * (M * M) + 4294967296 * eta.
Proof.
  intros Fa Fb Fc HM Hs Hp Hc. pose proof eta_pos as E0. pose proof eta_small as E1.
  assert (M2 : 0 <= M * M <= 19600000000) by nra.
  destruct (add_err a b Fa Fb ltac:(lra)) as [Fs Vs]. pose proof (rerr (B2R a + B2R b)) as Rs. rewrite <- Vs in Rs.
  assert (Rs' : Rabs (B2R (add32 a b) - (B2R a + B2R b)) <= u * M + eta) by lra. clear Rs Vs.
  assert (Hcc : Rabs (B2R c * B2R c) <= M * M / 4) by (eapply Rle_trans; [apply abs_mult_le; eassumption|lra]).
  destruct (diff_err (snd kc) a b c c _ _ Fa Fb Fc Fc Hp Hcc ltac:(lra)) as [Fd Vd].
  destruct (of_Z32 4 ltac:(lia)) as [F4 V4].
  assert (EM : 0 <= eta * M <= 140000 * eta) by nra.
  assert (EE : 0 <= eta * eta <= eta) by nra.
  assert (SS : Rabs (B2R (add32 a b) * B2R (add32 a b) - (B2R a + B2R b) * (B2R a + B2R b)) <= 201 / 100 * u * (M * M) + 1000000 * eta).
  { set (s := B2R (add32 a b)) in *. set (z := B2R a + B2R b) in *. replace (s * s - z * z) with ((s - z) * (2 * z + (s - z))) by ring.
    eapply Rle_trans; [apply abs_mult_le; [exact Rs'|]|].
    - instantiate (1 := 2 * M + (u * M + eta)). apply Rabs_le_inv in Rs', Hs. apply Rabs_le. lra.
    - replace ((u * M + eta) * (2 * M + (u * M + eta))) with ((2 * u + u * u) * (M * M) + (2 + 2 * u) * (eta * M) + eta * eta) by ring. lra. }
  assert (ZZ : Rabs ((B2R a + B2R b) * (B2R a + B2R b)) <= M * M) by (apply abs_mult_le; assumption).
  assert (S2 : Rabs (B2R (add32 a b) * B2R (add32 a b)) <= M * M + 201 / 100 * u * (M * M) + 1000000 * eta) by (apply Rabs_le_inv in SS, ZZ; apply Rabs_le; lra).
  assert (D2 : Rabs (B2R (f32_of_Z 4) * B2R (diff32 (snd kc) a b c c)) <= 2 * (M * M) + 5 * u * (M * M) + 100 * eta).
  { rewrite V4. apply Rabs_le_inv in Vd, Hp, Hcc. apply Rabs_le. lra. }
  destruct (diff_err (fst kc) _ _ _ _ _ _ Fs Fs F4 Fd S2 D2 ltac:(lra)) as [Fo Vo]. rewrite V4 in Vo. change (diff32 (fst kc) (add32 a b) (add32 a b) (f32_of_Z 4) (diff32 (snd kc) a b c c)) with (disc32 kc a b c) in *.
  split; [exact Fo|]. set (d := B2R (disc32 kc a b c)) in *. set (d1 := B2R (diff32 (snd kc) a b c c)) in *.
  set (ss := B2R (add32 a b) * B2R (add32 a b)) in *.
  replace ((B2R a - B2R b) * (B2R a - B2R b) + 4 * (B2R c * B2R c)) with ((B2R a + B2R b) * (B2R a + B2R b) - 4 * (B2R a * B2R b - B2R c * B2R c)) by ring.
  set (zz := (B2R a + B2R b) * (B2R a + B2R b)) in *. set (pp := B2R a * B2R b - B2R c * B2R c) in *.
  clear Hp Hcc D2 S2 ZZ Hs Hc Rs'. apply Rabs_le_inv in Vo, Vd, SS. apply Rabs_le. lra.
Qed.

(** NaN *)
Lemma sqrt_nan (x : f32) : F x -> B2R x < 0 -> sqrt32 x = B754_nan.
Proof.
  destruct x as [s|s| |s m e h]; cbn; try discriminate; [intros _ H; lra|]. intros _ H. destruct s; [reflexivity|]. exfalso.
  pose proof (F2R_gt_0 radix2 (Float radix2 (Z.pos m) e) eq_refl). cbn [cond_Zopp] in *. lra.
Qed.
Lemma half_nan : half32 B754_nan = B754_nan. Proof. vm_compute. reflexivity. Qed.
Lemma sub_nan (x : f32) : sub32 x B754_nan = B754_nan. Proof. destruct x; reflexivity. Qed.
Lemma add_nan (x : f32) : add32 x B754_nan = B754_nan. Proof. destruct x; reflexivity. Qed.
Lemma nan_add (x : f32) : add32 B754_nan x = B754_nan. Proof. destruct x; reflexivity. Qed.

Lemma sqrt_err (x : f32) : F x -> 0 <= B2R x -> F (sqrt32 x) /\ B2R (sqrt32 x) = r32 (sqrt (B2R x)).
Proof.
  intros Fx H. destruct (Bsqrt_correct 24 128 p24 p128 mode_NE x) as (A & B & _). split; [|exact A]. unfold sqrt32. rewrite B.
  destruct x as [s|s| |s m e h]; try discriminate; [reflexivity|]. destruct s; [|reflexivity]. exfalso. cbn in H.
  pose proof (F2R_lt_0 radix2 (Float radix2 (Z.neg m) e) eq_refl). lra.
Qed.

(** the two eigenvalues and the score, from entries with relative error 560u *)
Definition tau : R := 68719476736 * eta.
Section Eig.
Variables (a b c : f32) (A B C : R).
Hypotheses (Fa : F a) (Fb : F b) (Fc : F c) (HA : 0 <= A <= 65536) (HB : 0 <= B <= 65536) (HC : C * C <= A * B)
  (Ha : Rabs (B2R a - A) <= 560 * u * A + tau) (Hb : Rabs (B2R b - B) <= 560 * u * B + tau) (Hc : Rabs (B2R c - C) <= 560 * u * ((A + B) / 2) + tau).
Let T := A + B.
Let D := (A - B) * (A - B) + 4 * (C * C).
Let q := sqrt D.
Let M := T + 560 * u * T + 2 * tau.
Lemma tau_small : 0 < tau <= / 1298074214633706907132624082305024.
Proof. unfold tau. pose proof eta_pos. pose proof eta_small. lra. Qed.
Lemma tau_eta : eta <= / 68719476736 * tau. Proof. unfold tau. lra. Qed.
Lemma HT : 0 <= T <= 131072. Proof. unfold T. lra. Qed.
Lemma C_T : Rabs C <= T / 2.
Proof.
  unfold T. assert (K : Rabs C * Rabs C <= (A + B) / 2 * ((A + B) / 2)).
  { rewrite <- Rabs_mult, Rabs_pos_eq by apply Rle_0_sqr. pose proof (Rle_0_sqr (A - B)). unfold Rsqr in *. lra. }
  destruct (Rle_dec (Rabs C) ((A + B) / 2)) as [L|L]; [exact L|]. exfalso. assert ((A + B) / 2 * ((A + B) / 2) < Rabs C * Rabs C); [|lra].
  apply Rmult_le_0_lt_compat; lra.
Qed.
Lemma D_range : 0 <= D <= T * T. Proof. unfold D, T. pose proof (Rle_0_sqr (A - B)). pose proof (Rle_0_sqr C). unfold Rsqr in *. lra. Qed.
Lemma q_range : 0 <= q <= T.
Proof.
  unfold q. split; [apply sqrt_pos|]. pose proof HT. rewrite <- (sqrt_square T) by lra. apply sqrt_le_1_alt, D_range.
Qed.
Lemma qq : q * q = D. Proof. apply sqrt_sqrt, D_range. Qed.
Lemma M_range : 0 <= T <= M /\ M <= 1001 / 1000 * T + 2 * tau /\ M <= 140000.
Proof. pose proof HT. pose proof tau_small. unfold M. lra. Qed.
Lemma hM1 : Rabs (B2R a + B2R b) <= M.
Proof. apply Rabs_le_inv in Ha, Hb. unfold M, T. apply Rabs_le. lra. Qed.
Lemma hM2 : Rabs (B2R a * B2R b) <= M * M / 4.
Proof.
  pose proof tau_small. assert (X : Rabs (B2R a) <= A + 560 * u * A + tau) by (apply Rabs_le_inv in Ha; apply Rabs_le; lra).
  assert (Y : Rabs (B2R b) <= B + 560 * u * B + tau) by (apply Rabs_le_inv in Hb; apply Rabs_le; lra).
  eapply Rle_trans; [apply abs_mult_le; eassumption|]. unfold M, T.
  set (x := A + 560 * u * A + tau) in *. set (y := B + 560 * u * B + tau) in *. replace (A + B + 560 * u * (A + B) + 2 * tau) with (x + y) by (unfold x, y; ring).
  pose proof (Rle_0_sqr (x - y)). unfold Rsqr in *. lra.
Qed.
Lemma hM3 : Rabs (B2R c) <= M / 2.
Proof. pose proof C_T as H. apply Rabs_le_inv in Hc, H. unfold M, T in *. apply Rabs_le. lra. Qed.

(** rounded against exact discriminant of the rounded entries *)
Let Df := (B2R a - B2R b) * (B2R a - B2R b) + 4 * (B2R c * B2R c).
Lemma disc1 kc : F (disc32 kc a b c) /\ Rabs (B2R (disc32 kc a b c) - Df) <= 62 / 5 * u * (T * T) + / 19342813113834066795298816.
Proof.
  destruct M_range as (M0 & M1 & M2). pose proof HT as HT. destruct (disc_err kc a b c M Fa Fb Fc ltac:(lra) hM1 hM2 hM3) as [F1 H]. split; [exact F1|].
  eapply Rle_trans; [exact H|]. pose proof tau_small. pose proof eta_small.
  assert (M * M <= 10021 / 10000 * (T * T) + 1000000 * tau).
  { apply Rle_trans with ((1001 / 1000 * T + 2 * tau) * (1001 / 1000 * T + 2 * tau)); [apply Rmult_le_compat; lra|].
    replace ((1001 / 1000 * T + 2 * tau) * (1001 / 1000 * T + 2 * tau)) with (1002001 / 1000000 * (T * T) + 4 * (1001 / 1000) * (T * tau) + 4 * (tau * tau)) by field.
    assert (T * tau <= 131072 * tau) by (apply Rmult_le_compat_r; lra). assert (tau * tau <= 1 * tau) by (apply Rmult_le_compat_r; lra).
    assert (0 <= T * T) by nra. lra. }
  assert (0 <= T * T) by nra. lra.
Qed.
Lemma disc2 : Rabs (Df - D) <= 2245 * u * (T * T) + / 604462909807314587353088 / 4.
Proof.
  destruct M_range as (M0 & M1 & M2). pose proof HT as HT. pose proof tau_small. 
  set (d := 560 * u * T + 2 * tau).
  assert (Q1 : Rabs ((B2R a - B2R b) * (B2R a - B2R b) - (A - B) * (A - B)) <= d * (M + T)).
  { replace ((B2R a - B2R b) * (B2R a - B2R b) - (A - B) * (A - B)) with (((B2R a - A) - (B2R b - B)) * ((B2R a - B2R b) + (A - B))) by ring.
    apply Rabs_le_inv in Ha, Hb. apply abs_mult_le; apply Rabs_le; unfold d, M, T in *; lra. }
  assert (Q2 : Rabs (4 * (B2R c * B2R c) - 4 * (C * C)) <= d * (M + T)).
  { replace (4 * (B2R c * B2R c) - 4 * (C * C)) with ((2 * (B2R c - C)) * (2 * (B2R c + C))) by ring.
    pose proof C_T as K. pose proof hM3 as K'. apply Rabs_le_inv in Hc, K, K'. apply abs_mult_le; apply Rabs_le; unfold d, T in *; lra. }
  assert (Q3 : d * (M + T) <= 1122 * u * (T * T) + 1000000 * tau).
  { apply Rle_trans with (d * (2001 / 1000 * T + 2 * tau)); [apply Rmult_le_compat_l; unfold d; lra|].
    unfold d. replace ((560 * u * T + 2 * tau) * (2001 / 1000 * T + 2 * tau)) with (560 * (2001 / 1000) * u * (T * T) + (2 * 560 * u + 2 * (2001 / 1000)) * (T * tau) + 4 * (tau * tau)) by field.
    assert (T * tau <= 131072 * tau) by (apply Rmult_le_compat_r; lra). assert (tau * tau <= 1 * tau) by (apply Rmult_le_compat_r; lra).
    assert (0 <= T * T) by nra. lra. }
  apply Rabs_le_inv in Q1, Q2. assert (0 <= T * T) by nra. unfold Df, D. apply Rabs_le. lra.
Qed.
Lemma disc3 kc : Rabs (B2R (disc32 kc a b c) - D) <= 2260 * u * (T * T) + / 604462909807314587353088 / 2.
Proof.
  destruct (disc1 kc) as [_ H]. pose proof disc2 as H2. apply Rabs_le_inv in H, H2. assert (0 <= T * T) by (pose proof HT; nra). apply Rabs_le. lra.
Qed.
Lemma root_err kc : 0 <= B2R (disc32 kc a b c) -> F (sqrt32 (disc32 kc a b c)) /\
  Rabs (B2R (sqrt32 (disc32 kc a b c)) - q) <= T / 85 + / 500000000000.
Proof.
  intros H. destruct (disc1 kc) as [F1 _]. destruct (sqrt_err _ F1 H) as [F2 V2]. split; [exact F2|]. rewrite V2.
  pose proof HT as HT. pose proof q_range as Q. pose proof eta_small. set (d := B2R (disc32 kc a b c)) in *.
  assert (K : Rabs (sqrt d - q) <= T / 86 + / 1000000000000).
  { apply sqrt_close; [exact H|apply D_range|lra|]. eapply Rle_trans; [apply disc3|]. assert (0 <= T * T) by nra. 
    replace ((T / 86 + / 1000000000000) * (T / 86 + / 1000000000000)) with (T * T / 7396 + 2 / 86 * / 1000000000000 * T + / 1000000000000000000000000) by field. lra. }
  pose proof (rerr (sqrt d)) as R. rewrite (Rabs_pos_eq (sqrt d)) in R by apply sqrt_pos. apply Rabs_le_inv in K, R. apply Rabs_le. lra.
Qed.
Lemma roots_err kc kc' : 0 <= B2R (disc32 kc a b c) -> 0 <= B2R (disc32 kc' a b c) ->
  Rabs (B2R (sqrt32 (disc32 kc a b c)) - B2R (sqrt32 (disc32 kc' a b c))) <= T / 800 + / 500000000000.
Proof.
  intros H H'. destruct (disc1 kc) as [F1 D1]. destruct (disc1 kc') as [F1' D1']. destruct (sqrt_err _ F1 H) as [F2 V2]. destruct (sqrt_err _ F1' H') as [F2' V2']. rewrite V2, V2'.
  pose proof HT as HT. pose proof q_range as Q. pose proof eta_small. set (d := B2R (disc32 kc a b c)) in *. set (d' := B2R (disc32 kc' a b c)) in *.
  assert (K : Rabs (sqrt d - sqrt d') <= T / 810 + / 1000000000000).
  { apply sqrt_close; [exact H|exact H'|lra|]. assert (0 <= T * T) by nra. 
    replace ((T / 810 + / 1000000000000) * (T / 810 + / 1000000000000)) with (T * T / 656100 + 2 / 810 * / 1000000000000 * T + / 1000000000000000000000000) by field.
    apply Rabs_le_inv in D1, D1'. apply Rabs_le. lra. }
  assert (K2 : Rabs (sqrt d - q) <= T / 86 + / 1000000000000).
  { apply sqrt_close; [exact H|apply D_range|lra|]. eapply Rle_trans; [apply disc3|]. assert (0 <= T * T) by nra. 
    replace ((T / 86 + / 1000000000000) * (T / 86 + / 1000000000000)) with (T * T / 7396 + 2 / 86 * / 1000000000000 * T + / 1000000000000000000000000) by field. lra. }
  pose proof (rerr (sqrt d)) as R. rewrite (Rabs_pos_eq (sqrt d)) in R by apply sqrt_pos.
  pose proof (rerr (sqrt d')) as R'. rewrite (Rabs_pos_eq (sqrt d')) in R' by apply sqrt_pos. apply Rabs_le_inv in K, K2, R, R'. apply Rabs_le. lra.
Qed.

Lemma trace_err : F (add32 a b) /\ Rabs (B2R (add32 a b) - T) <= 562 * u * T + 3 * tau.
Proof.
  destruct M_range as (M0 & M1 & M2). pose proof HT as HT. pose proof tau_small. pose proof tau_eta. pose proof hM1 as K. destruct (add_err a b Fa Fb ltac:(lra)) as [F1 V1]. split; [exact F1|]. rewrite V1.
  pose proof (rerr (B2R a + B2R b)) as R. apply Rabs_le_inv in R, Ha, Hb. unfold T in *. apply Rabs_le. lra.
Qed.
Lemma half_of (z w : f32) x y ex ey (up : bool) : F z -> F w -> Rabs (B2R z - x) <= ex -> Rabs (B2R w - y) <= ey -> 0 <= x <= 131072 -> 0 <= y <= 131072 -> ex <= 131072 -> ey <= 131072 ->
  let r := half32 (if up then add32 z w else sub32 z w) in
  F r /\ Rabs (B2R r - (B2R z + (if up then B2R w else - B2R w)) / 2) <= 2 * u * (x + y + ex + ey) + 3 * eta.
Proof.
  intros Fz Fw Hz Hw X Y EX EY. cbv zeta. pose proof eta_small. pose proof eta_pos.
  assert (Z1 : Rabs (B2R z) <= x + ex) by (apply Rabs_le_inv in Hz; apply Rabs_le; lra).
  assert (W1 : Rabs (B2R w) <= y + ey) by (apply Rabs_le_inv in Hw; apply Rabs_le; lra).
  assert (P : F (if up then add32 z w else sub32 z w) /\ B2R (if up then add32 z w else sub32 z w) = r32 (B2R z + (if up then B2R w else - B2R w))).
  { destruct up; [apply add_err; auto|apply sub_err; auto]; apply Rabs_le_inv in Z1, W1; apply Rabs_le; lra. }
  destruct P as [F1 V1]. set (o := if up then add32 z w else sub32 z w) in *. destruct (half_err o F1) as [F2 H2]. split; [exact F2|].
  set (v := B2R z + (if up then B2R w else - B2R w)) in *. pose proof (rerr v) as R. change (B2R o = r32 v) in V1. rewrite <- V1 in R.
  assert (V : Rabs v <= x + y + ex + ey) by (apply Rabs_le_inv in Z1, W1; apply Rabs_le; unfold v; destruct up; lra).
  assert (O1 : Rabs (B2R o) <= (x + y + ex + ey) * (1 + u) + eta) by (pose proof V as V'; apply Rabs_le_inv in R, V'; apply Rabs_le; lra).
  apply Rabs_le_inv in R, H2. apply Rabs_le. lra.
Qed.

Lemma eig_near kc0 kc1 :
  let e0 := eig0_32 kc0 a b c in let e1 := eig1_32 kc1 a b c in let s := add32 e0 e1 in
  (number s -> F e0 /\ F e1 /\ F s /\ Rabs (B2R e0 - (T - q) / 2) <= T / 128 + / 1073741824 /\ Rabs (B2R e1 - (T + q) / 2) <= T / 128 + / 1073741824 /\
     Rabs (B2R s - T) <= T / 1024 + / 1073741824) /\
  (T / 64 <= q -> / 1073741824 <= q -> number s).
Proof.
  cbv zeta. pose proof HT as HT. pose proof q_range as Q. pose proof tau_small as Tt. pose proof eta_small as Es. pose proof eta_pos as Ep. destruct trace_err as [Ft Ht].
  destruct (disc1 kc0) as [F0 _]. destruct (disc1 kc1) as [F1 _].
  assert (Pos : 0 <= B2R (disc32 kc0 a b c) -> 0 <= B2R (disc32 kc1 a b c) ->
    F (eig0_32 kc0 a b c) /\ F (eig1_32 kc1 a b c) /\ F (add32 (eig0_32 kc0 a b c) (eig1_32 kc1 a b c)) /\
    Rabs (B2R (eig0_32 kc0 a b c) - (T - q) / 2) <= T / 128 + / 1073741824 /\ Rabs (B2R (eig1_32 kc1 a b c) - (T + q) / 2) <= T / 128 + / 1073741824 /\
    Rabs (B2R (add32 (eig0_32 kc0 a b c) (eig1_32 kc1 a b c)) - T) <= T / 1024 + / 1073741824).
  { intros P0 P1. destruct (root_err kc0 P0) as [Fr0 R0]. destruct (root_err kc1 P1) as [Fr1 R1]. pose proof (roots_err kc0 kc1 P0 P1) as RR.
    destruct (half_of _ _ _ _ _ _ false Ft Fr0 Ht R0 HT ltac:(lra) ltac:(lra) ltac:(lra)) as [G0 H0].
    destruct (half_of _ _ _ _ _ _ true Ft Fr1 Ht R1 HT ltac:(lra) ltac:(lra) ltac:(lra)) as [G1 H1].
    cbn [negb] in *. fold (eig0_32 kc0 a b c) in G0, H0. fold (eig1_32 kc1 a b c) in G1, H1.
    set (r0 := B2R (sqrt32 (disc32 kc0 a b c))) in *. set (r1 := B2R (sqrt32 (disc32 kc1 a b c))) in *. set (t := B2R (add32 a b)) in *.
    apply Rabs_le_inv in Ht, R0, R1, RR, H0, H1.
    destruct (add_err _ _ G0 G1) as [G2 V2]; [apply Rabs_le; lra|]. pose proof (rerr (B2R (eig0_32 kc0 a b c) + B2R (eig1_32 kc1 a b c))) as R2.
    assert (B2 : Rabs (B2R (eig0_32 kc0 a b c) + B2R (eig1_32 kc1 a b c)) <= 2 * T + 1 / 1000000000) by (apply Rabs_le; lra).
    rewrite <- V2 in R2. apply Rabs_le_inv in R2.
    repeat split; try assumption; apply Rabs_le; lra. }
  split.
  - intros N. apply Pos.
    + destruct (Rle_dec 0 (B2R (disc32 kc0 a b c))) as [K|K]; [exact K|]. exfalso. unfold number in N. revert N.
      unfold eig0_32 at 1. rewrite sqrt_nan, sub_nan, half_nan, nan_add by (auto; lra). discriminate.
    + destruct (Rle_dec 0 (B2R (disc32 kc1 a b c))) as [K|K]; [exact K|]. exfalso. unfold number in N. revert N.
      unfold eig1_32 at 1. rewrite (sqrt_nan (disc32 kc1 a b c)), add_nan, half_nan, add_nan by (auto; lra). discriminate.
  - intros G1 G2. assert (P : forall kc, 0 <= B2R (disc32 kc a b c)).
    { intros kc. pose proof (disc3 kc) as H. apply Rabs_le_inv in H. rewrite <- qq in H.
      assert (T / 64 * (T / 64) <= q * q) by (apply Rmult_le_compat; lra). assert (/ 1073741824 * / 1073741824 <= q * q) by (apply Rmult_le_compat; lra). lra. }
    destruct (Pos (P kc0) (P kc1)) as (_ & _ & FS & _). unfold number. revert FS. destruct (add32 (eig0_32 kc0 a b c) (eig1_32 kc1 a b c)); cbn; intros; try discriminate; reflexivity.
Qed.
End Eig.
