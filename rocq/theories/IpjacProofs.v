(** Error of the projection Jacobian in doubles. *)
From Coq Require Import ZArith Bool Reals Lia Lra Psatz.
From Coquelicot Require Import Coquelicot.
From Flocq Require Import Core BinarySingleNaN.
From Verif Require Import IeeeModel IeeeSpec IeeeReal StampModel IcamModel IcamSpec IcamAccSpec IcamProofs IcamAcc IcamSph IbackModel IbjacModel IjacSpec IjacProofs IjacEqui IjacProps CamModel CamSpec CamProofs IpjacModel IpjacSpec.
Local Open Scope R_scope.
Local Notation fe := (SpecFloat.fexp 53 1024).
Local Notation rn := (round radix2 fe ZnearestE).

(** the exact distortions are those of the camera over the reals, off the centre *)
Lemma same_distort c x y : c_model c = Radtan64 \/ r2_min <= x * x + y * y -> distort (real_camera c) (x, y) = exact_of c x y.
Proof.
  intros H. unfold distort, exact_of, real_camera. cbn [ctype]. destruct (c_model c) eqn:M.
  - unfold distort_radtan, exact_radtan. cbv zeta. cbn [CamModel.k1 CamModel.k2 CamModel.k3 CamModel.p1 CamModel.p2]. f_equal; ring.
  - destruct H as [H|H]; [discriminate|]. unfold distort_equidist, exact_equi, thd_of. cbv zeta. cbn [CamModel.k1 CamModel.k2 CamModel.k3 CamModel.k4].
    destruct (Rlt_dec _ _) as [L|_]; [exfalso; apply sqrt_lt_iff in L; [lra|nra]|]. f_equal; f_equal; f_equal; ring.
  - destruct H as [H|H]; [discriminate|]. unfold distort_ds, exact_sphere, ds_den, ds_d2, ds_d1. cbv zeta. cbn [CamModel.k1 CamModel.k2].
    destruct (Rlt_dec _ _) as [L|_]; [exfalso; lra|]. unfold Rdiv. rewrite Rmult_1_l. reflexivity.
Qed.
Lemma off_r2 x y : / 2 ^ 26 < Rabs x \/ / 2 ^ 26 < Rabs y -> r2_min < x * x + y * y.
Proof.
  assert (G : forall a, / 2 ^ 26 < Rabs a -> r2_min < a * a).
  { intros a H. assert (Q : a * a = Rabs a * Rabs a) by (rewrite <- Rabs_mult; rewrite Rabs_pos_eq; nra). rewrite Q. unfold r2_min.
    apply Rlt_trans with (/ 2 ^ 26 * / 2 ^ 26); [cbn; lra|]. assert (0 < / 2 ^ 26) by (cbn; lra). nra. }
  intros [H|H]; apply G in H; nra.
Qed.
Lemma real_regular c x y : usual c -> usual_model c -> c_model c = Radtan64 \/ (/ 2 ^ 26 < Rabs x \/ / 2 ^ 26 < Rabs y) -> regular (real_camera c) (x, y).
Proof.
  intros US [_ DS] H. unfold regular, real_camera. cbv zeta. cbn [ctype fst snd]. destruct (c_model c) eqn:M; [exact I| |].
  - destruct H as [H|H]; [discriminate|]. apply off_r2 in H. apply sqrt_gt_iff in H; [lra|nra].
  - destruct H as [H|H]; [discriminate|]. apply off_r2 in H. right. split; [exact H|]. destruct (DS eq_refl) as [K1 K2]. destruct US as (_ & [_ K2b] & _).
    rewrite Rabs_pos_eq in K2b by exact K2. unfold ds_den, ds_d2, ds_d1. cbn [CamModel.k1 CamModel.k2]. set (q := x * x + y * y) in *. assert (0 <= q) by (unfold q; nra).
    set (a := val64 (c_k1 c)) in *. set (b := val64 (c_k2 c)) in *. pose proof (sqrt_pos (q + 1)). set (e := a * sqrt (q + 1) + 1). assert (1 <= e) by (unfold e; nra).
    assert (1 <= sqrt (q + e * e)) by (rewrite <- sqrt_1 at 1; apply sqrt_le_1_alt; nra). assert (1 <= b * sqrt (q + e * e) + (1 - b) * e) by nra. lra.
Qed.
(** the entries of the Jacobian over the reals are the slopes of the exact distortion *)
Lemma real_slopes c x y a b d e : usual c -> usual_model c -> c_model c = Radtan64 \/ (/ 2 ^ 26 < Rabs x \/ / 2 ^ 26 < Rabs y) ->
  snd (distort_J (real_camera c) (x, y)) = (a, b, d, e) ->
  derivable_pt_lim (fun t => fst (exact_of c t y)) x a /\ derivable_pt_lim (fun t => fst (exact_of c x t)) y b /\
  derivable_pt_lim (fun t => snd (exact_of c t y)) x d /\ derivable_pt_lim (fun t => snd (exact_of c x t)) y e.
Proof.
  intros US UM H E. pose proof (distort_jac _ _ (real_regular c x y US UM H)) as J. rewrite E in J. apply jacobian_partials in J. destruct J as (A & B & D & F).
  assert (LX : locally x (fun t => distort (real_camera c) (t, y) = exact_of c t y)).
  { destruct H as [H|H]; [apply filter_forall; intros t; apply same_distort; now left|]. apply off_r2 in H.
    assert (L : locally x (fun t => r2_min < t * t + y * y)) by (apply (locally_gt (fun t => t * t + y * y)); [auto_derive; trivial|exact H]).
    revert L. apply filter_imp. intros t L. apply same_distort. right. lra. }
  assert (LY : locally y (fun t => distort (real_camera c) (x, t) = exact_of c x t)).
  { destruct H as [H|H]; [apply filter_forall; intros t; apply same_distort; now left|]. apply off_r2 in H.
    assert (L : locally y (fun t => r2_min < x * x + t * t)) by (apply (locally_gt (fun t => x * x + t * t)); [auto_derive; trivial|exact H]).
    revert L. apply filter_imp. intros t L. apply same_distort. right. lra. }
  apply is_derive_Reals in A, B, D, F. repeat split; apply is_derive_Reals.
  - eapply is_derive_ext_loc; cycle 1; [exact A|]. revert LX. apply filter_imp. cbv beta. intros t Q. exact (f_equal fst Q).
  - eapply is_derive_ext_loc; cycle 1; [exact B|]. revert LY. apply filter_imp. cbv beta. intros t Q. exact (f_equal fst Q).
  - eapply is_derive_ext_loc; cycle 1; [exact D|]. revert LX. apply filter_imp. cbv beta. intros t Q. exact (f_equal snd Q).
  - eapply is_derive_ext_loc; cycle 1; [exact F|]. revert LY. apply filter_imp. cbv beta. intros t Q. exact (f_equal snd Q).
Qed.
Lemma slope_val eps f a j d : slope_in eps f a j -> derivable_pt_lim f a d -> ap 3600 eps j d.
Proof. intros (F & d' & D' & B & E) D. rewrite (uniqueness_limite _ _ _ _ D D'). split; [exact F|]. split; [exact B|exact E]. Qed.

Lemma zero_ap : ap 0 0 (g64_of_Z 0) 0.
Proof. split; [reflexivity|]. change (B2R (g64_of_Z 0)) with 0. rewrite Rminus_0_r, Rabs_R0. lra. Qed.

(** the quotient a distortion is evaluated at *)
Lemma quotient x z : at_most 2 x -> at_most 2 z -> / 4 <= val64 z -> Rabs (val64 x) <= 2 * val64 z ->
  at_most 2 (div64 x z) /\ Rabs (val64 (div64 x z) - val64 x / val64 z) <= 2 * hu.
Proof.
  unfold val64. intros X [FZ Z] L B. assert (two : 2 <= bpow radix2 1) by (cbn; lra). pose proof (bd_val 2 1 x X two) as BX. unfold val64 in *.
  assert (L' : bpow radix2 (-2) <= B2R z) by (cbn; lra). destruct (div_val 1 (-2) x z BX FZ L' ltac:(lia)) as [[F _] E].
  assert (Q : Rabs (B2R x / B2R z) <= 2).
  { unfold Rdiv. rewrite Rabs_mult, Rabs_inv, (Rabs_pos_eq (B2R z)) by lra. apply Rmult_le_reg_r with (B2R z); [lra|]. rewrite Rmult_assoc, Rinv_l by lra. lra. }
  split; [|rewrite E; apply (rn_err 1 2); [lia|reflexivity|exact Q]]. split; [exact F|]. unfold val64. rewrite E. change 2 with (bpow radix2 1) in Q. exact (rn_le 1 _ ltac:(lia) Q).
Qed.

Lemma small_quotient x z : at_most 2 x -> at_most 2 z -> / 4 <= val64 z -> Rabs (val64 x) <= / 2 ^ 28 * val64 z -> bd (-28) (div64 x z).
Proof.
  unfold val64. intros X [FZ Z] L B. assert (two : 2 <= bpow radix2 1) by (cbn; lra). pose proof (bd_val 2 1 x X two) as BX. unfold val64 in *.
  assert (L' : bpow radix2 (-2) <= B2R z) by (cbn; lra). destruct (div_val 1 (-2) x z BX FZ L' ltac:(lia)) as [[F _] E]. split; [exact F|]. rewrite E. apply rn_le; [lia|].
  change (bpow radix2 (-28)) with (/ 268435456). unfold Rdiv. rewrite Rabs_mult, Rabs_inv, (Rabs_pos_eq (B2R z)) by lra. apply Rmult_le_reg_r with (B2R z); [lra|]. rewrite Rmult_assoc, Rinv_l by lra. lra.
Qed.
(** -x / z^2 against the quotient over z *)
Lemma slope_z x z : at_most 2 x -> at_most 2 z -> / 4 <= val64 z -> Rabs (val64 x) <= 2 * val64 z ->
  ap 8 (1310 * hu) (div64 (opp64 x) (mul64 z z)) (- (val64 (div64 x z) / val64 z)).
Proof.
  intros X Z L B. destruct (quotient x z X Z L B) as [[_ QB] QE]. set (q := val64 (div64 x z)) in *. clearbody q.
  pose proof (ap_exact _ _ Z) as AZ. assert (Z2 : ap 4 (5 * hu) (mul64 z z) (B2R z * B2R z)) by (apply (ap_mul 2 4 2 0 2 0); auto; side).
  unfold val64 in *. destruct X as [FX XB]. destruct Z as [FZ ZB]. unfold val64 in *. set (a := B2R x) in *. set (d := B2R z) in *.
  rewrite (Rabs_pos_eq d) in ZB by lra. destruct Z2 as (F2 & _ & E2). set (s := B2R (mul64 z z)) in *.
  assert (D2 : / 16 <= d * d) by nra. apply Rabs_le_inv in E2 as E2'. assert (S2 : / 32 <= s) by (unfold hu in *; lra).
  assert (BO : bd 1 (opp64 x)) by (split; [unfold opp64; now rewrite is_finite_Bopp|unfold opp64; rewrite B2R_Bopp, Rabs_Ropp; exact XB]).
  destruct (div_val 1 (-5) (opp64 x) (mul64 z z) BO F2 S2 ltac:(lia)) as [[F _] E]. fold s in E. assert (O : B2R (opp64 x) = - a) by (unfold opp64; now rewrite B2R_Bopp). rewrite O in E.
  assert (I1 : 0 < / d <= 4) by (split; [apply Rinv_0_lt_compat; lra|replace 4 with (/ / 4) by lra; apply Rinv_le_contravar; lra]).
  assert (I2 : 0 < / s <= 32) by (split; [apply Rinv_0_lt_compat; lra|replace 32 with (/ / 32) by lra; apply Rinv_le_contravar; lra]).
  assert (AD : Rabs (a / d) <= 2).
  { unfold Rdiv. rewrite Rabs_mult, (Rabs_pos_eq (/ d)) by lra. apply Rmult_le_reg_r with d; [lra|]. rewrite Rmult_assoc, Rinv_l by lra. lra. }
  assert (V : Rabs (- (q / d)) <= 8) by (rewrite Rabs_Ropp; unfold Rdiv; rewrite Rabs_mult, (Rabs_pos_eq (/ d)) by lra; pose proof (Rabs_pos q); nra).
  assert (M : Rabs (- a / s - - (q / d)) <= 1290 * hu).
  { replace (- a / s - - (q / d)) with ((q - a / d) * / d + a / d * (s - d * d) * (/ d * / s)) by (field; lra).
    eapply Rle_trans; [apply Rabs_triang|]. rewrite !Rabs_mult, (Rabs_pos_eq (/ d)), (Rabs_pos_eq (/ s)) by lra. pose proof (Rabs_pos (q - a / d)). pose proof (Rabs_pos (a / d)). pose proof (Rabs_pos (s - d * d)).
    assert (Rabs (q - a / d) * / d <= 2 * hu * 4) by (apply Rmult_le_compat; lra).
    assert (Rabs (a / d) * Rabs (s - d * d) <= 2 * (5 * hu)) by (apply Rmult_le_compat; lra). assert (0 <= Rabs (a / d) * Rabs (s - d * d)) by (apply Rmult_le_pos; lra).
    assert (0 <= / d * / s <= 4 * 32) by nra. assert (Rabs (a / d) * Rabs (s - d * d) * (/ d * / s) <= 2 * (5 * hu) * (4 * 32)) by (apply Rmult_le_compat; lra). lra. }
  split; [exact F|]. split; [exact V|]. rewrite E. assert (S : Rabs (- a / s) <= 16) by (eapply Rle_trans; [apply (size _ _ _ _ V M)|unfold hu; lra]).
  pose proof (rn_err 4 16 _ ltac:(lia) eq_refl S). pose proof (tri (rn (- a / s)) (- a / s) (- (q / d))). lra.
Qed.

(** the Jacobian with a bound on its entries *)
Definition jac23_in (f : vec3 -> vec2) (v : vec3) (j : mat64_23) : Prop :=
  exists a b c d e g, jacobian3_at f v ((a, b, c), (d, e, g)) /\
    ap 240000000 (/ 2 ^ 15) (IpjacModel.j00 j) a /\ ap 240000000 (/ 2 ^ 15) (IpjacModel.j01 j) b /\ ap 240000000 (/ 2 ^ 15) (IpjacModel.j02 j) c /\
    ap 240000000 (/ 2 ^ 15) (IpjacModel.j10 j) d /\ ap 240000000 (/ 2 ^ 15) (IpjacModel.j11 j) e /\ ap 240000000 (/ 2 ^ 15) (IpjacModel.j12 j) g.
Lemma near_ap b e j v : ap b e j v -> near64 e j v.
Proof. intros (F & _ & E). split; [exact F|exact E]. Qed.
Lemma jac23_out f v j : jac23_in f v j -> jacobian23_within (/ 2 ^ 15) f v j.
Proof. intros (a & b & c & d & e & g & J & A & B & C & D & E & G). exists a, b, c, d, e, g. split; [exact J|]. repeat split; try apply A; try apply B; try apply C; try apply D; try apply E; apply G. Qed.
Lemma dot_ap cz k a b c m e0 e1 e2 : ap 240000000 (/ 2 ^ 15) a e0 -> ap 240000000 (/ 2 ^ 15) b e1 -> ap 240000000 (/ 2 ^ 15) c e2 -> unit_column m ->
  let '(u1, u2, u3) := m in near64 (/ 2 ^ 13) (dot64 cz k a b c m) (e0 * val64 u1 + (e1 * val64 u2 + e2 * val64 u3)).
Proof.
  destruct m as [[u1 u2] u3]. intros A B C (U1 & U2 & U3). apply ap_exact in U1, U2, U3. unfold dot64. apply (near_ap 720000000). unfold val64.
  apply (ap_mac _ 30 1073741824 240000000 (/ 2 ^ 15) 1 0 480000000 (5 * / 2 ^ 16)); auto; try side.
  apply (ap_sop _ 30 1073741824 240000000 (/ 2 ^ 15) 1 0 240000000 (/ 2 ^ 15) 1 0); auto; side.
Qed.
Lemma tangent_in cz f v j m1 m2 : jac23_in f v j -> unit_column m1 -> unit_column m2 ->
  tangent_within (/ 2 ^ 13) f v m1 m2
    {| m00 := dot64 cz 46 (IpjacModel.j00 j) (IpjacModel.j01 j) (IpjacModel.j02 j) m1; m01 := dot64 cz 48 (IpjacModel.j00 j) (IpjacModel.j01 j) (IpjacModel.j02 j) m2;
       m10 := dot64 cz 50 (IpjacModel.j10 j) (IpjacModel.j11 j) (IpjacModel.j12 j) m1; m11 := dot64 cz 52 (IpjacModel.j10 j) (IpjacModel.j11 j) (IpjacModel.j12 j) m2 |}.
Proof.
  intros (a & b & c & d & e & g & J & A & B & C & D & E & G) U W. pose proof (dot_ap cz 46 _ _ _ m1 _ _ _ A B C U) as N0. pose proof (dot_ap cz 48 _ _ _ m2 _ _ _ A B C W) as N1.
  pose proof (dot_ap cz 50 _ _ _ m1 _ _ _ D E G U) as N2. pose proof (dot_ap cz 52 _ _ _ m2 _ _ _ D E G W) as N3.
  destruct v as [[x0 y0] z0], m1 as [[u1 u2] u3], m2 as [[w1 w2] w3]. cbn [tangent_within m00 m01 m10 m11]. eexists _, _, _, _. split; [exact N0|]. split; [exact N1|]. split; [exact N2|]. split; [exact N3|].
  intros x y z t al be E1 E2 E3 D1 D2 D3. cbn [jacobian3_at] in J. destruct (J x y z t _ _ _ E1 E2 E3 D1 D2 D3) as [P Q]. split.
  - match type of P with derivable_pt_lim _ _ ?l => match goal with |- derivable_pt_lim _ _ ?l' => replace l' with l by ring end end. exact P.
  - match type of Q with derivable_pt_lim _ _ ?l => match goal with |- derivable_pt_lim _ _ ?l' => replace l' with l by ring end end. exact Q.
Qed.
Section P.
Variables (cz : nat -> contraction) (at64 : g64 -> g64) (c : camera64).
Hypotheses (US : usual c) (UM : usual_model c) (AT : accurate_atan at64).
(** inside the disc the double-sphere and equidistant models return the identity, here and over the reals *)
Lemma disc x y : bd (-28) x -> bd (-28) y -> c_model c <> Radtan64 -> snd (distort_jac64 cz at64 c x y) = eye64.
Proof.
  intros X Y NR. assert (X' : bd 101 x) by (apply (bd_up (-28)); [exact X|lia]). assert (Y' : bd 101 y) by (apply (bd_up (-28)); [exact Y|lia]).
  pose proof (r2_ge cz x y X' Y') as GE. assert (B : bd (-55) (sop (cz 0) x x y y)) by (apply (bd_up (-56 + 1)); [apply (bd_sop _ (-28) (-28) (-28) (-28) (-56)); auto; lia|lia]).
  unfold distort_jac64, equidist_jac64, sphere_jac64. cbv zeta. set (r2 := sop (cz 0) x x y y) in *. clearbody r2.
  destruct (c_model c); [contradiction| |].
  - assert (L : Bltb (sqrt64 r2) nano10 = true); [|rewrite L; reflexivity].
    destruct (sqrt_val 0 r2 ltac:(apply (bd_up (-55)); [exact B|lia]) ltac:(lia) GE) as [[F _] E]. rewrite Bltb_correct by (exact F || reflexivity). apply Rlt_bool_true. rewrite E.
    assert (S : sqrt (B2R r2) <= bpow radix2 (-27)).
    { rewrite <- (sqrt_square (bpow radix2 (-27))) by apply bpow_ge_0. apply sqrt_le_1_alt. rewrite <- bpow_plus. destruct B as [_ B]. rewrite Rabs_pos_eq in B by exact GE. eapply Rle_trans; [exact B|apply bpow_le; lia]. }
    apply Rle_lt_trans with (bpow radix2 (-27)).
    + pose proof (rn_le (-27) (sqrt (B2R r2)) ltac:(lia) ltac:(rewrite Rabs_pos_eq by apply sqrt_pos; exact S)) as Q. apply Rabs_le_inv in Q. lra.
    + rewrite <- (SF2R_B2SF _ _ nano10). replace (B2SF nano10) with (SpecFloat.S754_finite false 6044629098073146 (-79)) by (vm_compute; reflexivity). unfold SF2R, F2R. cbn. lra.
  - assert (L : Bltb r2 nano10_2 = true); [|rewrite L; reflexivity].
    destruct B as [F B]. rewrite Bltb_correct by (exact F || reflexivity). apply Rlt_bool_true. rewrite Rabs_pos_eq in B by exact GE. eapply Rle_lt_trans; [exact B|].
    rewrite <- (SF2R_B2SF _ _ nano10_2). replace (B2SF nano10_2) with (SpecFloat.S754_finite false 8112963841460668 (-106)) by (vm_compute; reflexivity). unfold SF2R, F2R. cbn. lra.
Qed.
Lemma real_disc x y : Rabs x <= bpow radix2 (-28) -> Rabs y <= bpow radix2 (-28) -> c_model c <> Radtan64 ->
  regular (real_camera c) (x, y) /\ snd (distort_J (real_camera c) (x, y)) = (1, 0, 0, 1).
Proof.
  change (bpow radix2 (-28)) with (/ 268435456). intros X Y NR. assert (G : forall a, Rabs a <= / 268435456 -> 0 <= a * a <= / 268435456 * / 268435456).
  { intros a H. split; [nra|]. rewrite <- (Rabs_pos_eq (a * a)) by nra. rewrite Rabs_mult. apply Rmult_le_compat; auto using Rabs_pos. }
  apply G in X, Y. assert (L : x * x + y * y < r2_min) by (unfold r2_min; lra). assert (S : sqrt (x * x + y * y) < r_min) by (apply sqrt_lt_iff; lra).
  unfold regular, distort_J, distort_equidist_J, distort_ds_J, real_camera. cbv zeta. cbn [ctype fst snd]. destruct (c_model c); [contradiction| |].
  - split; [lra|]. destruct (Rlt_dec _ _); [reflexivity|contradiction].
  - split; [left; exact L|]. destruct (Rlt_dec _ _); [reflexivity|contradiction].
Qed.
(** the entries of the distortion Jacobian *)
Lemma entries x y : at_most 2 x -> at_most 2 y -> c_model c = Radtan64 \/ off_centre x y \/ (bd (-28) x /\ bd (-28) y) ->
  let m := snd (distort_jac64 cz at64 c x y) in
  regular (real_camera c) (val64 x, val64 y) /\ forall a b d e, snd (distort_J (real_camera c) (val64 x, val64 y)) = (a, b, d, e) ->
  ap 3600 (/ 2 ^ 32) (m00 m) a /\ ap 3600 (/ 2 ^ 32) (m01 m) b /\ ap 3600 (/ 2 ^ 32) (m10 m) d /\ ap 3600 (/ 2 ^ 32) (m11 m) e.
Proof.
  intros X Y H. cbv zeta. assert (D : (c_model c = Radtan64 \/ off_centre x y) \/ (c_model c <> Radtan64 /\ bd (-28) x /\ bd (-28) y)).
  { destruct H as [H|[H|H]]; [left; now left|left; now right|]. destruct (c_model c); [left; now left|right; split; [discriminate|exact H]|right; split; [discriminate|exact H]]. }
  destruct D as [OC|(NR & BX & BY)].
  - split; [apply real_regular; assumption|]. intros a b d e RJ. destruct (any_jac cz at64 c _ _ US UM AT X Y OC) as (J0 & J1 & J2 & J3).
    destruct (real_slopes c _ _ _ _ _ _ US UM OC RJ) as (SA & SB & SD & SE).
    split; [exact (slope_val _ _ _ _ _ J0 SA)|]. split; [exact (slope_val _ _ _ _ _ J1 SB)|]. split; [exact (slope_val _ _ _ _ _ J2 SD)|exact (slope_val _ _ _ _ _ J3 SE)].
  - rewrite (disc x y BX BY NR). destruct (real_disc _ _ (proj2 BX) (proj2 BY) NR) as [RG RD]. split; [exact RG|]. intros a b d e RJ. unfold val64 in RJ. rewrite RD in RJ. injection RJ as <- <- <- <-.
    cbn [eye64 m00 m01 m10 m11]. pose proof one_ap as O1. pose proof zero_ap as O0. repeat split; try apply O1; try apply O0; try (rewrite Rabs_pos_eq; lra).
    all: eapply Rle_trans; [first [apply O1|apply O0]|lra].
Qed.
Lemma proj_jac vx vy vz : usual_bearing vx vy vz -> c_model c = Radtan64 \/ off_axis vx vy vz \/ on_axis vx vy vz ->
  exists uv j, to_pixel_jac64 cz at64 c vx vy vz = Some (uv, j) /\
  exists x y, ulp_off x vx /\ ulp_off y vy /\ jac23_in (pixel (real_camera c)) (x, y, val64 vz) j.
Proof.
  intros (X & Y & Z & L & HX & HY) OA. unfold to_pixel_jac64.
  assert (NB : Bleb vz (B754_zero false) = false) by (rewrite Bleb_correct by (exact (proj1 Z) || reflexivity); apply Rle_bool_false; cbn [B2R]; unfold val64 in L; lra).
  rewrite NB. clear NB. cbv zeta.
  destruct (quotient vx vz X Z L HX) as [QX EX]. destruct (quotient vy vz Y Z L HY) as [QY EY]. pose proof (slope_z vx vz X Z L HX) as BX. pose proof (slope_z vy vz Y Z L HY) as BY.
  pose proof (proj2 Z) as ZB. rewrite Rabs_pos_eq in ZB by lra.
  assert (A : ap 4 (4 * hu) (div64 one64 vz) (1 / val64 vz)).
  { pose proof one_val as [O1 O2]. destruct Z as [FZ _]. unfold val64 in *. rewrite <- O2. apply (ap_div 2 4 0 (-2)); [exact O1|exact FZ|cbn; lra|lia|lia|reflexivity|].
    rewrite O2. unfold Rdiv. rewrite Rmult_1_l, Rabs_pos_eq by (apply Rlt_le, Rinv_0_lt_compat; lra). replace 4 with (/ / 4) by lra. apply Rinv_le_contravar; lra. }
  assert (OC : c_model c = Radtan64 \/ off_centre (div64 vx vz) (div64 vy vz) \/ (bd (-28) (div64 vx vz) /\ bd (-28) (div64 vy vz))).
  { destruct OA as [M|[OA|[OX OY]]]; [now left|right; left|right; right].
    2:{ split; apply small_quotient; assumption. }
    assert (G : forall v, Rabs (val64 (div64 v vz) - val64 v / val64 vz) <= 2 * hu -> / 2 ^ 25 * val64 vz <= Rabs (val64 v) -> / 2 ^ 26 < Rabs (val64 (div64 v vz))).
    { intros v E H. assert (Q : / 2 ^ 25 <= Rabs (val64 v / val64 vz)).
      { unfold Rdiv. rewrite Rabs_mult, Rabs_inv, (Rabs_pos_eq (val64 vz)) by lra. apply Rmult_le_reg_r with (val64 vz); [lra|]. rewrite Rmult_assoc, Rinv_l by lra. lra. }
      pose proof (Rabs_triang_inv (val64 v / val64 vz) (val64 v / val64 vz - val64 (div64 v vz))) as T. replace (val64 v / val64 vz - (val64 v / val64 vz - val64 (div64 v vz))) with (val64 (div64 v vz)) in T by ring.
      rewrite Rabs_minus_sym in E. unfold hu in E. cbn in Q |- *. lra. }
    destruct OA as [H|H]; [left|right]; apply G; assumption. }
  destruct (entries _ _ QX QY OC) as [RG J]. clear OA OC.
  set (qx := div64 vx vz) in *. set (qy := div64 vy vz) in *. clearbody qx qy.
  destruct (distort_jac64 cz at64 c qx qy) as [dd m]. cbn [snd] in J.
  destruct (snd (distort_J (real_camera c) (val64 qx, val64 qy))) as [[[a b] d] e] eqn:RJ.
  destruct (J _ _ _ _ eq_refl) as (M0 & M1 & M2 & M3). clear J.
  eexists _, _. split; [reflexivity|]. exists (val64 qx * val64 vz), (val64 qy * val64 vz).
  assert (UO : forall q v, Rabs (q - val64 v / val64 vz) <= 2 * hu -> Rabs (q * val64 vz - val64 v) <= 2 * (2 * hu)).
  { intros q v E. replace (q * val64 vz - val64 v) with ((q - val64 v / val64 vz) * val64 vz) by (field; lra). rewrite Rabs_mult, (Rabs_pos_eq (val64 vz)) by lra.
    rewrite (Rmult_comm 2). apply Rmult_le_compat; try lra. apply Rabs_pos. }
  split; [apply UO in EX; unfold ulp_off, hu in *; cbn; lra|]. split; [apply UO in EY; unfold ulp_off, hu in *; cbn; lra|]. clear UO EX EY.
  set (qX := val64 qx) in *. set (qY := val64 qy) in *. set (z := val64 vz) in *.
  assert (EX : qX * z / z = qX) by (field; lra). assert (EY : qY * z / z = qY) by (field; lra).
  assert (PJ : jacobian3_at (pixel (real_camera c)) (qX * z, qY * z, z)
    ((val64 (c_fx c) * a * (1 / z), val64 (c_fx c) * b * (1 / z), val64 (c_fx c) * a * - (qX / z) + val64 (c_fx c) * b * - (qY / z)),
     (val64 (c_fy c) * d * (1 / z), val64 (c_fy c) * e * (1 / z), val64 (c_fy c) * d * - (qX / z) + val64 (c_fy c) * e * - (qY / z)))).
  { destruct (distort_J (real_camera c) (qX, qY)) as [[ux uy] jj] eqn:DJ. cbn [snd] in RJ. subst jj.
    apply (project_jac _ _ _ _ (fx (real_camera c) * ux + cx (real_camera c), fy (real_camera c) * uy + cy (real_camera c))).
    - rewrite EX, EY. exact RG.
    - unfold bearing_to_pixel_J. destruct (Rle_dec z 0) as [N|_]; [lra|]. rewrite EX, EY, DJ. cbn [real_camera fx fy]. apply f_equal. apply f_equal2; [reflexivity|].
      apply f_equal2; (apply f_equal2; [apply f_equal2|]); field; lra. }
  destruct US as (_ & _ & _ & _ & _ & FX & FY & _). apply ap_exact in FX, FY. pose proof zero_ap as O. fold (val64 (c_fx c)) in FX. fold (val64 (c_fy c)) in FY.
  assert (P1 : forall k f g m n a b, ap 4096 0 f g -> ap 3600 (/ 2 ^ 32) m a -> ap 3600 (/ 2 ^ 32) n b -> ap 14745600 (4200 * / 2 ^ 32) (sop k f m (g64_of_Z 0) n) (g * a)).
  { intros k f g m' n a' b' H1 H2 H3. replace (g * a') with (g * a' + 0 * b') by ring. apply (ap_sop _ 24 16777216 4096 0 3600 (/ 2 ^ 32) 0 0 3600 (/ 2 ^ 32)); auto; side. }
  assert (P2 : forall k f g m n a b, ap 4096 0 f g -> ap 3600 (/ 2 ^ 32) m a -> ap 3600 (/ 2 ^ 32) n b -> ap 14745600 (4200 * / 2 ^ 32) (sop k (g64_of_Z 0) n f m) (g * a)).
  { intros k f g m' n a' b' H1 H2 H3. replace (g * a') with (0 * b' + g * a') by ring. apply (ap_sop _ 24 16777216 0 0 3600 (/ 2 ^ 32) 4096 0 3600 (/ 2 ^ 32)); auto; side. }
  pose proof (P1 (cz 36%nat) _ _ _ _ _ _ FX M0 M2) as G0. pose proof (P1 (cz 37%nat) _ _ _ _ _ _ FX M1 M3) as G1. pose proof (P2 (cz 38%nat) _ _ _ _ _ _ FY M2 M0) as G2. pose proof (P2 (cz 39%nat) _ _ _ _ _ _ FY M3 M1) as G3. clear P1 P2.
  assert (C0 : forall k p q u v, ap 14745600 (4200 * / 2 ^ 32) p u -> ap 14745600 (4200 * / 2 ^ 32) q v -> ap 240000000 (/ 2 ^ 15) (sop k p (div64 one64 vz) q (g64_of_Z 0)) (u * (1 / z))).
  { intros k p q u v H1 H2. replace (u * (1 / z)) with (u * (1 / z) + v * 0) by ring. apply (ap_sop _ 28 268435456 14745600 (4200 * / 2 ^ 32) 4 (4 * hu) 14745600 (4200 * / 2 ^ 32) 0 0); auto; side. }
  assert (C1 : forall k p q u v, ap 14745600 (4200 * / 2 ^ 32) p u -> ap 14745600 (4200 * / 2 ^ 32) q v -> ap 240000000 (/ 2 ^ 15) (sop k p (g64_of_Z 0) q (div64 one64 vz)) (v * (1 / z))).
  { intros k p q u v H1 H2. replace (v * (1 / z)) with (u * 0 + v * (1 / z)) by ring. apply (ap_sop _ 28 268435456 14745600 (4200 * / 2 ^ 32) 0 0 14745600 (4200 * / 2 ^ 32) 4 (4 * hu)); auto; side. }
  assert (C2 : forall k p q u v, ap 14745600 (4200 * / 2 ^ 32) p u -> ap 14745600 (4200 * / 2 ^ 32) q v ->
    ap 240000000 (/ 2 ^ 15) (sop k p (div64 (opp64 vx) (mul64 vz vz)) q (div64 (opp64 vy) (mul64 vz vz))) (u * - (qX / z) + v * - (qY / z))).
  { intros k p q u v H1 H2. apply (ap_sop _ 28 268435456 14745600 (4200 * / 2 ^ 32) 8 (1310 * hu) 14745600 (4200 * / 2 ^ 32) 8 (1310 * hu)); auto; side. }
  eexists _, _, _, _, _, _. split; [exact PJ|]. cbn [IpjacModel.j00 IpjacModel.j01 IpjacModel.j02 IpjacModel.j10 IpjacModel.j11 IpjacModel.j12].
  split; [eapply C0; eassumption|]. split; [eapply C1; eassumption|]. split; [apply C2; assumption|]. split; [eapply C0; eassumption|]. split; [eapply C1; eassumption|apply C2; assumption].
Qed.
End P.
