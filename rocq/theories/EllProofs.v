(** Lemmas for C79 and C80. *)
From Coq Require Import ZArith Reals Lra Lia Psatz.
From Verif Require Import EllModel EllSpec.
Local Open Scope R_scope.

Lemma cos_atan_pos x : 0 < cos (atan x).
Proof. destruct (atan_bound x). apply cos_gt_0; lra. Qed.
Lemma sin_atan_cos x : sin (atan x) = x * cos (atan x).
Proof. pose proof (cos_atan_pos x). pose proof (atan_right_inv x) as T. unfold tan in T. rewrite <- T at 2. field. lra. Qed.
Lemma cos_atan_sq x : cos (atan x) ^ 2 * (1 + x ^ 2) = 1.
Proof. pose proof (sin2_cos2 (atan x)) as H. rewrite sin_atan_cos in H. unfold Rsqr in H. lra. Qed.
Lemma atan2_polar y x : x ^ 2 + y ^ 2 = 1 -> cos (atan2 y x) = x /\ sin (atan2 y x) = y.
Proof.
  intros U. unfold atan2.
  assert (A : forall s, s * x > 0 -> s ^ 2 = 1 -> s * cos (atan (y / x)) = x /\ s * sin (atan (y / x)) = y).
  { intros s P S2. assert (X : x <> 0) by (intros ->; lra). pose proof (cos_atan_sq (y / x)) as K. pose proof (cos_atan_pos (y / x)) as C.
    assert (K2 : cos (atan (y / x)) ^ 2 = x ^ 2).
    { replace (1 + (y / x) ^ 2) with ((x ^ 2 + y ^ 2) * / x ^ 2) in K by (field; auto). rewrite U, Rmult_1_l in K. apply (f_equal (fun r => r * x ^ 2)) in K. rewrite Rmult_assoc, Rinv_l in K; [lra|]. now apply pow_nonzero. }
    assert (K3 : cos (atan (y / x)) = s * x).
    { assert ((cos (atan (y / x)) - s * x) * (cos (atan (y / x)) + s * x) = 0) by (ring_simplify; rewrite K2, S2; ring).
      apply Rmult_integral in H as [H|H]; nra. }
    rewrite sin_atan_cos, K3. split; [rewrite <- Rmult_assoc; replace (s * s) with 1 by lra; ring|]. replace (s * (y / x * (s * x))) with (s ^ 2 * y) by (field; auto). rewrite S2. ring. }
  destruct (Rlt_dec 0 x) as [P|P].
  { destruct (A 1) as [A1 A2]; [lra|ring|]. lra. }
  destruct (Rlt_dec x 0) as [N|N].
  { destruct (A (-1)) as [A1 A2]; [lra|ring|]. destruct (Rle_dec 0 y).
    - rewrite neg_cos, neg_sin. split; lra.
    - unfold Rminus. rewrite cos_plus, sin_plus, cos_neg, sin_neg, cos_PI, sin_PI. split; lra. }
  assert (x = 0) by lra. subst x. destruct (Rlt_dec 0 y).
  { rewrite cos_PI2, sin_PI2. split; [reflexivity|nra]. }
  destruct (Rlt_dec y 0).
  { rewrite cos_neg, sin_neg, cos_PI2, sin_PI2. split; [reflexivity|nra]. }
  assert (y = 0) by lra. subst. lra.
Qed.

Section E.
Variables (m : cov2) (e : eig).
Hypothesis (SY : symmetric m) (SO : solved m e).
Let x := fst (e_v0 e).
Let y := snd (e_v0 e).
Lemma v0_unit : x ^ 2 + y ^ 2 = 1.
Proof. exact (proj2 (proj2 (proj1 SO))). Qed.
Lemma form : v00 m = e_l0 e * x ^ 2 + e_l1 e * y ^ 2 /\ v01 m = (e_l0 e - e_l1 e) * x * y /\ v11 m = e_l0 e * y ^ 2 + e_l1 e * x ^ 2 /\
  (e_l0 e <> e_l1 e -> (e_v1 e = (- y, x) \/ e_v1 e = (y, - x))).
Proof.
  destruct SO as ((A1 & A2 & A3) & (B1 & B2 & B3) & ND). unfold unit2 in *. fold x y in A1, A2, A3, ND. unfold symmetric in SY. rewrite <- SY in *.
  destruct (e_v1 e) as [p q]. cbn [fst snd] in *. set (l0 := e_l0 e) in *. set (l1 := e_l1 e) in *. clearbody l0 l1 x y.
  set (a := v00 m) in *. set (b := v01 m) in *. set (c := v11 m) in *. clearbody a b c. clear SY SO.
  destruct (Req_dec l0 l1) as [EQ|NE].
  - subst l1. assert (H1 : (a - l0) * (x * q - y * p) = 0) by (replace ((a - l0) * (x * q - y * p)) with ((a * x + b * y - l0 * x) * q - (a * p + b * q - l0 * p) * y) by ring; rewrite A1, B1; ring).
    assert (H2 : b * (x * q - y * p) = 0) by (replace (b * (x * q - y * p)) with ((a * p + b * q - l0 * p) * x - (a * x + b * y - l0 * x) * p) by ring; rewrite A1, B1; ring).
    assert (H3 : (c - l0) * (x * q - y * p) = 0) by (replace ((c - l0) * (x * q - y * p)) with ((b * p + c * q - l0 * q) * x - (b * x + c * y - l0 * y) * p) by ring; rewrite A2, B2; ring).
    apply Rmult_integral in H1, H2, H3. destruct H1 as [H1|]; [|contradiction]. destruct H2 as [H2|]; [|contradiction]. destruct H3 as [H3|]; [|contradiction].
    assert (L : l0 * (x ^ 2 + y ^ 2) = l0) by (rewrite A3; ring). split; [lra|]. split; [lra|]. split; [lra|]. intros X. exfalso. now apply X.
  - assert (OR : x * p + y * q = 0).
    { assert ((l0 - l1) * (x * p + y * q) = 0) by (replace ((l0 - l1) * (x * p + y * q)) with ((l0 * x) * p + (l0 * y) * q - ((l1 * p) * x + (l1 * q) * y)) by ring; rewrite <- A1, <- A2, <- B1, <- B2; ring).
      apply Rmult_integral in H as [H|H]; [lra|exact H]. }
    set (s := x * q - y * p) in *.
    assert (P : p = - s * y) by (unfold s; replace (- (x * q - y * p) * y) with (p * (x ^ 2 + y ^ 2) - x * (x * p + y * q)) by ring; rewrite A3, OR; ring).
    assert (Q : q = s * x) by (unfold s; replace ((x * q - y * p) * x) with (q * (x ^ 2 + y ^ 2) - y * (x * p + y * q)) by ring; rewrite A3, OR; ring).
    assert (S2 : s ^ 2 = 1) by (replace (s ^ 2) with (s ^ 2 * (x ^ 2 + y ^ 2)) by (rewrite A3; ring); rewrite <- B3, P, Q; ring).
    clearbody s. assert (SN : s = 1 \/ s = -1) by (assert (X : (s - 1) * (s + 1) = 0) by (ring_simplify; lra); apply Rmult_integral in X as [X|X]; [left|right]; lra).
    assert (C1 : a * - y + b * x = l1 * - y) by (destruct SN; subst; nra). assert (C2 : b * - y + c * x = l1 * x) by (destruct SN; subst; nra).
    assert (HA : a = l0 * x ^ 2 + l1 * y ^ 2).
    { transitivity (a * (x ^ 2 + y ^ 2)); [rewrite A3; ring|]. transitivity ((a * x + b * y) * x - (a * - y + b * x) * y); [ring|]. rewrite A1, C1. ring. }
    assert (HB : b = (l0 - l1) * x * y).
    { transitivity (b * (x ^ 2 + y ^ 2)); [rewrite A3; ring|]. transitivity ((a * x + b * y) * y + (a * - y + b * x) * x); [ring|]. rewrite A1, C1. ring. }
    assert (HC : c = l0 * y ^ 2 + l1 * x ^ 2).
    { transitivity (c * (x ^ 2 + y ^ 2)); [rewrite A3; ring|]. transitivity ((b * x + c * y) * y + (b * - y + c * x) * x); [ring|]. rewrite A2, C2. ring. }
    split; [exact HA|]. split; [exact HB|]. split; [exact HC|]. intros _. destruct SN; subst s p q; [left|right]; f_equal; ring.
Qed.
Lemma variance_form u : variance m u = e_l0 e * (fst u * x + snd u * y) ^ 2 + e_l1 e * (snd u * x - fst u * y) ^ 2.
Proof.
  destruct form as (A & B & C & _). unfold variance. unfold symmetric in SY. rewrite <- SY, A, B, C. ring.
Qed.
Lemma det_form : det2 m = e_l0 e * e_l1 e.
Proof.
  destruct form as (A & B & C & _). unfold det2. unfold symmetric in SY. rewrite <- SY, A, B, C. pose proof v0_unit as U.
  transitivity (e_l0 e * e_l1 e * (x ^ 2 + y ^ 2) ^ 2); [ring|]. rewrite U. ring.
Qed.
Lemma eigenvalue_variance : variance m (e_v0 e) = e_l0 e /\ variance m (e_v1 e) = e_l1 e.
Proof.
  split.
  - rewrite variance_form. fold x y. pose proof v0_unit as U. replace (x * x + y * y) with 1 by lra. ring.
  - destruct SO as (_ & (B1 & B2 & B3) & _). unfold variance, unit2 in *. destruct (e_v1 e) as [p q]. cbn [fst snd] in *.
    transitivity ((v00 m * p + v01 m * q) * p + (v10 m * p + v11 m * q) * q); [ring|]. rewrite B1, B2. transitivity (e_l1 e * (p ^ 2 + q ^ 2)); [ring|]. rewrite B3. ring.
Qed.
Lemma semidefinite_eigen : semidefinite m <-> 0 <= e_l0 e /\ 0 <= e_l1 e.
Proof.
  destruct eigenvalue_variance as [A B]. split.
  - intros S. split; [rewrite <- A|rewrite <- B]; apply S.
  - intros [L0 L1] u. rewrite variance_form. assert (forall z : R, 0 <= z ^ 2) by (intros; nra). apply Rplus_le_le_0_compat; apply Rmult_le_pos; auto.
Qed.
(** the stored ellipse *)
Lemma set_some : semidefinite m -> exists el, set_pixel_cov e = Some el /\ 0 <= el_s2 el <= el_s1 el /\
  exists X Y, cos (el_angle el) = X /\ sin (el_angle el) = Y /\ X ^ 2 + Y ^ 2 = 1 /\ (el_v1 el = (X, Y) \/ el_v1 el = (- X, - Y)) /\
  (forall u, variance m u = el_s1 el ^ 2 * (fst u * X + snd u * Y) ^ 2 + el_s2 el ^ 2 * (snd u * X - fst u * Y) ^ 2) /\
  variance m (el_v1 el) = el_s1 el ^ 2 /\ variance m (el_v2 el) = el_s2 el ^ 2 /\ unit2 (el_v1 el) /\ unit2 (el_v2 el) /\ det2 m = el_s1 el ^ 2 * el_s2 el ^ 2.
Proof.
  intros SD. apply semidefinite_eigen in SD as [L0 L1]. unfold set_pixel_cov, root. destruct (Rlt_dec (e_l0 e) 0) as [?|_]; [lra|]. destruct (Rlt_dec (e_l1 e) 0) as [?|_]; [lra|].
  pose proof (sqrt_pos (e_l0 e)) as P0. pose proof (sqrt_pos (e_l1 e)) as P1. pose proof (pow2_sqrt _ L0) as Q0. pose proof (pow2_sqrt _ L1) as Q1.
  destruct (atan2_polar y x v0_unit) as [AC AS]. destruct eigenvalue_variance as [EA EB]. pose proof det_form as DF. pose proof v0_unit as U.
  eexists. split; [reflexivity|]. fold x y. destruct (Rlt_dec (sqrt (e_l0 e)) (sqrt (e_l1 e))) as [L|L]; cbn [el_s1 el_s2 el_angle el_v1 el_v2].
  - split; [lra|]. exists (- y), x. rewrite cos_plus, sin_plus. replace (/ 2 * PI) with (PI / 2) by field. rewrite cos_PI2, sin_PI2, AC, AS.
    split; [ring|]. split; [ring|]. split; [nra|]. split.
    + assert (NE : e_l0 e <> e_l1 e) by (intros E; rewrite E in L; lra). destruct (proj2 (proj2 (proj2 form)) NE) as [V|V]; rewrite V; [now left|right; f_equal; ring].
    + rewrite Q0, Q1. split; [intros u; rewrite variance_form; ring|]. split; [exact EB|]. split; [exact EA|]. split; [exact (proj2 (proj2 (proj1 (proj2 SO))))|]. split; [exact U|]. rewrite DF; ring.
  - split; [lra|]. exists x, y. split; [exact AC|]. split; [exact AS|]. split; [exact U|]. split; [left; unfold x, y; now destruct (e_v0 e)|].
    rewrite Q0, Q1. split; [intros u; rewrite variance_form; ring|]. split; [exact EA|]. split; [exact EB|]. split; [exact U|]. split; [exact (proj2 (proj2 (proj1 (proj2 SO))))|exact DF].
Qed.
End E.
(** a point of the unit circle *)
Lemma circle p q : p ^ 2 + q ^ 2 = 1 -> exists t, cos t = p /\ sin t = q.
Proof. intros H. exists (atan2 q p). now apply atan2_polar. Qed.

(** ** the triangle *)
Section T.
Variables (f t : vec) (d : R).
Hypothesis OB : oblique f t.
Hypothesis D0 : 0 < d.
Let T := norm t.
Let a := sub (scale d f) t.
Let A := norm a.
Let al := tau_alpha f t.
Let be := tau_beta f t d.
Lemma T_pos : 0 < T.
Proof. destruct OB as [F H]. unfold T, norm. apply sqrt_lt_R0. pose proof (pow2_ge_0 (dot f t)). lra. Qed.
Lemma T_sq : T ^ 2 = dot t t.
Proof. unfold T, norm. apply pow2_sqrt. destruct OB as [F H]. pose proof (pow2_ge_0 (dot f t)). lra. Qed.
Lemma cos_al : cos al = dot f t / T /\ 0 < sin al /\ 0 < al < PI.
Proof.
  pose proof T_pos as TP. pose proof T_sq as TS. destruct OB as [F H].
  assert (B : (dot f t / T) ^ 2 < 1) by (replace ((dot f t / T) ^ 2) with (dot f t ^ 2 * / T ^ 2) by (field; lra); rewrite TS; apply (Rmult_lt_reg_r (dot t t)); [nra|]; rewrite Rmult_assoc, Rinv_l by nra; lra).
  assert (B2 : -1 < dot f t / T < 1) by nra.
  assert (C : cos al = dot f t / T) by (apply cos_acos; unfold T in B2 |- *; lra). split; [exact C|].
  pose proof (acos_bound (dot f t / T)) as AB. fold al in AB. change (acos (dot f t / T)) with al in AB.
  assert (al <> 0) by (intros E; rewrite E, cos_0 in C; lra). assert (al <> PI) by (intros E; rewrite E, cos_PI in C; lra).
  assert (0 < al < PI) by lra. split; [apply sin_gt_0; lra|lra].
Qed.
Lemma a_sq : dot a a = (d * sin al) ^ 2 + (d * cos al - T) ^ 2.
Proof.
  destruct cos_al as (C & _ & _). pose proof T_pos. assert (FT : dot f t = T * cos al) by (rewrite C; field; lra). pose proof (sin2_cos2 al) as SC. unfold Rsqr in SC. destruct OB as [F _].
  transitivity (d ^ 2 * dot f f - 2 * d * dot f t + dot t t); [unfold a, dot, sub, scale; cbn; ring|]. rewrite F, FT, <- T_sq. replace ((d * sin al) ^ 2) with (d ^ 2 * (1 - cos al * cos al)) by (rewrite <- SC; ring). ring.
Qed.
Lemma A_pos : 0 < A.
Proof. unfold A, norm. apply sqrt_lt_R0. rewrite a_sq. destruct cos_al as (_ & S & _). assert (0 < (d * sin al) ^ 2) by (apply pow_lt, Rmult_lt_0_compat; lra). pose proof (pow2_ge_0 (d * cos al - T)). lra. Qed.
Lemma A_sq : A ^ 2 = (d * sin al) ^ 2 + (d * cos al - T) ^ 2.
Proof. rewrite <- a_sq. unfold A, norm. apply pow2_sqrt. rewrite a_sq. pose proof (pow2_ge_0 (d * cos al - T)). pose proof (pow2_ge_0 (d * sin al)). lra. Qed.
Lemma cos_be : A * cos be = T - d * cos al /\ A * sin be = d * sin al /\ 0 < be < PI.
Proof.
  destruct cos_al as (C & SA & _). pose proof T_pos as TP. pose proof A_pos as AP. pose proof A_sq as AS.
  assert (FT : dot f t = T * cos al) by (rewrite C; field; lra).
  assert (N : dot a (EllModel.scale (-1) t) = T * (T - d * cos al)) by (transitivity (dot t t - d * dot f t); [unfold a, dot, sub, EllModel.scale; cbn; ring|]; rewrite FT, <- T_sq; ring).
  assert (E : dot a (EllModel.scale (-1) t) / (T * A) = (T - d * cos al) / A) by (rewrite N; field; lra).
  assert (DS : 0 < (d * sin al) ^ 2) by (apply pow_lt, Rmult_lt_0_compat; lra).
  assert (B : ((T - d * cos al) / A) ^ 2 < 1).
  { replace (((T - d * cos al) / A) ^ 2) with ((T - d * cos al) ^ 2 * / A ^ 2) by (field; lra). assert (A2 : 0 < A ^ 2) by (apply pow_lt; exact AP). apply (Rmult_lt_reg_r (A ^ 2)); [exact A2|]. rewrite Rmult_assoc, Rinv_l by lra. rewrite AS. lra. }
  assert (B2 : -1 < (T - d * cos al) / A < 1) by nra.
  assert (CB : cos be = (T - d * cos al) / A) by (unfold be, tau_beta; fold a; fold T A; rewrite E; apply cos_acos; lra).
  assert (BB : 0 <= be <= PI) by (unfold be, tau_beta; apply acos_bound).
  assert (be <> 0) by (intros X; rewrite X, cos_0 in CB; lra). assert (be <> PI) by (intros X; rewrite X, cos_PI in CB; lra).
  assert (R1 : A * cos be = T - d * cos al) by (rewrite CB; field; lra). split; [exact R1|]. split; [|lra].
  assert (SB : 0 < sin be) by (apply sin_gt_0; lra). pose proof (sin2_cos2 be) as SC. unfold Rsqr in SC.
  assert (K : (A * sin be) ^ 2 = (d * sin al) ^ 2).
  { replace ((A * sin be) ^ 2) with (A ^ 2 * (sin be * sin be)) by ring. replace (sin be * sin be) with (1 - cos be * cos be) by lra.
    replace (A ^ 2 * (1 - cos be * cos be)) with (A ^ 2 - (A * cos be) ^ 2) by ring. rewrite R1, AS. ring. }
  assert (0 < A * sin be) by (apply Rmult_lt_0_compat; auto). assert (0 < d * sin al) by (apply Rmult_lt_0_compat; lra). nra.
Qed.
Lemma angle_sum : al + be < PI /\ T * sin be = d * sin (al + be).
Proof.
  destruct cos_al as (C & SA & AB). destruct cos_be as (CB & SB & BB). pose proof A_pos as AP.
  assert (L : T * sin be = d * sin (al + be)).
  { apply (Rmult_eq_reg_l A); [|lra]. rewrite sin_plus. replace (A * (d * (sin al * cos be + cos al * sin be))) with (d * (sin al * (A * cos be) + cos al * (A * sin be))) by ring.
    rewrite CB, SB. replace (A * (T * sin be)) with (T * (A * sin be)) by ring. rewrite SB. ring. }
  split; [|exact L]. assert (0 < sin (al + be)).
  { assert (0 < T * sin be) by (apply Rmult_lt_0_compat; [exact T_pos|apply sin_gt_0; lra]). nra. }
  destruct (Rlt_dec (al + be) PI) as [|NL]; [assumption|]. exfalso. assert (sin (al + be) <= 0) by (apply sin_le_0; lra). lra.
Qed.
Section P.
Variable err : R.
Hypothesis E1 : 0 < be + err.
Hypothesis E2 : al + be + err < PI.
Let bp := be + err.
Let dp := d_plus f t d err.
Lemma dp_eq : dp = T * sin bp / sin (al + bp) /\ 0 < sin (al + bp) /\ 0 < sin bp.
Proof.
  destruct cos_al as (_ & _ & AB). split.
  - unfold dp, d_plus. cbv zeta. fold al be T. fold bp. replace (PI - al - bp) with (PI - (al + bp)) by ring. now rewrite sin_PI_x.
  - split; apply sin_gt_0; unfold bp; lra.
Qed.
Lemma dp_pos : 0 < dp.
Proof. destruct dp_eq as (-> & H1 & H2). pose proof T_pos. apply Rdiv_lt_0_compat; auto. now apply Rmult_lt_0_compat. Qed.
Lemma tau_form : tau f t d err = T * sin al * sin err / (sin (al + be) * sin (al + bp)).
Proof.
  unfold tau. fold dp. destruct dp_eq as (E & H1 & H2). destruct angle_sum as (S1 & S2). destruct cos_al as (_ & _ & AB). destruct cos_be as (_ & _ & BB).
  assert (S3 : 0 < sin (al + be)) by (apply sin_gt_0; lra). assert (Dd : d = T * sin be / sin (al + be)) by (rewrite S2; field; lra). rewrite E. rewrite Dd at 1.
  assert (ID : sin bp * sin (al + be) - sin be * sin (al + bp) = sin al * sin err).
  { unfold bp. replace (al + (be + err)) with ((al + be) + err) by ring. rewrite !(sin_plus (al + be)), (sin_plus be err), (sin_plus al be), (cos_plus al be). pose proof (sin2_cos2 be) as X. unfold Rsqr in X.
    transitivity (sin al * sin err * (sin be * sin be + cos be * cos be)); [ring|]. rewrite X. ring. }
  transitivity (T * (sin bp * sin (al + be) - sin be * sin (al + bp)) / (sin (al + be) * sin (al + bp))); [field; lra|]. rewrite ID. field. lra.
Qed.
End P.
End T.
