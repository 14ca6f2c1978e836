(** Proofs for C85: turning a bearing and measuring the turn. *)
From Coq Require Import Reals Lra Bool Psatz.
From Verif Require Import Geo Lie DistModel FiltModel CoordModel ElemModel ElemSpec.
Local Open Scope R_scope.

Lemma triple_eq Q w : vadd (vscale (dot (nor Q) w) (nor Q)) (vadd (vscale (dot (perp1 Q) w) (perp1 Q)) (vscale (dot (perp2 Q) w) (perp2 Q))) = mv Q (mv (mt Q) w).
Proof. unfold nor, perp1, perp2. veq. Qed.
Lemma triple Q w : is_rot Q -> vadd (vscale (dot (nor Q) w) (nor Q)) (vadd (vscale (dot (perp1 Q) w) (perp1 Q)) (vscale (dot (perp2 Q) w) (perp2 Q))) = w.
Proof. intros RQ. rewrite triple_eq. now apply rot_inv_r. Qed.
Lemma frame Q : is_rot Q -> dot (nor Q) (nor Q) = 1 /\ dot (perp1 Q) (perp1 Q) = 1 /\ dot (perp2 Q) (perp2 Q) = 1 /\ dot (perp1 Q) (nor Q) = 0 /\ dot (perp2 Q) (nor Q) = 0 /\ dot (perp1 Q) (perp2 Q) = 0.
Proof. intros RQ. unfold nor, perp1, perp2. rewrite !(rot_dot Q) by exact RQ. unfold dot, vx, vy, vz. cbn. repeat split; ring. Qed.
Lemma rodrigues w a : dot w a = 0 -> mv (expm w) a = vadd (vscale (cos (norm w)) a) (vscale (sinc (norm w)) (cross w a)).
Proof.
  intros H. assert (C : cos (norm w) = 1 - cosc (norm w) * dot w w).
  { unfold cosc. destruct (Req_EM_T (norm w) 0) as [E|E].
    - rewrite E, cos_0. apply norm_zero in E. subst w. unfold dot, v0, vx, vy, vz. cbn. ring.
    - assert (N2 : norm w * norm w = dot w w) by apply norm_sq. rewrite <- N2. field. exact E. }
  rewrite C. unfold expm. generalize (sinc (norm w)), (cosc (norm w)). clear C. intros s k.
  transitivity (vadd a (vadd (vscale s (cross w a)) (vscale k (cross w (cross w a))))); [veq|].
  replace (cross w (cross w a)) with (vsub (vscale (dot w a) w) (vscale (dot w w) a)) by veq. rewrite H. veq.
Qed.
Lemma dot_Nmul Q u x : dot (Nmul Q (fst u) (snd u)) x = fst u * dot (perp1 Q) x + snd u * dot (perp2 Q) x.
Proof. unfold Nmul. generalize (perp1 Q), (perp2 Q). intros p q. destruct u. cbn [fst snd]. geo. ring. Qed.
Lemma dot_sym (x y : V3) : dot x y = dot y x. Proof. geo. ring. Qed.
Lemma Nmul_norm Q u : is_rot Q -> norm (Nmul Q (fst u) (snd u)) = sqrt (fst u ^ 2 + snd u ^ 2).
Proof.
  intros RQ. unfold norm. f_equal. rewrite dot_Nmul, !(dot_sym _ (Nmul _ _ _)), !dot_Nmul. destruct (frame Q RQ) as (_ & A & B & _ & _ & C). rewrite A, B, C, (dot_sym (perp2 Q)), C. ring.
Qed.
Lemma Nmul_perp Q u : is_rot Q -> dot (Nmul Q (fst u) (snd u)) (nor Q) = 0.
Proof. intros RQ. rewrite dot_Nmul. destruct (frame Q RQ) as (_ & _ & _ & A & B & _). rewrite A, B. ring. Qed.
Lemma N_back Q u : is_rot Q -> (dot (perp1 Q) (Nmul Q (fst u) (snd u)), dot (perp2 Q) (Nmul Q (fst u) (snd u))) = u.
Proof.
  intros RQ. rewrite !(dot_sym _ (Nmul _ _ _)), !dot_Nmul. destruct (frame Q RQ) as (_ & A & B & _ & _ & C). rewrite A, B, C, (dot_sym (perp2 Q)), C. destruct u. cbn [fst snd]. f_equal; ring.
Qed.
Lemma N_forth Q w : is_rot Q -> dot (nor Q) w = 0 -> Nmul Q (dot (perp1 Q) w) (dot (perp2 Q) w) = w.
Proof. intros RQ H. rewrite <- (triple Q w RQ) at 3. rewrite H. unfold Nmul. generalize (nor Q), (perp1 Q), (perp2 Q), (dot (perp1 Q) w), (dot (perp2 Q) w). intros. clear. veq. Qed.
Lemma nor_plus_value Q u : is_rot Q -> let w := Nmul Q (fst u) (snd u) in nor (nor_plus Q u) = vadd (vscale (cos (norm w)) (nor Q)) (vscale (sinc (norm w)) (cross w (nor Q))).
Proof. intros RQ w. unfold nor_plus. unfold nor at 1. rewrite mv_mm. fold (nor Q). apply rodrigues. now apply Nmul_perp. Qed.
Lemma nor_plus_rot Q u : is_rot Q -> is_rot (nor_plus Q u).
Proof. intros. apply rot_mm; auto using expm_rot. Qed.
(** cross and dot product of a bearing with the bearing turned by [w] *)
Lemma turned_cross a w k s : dot a a = 1 -> dot w a = 0 -> cross a (vadd (vscale k a) (vscale s (cross w a))) = vscale s w.
Proof.
  intros U P. replace (cross a (vadd (vscale k a) (vscale s (cross w a)))) with (vscale s (vsub (vscale (dot a a) w) (vscale (dot w a) a))) by veq. rewrite U, P. veq.
Qed.
Lemma turned_dot a w k s : dot a a = 1 -> dot a (vadd (vscale k a) (vscale s (cross w a))) = k.
Proof. intros U. transitivity (k * dot a a); [geo; ring|]. rewrite U. ring. Qed.
Lemma sinc_mul x : sinc x * x = sin x.
Proof. unfold sinc. destruct (Req_EM_T x 0) as [->|N]; [rewrite sin_0; ring|field; exact N]. Qed.
Lemma dot_vscale p k w : dot p (vscale k w) = k * dot p w. Proof. geo. ring. Qed.
Lemma vscale_vscale k l w : vscale k (vscale l w) = vscale (k * l) w. Proof. veq. Qed.
Lemma nor_minus_plus Q u : is_rot Q -> let th := sqrt (fst u ^ 2 + snd u ^ 2) in th <= PI ->
  nor_minus (nor_plus Q u) Q = if Rlt_dec (sin th) (/ 1000000) then if Rlt_dec 0 (cos th) then (sinc th * fst u, sinc th * snd u) else (PI, 0) else u.
Proof.
  intros RQ th T. set (w := Nmul Q (fst u) (snd u)). assert (NW : norm w = th) by now apply Nmul_norm.
  destruct (frame Q RQ) as (U & F1 & F2 & F3 & F4 & F5). assert (P : dot w (nor Q) = 0) by now apply Nmul_perp.
  assert (T0 : 0 <= th) by apply sqrt_pos. assert (S0 : 0 <= sin th) by (apply sin_ge_0; lra).
  assert (CR : cross (nor Q) (nor (nor_plus Q u)) = vscale (sinc th) w) by (rewrite nor_plus_value by exact RQ; fold w; rewrite NW; now apply turned_cross).
  assert (DT : dot (nor Q) (nor (nor_plus Q u)) = cos th) by (rewrite nor_plus_value by exact RQ; fold w; rewrite NW; now apply turned_dot).
  assert (SN : sinc th * th = sin th) by apply sinc_mul.
  assert (NC : norm (vscale (sinc th) w) = sin th).
  { rewrite norm_scale, NW. rewrite <- (Rabs_pos_eq th) at 2 by exact T0. rewrite <- Rabs_mult, SN. now apply Rabs_pos_eq. }
  unfold nor_minus, rot_between. rewrite CR, DT, NC.
  assert (L : forall k, (dot (perp1 Q) (vscale k w), dot (perp2 Q) (vscale k w)) = (k * fst u, k * snd u)).
  { intros k. pose proof (N_back Q u RQ) as B. fold w in B. destruct u as [u1 u2]. cbn [fst snd] in *. injection B as B1 B2. rewrite !dot_vscale, B1, B2. reflexivity. }
  destruct (Rlt_dec (sin th) (/ 1000000)) as [A|A].
  - destruct (Rlt_dec 0 (cos th)) as [B|B]; [apply L|]. f_equal.
    + transitivity (PI * dot (perp1 Q) (perp1 Q)); [apply dot_vscale|rewrite F1; ring].
    + transitivity (PI * dot (perp1 Q) (perp2 Q)); [rewrite dot_vscale, dot_sym; reflexivity|rewrite F5; ring].
  - rewrite acos_cos by lra. assert (SP : 0 < sin th) by lra.
    replace (vscale (th / sin th) (vscale (sinc th) w)) with (vscale 1 w).
    + rewrite L. destruct u. cbn [fst snd]. f_equal; ring.
    + rewrite vscale_vscale. f_equal. apply (Rmult_eq_reg_r (sin th)); [|lra]. transitivity (sinc th * th); [rewrite SN; ring|field; lra].
Qed.
Lemma lagrange a b : dot a a = 1 -> dot b b = 1 -> norm (cross a b) * norm (cross a b) = 1 - dot a b * dot a b.
Proof. intros A B. rewrite norm_sq. transitivity (dot a a * dot b b - dot a b * dot a b); [geo; ring|]. rewrite A, B. ring. Qed.
Lemma cross_perp a b : dot a (cross a b) = 0. Proof. geo. ring. Qed.
Lemma cos_lower x : 1 - x * x / 2 <= cos x.
Proof.
  replace x with (2 * (x / 2)) at 3 by field. rewrite cos_2a_sin. assert (H : sin (x / 2) * sin (x / 2) <= x / 2 * (x / 2)).
  { assert (A : Rabs (sin (x / 2)) <= Rabs (x / 2)).
    { destruct (Rle_dec 0 (x / 2)) as [P|P].
      - rewrite (Rabs_pos_eq (x / 2)) by exact P. destruct (Req_dec (x / 2) 0) as [->|N]; [rewrite sin_0, Rabs_R0; lra|]. destruct (Rle_dec (x / 2) 1) as [L|L].
        + pose proof PI2_1. rewrite Rabs_pos_eq by (apply sin_ge_0; lra). apply Rlt_le, sin_lt_x. lra.
        + apply Rle_trans with 1; [|lra]. apply Rabs_le. pose proof (SIN_bound (x / 2)). lra.
      - rewrite (Rabs_left (x / 2)) by lra. rewrite <- (Rabs_Ropp (sin _)), <- sin_neg. set (y := - (x / 2)). assert (0 < y) by (unfold y; lra). destruct (Rle_dec y 1) as [L|L].
        + pose proof PI2_1. rewrite Rabs_pos_eq by (apply sin_ge_0; lra). apply Rlt_le, sin_lt_x. lra.
        + apply Rle_trans with 1; [|lra]. apply Rabs_le. pose proof (SIN_bound y). lra. }
    apply Rsqr_le_abs_1 in A. exact A. }
  nra.
Qed.
Lemma rot_between_perp a b p : dot a p = 0 -> dot a (rot_between a b p) = 0.
Proof.
  intros H. unfold rot_between. destruct (Rlt_dec (norm _) _); [destruct (Rlt_dec 0 _)|].
  - apply cross_perp.
  - rewrite dot_vscale, H. ring.
  - rewrite dot_vscale, cross_perp. ring.
Qed.
Lemma back_cross a b : dot a a = 1 -> cross (cross a b) a = vsub b (vscale (dot a b) a).
Proof. intros U. transitivity (vsub (vscale (dot a a) b) (vscale (dot a b) a)); [veq|]. rewrite U. veq. Qed.
Lemma nor_plus_minus Q Q0 : is_rot Q -> is_rot Q0 ->
  let r := nor (nor_plus Q0 (nor_minus Q Q0)) in
  norm (vsub r (nor Q)) <= 2 / 1000000 /\ (/ 1000000 <= norm (cross (nor Q0) (nor Q)) \/ nor Q = nor Q0 -> r = nor Q).
Proof.
  intros RQ R0. destruct (frame Q RQ) as (UB & _). destruct (frame Q0 R0) as (UA & F1 & _ & F3 & _). set (a := nor Q0) in *. set (b := nor Q) in *.
  set (p := perp1 Q0) in *. set (w := rot_between a b p).
  assert (PW : dot a w = 0) by (apply rot_between_perp; now rewrite dot_sym).
  assert (E : nor (nor_plus Q0 (nor_minus Q Q0)) = vadd (vscale (cos (norm w)) a) (vscale (sinc (norm w)) (cross w a))).
  { rewrite nor_plus_value by exact R0. unfold nor_minus. cbn [fst snd]. fold a b p. fold w. unfold p. rewrite N_forth by assumption. reflexivity. }
  intros r. unfold r. rewrite E. clear E r. pose proof (lagrange a b UA UB) as LG. set (s := norm (cross a b)) in *. assert (S0 : 0 <= s) by apply norm_nonneg. set (c := dot a b) in *.
  assert (CB : -1 <= c <= 1) by nra.
  assert (small : forall x y, dot x x = 1 -> dot y y = 1 -> 1 - 2 / 1000000000000 <= dot x y -> norm (vsub x y) <= 2 / 1000000).
  { intros x y X Y D. apply Rsqr_incr_0_var; [|lra]. unfold Rsqr. rewrite norm_sq. replace (dot (vsub x y) (vsub x y)) with (dot x x + dot y y - 2 * dot x y) by (clear; geo; ring). rewrite X, Y. lra. }
  assert (UR : forall th k, cos th * cos th + k * k * dot (cross w a) (cross w a) = 1 -> dot (vadd (vscale (cos th) a) (vscale k (cross w a))) (vadd (vscale (cos th) a) (vscale k (cross w a))) = 1).
  { intros th k H. rewrite <- H. transitivity (cos th * cos th * dot a a + k * k * dot (cross w a) (cross w a)); [clearbody w a; clear; geo; ring|]. rewrite UA. ring. }
  assert (NWA : dot (cross w a) (cross w a) = norm w * norm w).
  { rewrite norm_sq. transitivity (dot w w * dot a a - dot a w * dot a w); [clearbody w a; clear; geo; ring|]. rewrite UA, PW. ring. }
  assert (UN : forall th, norm w = th -> dot (vadd (vscale (cos th) a) (vscale (sinc th) (cross w a))) (vadd (vscale (cos th) a) (vscale (sinc th) (cross w a))) = 1).
  { intros th H. apply UR. rewrite NWA, H. replace (sinc th * sinc th * (th * th)) with ((sinc th * th) * (sinc th * th)) by ring. rewrite sinc_mul. pose proof (sin2_cos2 th) as SC. unfold Rsqr in SC. lra. }
  unfold rot_between in w. fold s c in w. destruct (Rlt_dec s (/ 1000000)) as [L|L].
  - destruct (Rlt_dec 0 c) as [CP|CP].
    + assert (NW : norm w = s) by reflexivity. split.
      * rewrite NW. apply small; [now apply UN|exact UB|].
        replace (dot (vadd (vscale (cos s) a) (vscale (sinc s) (cross w a))) b) with (cos s * c + sinc s * (1 - c * c)).
        -- rewrite <- LG. replace (sinc s * (s * s)) with (sinc s * s * s) by ring. rewrite sinc_mul. pose proof (cos_lower s). assert (0 <= sin s) by (apply sin_ge_0; [exact S0|pose proof PI2_1; lra]).
           assert (0 <= sin s * s) by nra. assert (s * s <= / 1000000000000) by nra. assert (1 - s * s <= c) by nra. nra.
        -- unfold w. rewrite back_cross by exact UA. fold c. transitivity (cos s * c + sinc s * (dot b b - c * c)); [rewrite UB; reflexivity|]. unfold c. clearbody a b. clear. generalize (cos s), (sinc s). intros. geo. ring.
      * intros [G|G]; [lra|]. rewrite NW. assert (s = 0) as Z.
        { assert (c = 1) by (unfold c; rewrite G; exact UA). nra. }
        assert (W0 : w = v0) by (apply norm_zero; now rewrite NW). rewrite W0, Z, cos_0, G. clearbody a. clear. generalize (sinc 0). intros. unfold v0. veq.
    + assert (NW : norm w = PI). { unfold w. rewrite norm_scale. assert (norm p = 1) as -> by now apply norm_unit. rewrite Rabs_pos_eq by (pose proof PI_RGT_0; lra). ring. }
      assert (SP : sinc PI = 0) by (unfold sinc; destruct (Req_EM_T PI 0) as [Z|_]; [pose proof PI_RGT_0; lra|rewrite sin_PI; unfold Rdiv; ring]).
      split.
      * rewrite NW. apply small; [now apply UN|exact UB|]. rewrite cos_PI, SP. replace (dot (vadd (vscale (-1) a) (vscale 0 (cross w a))) b) with (- c) by (unfold c; clearbody w a b; clear; geo; ring). nra.
      * intros [G|G]; [lra|]. exfalso. assert (c = 1) by (unfold c; rewrite G; exact UA). lra.
  - assert (SN : 0 < s) by lra. assert (AC : 0 <= acos c) by (pose proof (acos_bound c); lra).
    assert (NW : norm w = acos c). { unfold w. rewrite norm_scale. fold s. unfold Rdiv. rewrite Rabs_mult, Rabs_inv, !Rabs_pos_eq by lra. field. lra. }
    assert (SA : sin (acos c) = s). { rewrite sin_acos by exact CB. unfold Rsqr. rewrite <- LG. apply sqrt_square. exact S0. }
    assert (A0 : acos c <> 0) by (intros Z; rewrite Z, sin_0 in SA; lra).
    assert (EQ : vadd (vscale (cos (norm w)) a) (vscale (sinc (norm w)) (cross w a)) = b).
    { rewrite NW, cos_acos by exact CB. unfold w. replace (cross (vscale (acos c / s) (cross a b)) a) with (vscale (acos c / s) (cross (cross a b) a)) by (generalize (acos c / s); clearbody a b; clear; intros; veq).
      rewrite vscale_vscale, back_cross by exact UA. fold c. replace (sinc (acos c) * (acos c / s)) with 1; [clearbody a b; generalize c; clear; intros; veq|].
      replace (sinc (acos c) * (acos c / s)) with (sinc (acos c) * acos c / s) by (field; lra). rewrite sinc_mul, SA. field. lra. }
    rewrite EQ. split; [|reflexivity]. replace (vsub b b) with v0 by (clearbody b; clear; unfold v0; veq). unfold norm, v0, dot, vx, vy, vz. cbn [fst snd]. replace (0 * 0 + 0 * 0 + 0 * 0) with 0 by ring. rewrite sqrt_0. lra.
Qed.
