(** Curves of vectors and rotations, the exponential map of SO(3) and its derivative.
    kindr (exponentialMap) and lightweight_filtering (Lmat) are not part of the repository; they are taken
    as the exact mathematical functions, including the limits at zero angle. *)
From Coq Require Import Reals Lra Psatz Nsatz.
From Verif Require Import Geo.
Local Open Scope R_scope.

(** sin x / x, (1 - cos x) / x^2 and (x - sin x) / x^3 with their limits at 0 *)
Definition sinc (x : R) : R := if Req_EM_T x 0 then 1 else sin x / x.
Definition cosc (x : R) : R := if Req_EM_T x 0 then / 2 else (1 - cos x) / (x * x).
Definition sind (x : R) : R := if Req_EM_T x 0 then / 6 else (x - sin x) / (x * x * x).

(** Rodrigues: rotation by the angle |v| about v *)
Definition expm (v : V3) : M3 :=
  madd m1 (madd (mscale (sinc (norm v)) (skew v)) (mscale (cosc (norm v)) (mm (skew v) (skew v)))).
(** left Jacobian of the exponential map *)
Definition Lmat (v : V3) : M3 :=
  madd m1 (madd (mscale (cosc (norm v)) (skew v)) (mscale (sind (norm v)) (mm (skew v) (skew v)))).

(** ** Derivatives of curves at 0 *)
Definition dR (f : R -> R) (d : R) : Prop := derivable_pt_lim f 0 d.
Definition dV (f : R -> V3) (d : V3) : Prop :=
  dR (fun t => vx (f t)) (vx d) /\ dR (fun t => vy (f t)) (vy d) /\ dR (fun t => vz (f t)) (vz d).
Definition dM (f : R -> M3) (d : M3) : Prop :=
  dV (fun t => r0 (f t)) (r0 d) /\ dV (fun t => r1 (f t)) (r1 d) /\ dV (fun t => r2 (f t)) (r2 d).

Lemma dR_eq f d d' : dR f d -> d = d' -> dR f d'. Proof. now intros H <-. Qed.
Lemma dV_eq f d d' : dV f d -> d = d' -> dV f d'. Proof. now intros H <-. Qed.
Lemma dM_eq f d d' : dM f d -> d = d' -> dM f d'. Proof. now intros H <-. Qed.
Lemma dR_ext f g d : (forall t, f t = g t) -> dR f d -> dR g d.
Proof. intros E H eps He. destruct (H eps He) as [del Hd]. exists del. intros h Hh Hl. rewrite <- !E. now apply Hd. Qed.
Lemma dV_ext f g d : (forall t, f t = g t) -> dV f d -> dV g d.
Proof. intros E (A & B & C). split; [|split]; eapply dR_ext; eauto; intros t; cbn; now rewrite E. Qed.
Lemma dM_ext f g d : (forall t, f t = g t) -> dM f d -> dM g d.
Proof. intros E (A & B & C). split; [|split]; eapply dV_ext; eauto; intros t; cbn; now rewrite E. Qed.

Lemma dR_const c : dR (fun _ => c) 0. Proof. apply derivable_pt_lim_const. Qed.
Lemma dR_id : dR (fun t => t) 1. Proof. apply derivable_pt_lim_id. Qed.
Lemma dR_plus f g a b : dR f a -> dR g b -> dR (fun t => f t + g t) (a + b). Proof. apply derivable_pt_lim_plus. Qed.
Lemma dR_minus f g a b : dR f a -> dR g b -> dR (fun t => f t - g t) (a - b). Proof. apply derivable_pt_lim_minus. Qed.
Lemma dR_opp f a : dR f a -> dR (fun t => - f t) (- a). Proof. apply derivable_pt_lim_opp. Qed.
Lemma dR_mult f g a b : dR f a -> dR g b -> dR (fun t => f t * g t) (a * g 0 + f 0 * b). Proof. apply derivable_pt_lim_mult. Qed.
Lemma dR_scal c f a : dR f a -> dR (fun t => c * f t) (c * a). Proof. apply derivable_pt_lim_scal. Qed.
Lemma dR_comp (h f : R -> R) a b : dR f a -> derivable_pt_lim h (f 0) b -> dR (fun t => h (f t)) (b * a).
Proof. intros A B. exact (derivable_pt_lim_comp f h 0 a b A B). Qed.
Lemma dR_inv f a : f 0 <> 0 -> dR f a -> dR (fun t => / f t) (- a / (f 0 * f 0)).
Proof.
  intros N A. eapply dR_eq; [eapply dR_ext; [|exact (derivable_pt_lim_div (fun _ => 1) f 0 0 a (dR_const 1) A N)]|].
  - intros t. unfold div_fct. unfold Rdiv. ring.
  - unfold Rsqr. field. auto.
Qed.
Lemma dR_cont f a : dR f a -> continuity_pt f 0.
Proof. intros A. apply derivable_continuous_pt. exists a. exact A. Qed.

Lemma dV_const c : dV (fun _ => c) v0. Proof. split; [|split]; apply dR_const. Qed.
Lemma dV_line a b : dV (fun t => vadd a (vscale t b)) b.
Proof.
  geo. split; [|split]; cbv [vx vy vz vadd vscale fst snd]; (eapply dR_eq; [apply dR_plus; [apply dR_const|apply dR_mult; [apply dR_id|apply dR_const]]|cbv beta; ring]).
Qed.
Lemma dV_scale_line b : dV (fun t => vscale t b) b.
Proof. eapply dV_ext; [|exact (dV_line v0 b)]. intros t. apply vadd_0_l. Qed.
Lemma dV_add f g a b : dV f a -> dV g b -> dV (fun t => vadd (f t) (g t)) (vadd a b).
Proof. intros (A & B & C) (A' & B' & C'). split; [|split]; apply dR_plus; assumption. Qed.
Lemma dV_sub f g a b : dV f a -> dV g b -> dV (fun t => vsub (f t) (g t)) (vsub a b).
Proof. intros (A & B & C) (A' & B' & C'). split; [|split]; apply dR_minus; assumption. Qed.
Lemma dV_neg f a : dV f a -> dV (fun t => vneg (f t)) (vneg a).
Proof. intros (A & B & C). split; [|split]; apply dR_opp; assumption. Qed.
Lemma dV_scale s f a b : dR s a -> dV f b -> dV (fun t => vscale (s t) (f t)) (vadd (vscale a (f 0)) (vscale (s 0) b)).
Proof. intros S (A & B & C). split; [|split]; apply dR_mult; assumption. Qed.
Lemma dV_scal c f b : dV f b -> dV (fun t => vscale c (f t)) (vscale c b).
Proof. intros (A & B & C). split; [|split]; apply dR_scal; assumption. Qed.
Lemma dR_dot f g a b : dV f a -> dV g b -> dR (fun t => dot (f t) (g t)) (dot a (g 0) + dot (f 0) b).
Proof.
  intros (A & B & C) (A' & B' & C'). unfold dot.
  eapply dR_eq; [apply dR_plus; [apply dR_plus|]; apply dR_mult; eassumption|]. cbv beta. ring.
Qed.
Lemma dV_cross f g a b : dV f a -> dV g b -> dV (fun t => cross (f t) (g t)) (vadd (cross a (g 0)) (cross (f 0) b)).
Proof.
  intros (A & B & C) (A' & B' & C'). unfold cross, vadd. split; [|split]; cbn [vx vy vz fst snd];
    (eapply dR_eq; [apply dR_minus; apply dR_mult; eassumption|]; cbv beta; cbv [vx vy vz]; ring).
Qed.
Lemma dM_const c : dM (fun _ => c) (mscale 0 c).
Proof. split; [|split]; (eapply dV_eq; [apply dV_const|]); cbv [mscale r0 r1 r2 fst snd]; veq. Qed.
Lemma dM_add f g a b : dM f a -> dM g b -> dM (fun t => madd (f t) (g t)) (madd a b).
Proof. intros (A & B & C) (A' & B' & C'). split; [|split]; apply dV_add; assumption. Qed.
Lemma dM_mt f a : dM f a -> dM (fun t => mt (f t)) (mt a).
Proof. intros ((A & B & C) & (D & E & F) & (G & H & I)). repeat split; assumption. Qed.
Lemma dV_mv f g a b : dM f a -> dV g b -> dV (fun t => mv (f t) (g t)) (vadd (mv a (g 0)) (mv (f 0) b)).
Proof. intros (A & B & C) D. split; [|split]; cbn [mv vx vy vz fst snd vadd]; apply dR_dot; assumption. Qed.
Lemma dM_mm f g a b : dM f a -> dM g b -> dM (fun t => mm (f t) (g t)) (madd (mm a (g 0)) (mm (f 0) b)).
Proof.
  intros (A & B & C) D. apply dM_mt in D. destruct D as (D & E & F).
  assert (G : forall u u', dV u u' -> dV (fun t => (dot (u t) (r0 (mt (g t))), dot (u t) (r1 (mt (g t))), dot (u t) (r2 (mt (g t)))))
    (dot u' (r0 (mt (g 0))) + dot (u 0) (r0 (mt b)), dot u' (r1 (mt (g 0))) + dot (u 0) (r1 (mt b)), dot u' (r2 (mt (g 0))) + dot (u 0) (r2 (mt b)))).
  { intros u u' U. split; [exact (dR_dot u _ u' _ U D)|split; [exact (dR_dot u _ u' _ U E)|exact (dR_dot u _ u' _ U F)]]. }
  split; [exact (G _ _ A)|split; [exact (G _ _ B)|exact (G _ _ C)]].
Qed.
Lemma dM_mscale s f a b : dR s a -> dM f b -> dM (fun t => mscale (s t) (f t)) (madd (mscale a (f 0)) (mscale (s 0) b)).
Proof. intros S (A & B & C). split; [|split]; apply dV_scale; assumption. Qed.
Lemma dM_skew f a : dV f a -> dM (fun t => skew (f t)) (skew a).
Proof. intros (A & B & C). split; [|split]; split; [|split| |split| |split]; cbn [skew r0 r1 r2 vx vy vz fst snd]; try apply dR_const; try apply dR_opp; assumption. Qed.
Lemma dM_outer f g a b : dV f a -> dV g b -> dM (fun t => outer (f t) (g t)) (madd (outer a (g 0)) (outer (f 0) b)).
Proof. intros (A & B & C) D. split; [|split]; cbn [outer r0 r1 r2 fst snd madd]; apply dV_scale; assumption. Qed.

Lemma dR_unique f a b : dR f a -> dR f b -> a = b. Proof. apply uniqueness_limite. Qed.
Lemma dV_unique f a b : dV f a -> dV f b -> a = b.
Proof.
  intros (A & B & C) (A' & B' & C'). apply (dR_unique _ _ _ A) in A'. apply (dR_unique _ _ _ B) in B'. apply (dR_unique _ _ _ C) in C'.
  geo. congruence.
Qed.

(** ** Continuity of sinc and cosc at 0 *)
Lemma sinc_cont0 : continuity_pt sinc 0.
Proof.
  pose proof (derivable_pt_lim_sin 0) as D. rewrite cos_0 in D.
  intros eps He. destruct (D eps He) as [del Hd]. exists del. split; [apply cond_pos|]. intros x [_ Hx].
  cbn in Hx |- *. unfold R_dist in *. unfold sinc. destruct (Req_EM_T 0 0); [|lra]. destruct (Req_EM_T x 0) as [->|N].
  - rewrite Rminus_diag_eq, Rabs_R0; auto.
  - specialize (Hd x N). rewrite Rplus_0_l, sin_0, !Rminus_0_r in Hd. rewrite Rminus_0_r in Hx. apply Hd, Hx.
Qed.
Lemma cosc_half x : cosc x = sinc (x / 2) * sinc (x / 2) / 2.
Proof.
  unfold cosc, sinc. destruct (Req_EM_T x 0) as [->|N].
  - destruct (Req_EM_T (0 / 2) 0); [field|exfalso; apply n; field].
  - destruct (Req_EM_T (x / 2) 0) as [E|_]; [exfalso; lra|].
    replace (cos x) with (1 - 2 * sin (x / 2) * sin (x / 2)); [field; auto|].
    rewrite <- cos_2a_sin. f_equal. field.
Qed.
Lemma cosc_cont0 : continuity_pt cosc 0.
Proof.
  assert (H : continuity_pt (fun x => sinc (x / 2)) 0).
  { apply (continuity_pt_comp (fun x => x / 2) sinc).
    - apply derivable_continuous_pt. exists (/ 2). unfold Rdiv. eapply dR_eq; [apply dR_mult; [apply dR_id|apply dR_const]|]. cbv beta. ring.
    - replace (0 / 2) with 0 by field. apply sinc_cont0. }
  assert (H2 : continuity_pt (fun x => sinc (x / 2) * sinc (x / 2) * / 2) 0).
  { apply (continuity_pt_mult (fun x => sinc (x / 2) * sinc (x / 2)) (fun _ => / 2)); [apply (continuity_pt_mult _ _ _ H H)|].
    apply continuity_pt_const. intros a b. reflexivity. }
  intros eps He. destruct (H2 eps He) as [al [Ha Hb]]. exists al. split; auto. intros x Hx. rewrite !cosc_half. apply Hb, Hx.
Qed.

(** f vanishing at 0 and differentiable, g merely continuous *)
Lemma dR_mult_cont f g a : f 0 = 0 -> dR f a -> continuity_pt g 0 -> dR (fun t => g t * f t) (g 0 * a).
Proof.
  intros F0 F G eps He.
  assert (Ha : 0 < Rabs a + 1) by (pose proof (Rabs_pos a); lra).
  assert (Hg0 : 0 < Rabs (g 0) + 1) by (pose proof (Rabs_pos (g 0)); lra).
  set (e1 := Rmin 1 (eps / 2 / (Rabs a + 1))). set (e2 := eps / 2 / (Rabs (g 0) + 1)).
  assert (E1 : 0 < e1) by (apply Rmin_pos; [lra|apply Rdiv_lt_0_compat; lra]).
  assert (E2 : 0 < e2) by (apply Rdiv_lt_0_compat; lra).
  destruct (G e1 E1) as [d1 [D1 G1]].
  destruct (F e2 E2) as [d2 F2].
  exists (mkposreal (Rmin d1 d2) (Rmin_pos _ _ D1 (cond_pos d2))). intros h Hh Hl. cbn in Hl.
  assert (Hl1 : Rabs h < d1) by (eapply Rlt_le_trans; [exact Hl|apply Rmin_l]).
  assert (Hl2 : Rabs h < d2) by (eapply Rlt_le_trans; [exact Hl|apply Rmin_r]).
  specialize (F2 h Hh Hl2). rewrite !Rplus_0_l, F0 in *. rewrite Rminus_0_r in F2.
  assert (G1' : Rabs (g h - g 0) < e1).
  { apply G1. split; [split; [exact I|auto]|]. cbn. unfold R_dist. now rewrite Rminus_0_r. }
  replace ((g h * f h - g 0 * 0) / h - g 0 * a) with ((g h - g 0) * a + g h * (f h / h - a)) by (field; auto).
  eapply Rle_lt_trans; [apply Rabs_triang|]. rewrite !Rabs_mult.
  assert (Hgh : Rabs (g h) <= Rabs (g 0) + 1).
  { replace (g h) with (g 0 + (g h - g 0)) by ring. eapply Rle_trans; [apply Rabs_triang|]. pose proof (Rmin_l 1 (eps / 2 / (Rabs a + 1))). fold e1 in H. lra. }
  assert (P1 : Rabs (g h - g 0) * Rabs a <= eps / 2).
  { apply Rle_trans with (eps / 2 / (Rabs a + 1) * (Rabs a + 1)); [|right; field; lra].
    apply Rmult_le_compat; [apply Rabs_pos|apply Rabs_pos| |lra]. pose proof (Rmin_r 1 (eps / 2 / (Rabs a + 1))). fold e1 in H. lra. }
  assert (P2 : Rabs (g h) * Rabs (f h / h - a) < eps / 2).
  { apply Rle_lt_trans with ((Rabs (g 0) + 1) * Rabs (f h / h - a)); [apply Rmult_le_compat_r; [apply Rabs_pos|auto]|].
    apply Rlt_le_trans with ((Rabs (g 0) + 1) * e2); [apply Rmult_lt_compat_l; auto|]. right. unfold e2. field. lra. }
  lra.
Qed.

(** norm of a curve *)
Lemma dR_norm f a : f 0 <> v0 -> dV f a -> dR (fun t => norm (f t)) (dot (f 0) a / norm (f 0)).
Proof.
  intros N D. pose proof (dR_dot _ _ _ _ D D) as DD. unfold norm at 1.
  assert (P : 0 < dot (f 0) (f 0)).
  { destruct (Rle_lt_or_eq_dec _ _ (dot_nonneg (f 0))) as [H|H]; auto. exfalso. apply N, dot_zero. auto. }
  eapply dR_eq; [apply (dR_comp sqrt); [exact DD|apply derivable_pt_lim_sqrt; exact P]|].
  fold (norm (f 0)). rewrite (dot_comm a). assert (Hn : norm (f 0) <> 0) by (intros E; apply N, norm_zero, E). field. auto.
Qed.
Lemma norm_cont f a : dV f a -> continuity_pt (fun t => norm (f t)) 0.
Proof.
  intros D. pose proof (dR_dot _ _ _ _ D D) as DD. apply (continuity_pt_comp (fun t => dot (f t) (f t)) sqrt).
  - exact (dR_cont _ _ DD).
  - apply continuity_pt_sqrt, dot_nonneg.
Qed.

(** ** Derivative of the exponential map *)
Lemma expm_0 : expm v0 = m1.
Proof. unfold expm. generalize (sinc (norm v0)) (cosc (norm v0)). intros s c. veq. Qed.
Lemma Lmat_0 : Lmat v0 = m1.
Proof. unfold Lmat. generalize (sind (norm v0)) (cosc (norm v0)). intros s c. veq. Qed.

Lemma dM_expm_0 f a : f 0 = v0 -> dV f a -> dM (fun t => expm (f t)) (skew a).
Proof.
  intros F0 D. pose proof (norm_cont _ _ D) as NC.
  assert (S0 : sinc (norm (f 0)) = 1).
  { rewrite F0. unfold norm. replace (dot v0 v0) with 0 by (geo; ring). rewrite sqrt_0. unfold sinc. destruct (Req_EM_T 0 0); lra. }
  assert (N0 : norm (f 0) = 0) by (rewrite F0; unfold norm; replace (dot v0 v0) with 0 by (geo; ring); apply sqrt_0).
  assert (SC : continuity_pt (fun t => sinc (norm (f t))) 0) by (apply (continuity_pt_comp _ sinc); [exact NC|rewrite N0; apply sinc_cont0]).
  assert (CC : continuity_pt (fun t => cosc (norm (f t))) 0) by (apply (continuity_pt_comp _ cosc); [exact NC|rewrite N0; apply cosc_cont0]).
  destruct D as (A & B & C).
  assert (X0 : vx (f 0) = 0) by (rewrite F0; reflexivity).
  assert (Y0 : vy (f 0) = 0) by (rewrite F0; reflexivity).
  assert (Z0 : vz (f 0) = 0) by (rewrite F0; reflexivity).
  assert (L : forall c u u' (q : R -> R), u 0 = 0 -> dR u u' -> q 0 = 0 -> dR q 0 -> dR (fun t => c + (sinc (norm (f t)) * u t + cosc (norm (f t)) * q t)) u').
  { intros c u u' q U0 U Q0 Q. eapply dR_eq; [apply dR_plus; [apply dR_const|apply dR_plus; [apply (dR_mult_cont u _ u'); auto|apply (dR_mult_cont q _ 0); auto]]|].
    cbv beta. rewrite S0. ring. }
  assert (QQ : forall u v u' v', u 0 = 0 -> v 0 = 0 -> dR u u' -> dR v v' -> dR (fun t => u t * v t) 0).
  { intros u v u' v' U0 V0 U V. eapply dR_eq; [apply dR_mult; eassumption|]. rewrite U0, V0. ring. }
  assert (QS : forall u v, dR u 0 -> dR v 0 -> dR (fun t => u t + v t) 0).
  { intros u v U V. eapply dR_eq; [apply dR_plus; eassumption|]. ring. }
  pose proof (dR_opp _ _ A) as A'. pose proof (dR_opp _ _ B) as B'. pose proof (dR_opp _ _ C) as C'.
  pose proof (dR_const 0) as K.
  unfold expm. split; [|split]; split; [|split| |split| |split]; cbn [madd mscale mm mt skew m1 vadd vscale r0 r1 r2 vx vy vz fst snd];
   (apply L; [first [exact X0|exact Y0|exact Z0|reflexivity|cbv beta; rewrite ?X0, ?Y0, ?Z0; ring]
             |first [exact A|exact B|exact C|exact A'|exact B'|exact C'|exact K]
             |unfold dot; cbn [vx vy vz fst snd]; rewrite ?X0, ?Y0, ?Z0; ring
             |unfold dot; cbn [vx vy vz fst snd]; apply QS; [apply QS|];
              (eapply QQ; [| |first [exact A'|exact B'|exact C'|exact A|exact B|exact C|exact K]|first [exact A'|exact B'|exact C'|exact A|exact B|exact C|exact K]]; cbv beta; rewrite ?X0, ?Y0, ?Z0; ring)]).
Qed.

(** relations between the three coefficient functions *)
Lemma coeff v : let A := sinc (norm v) in let B := cosc (norm v) in let D := sind (norm v) in let n := dot v v in
  A * A = 2 * B - B * B * n /\ D * n = 1 - A /\ B * n = 1 - cos (norm v).
Proof.
  cbv zeta. unfold sinc, cosc, sind. rewrite <- (norm_sq v). destruct (Req_EM_T (norm v) 0) as [E|N].
  - rewrite E, cos_0. split; [|split]; field.
  - set (x := norm v) in *. clearbody x. split; [|split]; try (field; auto).
    pose proof (sin2_cos2 x) as H. unfold Rsqr in H.
    apply Rmult_eq_reg_r with (x * x); [|nra]. field_simplify; auto. nra.
Qed.

Lemma expm_rot v : is_rot (expm v).
Proof.
  destruct (coeff v) as (H & _ & _). revert H. unfold expm. generalize (sinc (norm v)) (cosc (norm v)). intros A B.
  destruct v as [[x y] z]. cbv [dot vx vy vz fst snd]. intros H.
  assert (H' : A * A - 2 * B + B * B * (x * x + y * y + z * z) = 0) by lra.
  split; [|split]; geo; repeat (match goal with |- (_, _) = (_, _) => f_equal end).
  all: try nsatz.
Qed.

Lemma dlim_loc f g x l : x <> 0 -> (forall y, y <> 0 -> f y = g y) -> derivable_pt_lim f x l -> derivable_pt_lim g x l.
Proof.
  intros N E H eps He. destruct (H eps He) as [del Hd]. assert (Hx : 0 < Rabs x) by now apply Rabs_pos_lt.
  exists (mkposreal (Rmin del (Rabs x)) (Rmin_pos _ _ (cond_pos del) Hx)). intros h Hh Hl. cbn in Hl.
  assert (Rabs h < Rabs x) by (eapply Rlt_le_trans; [exact Hl|apply Rmin_r]).
  rewrite <- !E; auto.
  - apply Hd; auto. eapply Rlt_le_trans; [exact Hl|apply Rmin_l].
  - intros E0. assert (x = - h) by lra. subst x. rewrite Rabs_Ropp in H0. lra.
Qed.
Lemma sinc_deriv x : x <> 0 -> derivable_pt_lim sinc x ((cos x - sinc x) / x).
Proof.
  intros N. apply (dlim_loc (fun y => sin y / y)); auto.
  - intros y Hy. unfold sinc. destruct (Req_EM_T y 0); [contradiction|reflexivity].
  - pose proof (derivable_pt_lim_div sin id x _ _ (derivable_pt_lim_sin x) (derivable_pt_lim_id x) N) as H.
    unfold sinc. destruct (Req_EM_T x 0); [contradiction|].
    replace ((cos x - sin x / x) / x) with ((cos x * id x - 1 * sin x) / Rsqr (id x)) by (unfold id, Rsqr; field; auto). exact H.
Qed.
Lemma cosc_deriv x : x <> 0 -> derivable_pt_lim cosc x ((sinc x - 2 * cosc x) / x).
Proof.
  intros N. apply (dlim_loc (fun y => (1 - cos y) / (y * y))); auto.
  - intros y Hy. unfold cosc. destruct (Req_EM_T y 0); [contradiction|reflexivity].
  - assert (N2 : x * x <> 0) by (now apply Rmult_integral_contrapositive).
    pose proof (derivable_pt_lim_div (fun y => 1 - cos y) (fun y => y * y) x (0 - - sin x) (1 * x + x * 1)
      (derivable_pt_lim_minus (fun _ => 1) cos x _ _ (derivable_pt_lim_const 1 x) (derivable_pt_lim_cos x))
      (derivable_pt_lim_mult id id x _ _ (derivable_pt_lim_id x) (derivable_pt_lim_id x)) N2) as H.
    unfold sinc, cosc. destruct (Req_EM_T x 0); [contradiction|].
    replace ((sin x / x - 2 * ((1 - cos x) / (x * x))) / x) with (((0 - - sin x) * (x * x) - (1 * x + x * 1) * (1 - cos x)) / Rsqr (x * x)) by (unfold Rsqr; field; auto).
    exact H.
Qed.
Lemma dexp_alg (A B D E x y z a b c : R) : let p := (x, y, z) in let d := (a, b, c) in let n := dot p p in let s := dot p d in
  A * A = 2 * B - B * B * n -> D * n = 1 - A -> E = D * A - B * B -> E * n = A - 2 * B ->
  madd (madd (mscale ((B - D) * - s) (skew p)) (mscale A (skew d)))
       (madd (mscale (E * s) (mm (skew p) (skew p))) (mscale B (madd (mm (skew d) (skew p)) (mm (skew p) (skew d))))) =
  mm (skew (mv (madd m1 (madd (mscale B (skew p)) (mscale D (mm (skew p) (skew p))))) d))
     (madd m1 (madd (mscale A (skew p)) (mscale B (mm (skew p) (skew p))))).
Proof.
  cbv zeta. geo. intros H1 H2 H3 H4. subst E.
  repeat (match goal with |- (_, _) = (_, _) => f_equal end).
  all: try nsatz.
Qed.

Lemma nonzero_norm v : v <> v0 -> norm v <> 0. Proof. intros H E. now apply H, norm_zero. Qed.

(** Derivative of the exponential map: the left Jacobian *)
Theorem dM_expm f a : dV f a -> dM (fun t => expm (f t)) (mm (skew (mv (Lmat (f 0)) a)) (expm (f 0))).
Proof.
  intros D. destruct (Req_EM_T (norm (f 0)) 0) as [E|N].
  - apply norm_zero in E. eapply dM_eq; [apply dM_expm_0; eauto|]. rewrite E, Lmat_0, expm_0, mv_m1, mm_1_r. reflexivity.
  - assert (NZ : f 0 <> v0) by (intros H; apply N; rewrite H; unfold norm; replace (dot v0 v0) with 0 by (geo; ring); apply sqrt_0).
    pose proof (dR_norm _ _ NZ D) as DN.
    pose proof (dR_comp sinc _ _ _ DN (sinc_deriv _ N)) as DS.
    pose proof (dR_comp cosc _ _ _ DN (cosc_deriv _ N)) as DC.
    pose proof (dM_skew _ _ D) as DK.
    unfold expm at 1. eapply dM_eq; [apply dM_add; [apply dM_const|apply dM_add; [apply dM_mscale; [exact DS|exact DK]|apply dM_mscale; [exact DC|apply dM_mm; exact DK]]]|].
    cbv beta. destruct (coeff (f 0)) as (H1 & H2 & H3). set (A := sinc (norm (f 0))) in *. set (B := cosc (norm (f 0))) in *.
    unfold Lmat, expm. fold A B. set (Dd := sind (norm (f 0))) in *.
    assert (Hn : norm (f 0) * norm (f 0) = dot (f 0) (f 0)) by apply norm_sq.
    assert (Pn : dot (f 0) (f 0) <> 0) by (rewrite <- Hn; nra).
    set (E := Dd * A - B * B).
    assert (HE : E * dot (f 0) (f 0) = A - 2 * B) by (unfold E; nra).
    assert (S1 : (cos (norm (f 0)) - A) / norm (f 0) * (dot (f 0) a / norm (f 0)) = (B - Dd) * - dot (f 0) a).
    { replace (cos (norm (f 0))) with (1 - B * dot (f 0) (f 0)) by lra.
      transitivity ((1 - B * dot (f 0) (f 0) - A) / (norm (f 0) * norm (f 0)) * dot (f 0) a); [field; auto|].
      rewrite Hn. replace (1 - B * dot (f 0) (f 0) - A) with ((Dd - B) * dot (f 0) (f 0)) by lra. field. auto. }
    assert (S2 : (A - 2 * B) / norm (f 0) * (dot (f 0) a / norm (f 0)) = E * dot (f 0) a).
    { transitivity ((A - 2 * B) / (norm (f 0) * norm (f 0)) * dot (f 0) a); [field; auto|]. rewrite Hn, <- HE. field. auto. }
    rewrite S1, S2.
    clearbody A B Dd. clear DS DC DN DK S1 S2 Hn N H3. unfold E in *. clear E. revert H1 H2 HE. clear NZ Pn D.
    destruct (f 0) as [[x y] z]. destruct a as [[a b] c]. intros H1 H2 HE.
    rewrite <- (dexp_alg A B Dd (Dd * A - B * B) x y z a b c H1 H2 eq_refl HE). veq.
Qed.

(** rotations act on skew matrices *)
Lemma mt_skew v : mt (skew v) = skew (vneg v). Proof. veq. Qed.
Lemma skew_conj m v : is_rot m -> mm (mm m (skew v)) (mt m) = skew (mv m v).
Proof.
  intros H. assert (C : forall u w, cross (mv m u) (mv m w) = mv m (cross u w)).
  { intros u w. destruct H as (H1 & H2 & H3).
    assert (K : mv (mt m) (cross (mv m u) (mv m w)) = vscale (det3 m) (cross u w)) by (clear; veq).
    rewrite H3, vscale_1 in K. rewrite <- K, <- mv_mm, H1, mv_m1. reflexivity. }
  assert (E : forall a b : M3, (forall w, mv a w = mv b w) -> a = b).
  { intros a b W. pose proof (W (1, 0, 0)) as W1. pose proof (W (0, 1, 0)) as W2. pose proof (W (0, 0, 1)) as W3.
    clear -W1 W2 W3. geo. injection W1; injection W2; injection W3. intros. repeat (match goal with |- (_, _) = (_, _) => f_equal end); lra. }
  apply E. intros w. rewrite !mv_mm, !skew_cross. rewrite <- C. rewrite rot_inv_r; auto.
Qed.
Lemma mat_ext (a b : M3) : (forall w, mv a w = mv b w) -> a = b.
Proof.
  intros W. pose proof (W (1, 0, 0)) as W1. pose proof (W (0, 1, 0)) as W2. pose proof (W (0, 0, 1)) as W3.
  clear -W1 W2 W3. geo. injection W1; injection W2; injection W3. intros. repeat (match goal with |- (_, _) = (_, _) => f_equal end); lra.
Qed.
Lemma rot_cross m u w : is_rot m -> cross (mv m u) (mv m w) = mv m (cross u w).
Proof.
  intros (H1 & H2 & H3). assert (K : mv (mt m) (cross (mv m u) (mv m w)) = vscale (det3 m) (cross u w)) by (clear; veq).
  rewrite H3, vscale_1 in K. rewrite <- K, <- mv_mm, H1, mv_m1. reflexivity.
Qed.
Lemma skew_move m v : is_rot m -> mm m (skew v) = mm (skew (mv m v)) m.
Proof. intros H. rewrite <- (skew_conj m v H). rewrite <- mm_assoc. destruct H as (_ & H2 & _). now rewrite H2, mm_1_r. Qed.
