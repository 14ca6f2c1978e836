From Coq Require Import Reals Lra Psatz Nsatz.
From Verif Require Import Geo Lie YprModel YprSpec.
Local Open Scope R_scope.

Lemma dR_local f g d eps : 0 < eps -> (forall t, Rabs t < eps -> f t = g t) -> dR f d -> dR g d.
Proof.
  intros P E H e He. destruct (H e He) as [del Hd].
  assert (Q : 0 < Rmin del eps) by (apply Rmin_pos; [apply cond_pos|exact P]).
  exists (mkposreal _ Q). intros h Hh Hl. cbn [pos] in Hl.
  assert (Rabs h < del) by (eapply Rlt_le_trans; [exact Hl|apply Rmin_l]).
  assert (Rabs h < eps) by (eapply Rlt_le_trans; [exact Hl|apply Rmin_r]).
  rewrite <- (E (0 + h)), <- (E 0); [now apply Hd| |].
  - rewrite Rabs_R0. exact P.
  - now rewrite Rplus_0_l.
Qed.

(** entries of the attitude *)
Lemma att_entries a : let s1 := sin (a_yaw a) in let c1 := cos (a_yaw a) in let s2 := sin (a_pitch a) in
  let c2 := cos (a_pitch a) in let s3 := sin (a_roll a) in let c3 := cos (a_roll a) in
  attitude a = ((c1 * c2, c1 * s2 * s3 - s1 * c3, c1 * s2 * c3 + s1 * s3),
                (s1 * c2, s1 * s2 * s3 + c1 * c3, s1 * s2 * c3 - c1 * s3),
                (- s2, c2 * s3, c2 * c3)).
Proof.
  cbv zeta. unfold attitude, rot_x, rot_y, rot_z, mm, r0, r1, r2, vx, vy, vz. cbn [fst snd].
  repeat (apply f_equal2); unfold dot, mt, vx, vy, vz; cbn [fst snd r0 r1 r2]; try ring.
Qed.

(** the derivative of the turned attitude *)
Lemma turned_deriv w C : dM (fun t => mm (expm (vscale t w)) C) (mm (skew w) C).
Proof.
  eapply dM_eq; [apply dM_mm; [apply (dM_expm_0 (fun t => vscale t w)); [|apply dV_scale_line]|apply dM_const]|].
  - cbv [vscale v0]. now rewrite !Rmult_0_l.
  - cbv beta. generalize (expm (vscale 0 w)). intro X. destruct X as [[[[? ?] ?] [[? ?] ?]] [[? ?] ?]].
    destruct C as [[[[? ?] ?] [[? ?] ?]] [[? ?] ?]]. destruct w as [[? ?] ?]. veq.
Qed.
Lemma dR_sin f a : dR f a -> dR (fun t => sin (f t)) (cos (f 0) * a).
Proof. intro H. apply (dR_comp sin f a _ H). apply derivable_pt_lim_sin. Qed.
Lemma dR_cos f a : dR f a -> dR (fun t => cos (f t)) (- sin (f 0) * a).
Proof. intro H. apply (dR_comp cos f a _ H). apply derivable_pt_lim_cos. Qed.

Lemma mul_cancel c x y : c <> 0 -> c * x = c * y -> x = y.
Proof. intros N H. now apply (Rmult_eq_reg_l c). Qed.

Lemma jac_ok f w C dy dp dr : follows f w C -> cos (a_pitch (f 0)) <> 0 ->
  dR (fun t => a_yaw (f t)) dy -> dR (fun t => a_pitch (f t)) dp -> dR (fun t => a_roll (f t)) dr ->
  (dy, dp, dr) = mv (jac_ypr (f 0) C) w.
Proof.
  intros (eps & P & F) N Dy Dp Dr.
  assert (C0 : C = attitude (f 0)).
  { rewrite F by (rewrite Rabs_R0; exact P). replace (vscale 0 w) with v0 by (destruct w as [[? ?] ?]; cbv [vscale v0 vx vy vz fst snd]; now rewrite !Rmult_0_l).
    rewrite expm_0. symmetry. apply mm_1_l. }
  destruct (turned_deriv w C) as ((T00 & _ & _) & (T10 & _ & _) & (T20 & T21 & T22)).
  pose proof (dR_sin _ _ Dy) as Sy. pose proof (dR_cos _ _ Dy) as Cy.
  pose proof (dR_sin _ _ Dp) as Sp. pose proof (dR_cos _ _ Dp) as Cp.
  pose proof (dR_sin _ _ Dr) as Sr. pose proof (dR_cos _ _ Dr) as Cr.
  assert (K : forall (g : M3 -> R) h d d', (forall t, h t = g (attitude (f t))) -> dR h d -> dR (fun t => g (mm (expm (vscale t w)) C)) d' -> d = d').
  { intros g h d d' Eh A B. eapply dR_unique; [|exact B]. apply (dR_local h _ _ eps P); [|exact A]. intros t Ht. cbv beta. now rewrite Eh, F. }
  assert (E00 := K (fun m => vx (r0 m)) _ _ _ (fun t => eq_sym (f_equal (fun m => vx (r0 m)) (att_entries (f t)))) (dR_mult _ _ _ _ Cy Cp) T00).
  assert (E10 := K (fun m => vx (r1 m)) _ _ _ (fun t => eq_sym (f_equal (fun m => vx (r1 m)) (att_entries (f t)))) (dR_mult _ _ _ _ Sy Cp) T10).
  assert (E20 := K (fun m => vx (r2 m)) _ _ _ (fun t => eq_sym (f_equal (fun m => vx (r2 m)) (att_entries (f t)))) (dR_opp _ _ Sp) T20).
  assert (E21 := K (fun m => vy (r2 m)) _ _ _ (fun t => eq_sym (f_equal (fun m => vy (r2 m)) (att_entries (f t)))) (dR_mult _ _ _ _ Cp Sr) T21).
  assert (E22 := K (fun m => vz (r2 m)) _ _ _ (fun t => eq_sym (f_equal (fun m => vz (r2 m)) (att_entries (f t)))) (dR_mult _ _ _ _ Cp Cr) T22).
  clear K T00 T10 T20 T21 T22 Sy Cy Sp Cp Sr Cr Dy Dp Dr F P eps.
  rewrite C0 in *. clear C0 C. rewrite att_entries in *. cbv zeta in *.
  unfold jac_ypr, local_rate_to_diff. cbv zeta.
  pose proof (sin2_cos2 (a_yaw (f 0))) as Q1. pose proof (sin2_cos2 (a_pitch (f 0))) as Q2. pose proof (sin2_cos2 (a_roll (f 0))) as Q3.
  unfold Rsqr in Q1, Q2, Q3.
  revert N E00 E10 E20 E21 E22 Q1 Q2 Q3.
  generalize (sin (a_yaw (f 0))) (cos (a_yaw (f 0))) (sin (a_pitch (f 0))) (cos (a_pitch (f 0))) (sin (a_roll (f 0))) (cos (a_roll (f 0))).
  destruct w as [[wx wy] wz]. clear f. intros s1 c1 s2 c2 s3 c3 N.
  unfold mm, mt, mv, skew, dot, r0, r1, r2, vx, vy, vz. cbn [fst snd]. intros E00 E10 E20 E21 E22 Q1 Q2 Q3.
  assert (HP : dp = wy * c1 - wx * s1) by (apply (mul_cancel c2); [exact N|lra]).
  assert (HY : c2 * dy = wz * c2 + s2 * (wx * c1 + wy * s1)) by nsatz.
  assert (HR : c2 * dr = wx * c1 + wy * s1) by (subst dp; nsatz).
  assert (I : c2 * / c2 = 1) by (apply Rinv_r; exact N). unfold Rdiv. revert I. generalize (/ c2). intros i I.
  clear E00 E10 E20 E21 E22 N.
  apply pair_equal_spec. split; [apply pair_equal_spec; split|].
  - assert (HY' : dy = i * (wz * c2 + s2 * (wx * c1 + wy * s1))) by (rewrite <- HY; nsatz). rewrite HY'. clear - I Q1 Q2 Q3. nsatz.
  - rewrite HP. clear - I Q1 Q2 Q3. nsatz.
  - assert (HR' : dr = i * (wx * c1 + wy * s1)) by (rewrite <- HR; nsatz). rewrite HR'. clear - I Q1 Q2 Q3. nsatz.
Qed.

(** ** the angles of a rotation *)
Lemma rot_entries (c00 c01 c02 c10 c11 c12 c20 c21 c22 : R) : is_rot ((c00, c01, c02), (c10, c11, c12), (c20, c21, c22)) ->
  (c00 * c00 + c10 * c10 + c20 * c20 = 1 /\ c20 * c20 + c21 * c21 + c22 * c22 = 1 /\
   c00 * c20 + c01 * c21 + c02 * c22 = 0 /\ c10 * c20 + c11 * c21 + c12 * c22 = 0) /\
  (c00 = c11 * c22 - c12 * c21 /\ c10 = c02 * c21 - c01 * c22).
Proof.
  intros (A & B & D).
  assert (A' := A). assert (B' := B).
  unfold mm, mt, m1, det3, cross, dot, r0, r1, r2, vx, vy, vz in *. cbn [fst snd] in *.
  injection A as A1 A2 A3 A4 A5 A6 A7 A8 A9. injection B as B1 B2 B3 B4 B5 B6 B7 B8 B9.
  split; [repeat split; lra|].
  split; clear A' B'.
  - nsatz.
  - nsatz.
Qed.
Lemma angles_determine C a q : is_rot C -> q <> 0 -> q * q = vx (r0 C) * vx (r0 C) + vx (r1 C) * vx (r1 C) ->
  cos (a_yaw a) = vx (r0 C) / q -> sin (a_yaw a) = vx (r1 C) / q ->
  sin (a_pitch a) = - vx (r2 C) -> cos (a_pitch a) = q ->
  sin (a_roll a) = vy (r2 C) / q -> cos (a_roll a) = vz (r2 C) / q -> attitude a = C.
Proof.
  intros HC N Q H1 H2 H3 H4 H5 H6. rewrite att_entries. cbv zeta. rewrite H1, H2, H3, H4, H5, H6. clear H1 H2 H3 H4 H5 H6.
  destruct C as [[[[c00 c01] c02] [[c10 c11] c12]] [[c20 c21] c22]]. destruct (rot_entries _ _ _ _ _ _ _ _ _ HC) as ((A & B & D & E) & F & G).
  unfold r0, r1, r2, vx, vy, vz in *. cbn [fst snd] in *. clear HC.
  assert (I : q * / q = 1) by (apply Rinv_r; exact N). unfold Rdiv. revert I. generalize (/ q). intros i I.
  assert (Q2 : c21 * c21 + c22 * c22 = q * q) by lra.
  apply pair_equal_spec. split; [apply pair_equal_spec; split|]; (apply pair_equal_spec; split; [apply pair_equal_spec; split|]).
  - clear - I. nsatz.
  - assert (X : q * q * c01 = - c00 * c20 * c21 - c10 * c22) by (clear - Q2 D G; nsatz). clear - X I. nsatz.
  - assert (X : q * q * c02 = - c00 * c20 * c22 + c10 * c21) by (clear - Q2 D G; nsatz). clear - X I. nsatz.
  - clear - I. nsatz.
  - assert (X : q * q * c11 = - c10 * c20 * c21 + c00 * c22) by (clear - Q2 E F; nsatz). clear - X I. nsatz.
  - assert (X : q * q * c12 = - c10 * c20 * c22 - c00 * c21) by (clear - Q2 E F; nsatz). clear - X I. nsatz.
  - ring.
  - clear - I. nsatz.
  - clear - I. nsatz.
Qed.
Lemma att_rot a : is_rot (attitude a).
Proof.
  rewrite att_entries. cbv zeta.
  pose proof (sin2_cos2 (a_yaw a)) as Q1. pose proof (sin2_cos2 (a_pitch a)) as Q2. pose proof (sin2_cos2 (a_roll a)) as Q3.
  unfold Rsqr in Q1, Q2, Q3. revert Q1 Q2 Q3.
  generalize (sin (a_yaw a)) (cos (a_yaw a)) (sin (a_pitch a)) (cos (a_pitch a)) (sin (a_roll a)) (cos (a_roll a)).
  intros s1 c1 s2 c2 s3 c3 Q1 Q2 Q3. unfold is_rot, mm, mt, m1, det3, cross, dot, r0, r1, r2, vx, vy, vz. cbn [fst snd].
  split; [|split].
  - apply pair_equal_spec. split; [apply pair_equal_spec; split|]; (apply pair_equal_spec; split; [apply pair_equal_spec; split|]); nsatz.
  - apply pair_equal_spec. split; [apply pair_equal_spec; split|]; (apply pair_equal_spec; split; [apply pair_equal_spec; split|]); nsatz.
  - nsatz.
Qed.

(** an angle with given cosine and sine near a given angle *)
Definition near_angle (a0 c s : R) : R := a0 + atan ((s * cos a0 - c * sin a0) / (c * cos a0 + s * sin a0)).
Lemma near_angle_ok a0 c s : c * c + s * s = 1 -> 0 < c * cos a0 + s * sin a0 ->
  cos (near_angle a0 c s) = c /\ sin (near_angle a0 c s) = s.
Proof.
  intros U P. unfold near_angle. rewrite cos_plus, sin_plus. rewrite cos_atan, sin_atan.
  pose proof (sin2_cos2 a0) as Q. unfold Rsqr in *. revert P Q. generalize (cos a0) (sin a0). intros c0 s0 P Q.
  set (d := c * c0 + s * s0) in *. set (n := s * c0 - c * s0).
  assert (DN : d * d + n * n = 1) by (transitivity ((c * c + s * s) * (s0 * s0 + c0 * c0)); [unfold d, n; ring|rewrite U, Q; ring]).
  assert (R : sqrt (1 + n / d * (n / d)) = / d).
  { replace (1 + n / d * (n / d)) with (/ d * / d).
    - apply sqrt_square. left. now apply Rinv_0_lt_compat.
    - replace (1 + n / d * (n / d)) with ((d * d + n * n) * (/ d * / d)) by (field; lra). rewrite DN. ring. }
  rewrite R. split; (replace (1 / / d) with d by (field; lra)); (replace (n / d / / d) with n by (field; lra)); unfold d, n; clear R DN; clear d n P;
    [transitivity (c * (s0 * s0 + c0 * c0)) | transitivity (s * (s0 * s0 + c0 * c0))]; [ring|rewrite Q; ring|ring|rewrite Q; ring].
Qed.
Lemma near_angle_start a0 : near_angle a0 (cos a0) (sin a0) = a0.
Proof. unfold near_angle. replace (sin a0 * cos a0 - cos a0 * sin a0) with 0 by ring. unfold Rdiv. rewrite Rmult_0_l, atan_0. ring. Qed.
Lemma near_angle_deriv a0 c s dc ds : c 0 = cos a0 -> s 0 = sin a0 -> dR c dc -> dR s ds ->
  exists d, dR (fun t => near_angle a0 (c t) (s t)) d.
Proof.
  intros C0 S0 Dc Ds. unfold near_angle. pose proof (sin2_cos2 a0) as Q. unfold Rsqr in Q.
  assert (DN := dR_minus _ _ _ _ (dR_mult _ _ _ _ Ds (dR_const (cos a0))) (dR_mult _ _ _ _ Dc (dR_const (sin a0)))).
  assert (DD := dR_plus _ _ _ _ (dR_mult _ _ _ _ Dc (dR_const (cos a0))) (dR_mult _ _ _ _ Ds (dR_const (sin a0)))).
  cbv beta in DN, DD.
  assert (NZ : c 0 * cos a0 + s 0 * sin a0 <> 0) by (rewrite C0, S0; lra).
  assert (DQ := dR_mult _ _ _ _ DN (dR_inv _ _ NZ DD)). cbv beta in DQ.
  eexists. apply dR_plus; [apply dR_const|]. eapply (dR_comp atan (fun t => (s t * cos a0 - c t * sin a0) / (c t * cos a0 + s t * sin a0))); [exact DQ|apply derivable_pt_lim_atan].
Qed.
Lemma near_pos f d : dR f d -> 0 < f 0 -> exists eps, 0 < eps /\ forall t, Rabs t < eps -> 0 < f t.
Proof.
  intros D P. pose proof (dR_cont _ _ D) as Ct. destruct (Ct (f 0) P) as (eps & He & H). exists eps. split; [exact He|].
  intros t Ht. destruct (Req_EM_T t 0) as [->|N]; [exact P|].
  assert (X : Rabs (f t - f 0) < f 0).
  { apply H. split; [split; [exact I|auto]|]. cbn. unfold R_dist. now rewrite Rminus_0_r. }
  destruct (Rabs_def2 _ _ X). lra.
Qed.

Lemma smooth_exists a w : cos (a_pitch a) <> 0 -> exists f,
  f 0 = a /\ follows f w (attitude a) /\
  exists dy dp dr, dR (fun t => a_yaw (f t)) dy /\ dR (fun t => a_pitch (f t)) dp /\ dR (fun t => a_roll (f t)) dr.
Proof.
  intro N. set (M := fun t => mm (expm (vscale t w)) (attitude a)).
  assert (RM : forall t, is_rot (M t)) by (intro t; apply rot_mm; [apply expm_rot|apply att_rot]).
  assert (M0 : M 0 = attitude a).
  { unfold M. replace (vscale 0 w) with v0 by (destruct w as [[? ?] ?]; cbv [vscale v0 vx vy vz fst snd]; now rewrite !Rmult_0_l).
    rewrite expm_0. apply mm_1_l. }
  pose proof (turned_deriv w (attitude a)) as DM. fold M in DM. revert DM. generalize (mm (skew w) (attitude a)). intros dM0 DM.
  destruct DM as ((D00 & _ & _) & (D10 & _ & _) & (D20 & D21 & D22)).
  set (sg := cos (a_pitch a) / Rabs (cos (a_pitch a))).
  assert (A0 : 0 < Rabs (cos (a_pitch a))) by now apply Rabs_pos_lt.
  assert (SG : sg * sg = 1).
  { unfold sg. replace (cos (a_pitch a) / Rabs (cos (a_pitch a)) * (cos (a_pitch a) / Rabs (cos (a_pitch a)))) with
      (cos (a_pitch a) * cos (a_pitch a) / (Rabs (cos (a_pitch a)) * Rabs (cos (a_pitch a)))) by (field; lra).
    rewrite <- Rabs_mult, (Rabs_right (_ * _)) by nra. field. exact N. }
  set (h := fun t => vx (r0 (M t)) * vx (r0 (M t)) + vx (r1 (M t)) * vx (r1 (M t))).
  set (q := fun t => sg * sqrt (h t)).
  assert (Dh : exists d, dR h d) by (eexists; apply dR_plus; apply dR_mult; eassumption). destruct Dh as [dh Dh].
  pose proof (sin2_cos2 (a_yaw a)) as Qy. unfold Rsqr in Qy.
  assert (E : attitude a = attitude a) by reflexivity. rewrite att_entries in E at 1. cbv zeta in E.
  assert (H0 : h 0 = cos (a_pitch a) * cos (a_pitch a)).
  { unfold h. rewrite M0, <- E. unfold r0, r1, vx. cbn [fst snd].
    transitivity (cos (a_pitch a) * cos (a_pitch a) * (sin (a_yaw a) * sin (a_yaw a) + cos (a_yaw a) * cos (a_yaw a))); [ring|rewrite Qy; ring]. }
  assert (P0 : 0 < h 0) by (rewrite H0; destruct (Rtotal_order (cos (a_pitch a)) 0) as [?|[?|?]]; [nra|lra|nra]).
  assert (Q0 : q 0 = cos (a_pitch a)).
  { unfold q. rewrite H0. change (cos (a_pitch a) * cos (a_pitch a)) with (Rsqr (cos (a_pitch a))). rewrite sqrt_Rsqr_abs. unfold sg. field. lra. }
  assert (Dq : exists d, dR q d).
  { eexists. apply dR_scal. eapply (dR_comp sqrt h); [exact Dh|]. apply derivable_pt_lim_sqrt. exact P0. }
  destruct Dq as [dq Dq].
  assert (Q0n : q 0 <> 0) by (rewrite Q0; exact N).
  pose proof (dR_inv _ _ Q0n Dq) as Di.
  set (cy := fun t => vx (r0 (M t)) * / q t). set (sy := fun t => vx (r1 (M t)) * / q t).
  set (sp := fun t => - vx (r2 (M t))).
  set (sr := fun t => vy (r2 (M t)) * / q t). set (cr := fun t => vz (r2 (M t)) * / q t).
  assert (Dcy : exists d, dR cy d) by (eexists; apply dR_mult; eassumption). destruct Dcy as [dcy Dcy].
  assert (Dsy : exists d, dR sy d) by (eexists; apply dR_mult; eassumption). destruct Dsy as [dsy Dsy].
  assert (Dsp : exists d, dR sp d) by (eexists; apply dR_opp; eassumption). destruct Dsp as [dsp Dsp].
  assert (Dsr : exists d, dR sr d) by (eexists; apply dR_mult; eassumption). destruct Dsr as [dsr Dsr].
  assert (Dcr : exists d, dR cr d) by (eexists; apply dR_mult; eassumption). destruct Dcr as [dcr Dcr].
  assert (Icy : cy 0 = cos (a_yaw a)) by (unfold cy; rewrite Q0, M0, <- E; unfold r0, vx; cbn [fst snd]; field; exact N).
  assert (Isy : sy 0 = sin (a_yaw a)) by (unfold sy; rewrite Q0, M0, <- E; unfold r1, vx; cbn [fst snd]; field; exact N).
  assert (Isp : sp 0 = sin (a_pitch a)) by (unfold sp; rewrite M0, <- E; unfold r2, vx; cbn [fst snd]; ring).
  assert (Isr : sr 0 = sin (a_roll a)) by (unfold sr; rewrite Q0, M0, <- E; unfold r2, vy; cbn [fst snd]; field; exact N).
  assert (Icr : cr 0 = cos (a_roll a)) by (unfold cr; rewrite Q0, M0, <- E; unfold r2, vz; cbn [fst snd]; field; exact N).
  exists (fun t => {| a_yaw := near_angle (a_yaw a) (cy t) (sy t); a_pitch := near_angle (a_pitch a) (q t) (sp t); a_roll := near_angle (a_roll a) (cr t) (sr t) |}).
  split; [|split].
  - rewrite Icy, Isy, Q0, Isp, Icr, Isr, !near_angle_start. now destruct a.
  - pose proof (sin2_cos2 (a_pitch a)) as Qp. pose proof (sin2_cos2 (a_roll a)) as Qr. unfold Rsqr in Qp, Qr.
    assert (G : forall a0 c s dc ds, c 0 = cos a0 -> s 0 = sin a0 -> dR c dc -> dR s ds ->
      exists eps, 0 < eps /\ forall t, Rabs t < eps -> 0 < c t * cos a0 + s t * sin a0).
    { intros a0 c s dc ds C0 S0 Dc Ds. eapply (near_pos (fun t => c t * cos a0 + s t * sin a0)).
      - apply dR_plus; (apply dR_mult; [eassumption|apply dR_const]).
      - cbv beta. rewrite C0, S0. pose proof (sin2_cos2 a0). unfold Rsqr in *. lra. }
    destruct (G _ _ _ _ _ Icy Isy Dcy Dsy) as (e1 & P1 & G1).
    destruct (G _ _ _ _ _ Q0 Isp Dq Dsp) as (e2 & P2 & G2).
    destruct (G _ _ _ _ _ Icr Isr Dcr Dsr) as (e3 & P3 & G3).
    destruct (near_pos h dh Dh P0) as (e4 & P4 & G4). clear G.
    exists (Rmin (Rmin e1 e2) (Rmin e3 e4)). split; [repeat apply Rmin_pos; assumption|].
    intros t Ht.
    assert (T1 : Rabs t < e1) by (eapply Rlt_le_trans; [exact Ht|]; eapply Rle_trans; [apply Rmin_l|apply Rmin_l]).
    assert (T2 : Rabs t < e2) by (eapply Rlt_le_trans; [exact Ht|]; eapply Rle_trans; [apply Rmin_l|apply Rmin_r]).
    assert (T3 : Rabs t < e3) by (eapply Rlt_le_trans; [exact Ht|]; eapply Rle_trans; [apply Rmin_r|apply Rmin_l]).
    assert (T4 : Rabs t < e4) by (eapply Rlt_le_trans; [exact Ht|]; eapply Rle_trans; [apply Rmin_r|apply Rmin_r]).
    specialize (G1 t T1). specialize (G2 t T2). specialize (G3 t T3). specialize (G4 t T4).
    assert (QQ : q t * q t = h t).
    { unfold q. transitivity (sg * sg * (sqrt (h t) * sqrt (h t))); [ring|]. rewrite SG, sqrt_sqrt by lra. ring. }
    assert (NQ : q t <> 0) by (intro Z; rewrite Z in QQ; lra).
    fold (M t). pose proof (RM t) as RT.
    assert (U : q t * q t + vx (r2 (M t)) * vx (r2 (M t)) = 1 /\ q t * q t = vy (r2 (M t)) * vy (r2 (M t)) + vz (r2 (M t)) * vz (r2 (M t))).
    { rewrite QQ. unfold h. destruct (M t) as [[[[c00 c01] c02] [[c10 c11] c12]] [[c20 c21] c22]].
      destruct (rot_entries _ _ _ _ _ _ _ _ _ RT) as ((A & B & _) & _). unfold r0, r1, r2, vx, vy, vz. cbn [fst snd]. lra. }
    destruct U as [U1 U2].
    assert (K : forall x y, x * x + y * y = q t * q t -> x * / q t * (x * / q t) + y * / q t * (y * / q t) = 1).
    { intros x y K. transitivity ((x * x + y * y) * (/ q t * / q t)); [ring|]. rewrite K. field. exact NQ. }
    destruct (near_angle_ok (a_yaw a) (cy t) (sy t) (K _ _ (eq_sym QQ)) G1) as [Y1 Y2].
    destruct (near_angle_ok (a_pitch a) (q t) (sp t)) as [X1 X2]; [unfold sp; lra|exact G2|].
    destruct (near_angle_ok (a_roll a) (cr t) (sr t)) as [Z1 Z2]; [apply K; lra|exact G3|].
    apply (angles_determine _ _ (q t)); cbn [a_yaw a_pitch a_roll]; try assumption.
  - destruct (near_angle_deriv _ _ _ _ _ Icy Isy Dcy Dsy) as (d1 & H1).
    destruct (near_angle_deriv _ _ _ _ _ Q0 Isp Dq Dsp) as (d2 & H2).
    destruct (near_angle_deriv _ _ _ _ _ Icr Isr Dcr Dsr) as (d3 & H3).
    exists d1, d2, d3. split; [exact H1|]. split; [exact H2|exact H3].
Qed.

Lemma gimbal a : cos (a_pitch a) = 0 -> exists w, forall f, f 0 = a -> follows f w (attitude a) ->
  ~ exists dy dp dr, dR (fun t => a_yaw (f t)) dy /\ dR (fun t => a_pitch (f t)) dp /\ dR (fun t => a_roll (f t)) dr.
Proof.
  intro N. exists (cos (a_yaw a), sin (a_yaw a), 0). set (w := (cos (a_yaw a), sin (a_yaw a), 0)).
  intros f F0 (eps & P & F) (dy & dp & dr & Dy & Dp & Dr).
  destruct (turned_deriv w (attitude a)) as (_ & _ & (_ & T21 & T22)).
  pose proof (dR_cos _ _ Dp) as Cp. pose proof (dR_sin _ _ Dr) as Sr. pose proof (dR_cos _ _ Dr) as Cr.
  assert (K : forall (g : M3 -> R) h d d', (forall t, h t = g (attitude (f t))) -> dR h d -> dR (fun t => g (mm (expm (vscale t w)) (attitude a))) d' -> d = d').
  { intros g h d d' Eh A B. eapply dR_unique; [|exact B]. apply (dR_local h _ _ eps P); [|exact A]. intros t Ht. cbv beta. now rewrite Eh, F. }
  assert (E21 := K (fun m => vy (r2 m)) _ _ _ (fun t => eq_sym (f_equal (fun m => vy (r2 m)) (att_entries (f t)))) (dR_mult _ _ _ _ Cp Sr) T21).
  assert (E22 := K (fun m => vz (r2 m)) _ _ _ (fun t => eq_sym (f_equal (fun m => vz (r2 m)) (att_entries (f t)))) (dR_mult _ _ _ _ Cp Cr) T22).
  clear K T21 T22 Cp Sr Cr Dy Dp Dr F P eps. cbv beta in E21, E22. rewrite F0 in *. clear F0 f.
  rewrite att_entries in *. cbv zeta in *. unfold w in *. clear w.
  pose proof (sin2_cos2 (a_yaw a)) as Q1. pose proof (sin2_cos2 (a_roll a)) as Q3. unfold Rsqr in *.
  rewrite N in *. clear N. revert E21 E22 Q1 Q3.
  generalize (sin (a_yaw a)) (cos (a_yaw a)) (sin (a_pitch a)) (sin (a_roll a)) (cos (a_roll a)). intros s1 c1 s2 s3 c3.
  unfold mm, mt, skew, dot, r0, r1, r2, vx, vy, vz. cbn [fst snd]. intros E21 E22 Q1 Q3.
  assert (X : c3 = - s2 * dp * s3) by (transitivity (c3 * (s1 * s1 + c1 * c1)); [rewrite Q1; ring|lra]).
  assert (Y : - s3 = - s2 * dp * c3) by (transitivity (- s3 * (s1 * s1 + c1 * c1)); [rewrite Q1; ring|lra]).
  assert (Z : s3 * s3 + c3 * c3 = 0) by nra. lra.
Qed.

Lemma angles_exist C : is_rot C -> exists a, attitude a = C /\ - (PI / 2) <= a_pitch a <= PI / 2.
Proof.
  intro HC. destruct C as [[[[c00 c01] c02] [[c10 c11] c12]] [[c20 c21] c22]] eqn:EC. rewrite <- EC. 
  assert (HC' := HC). destruct (rot_entries _ _ _ _ _ _ _ _ _ HC) as ((A & B & D & E) & F & G).
  assert (BD : -1 <= - c20 <= 1) by nra.
  pose proof (sin_asin _ BD) as SP. pose proof (cos_asin _ BD) as CP. unfold Rsqr in CP.
  assert (BP := asin_bound (- c20)).
  set (q := sqrt (1 - - c20 * - c20)) in *.
  assert (QQ : q * q = 1 - c20 * c20) by (unfold q; rewrite sqrt_sqrt; [ring|nra]).
  assert (PO : forall u v, u * u + v * v = 1 -> exists x, cos x = u /\ sin x = v).
  { intros u v U. destruct (Rle_dec 0 v) as [V|V].
    - exists (acos u). assert (-1 <= u <= 1) by nra. rewrite cos_acos, sin_acos by assumption. split; [reflexivity|].
      unfold Rsqr. replace (1 - u * u) with (v * v) by lra. now apply sqrt_square.
    - exists (- acos u). assert (-1 <= u <= 1) by nra. rewrite cos_neg, sin_neg, cos_acos, sin_acos by assumption. split; [reflexivity|].
      unfold Rsqr. replace (1 - u * u) with (- v * - v) by lra. rewrite sqrt_square by lra. ring. }
  destruct (Req_EM_T q 0) as [Z|Z].
  - assert (Z1 : c20 * c20 = 1) by (rewrite Z in QQ; lra).
    assert (c00 = 0 /\ c10 = 0 /\ c21 = 0 /\ c22 = 0) as (-> & -> & -> & ->).
    { repeat split; nra. }
    destruct HC as (H1 & H2 & H3). unfold mm, mt, m1, det3, cross, dot, r0, r1, r2, vx, vy, vz in *. cbn [fst snd] in *.
    injection H1 as I1 I2 I3 I4 I5 I6 I7 I8 I9. injection H2 as J1 J2 J3 J4 J5 J6 J7 J8 J9.
    destruct (PO c11 (- c12)) as (x & X1 & X2); [lra|].
    exists {| a_yaw := 0; a_pitch := asin (- c20); a_roll := x |}. split; [|cbn; exact BP].
    rewrite att_entries. cbn [a_yaw a_pitch a_roll]. cbv zeta. rewrite cos_0, sin_0, SP, CP, X1, X2, Z, EC.
    assert (DT : c20 * (c01 * c12 - c02 * c11) = 1) by lra.
    assert (L1 : c01 = c12 * c20).
    { transitivity (c01 * (c20 * (c01 * c12 - c02 * c11))); [rewrite DT; ring|].
      transitivity (c20 * (c12 * (c01 * c01) - c02 * (c01 * c11))); [ring|]. replace (c01 * c11) with (- (c02 * c12)) by lra.
      transitivity (c20 * c12 * (c01 * c01 + c02 * c02)); [ring|]. replace (c01 * c01 + c02 * c02) with 1 by lra. ring. }
    assert (L2 : c02 = - c11 * c20).
    { transitivity (c02 * (c20 * (c01 * c12 - c02 * c11))); [rewrite DT; ring|].
      transitivity (c20 * (c01 * (c02 * c12) - c11 * (c02 * c02))); [ring|]. replace (c02 * c12) with (- (c01 * c11)) by lra.
      transitivity (- c20 * c11 * (c01 * c01 + c02 * c02)); [ring|]. replace (c01 * c01 + c02 * c02) with 1 by lra. ring. }
    apply pair_equal_spec. split; [apply pair_equal_spec; split|]; (apply pair_equal_spec; split; [apply pair_equal_spec; split|]); lra.
  - assert (K : forall u v, u * u + v * v = q * q -> exists x, cos x = u / q /\ sin x = v / q).
    { intros u v U. apply PO. transitivity ((u * u + v * v) / (q * q)); [field; exact Z|rewrite U; field; exact Z]. }
    destruct (K c00 c10) as (y & Y1 & Y2); [lra|]. destruct (K c22 c21) as (r & R1 & R2); [lra|].
    exists {| a_yaw := y; a_pitch := asin (- c20); a_roll := r |}. split; [|cbn; exact BP].
    rewrite <- EC in HC'. apply (angles_determine _ _ q HC' Z); rewrite ?EC; cbn [a_yaw a_pitch a_roll]; unfold r0, r1, r2, vx, vy, vz; cbn [fst snd]; try assumption. lra.
Qed.

Lemma jac_regular a w : cos (a_pitch a) <> 0 -> mv (jac_ypr a (attitude a)) w = v0 -> w = v0.
Proof.
  intros N H. unfold jac_ypr in H. rewrite mv_mm in H.
  assert (L : mv (mt (attitude a)) w = v0).
  { revert H. generalize (mv (mt (attitude a)) w). intros [[x y] z] H. unfold local_rate_to_diff, mv, dot, r0, r1, r2, vx, vy, vz, v0 in H. cbn [fst snd] in H.
    injection H as H1 H2 H3. pose proof (sin2_cos2 (a_roll a)) as Q. unfold Rsqr in Q.
    assert (H1' : sin (a_roll a) * y + cos (a_roll a) * z = 0).
    { replace (sin (a_roll a) * y + cos (a_roll a) * z) with (cos (a_pitch a) * (0 * x + sin (a_roll a) / cos (a_pitch a) * y + cos (a_roll a) / cos (a_pitch a) * z)) by (field; exact N). rewrite H1. ring. }
    assert (Y : y = 0).
    { transitivity (y * (sin (a_roll a) * sin (a_roll a) + cos (a_roll a) * cos (a_roll a))); [rewrite Q; ring|].
      transitivity (sin (a_roll a) * (sin (a_roll a) * y + cos (a_roll a) * z) + cos (a_roll a) * (0 * x + cos (a_roll a) * y + - sin (a_roll a) * z)); [ring|]. rewrite H1', H2. ring. }
    assert (Z : z = 0).
    { transitivity (z * (sin (a_roll a) * sin (a_roll a) + cos (a_roll a) * cos (a_roll a))); [rewrite Q; ring|].
      transitivity (cos (a_roll a) * (sin (a_roll a) * y + cos (a_roll a) * z) - sin (a_roll a) * (0 * x + cos (a_roll a) * y + - sin (a_roll a) * z)); [ring|]. rewrite H1', H2. ring. }
    unfold v0. rewrite Y, Z in *. assert (X : x = 0) by lra. now rewrite X. }
  rewrite <- (rot_inv_r (attitude a) w (att_rot a)), L. unfold mv, dot, v0, vx, vy, vz. cbn [fst snd]. now rewrite !Rmult_0_r, !Rplus_0_r.
Qed.
