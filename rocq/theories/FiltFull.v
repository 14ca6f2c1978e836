From Coq Require Import Reals ZArith List Bool Arith Lia Lra.
From Verif Require Import Geo Lie DistModel DistSpec DistProofs FiltModel FiltSpec FiltProofs FiltJac.
Import ListNotations.
Local Open Scope R_scope.

Lemma usable_cam n x i : usable n x i -> exists c, cam_of n (x_fea x i) = Some c.
Proof. intros [H _]. unfold cam_of. destruct (_ && _)%bool eqn:E; [eauto|]. apply andb_false_iff in E as [E|E]; lia. Qed.
Lemma cam_none n f : cam_of n f = None <-> ~ (0 <= ft_cam f < Z.of_nat (d_cam n))%Z.
Proof. unfold cam_of. destruct (_ && _)%bool eqn:E; [apply andb_true_iff in E as [E1 E2]|apply andb_false_iff in E]; split; intros; try discriminate; try lia; auto. Qed.

Ltac sup := intros s Hs Hn; destruct s; try reflexivity; try (exfalso; apply Hn; cbn; now auto);
  cbn [jac_state jac_noise]; match goal with |- context [(?p =? ?q)%nat] => destruct (Nat.eqb_spec p q) as [Ee|Ne]; [exfalso; apply Hn; cbn; rewrite Ee; tauto|] end; reflexivity.
Ltac rsup l := unfold jmul; rewrite (row_support _ _ _ l);
  [cbn [fsum fold_right] | repeat (apply NoDup_cons; [cbn; intuition discriminate|]); apply NoDup_nil
   | intros s Hs; cbn in Hs; decompose [or] Hs; subst; cbn; auto; contradiction | sup].

Section S.
Variables (n : dims) (P : params) (im : imu) (ip : bool) (x : state) (dt : R).
Hypothesis W : wf n x.

Lemma jac_state_ok tv : moves n (fun s => match s with Fea i => usable n x i | _ => True end)
  (fun t => predict n P im ip no_noise dt (boxplus x (along tv t))) (jmul n (jac_state n P im x dt) tv).
Proof.
  unfold moves. split; [|split; [|split; [|split; [|split; [|split; [|split; [|split; [|]]]]]]]].
  - cbn [predict x_pos boxplus x_att x_vel no_noise]. unfold along. eapply dV_eq.
    + apply dV_sub; [apply dV_line|apply dV_scal, dV_sub; [apply dV_mv; [apply dM_exp_line|apply dV_line]|apply dV_const]].
    + cbv beta. rsup [Pos; Vel; Att]. cbn [jac_state].
      rewrite !vscale_0, expm_0, !vadd_0_r, mm_1_l, mv_mm, !mv_mscale, mv_m1, !skew_cross, vsub_0_r.
      generalize (mv (x_att x) (x_vel x)) (mv (x_att x) (tv Vel)) (tv Att) (tv Pos) dt. gv.
  - cbn [predict x_vel boxplus no_noise]. unfold along, imu_acc_err. cbn [x_att x_acb x_gyb boxplus].
    eapply dV_eq.
    + apply dV_sub; [apply dV_mv; [|apply dV_line]|apply dV_scal, dV_sub; [apply dV_add; [apply dV_sub; [apply dV_const|apply dV_line]|apply dV_mv; [apply dM_mt, dM_exp_line|apply dV_const]]|apply dV_const]].
      apply dM_add; [apply dM_const|].
      eapply dM_ext; [|apply dM_skew].
      { intros t. instantiate (1 := fun t => vscale (- dt) (vsub (i_gyr im) (vadd (x_gyb x) (vscale t (tv Gyb))))). cbv beta.
        rewrite vscale_v0, vadd_0_r. generalize (vsub (i_gyr im) (vadd (x_gyb x) (vscale t (tv Gyb)))) dt. gv. }
      apply dV_scal, dV_sub; [apply dV_const|apply dV_line].
    + cbv beta. rsup [Vel; Acb; Gyb; Att]. cbn [jac_state].
      rewrite !vscale_0, expm_0, !vadd_0_r, mm_1_l, mv_0, !vadd_0_r, mt_mm, mt_skew.
      rewrite vscale_v0, vadd_0_r, ?mv_madd, ?mv_mneg, ?mv_mscale, ?mv_mm, ?skew_cross, ?mv_m1.
      replace (cross (vneg (tv Att)) (p_g P)) with (cross (p_g P) (tv Att)) by (generalize (tv Att) (p_g P); gv).
      generalize (mv (mt (x_att x)) (cross (p_g P) (tv Att))) (x_vel x) (tv Vel) (tv Gyb) (tv Acb) (vsub (i_gyr im) (x_gyb x)) dt. gv.
  - cbn [predict x_acb boxplus no_noise]. unfold along. eapply dV_eq; [apply dV_add; [apply dV_line|apply dV_const]|].
    rsup [Acb]. cbn [jac_state]. now rewrite mv_m1.
  - cbn [predict x_gyb boxplus no_noise]. unfold along. eapply dV_eq; [apply dV_add; [apply dV_line|apply dV_const]|].
    rsup [Gyb]. cbn [jac_state]. now rewrite mv_m1.
  - cbn [predict x_att boxplus no_noise x_gyb]. unfold along. eapply dM_eq.
    + apply dM_mm; [apply dM_exp_line|apply dM_expm, dV_scal, dV_add; [apply dV_sub; [apply dV_const|apply dV_line]|apply dV_const]].
    + cbv beta. rsup [Gyb; Att]. cbn [jac_state].
      rewrite !vscale_0, expm_0, !vadd_0_r, mm_1_l, vscale_v0, vadd_0_r.
      rewrite (mm_assoc (x_att x)), (skew_move (x_att x)) by apply (wf_att n x W).
      set (L := Lmat (vscale dt (vsub (i_gyr im) (x_gyb x)))). set (E := expm (vscale dt (vsub (i_gyr im) (x_gyb x)))).
      rewrite !mv_mscale, !mv_mm, mv_m1.
      replace (mv L (vscale dt (vsub v0 (tv Gyb)))) with (vscale (- dt) (mv L (tv Gyb))) by (rewrite <- mv_scale; f_equal; generalize (tv Gyb) dt; gv).
      rewrite mv_scale. rewrite <- !mm_assoc. generalize (mv (x_att x) (mv L (tv Gyb))) (tv Att) (mm (x_att x) E) dt. gv.
  - intros k Hk _. cbn [predict x_vep boxplus no_noise x_aux].
    assert (E : jmul n (jac_state n P im x dt) tv (Vep k) = tv (Vep k)).
    { rsup [Vep k]. cbn [jac_state]. now rewrite Nat.eqb_refl, mv_m1, vadd_0_r. }
    rewrite E. destruct (a_calib (x_aux x)) eqn:C.
    + eapply dV_ext; [|apply (dV_line (x_vep x k) (tv (Vep k)))]. intros t. cbv beta. apply Nat.ltb_lt in Hk. rewrite Hk.
      unfold MrMC, along. cbn [boxplus x_aux x_vep]. rewrite C, vscale_v0, vadd_0_r. reflexivity.
    + apply dV_line.
  - intros k Hk _. cbn [predict x_vea boxplus no_noise x_aux].
    assert (E : jmul n (jac_state n P im x dt) tv (Vea k) = tv (Vea k)).
    { rsup [Vea k]. cbn [jac_state]. now rewrite Nat.eqb_refl, mv_m1, vadd_0_r. }
    rewrite E. pose proof Hk as Hk'. apply Nat.ltb_lt in Hk'. destruct (a_calib (x_aux x)) eqn:C.
    + rewrite Hk'. eapply dM_ext with (f := fun t => mm (expm (vscale t (tv (Vea k)))) (x_vea x k)).
      { intros t. cbv beta. unfold qCM, along. cbn [boxplus x_aux x_vea]. rewrite C, vscale_v0, expm_0, mm_1_l. reflexivity. }
      eapply dM_eq; [apply dM_exp_line|]. f_equal. unfold qCM, along. cbn [boxplus x_aux x_vea]. now rewrite C, vscale_0, vscale_v0, expm_0, !mm_1_l.
    + unfold along. eapply dM_eq; [apply dM_exp_line|]. now rewrite vscale_0, expm_0, mm_1_l.
  - intros i Hi U. destruct (usable_cam _ _ _ U) as [c Hc]. split.
    + exact (fea_state_bearing n dt x i c W Hi Hc (proj2 U) P im ip tv).
    + exact (fea_state_param n dt x i c W Hi Hc (proj2 U) P im ip tv).
  - intros k Hk. cbn [predict x_pop x_poa boxplus no_noise]. unfold along. pose proof Hk as Hk'. apply Nat.ltb_lt in Hk'. rewrite Hk'.
    assert (E1 : jmul n (jac_state n P im x dt) tv (Pop k) = tv (Pop k)).
    { rsup [Pop k]. cbn [jac_state]. now rewrite Nat.eqb_refl, mv_m1, vadd_0_r. }
    assert (E2 : jmul n (jac_state n P im x dt) tv (Poa k) = tv (Poa k)).
    { rsup [Poa k]. cbn [jac_state]. now rewrite Nat.eqb_refl, mv_m1, vadd_0_r. }
    rewrite E1, E2. split.
    + eapply dV_ext; [|apply (dV_line (x_pop x k) (tv (Pop k)))]. intros t. cbv beta. now rewrite vscale_v0, vadd_0_r.
    + eapply dM_eq; [eapply dM_ext; [|apply (dM_exp_line (tv (Poa k)) (x_poa x k))]|].
      * intros t. cbv beta. now rewrite vscale_v0, expm_0, mm_1_l.
      * now rewrite !vscale_0, vscale_v0, expm_0, !mm_1_l.
Qed.

Lemma jac_noise_ok nu : 0 < dt -> moves n (fun s => match s with Fea i => usable n x i | Vep _ | Vea _ => a_calib (x_aux x) = true | _ => True end)
  (fun t => predict n P im ip (along nu t) dt x) (jmul n (jac_noise n P im x dt) nu).
Proof.
  intros Hdt. pose proof (dtk dt Hdt) as DK.
  assert (SL : forall a b, dV (fun t => vadd a (vscale (sqrt dt) (vscale t b))) (vscale (sqrt dt) b)) by (intros; apply dV_line_k).
  unfold moves. split; [|split; [|split; [|split; [|split; [|split; [|split; [|split; [|]]]]]]]].
  - cbn [predict x_pos]. unfold along. eapply dV_eq.
    + apply dV_sub; [apply dV_const|apply dV_scal, dV_sub; [apply dV_const|apply dV_scal, dV_scale_line]].
    + cbv beta. rsup [Pos]. cbn [jac_noise]. rewrite mv_mscale, mv_m1. remember (/ sqrt dt) as k. rewrite <- DK. generalize (nu Pos) dt k. gv.
  - cbn [predict x_vel]. unfold along. eapply dV_eq.
    + apply dV_sub; [apply dV_mv; [|apply dV_const]|apply dV_scal, dV_sub; [apply dV_const|apply dV_scal, dV_scale_line]].
      apply dM_add; [apply dM_const|].
      eapply dM_ext; [|apply dM_skew].
      { intros t. instantiate (1 := fun t => vscale (- dt) (vadd (vsub (i_gyr im) (x_gyb x)) (vscale (/ sqrt dt) (vscale t (nu Att))))). cbv beta.
        generalize (vadd (vsub (i_gyr im) (x_gyb x)) (vscale (/ sqrt dt) (vscale t (nu Att)))) dt. gv. }
      apply dV_scal, dV_line_k.
    + cbv beta. rsup [Vel; Att]. cbn [jac_noise]. rewrite mv_0, vadd_0_r, mv_madd, !mv_mscale, !skew_cross, mv_m1. remember (/ sqrt dt) as k. rewrite <- DK.
      generalize (nu Vel) (nu Att) (x_vel x) dt k. gv.
  - cbn [predict x_acb]. unfold along. eapply dV_eq; [apply SL|]. rsup [Acb]. cbn [jac_noise]. now rewrite mv_mscale, mv_m1, vadd_0_r.
  - cbn [predict x_gyb]. unfold along. eapply dV_eq; [apply SL|]. rsup [Gyb]. cbn [jac_noise]. now rewrite mv_mscale, mv_m1, vadd_0_r.
  - cbn [predict x_att]. unfold along. eapply dM_eq.
    + apply dM_mm; [apply dM_const|apply dM_expm, dV_scal, dV_line_k].
    + cbv beta. rsup [Att]. cbn [jac_noise]. rewrite vscale_0, vscale_v0, !vadd_0_r.
      rewrite (mm_assoc (x_att x)), (skew_move (x_att x)) by apply (wf_att n x W).
      rewrite mv_mscale, mv_mm, vscale_scale, DK, mv_scale, mv_scale.
      set (L := Lmat (vscale dt (vsub (i_gyr im) (x_gyb x)))). set (E := expm (vscale dt (vsub (i_gyr im) (x_gyb x)))).
      rewrite <- !mm_assoc. generalize (vscale (sqrt dt) (mv (x_att x) (mv L (nu Att)))) (x_att x) E. gv.
  - intros k Hk C. cbn [predict x_vep]. rewrite C. pose proof Hk as Hk'. apply Nat.ltb_lt in Hk'. rewrite Hk'.
    unfold along. eapply dV_eq; [apply SL|]. rsup [Vep k]. cbn [jac_noise]. now rewrite Nat.eqb_refl, mv_mscale, mv_m1, vadd_0_r.
  - intros k Hk C. cbn [predict x_vea]. rewrite C. pose proof Hk as Hk'. apply Nat.ltb_lt in Hk'. rewrite Hk'.
    unfold along. eapply dM_eq; [apply dM_exp_line_k|]. rsup [Vea k]. cbn [jac_noise].
    now rewrite Nat.eqb_refl, mv_mscale, mv_m1, vadd_0_r, vscale_0, vscale_v0, expm_0, mm_1_l.
  - intros i Hi U. destruct (usable_cam _ _ _ U) as [c Hc]. split.
    + exact (fea_noise_bearing n dt x i c W Hi Hc (proj2 U) P im ip nu Hdt).
    + exact (fea_noise_param n dt x i c W Hi Hc P im ip nu Hdt).
  - intros k Hk. cbn [predict x_pop x_poa]. unfold along. pose proof Hk as Hk'. apply Nat.ltb_lt in Hk'. rewrite Hk'. split.
    + eapply dV_eq; [apply SL|]. rsup [Pop k]. cbn [jac_noise]. now rewrite Nat.eqb_refl, mv_mscale, mv_m1, vadd_0_r.
    + eapply dM_eq; [apply dM_exp_line_k|]. rsup [Poa k]. cbn [jac_noise].
      now rewrite Nat.eqb_refl, mv_mscale, mv_m1, vadd_0_r, vscale_0, vscale_v0, expm_0, mm_1_l.
Qed.
End S.
