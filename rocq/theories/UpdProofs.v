From Coq Require Import Reals ZArith List Bool Arith Lia Lra Nsatz.
From Verif Require Import Geo Lie DistModel FiltModel FiltSpec FiltProofs FiltJac FiltFull FiltKin FiltMore UpdModel UpdSpec.
Import ListNotations.
Local Open Scope R_scope.

Lemma unitv_unit a : norm a <> 0 -> dot (unitv a) (unitv a) = 1.
Proof. intros N. unfold unitv. rewrite dot_scale_l, dot_scale_r, <- norm_sq. field. auto. Qed.
Lemma unitv_scale a : norm a <> 0 -> vscale (norm a) (unitv a) = a.
Proof. intros N. unfold unitv. rewrite vscale_scale, Rinv_r, vscale_1; auto. Qed.

(** a map preserving the three basis products is a rotation *)
Lemma rot_of (m : M3) : mm m (mt m) = m1 -> det3 m = 1 -> mm (mt m) m = m1 -> is_rot m.
Proof. unfold is_rot. auto. Qed.
Ltac rotsplit := repeat split; geo; try (repeat (match goal with |- (_, _) = (_, _) => f_equal end)); nsatz.

Lemma half_turn a : dot a a = 1 -> is_rot (madd (mneg m1) (mscale 2 (outer a a))).
Proof. intros H. destruct a as [[x y] z]. unfold dot in H. cbn in H. unfold is_rot. rotsplit. Qed.
Lemma min_rot u v k : dot u u = 1 -> dot v v = 1 -> k * (1 + dot u v) = 1 ->
  is_rot (madd m1 (madd (skew (cross u v)) (mscale k (mm (skew (cross u v)) (skew (cross u v)))))) /\
  mv (madd m1 (madd (skew (cross u v)) (mscale k (mm (skew (cross u v)) (skew (cross u v)))))) u = v.
Proof.
  intros Hu Hv Hk.
  assert (N : dot (cross u v) (cross u v) = 1 - dot u v * dot u v).
  { replace (1 - dot u v * dot u v) with (dot u u * dot v v - dot u v * dot u v) by (rewrite Hu, Hv; ring). generalize u v. clear. intros. geo. ring. }
  assert (K : k * dot (cross u v) (cross u v) = 1 - dot u v) by (rewrite N; nsatz).
  split.
  - assert (E : 1 + k * k * dot (cross u v) (cross u v) = 2 * k) by (rewrite <- Hk at 1; nsatz).
    revert E. generalize (cross u v). clear. intros w E. destruct w as [[x y] z]. unfold dot in E. cbn in E. unfold is_rot. rotsplit.
  - rewrite mv_madd, mv_m1, mv_madd, mv_mscale, mv_mm, !skew_cross.
    assert (C1 : cross (cross u v) u = vsub v (vscale (dot u v) u)).
    { replace v with (vscale (dot u u) v) at 2 by (rewrite Hu; apply vscale_1). generalize u v. clear. intros. veq. }
    assert (C2 : cross (cross u v) v = vsub (vscale (dot u v) v) u).
    { replace u with (vscale (dot v v) u) at 3 by (rewrite Hv; apply vscale_1). generalize u v. clear. intros. veq. }
    assert (C3 : cross (cross u v) (cross (cross u v) u) = vneg (vscale (dot (cross u v) (cross u v)) u)).
    { replace (cross (cross u v) (cross (cross u v) u)) with (vsub (vscale (dot (cross u v) u) (cross u v)) (vscale (dot (cross u v) (cross u v)) u)) by (generalize (cross u v) u; gv).
      replace (dot (cross u v) u) with 0 by (generalize u v; clear; intros; geo; ring). generalize (cross u v) u. gv. }
    rewrite C3, C1. replace (vscale k (vneg (vscale (dot (cross u v) (cross u v)) u))) with (vneg (vscale (k * dot (cross u v) (cross u v)) u)) by (generalize (dot (cross u v) (cross u v)) u; gv).
    rewrite K. generalize (dot u v). gv.
Qed.

Lemma dot_m1 u v : dot u u = 1 -> dot v v = 1 -> dot u v = -1 -> v = vneg u.
Proof.
  intros Hu Hv H. assert (Z : dot (vadd u v) (vadd u v) = 0) by (rewrite dot_add_l, !dot_add_r, Hu, Hv, (dot_comm v u), H; ring).
  apply dot_zero in Z. destruct u as [[? ?] ?], v as [[? ?] ?]. unfold vadd, vneg, v0 in *. cbn in *. injection Z. intros. repeat f_equal; lra.
Qed.
Lemma from_vectors_ok axis a b : good_axis axis -> norm a <> 0 -> norm b <> 0 ->
  is_rot (from_vectors axis a b) /\ mv (from_vectors axis a b) (unitv a) = unitv b.
Proof.
  intros G Na Nb. pose proof (unitv_unit a Na) as Ua. pose proof (unitv_unit b Nb) as Ub.
  unfold from_vectors. set (u := unitv a) in *. set (v := unitv b) in *. destruct (Req_EM_T (dot u v) (-1)) as [E|E].
  - destruct (G u Ua) as [G1 G2]. split; [now apply half_turn|]. rewrite (dot_m1 u v Ua Ub E).
    rewrite mv_madd, mv_mneg, mv_m1, mv_mscale, mv_outer, G2. generalize (axis u) u. gv.
  - apply min_rot; auto. apply Rinv_l. lra.
Qed.
Lemma z_unit : norm (0, 0, 1) = 1.
Proof. unfold norm. replace (dot (0, 0, 1) (0, 0, 1)) with 1 by (unfold dot; cbn; ring). apply sqrt_1. Qed.
Lemma init_acc_ok axis f x : good_axis axis -> / 1000000 < norm f ->
  is_rot (x_att (init_acc axis f x)) /\ mv (x_att (init_acc axis f x)) f = (0, 0, norm f).
Proof.
  intros G H. unfold init_acc, with_pose. cbn [x_att]. destruct (Rlt_dec _ _); [|lra].
  assert (Nf : norm f <> 0) by lra. pose proof z_unit as Z. destruct (from_vectors_ok axis f (0, 0, 1) G Nf ltac:(rewrite Z; lra)) as [A B]. split; auto.
  rewrite <- (unitv_scale f Nf) at 2. rewrite mv_scale, B. unfold unitv. rewrite Z. unfold vscale. cbn. repeat f_equal; field.
Qed.

Lemma init_acc_small axis f x : norm f <= / 1000000 -> x_att (init_acc axis f x) = m1.
Proof. intros H. unfold init_acc, with_pose. cbn [x_att]. destruct (Rlt_dec _ _); [lra|reflexivity]. Qed.

(** ** alignment *)
Definition qVM_rot (c : pcfg) (u : pupd) (x : state) : Prop := is_rot (get_qVM c u x).
Lemma align_fields c u m x : u_did u = false -> doAlign c = true -> distinct_idx c ->
  let '(u', x') := pre_process c u m x in
  let qWI := mm (mm (x_att x) (mt (get_qVM c u x))) (m_att m) in
  get_qWI c u' x' = qWI /\ get_IrIW c u' x' = vsub (m_pos m) (mv (mt qWI) (vadd (x_pos x) (mv (x_att x) (get_MrMV c u x)))) /\
  get_qVM c u' x' = get_qVM c u x /\ get_MrMV c u' x' = get_MrMV c u x /\ x_pos x' = x_pos x /\ x_att x' = x_att x /\ u_did u' = true.
Proof.
  intros D A I. unfold pre_process. rewrite D, A. cbn [negb andb]. unfold get_qWI, get_IrIW, get_qVM, get_MrMV, set_pop, distinct_idx in *.
  destruct (inertial c) as [i|]; destruct (body c) as [j|]; cbn [u_qWI u_IrIW u_qVM u_MrMV u_did x_pop x_poa x_pos x_att]; rewrite ?Nat.eqb_refl; auto 10.
  destruct (Nat.eqb_spec j i); [congruence|]. auto 10.
Qed.
Lemma align_zero c u m x : u_did u = false -> doAlign c = true -> distinct_idx c -> is_rot (x_att x) -> is_rot (get_qVM c u x) -> is_rot (m_att m) ->
  let '(u', x') := pre_process c u m x in
  tracker_pos (get_qWI c u' x') (get_IrIW c u' x') (get_MrMV c u' x') (x_pos x') (x_att x') = m_pos m /\
  tracker_att (get_qWI c u' x') (get_qVM c u' x') (x_att x') = m_att m /\
  innov_pos c u' m x' v0 = v0 /\ innov_att c u' m x' v0 = m1.
Proof.
  intros D A I R1 R2 R3. pose proof (align_fields c u m x D A I) as F. destruct (pre_process c u m x) as [u' x'].
  destruct F as (E1 & E2 & E3 & E4 & E5 & E6 & _). unfold tracker_pos, tracker_att, apply, innov_pos, innov_att. rewrite E1, E2, E3, E4, E5, E6, expm_0.
  set (q := mm (mm (x_att x) (mt (get_qVM c u x))) (m_att m)). set (V := get_qVM c u x) in *. set (X := x_att x) in *. set (M := m_att m) in *.
  assert (K : mm V (mm (mt X) q) = M).
  { unfold q. rewrite <- (mm_assoc X), (mm_assoc (mt X)), (proj1 (proj2 R1)), mm_1_l, (mm_assoc V), (proj1 R2). apply mm_1_l. }
  split; [|split; [exact K|split]].
  - rewrite (vadd_comm (mv X (get_MrMV c u x))). generalize (mv (mt q) (vadd (x_pos x) (mv X (get_MrMV c u x)))) (m_pos m). gv.
  - destruct (enPos c); [|reflexivity]. generalize (mv (mt q) (vadd (x_pos x) (mv X (get_MrMV c u x)))) (m_pos m). unfold v0. gv.
  - destruct (enAtt c); [|reflexivity]. rewrite mm_1_l, <- (mm_assoc V), K. apply R3.
Qed.
Lemma align_again c u m x : u_did u = true -> pre_process c u m x = (u, x).
Proof. intros H. unfold pre_process. now rewrite H. Qed.
Lemma align_off c u m x : doAlign c = false -> pre_process c u m x = (u, x).
Proof. intros H. unfold pre_process. rewrite H. now rewrite Bool.andb_false_r. Qed.
Lemma did_run axis c l F : u_did (f_upd F) = true -> f_upd (frun axis c F l) = f_upd F.
Proof.
  revert F. induction l as [|o l IH]; intros F H; [reflexivity|]. change (frun axis c F (o :: l)) with (frun axis c (fstep axis c F o) l).
  assert (E : f_upd (fstep axis c F o) = f_upd F) by (destruct o; try reflexivity; cbn [fstep]; rewrite align_again by exact H; reflexivity).
  rewrite IH; rewrite E; auto.
Qed.

(** ** what the innovation measures *)
Lemma innov_pos_tracker c u m x : enPos c = true -> innov_pos c u m x v0 =
  vsub (tracker_pos (get_qWI c u x) (get_IrIW c u x) (get_MrMV c u x) (x_pos x) (x_att x)) (m_pos m).
Proof. intros H. unfold innov_pos, tracker_pos, apply. rewrite H, vadd_0_r, (vadd_comm (x_pos x)). reflexivity. Qed.
Lemma innov_att_tracker c u m x : enAtt c = true -> is_rot (m_att m) -> mm (innov_att c u m x v0) (m_att m) =
  tracker_att (get_qWI c u x) (get_qVM c u x) (x_att x).
Proof. intros H R. unfold innov_att, tracker_att. rewrite H, expm_0, mm_1_l, <- mm_assoc, (proj1 (proj2 R)), mm_1_r, mm_assoc. reflexivity. Qed.

(** ** pose shown by post-processing *)
Lemma post_lin c u m x : is_rot (get_qWI c u x) -> tracker_pos (get_qWI c u x) (get_IrIW c u x) (get_MrMV c u x) (x_pos x) (x_att x) = m_pos m ->
  pose_meas_lin c u m x = vadd (x_pos x) (mv (x_att x) (MrMC x 0)).
Proof.
  intros R E. unfold pose_meas_lin. rewrite <- E. unfold tracker_pos, apply. f_equal. rewrite mv_mm, mv_add.
  rewrite <- (rot_inv_r (get_qWI c u x) (x_pos x)) at 2 by auto. f_equal.
  generalize (mv (mt (get_qWI c u x)) (mv (x_att x) (get_MrMV c u x))) (mv (mt (get_qWI c u x)) (x_pos x)) (get_IrIW c u x). gv.
Qed.
Lemma post_rot c u m x : is_rot (get_qWI c u x) -> is_rot (get_qVM c u x) -> tracker_att (get_qWI c u x) (get_qVM c u x) (x_att x) = m_att m ->
  pose_meas_rot c u m x = mm (qCM x 0) (mt (x_att x)).
Proof.
  intros R V E. unfold pose_meas_rot. rewrite <- E. unfold tracker_att.
  rewrite <- (mm_assoc (qCM x 0)), (mm_assoc (mt (get_qVM c u x))), (proj1 (proj2 V)), mm_1_l, <- !mm_assoc, (proj1 R), mm_1_r. reflexivity.
Qed.

(** ** Jacobians *)
Lemma mt_exp_line w R_ : dM (fun t => mt (mm (expm (vscale t w)) R_)) (mneg (mm (mt R_) (skew w))).
Proof. eapply dM_eq; [apply dM_mt, dM_exp_line|]. rewrite mt_mm, mt_skew. generalize (mt R_). gv. Qed.
Lemma mm_skew0 m : mm (skew v0) m = mzero. Proof. unfold mzero, v0. veq. Qed.
Lemma skew_madd a b : skew (vadd a b) = madd (skew a) (skew b). Proof. veq. Qed.
Lemma skew_msub a b : skew (vsub a b) = madd (skew a) (mneg (skew b)). Proof. veq. Qed.
Lemma mm_madd_l a b c : mm (madd a b) c = madd (mm a c) (mm b c). Proof. veq. Qed.
Lemma mm_madd_r a b c : mm c (madd a b) = madd (mm c a) (mm c b). Proof. veq. Qed.
Lemma mm_mneg_l a b : mm (mneg a) b = mneg (mm a b). Proof. veq. Qed.
Lemma mm_mneg_r a b : mm a (mneg b) = mneg (mm a b). Proof. veq. Qed.
Lemma mm_zero_l a : mm mzero a = mzero. Proof. unfold mzero. veq. Qed.
Lemma mm_zero_r a : mm a mzero = mzero. Proof. unfold mzero. veq. Qed.
Lemma madd_zero_l a : madd mzero a = a. Proof. unfold mzero. veq. Qed.
Lemma madd_zero_r a : madd a mzero = a. Proof. unfold mzero. veq. Qed.
Lemma madd_cab a b c : madd (madd a b) c = madd a (madd c b). Proof. veq. Qed.
Lemma mscale0 a : mscale 0 a = mzero. Proof. unfold mzero, v0. veq. Qed.
Lemma dM_const0 a : dM (fun _ => a) mzero. Proof. rewrite <- (mscale0 a). apply dM_const. Qed.
Lemma vneg_0 : vneg v0 = v0. Proof. unfold v0. veq. Qed.
Lemma skew_vneg v : skew (vneg v) = mneg (skew v). Proof. veq. Qed.
Lemma att_alg V A Q M s1 s2 s3 : is_rot (mm V A) ->
  madd (mm (madd (mm (madd (mm (madd (mm mzero V) (mm (skew s1) V)) A) (mm V (mm A (mneg (skew s2))))) Q) (mm (mm V A) (mm (skew s3) Q))) M) (mm (mm (mm V A) Q) mzero)
  = mm (skew (vadd (mv (mm V A) (vsub s3 s2)) s1)) (mm (mm (mm V A) Q) M).
Proof.
  intros R.
  assert (K : mm (skew (mv (mm V A) (vsub s3 s2))) (mm V A) = mm (mm V A) (skew (vsub s3 s2))) by (symmetry; now apply skew_move).
  assert (E : mm (skew (vadd (mv (mm V A) (vsub s3 s2)) s1)) (mm (mm (mm V A) Q) M)
     = madd (mm (mm (mm V A) (skew (vsub s3 s2))) (mm Q M)) (mm (skew s1) (mm (mm V A) (mm Q M)))).
  { rewrite skew_madd, mm_madd_l, <- (mm_assoc (mm V A) Q M), (mm_assoc (skew (mv (mm V A) (vsub s3 s2)))), K. reflexivity. }
  rewrite E, mm_zero_l, mm_zero_r, madd_zero_l, madd_zero_r, skew_msub.
  rewrite ?mm_madd_l, ?mm_madd_r, ?mm_mneg_l, ?mm_mneg_r, <- !mm_assoc.
  rewrite ?mm_madd_l, ?mm_madd_r, ?mm_mneg_l, ?mm_mneg_r, <- !mm_assoc.
  generalize (mm (skew s1) (mm V (mm A (mm Q M)))) (mm V (mm A (mm (skew s2) (mm Q M)))) (mm V (mm A (mm (skew s3) (mm Q M)))). gv.
Qed.
Section J.
Variables (n : dims) (c : pcfg) (u : pupd) (pm : pmeas) (x : state) (tv : tangent).
Hypotheses (Wf : wf n x) (Rwi : is_rot (get_qWI c u x)) (Rvm : is_rot (get_qVM c u x))
  (Di : distinct_idx c) (Ii : idx_in n (inertial c)) (Ib : idx_in n (body c)) (NF : noFb c = true -> no_pose_dir tv).
Let X t := boxplus x (along tv t).
Let vI : V3 := match inertial c with Some i => tv (Pop i) | None => v0 end.
Let vq : V3 := match inertial c with Some i => tv (Poa i) | None => v0 end.
Let vM : V3 := match body c with Some i => tv (Pop i) | None => v0 end.
Let vV : V3 := match body c with Some i => tv (Poa i) | None => v0 end.
Lemma d_IrIW : dV (fun t => get_IrIW c u (X t)) vI.
Proof. unfold get_IrIW, vI, X, boxplus, along. cbn [x_pop]. destruct (inertial c); [apply dV_line|apply dV_const]. Qed.
Lemma d_MrMV : dV (fun t => get_MrMV c u (X t)) vM.
Proof. unfold get_MrMV, vM, X, boxplus, along. cbn [x_pop]. destruct (body c); [apply dV_line|apply dV_const]. Qed.
Lemma d_qWI : dM (fun t => get_qWI c u (X t)) (mm (skew vq) (get_qWI c u x)).
Proof. unfold get_qWI, vq, X, boxplus, along. cbn [x_poa]. destruct (inertial c); [apply dM_exp_line|]. rewrite mm_skew0. apply dM_const0. Qed.
Lemma d_qVM : dM (fun t => get_qVM c u (X t)) (mm (skew vV) (get_qVM c u x)).
Proof. unfold get_qVM, vV, X, boxplus, along. cbn [x_poa]. destruct (body c); [apply dM_exp_line|]. rewrite mm_skew0. apply dM_const0. Qed.
Lemma X_IrIW0 : get_IrIW c u (X 0) = get_IrIW c u x.
Proof. unfold get_IrIW, X, boxplus, along. cbn [x_pop]. destruct (inertial c); now rewrite ?vscale_0, ?vadd_0_r. Qed.
Lemma X_MrMV0 : get_MrMV c u (X 0) = get_MrMV c u x.
Proof. unfold get_MrMV, X, boxplus, along. cbn [x_pop]. destruct (body c); now rewrite ?vscale_0, ?vadd_0_r. Qed.
Lemma X_qWI0 : get_qWI c u (X 0) = get_qWI c u x.
Proof. unfold get_qWI, X, boxplus, along. cbn [x_poa]. destruct (inertial c); now rewrite ?vscale_0, ?expm_0, ?mm_1_l. Qed.
Lemma X_qVM0 : get_qVM c u (X 0) = get_qVM c u x.
Proof. unfold get_qVM, X, boxplus, along. cbn [x_poa]. destruct (body c); now rewrite ?vscale_0, ?expm_0, ?mm_1_l. Qed.
Lemma X_pos0 : x_pos (X 0) = x_pos x. Proof. unfold X, boxplus, along. cbn [x_pos]. now rewrite vscale_0, vadd_0_r. Qed.
Lemma X_att0 : x_att (X 0) = x_att x. Proof. unfold X, boxplus, along. cbn [x_att]. now rewrite vscale_0, expm_0, mm_1_l. Qed.
Lemma d_att : dM (fun t => x_att (X t)) (mm (skew (tv Att)) (x_att x)).
Proof. unfold X, boxplus, along. cbn [x_att]. apply dM_exp_line. Qed.

Lemma jac_pos_val : enPos c = true -> row_mul n (jac_pos c u x) tv =
  let qi := mt (get_qWI c u x) in let r := mv (x_att x) (get_MrMV c u x) in
  vadd (mv qi (tv Pos)) (vadd (vneg (mv qi (cross r (tv Att)))) (vadd vI (vadd (mv (mm qi (x_att x)) vM) (cross (mv qi (vadd (x_pos x) r)) (mv qi vq))))).
Proof.
  intros EP. cbv zeta.
  rewrite (row_support n (jac_pos c u x) tv ([Pos; Att] ++ match inertial c with Some i => [Pop i; Poa i] | None => [] end ++ match body c with Some j => [Pop j] | None => [] end)).
  - rewrite !fsum_app. unfold fsum at 1. cbn [fold_right]. unfold vI, vq, vM.
    assert (E1 : mv (jac_pos c u x Pos) (tv Pos) = mv (mt (get_qWI c u x)) (tv Pos)).
    { unfold jac_pos. rewrite EP. destruct (noFb c) eqn:E; [|reflexivity]. destruct (NF eq_refl) as [-> _]. now rewrite !mv_0. }
    assert (E2 : mv (jac_pos c u x Att) (tv Att) = vneg (mv (mt (get_qWI c u x)) (cross (mv (x_att x) (get_MrMV c u x)) (tv Att)))).
    { unfold jac_pos. rewrite EP. destruct (noFb c) eqn:E; [|now rewrite mv_mneg, mv_mm, skew_cross]. destruct (NF eq_refl) as [_ ->]. rewrite mv_0.
      replace (cross (mv (x_att x) (get_MrMV c u x)) v0) with v0 by (generalize (mv (x_att x) (get_MrMV c u x)); unfold v0; gv). rewrite mv_0. apply vneg_0 || (symmetry; apply vneg_0). }
    rewrite E1, E2.
    assert (EI : fsum (jac_pos c u x) tv (match inertial c with Some i => [Pop i; Poa i] | None => [] end) =
      match inertial c with Some i => vadd (tv (Pop i)) (cross (mv (mt (get_qWI c u x)) (vadd (x_pos x) (mv (x_att x) (get_MrMV c u x)))) (mv (mt (get_qWI c u x)) (tv (Poa i)))) | None => v0 end).
    { unfold distinct_idx in Di. destruct (inertial c) as [i|] eqn:Ei; [|reflexivity]. unfold fsum. cbn [fold_right]. unfold jac_pos, is_idx. rewrite EP, Ei, Nat.eqb_refl.
      assert (Hb : match body c with Some i0 => (i0 =? i)%nat | None => false end = false) by (destruct (body c); [apply Nat.eqb_neq; congruence|reflexivity]).
      rewrite Hb, mv_m1, vadd_0_r, mv_mm, skew_cross. reflexivity. }
    assert (EB : fsum (jac_pos c u x) tv (match body c with Some i => [Pop i] | None => [] end) =
      match body c with Some i => mv (mm (mt (get_qWI c u x)) (x_att x)) (tv (Pop i)) | None => v0 end).
    { destruct (body c) as [i|] eqn:Ei; [|reflexivity]. unfold fsum. cbn [fold_right]. unfold jac_pos, is_idx. rewrite EP, Ei, Nat.eqb_refl, vadd_0_r. reflexivity. }
    rewrite EI, EB. destruct (inertial c) as [i|], (body c) as [j|]; rewrite ?mv_0.
    + match goal with |- vadd (vadd ?a (vadd ?b _)) (vadd (vadd ?p ?q) ?r) = _ => generalize a b p q r end. gv.
    + match goal with |- vadd (vadd ?a (vadd ?b _)) (vadd (vadd ?p ?q) _) = _ => generalize a b p q end. unfold v0. gv.
    + match goal with |- vadd (vadd ?a (vadd ?b _)) (vadd _ ?r) = _ => generalize a b r end. generalize (mv (mt (get_qWI c u x)) (vadd (x_pos x) (mv (x_att x) (get_MrMV c u x)))). unfold v0. gv.
    + match goal with |- vadd (vadd ?a (vadd ?b _)) _ = _ => generalize a b end. generalize (mv (mt (get_qWI c u x)) (vadd (x_pos x) (mv (x_att x) (get_MrMV c u x)))). unfold v0. gv.
  - unfold distinct_idx in Di. destruct (inertial c) as [i|], (body c) as [j|]; cbn [app];
    repeat (apply NoDup_cons; [cbn; intuition congruence|]); apply NoDup_nil.
  - intros s Hs. unfold idx_in in *. apply in_app_or in Hs as [Hs|Hs]; [destruct Hs as [<-|[<-|[]]]; exact I|].
    destruct (inertial c) as [i|], (body c) as [j|]; cbn in Hs; intuition (subst; auto).
  - intros s _ Ns. unfold jac_pos. rewrite EP. destruct s; try reflexivity; try (exfalso; apply Ns; cbn; auto; fail).
    + assert (is_idx (body c) k = false). { unfold is_idx. destruct (body c); [|reflexivity]. apply Nat.eqb_neq. intros ->. apply Ns. apply in_or_app. right. apply in_or_app. right. now left. }
      assert (is_idx (inertial c) k = false). { unfold is_idx. destruct (inertial c); [|reflexivity]. apply Nat.eqb_neq. intros ->. apply Ns. apply in_or_app. right. apply in_or_app. left. now left. }
      now rewrite H, H0.
    + assert (is_idx (inertial c) k = false). { unfold is_idx. destruct (inertial c); [|reflexivity]. apply Nat.eqb_neq. intros ->. apply Ns. apply in_or_app. right. apply in_or_app. left. right. now left. }
      now rewrite H.
Qed.
Lemma jac_pos_ok : dV (fun t => innov_pos c u pm (X t) v0) (row_mul n (jac_pos c u x) tv).
Proof.
  unfold innov_pos. destruct (enPos c) eqn:EP.
  - rewrite jac_pos_val by auto. cbv zeta. eapply dV_eq.
    + apply dV_add; [|apply dV_const]. apply dV_sub; [|apply dV_const]. apply dV_add; [apply d_IrIW|].
      apply dV_mv; [apply dM_mt, d_qWI|]. apply dV_add; [unfold X, boxplus, along; cbn [x_pos]; apply dV_line|]. apply dV_mv; [apply d_att|apply d_MrMV].
    + cbv beta. rewrite X_pos0, X_att0, X_qWI0, X_MrMV0. rewrite mt_mm, mt_skew, !mv_mm, !skew_cross.
      rewrite (rot_cross (mt (get_qWI c u x))) by (now apply rot_tr).
      rewrite <- (mv_neg (mt (get_qWI c u x)) (cross (mv (x_att x) (get_MrMV c u x)) (tv Att))).
      set (qi := mt (get_qWI c u x)).
      assert (HL : forall a b cc e f : V3, vadd (mv qi a) (vadd (mv qi b) (vadd cc (vadd (mv qi e) (mv qi f)))) = vadd cc (mv qi (vadd (vadd a b) (vadd e f)))).
      { intros. rewrite !mv_add. generalize (mv qi a) (mv qi b) (mv qi e) (mv qi f). gv. }
      rewrite HL. 
      match goal with |- vadd (vsub (vadd vI (vadd (mv qi ?a) (mv qi ?b))) v0) v0 = _ => rewrite <- (mv_add qi a b) end.
      rewrite vsub_0_r, vadd_0_r. f_equal. f_equal.
      generalize (mv (x_att x) (get_MrMV c u x)) (mv (x_att x) vM) (x_pos x) (tv Pos) (tv Att) vq. gv.
  - rewrite (row_support n (jac_pos c u x) tv []); [apply dV_const|constructor|intros ? []|]. intros s _ _. unfold jac_pos. now rewrite EP.
Qed.

Lemma jac_att_val : enAtt c = true -> row_mul n (jac_att c u x) tv =
  vadd (mv (mm (get_qVM c u x) (mt (x_att x))) (vsub vq (tv Att))) vV.
Proof.
  intros EP.
  rewrite (row_support n (jac_att c u x) tv ([Att] ++ match inertial c with Some i => [Poa i] | None => [] end ++ match body c with Some j => [Poa j] | None => [] end)).
  - rewrite !fsum_app. unfold fsum at 1. cbn [fold_right]. unfold vq, vV.
    assert (E2 : mv (jac_att c u x Att) (tv Att) = vneg (mv (mm (get_qVM c u x) (mt (x_att x))) (tv Att))).
    { unfold jac_att. rewrite EP. destruct (noFb c) eqn:E; [|now rewrite mv_mneg]. destruct (NF eq_refl) as [_ ->]. rewrite !mv_0. apply vneg_0 || (symmetry; apply vneg_0). }
    rewrite E2.
    assert (EI : fsum (jac_att c u x) tv (match inertial c with Some i => [Poa i] | None => [] end) =
      match inertial c with Some i => mv (mm (get_qVM c u x) (mt (x_att x))) (tv (Poa i)) | None => v0 end).
    { unfold distinct_idx in Di. destruct (inertial c) as [i|] eqn:Ei; [|reflexivity]. unfold fsum. cbn [fold_right]. unfold jac_att, is_idx. rewrite EP, Ei, Nat.eqb_refl.
      assert (Hb : match body c with Some i0 => (i0 =? i)%nat | None => false end = false) by (destruct (body c); [apply Nat.eqb_neq; congruence|reflexivity]).
      rewrite Hb, vadd_0_r. reflexivity. }
    assert (EB : fsum (jac_att c u x) tv (match body c with Some i => [Poa i] | None => [] end) = match body c with Some i => tv (Poa i) | None => v0 end).
    { destruct (body c) as [i|] eqn:Ei; [|reflexivity]. unfold fsum. cbn [fold_right]. unfold jac_att, is_idx. rewrite EP, Ei, Nat.eqb_refl, vadd_0_r, mv_m1. reflexivity. }
    rewrite EI, EB, mv_sub. destruct (inertial c) as [i|], (body c) as [j|]; rewrite ?mv_0.
    + generalize (mv (mm (get_qVM c u x) (mt (x_att x))) (tv Att)) (mv (mm (get_qVM c u x) (mt (x_att x))) (tv (Poa i))) (tv (Poa j)). unfold v0. gv.
    + generalize (mv (mm (get_qVM c u x) (mt (x_att x))) (tv Att)) (mv (mm (get_qVM c u x) (mt (x_att x))) (tv (Poa i))). unfold v0. gv.
    + generalize (mv (mm (get_qVM c u x) (mt (x_att x))) (tv Att)) (tv (Poa j)). unfold v0. gv.
    + generalize (mv (mm (get_qVM c u x) (mt (x_att x))) (tv Att)). unfold v0. gv.
  - unfold distinct_idx in Di. destruct (inertial c) as [i|], (body c) as [j|]; cbn [app];
    repeat (apply NoDup_cons; [cbn; intuition congruence|]); apply NoDup_nil.
  - intros s Hs. unfold idx_in in *. apply in_app_or in Hs as [Hs|Hs]; [destruct Hs as [<-|[]]; exact I|].
    destruct (inertial c) as [i|], (body c) as [j|]; cbn in Hs; intuition (subst; auto).
  - intros s _ Ns. unfold jac_att. rewrite EP. destruct s; try reflexivity; try (exfalso; apply Ns; cbn; auto; fail).
    assert (is_idx (body c) k = false). { unfold is_idx. destruct (body c); [|reflexivity]. apply Nat.eqb_neq. intros ->. apply Ns. apply in_or_app. right. apply in_or_app. right. now left. }
    assert (is_idx (inertial c) k = false). { unfold is_idx. destruct (inertial c); [|reflexivity]. apply Nat.eqb_neq. intros ->. apply Ns. apply in_or_app. right. apply in_or_app. left. now left. }
    now rewrite H, H0.
Qed.
Lemma jac_att_ok : dM (fun t => innov_att c u pm (X t) v0) (mm (skew (row_mul n (jac_att c u x) tv)) (innov_att c u pm x v0)).
Proof.
  unfold innov_att. rewrite expm_0. destruct (enAtt c) eqn:EP.
  - rewrite jac_att_val by auto. eapply dM_eq.
    + apply dM_mm; [|apply dM_const0]. apply dM_mm; [|apply d_qWI]. apply dM_mm; [apply dM_mm; [apply dM_const0|apply d_qVM]|apply dM_mt, d_att].
    + cbv beta. rewrite X_att0, X_qWI0, X_qVM0, !mm_1_l, mt_mm, mt_skew, skew_vneg.
      set (V := get_qVM c u x) in *. set (A := mt (x_att x)). set (Q := get_qWI c u x) in *. set (M := mt (m_att pm)).
      assert (RA : is_rot A) by (apply rot_tr, (wf_att n x Wf)).
      assert (RV : is_rot (mm V A)) by (now apply rot_mm). apply att_alg. exact RV.
  - rewrite (row_support n (jac_att c u x) tv []); [|constructor|intros ? []|intros s _ _; unfold jac_att; now rewrite EP].
    unfold fsum. cbn [fold_right]. rewrite mm_skew0. apply dM_const0.
Qed.
End J.

Lemma noise_pos c u m x w : dV (fun t => innov_pos c u m x (vscale t w)) w.
Proof. unfold innov_pos. destruct (enPos c); [apply dV_line|apply dV_scale_line]. Qed.
Lemma noise_att c u m x w : dM (fun t => innov_att c u m x (vscale t w)) (mm (skew w) (innov_att c u m x v0)).
Proof.
  unfold innov_att. destruct (enAtt c).
  - rewrite expm_0, mm_1_l. eapply dM_ext; [|apply (dM_exp_line w (mm (mm (mm (get_qVM c u x) (mt (x_att x))) (get_qWI c u x)) (mt (m_att m))))]. intros t. cbv beta. now rewrite !mm_assoc.
  - rewrite expm_0. eapply dM_ext; [|apply (dM_exp_line w m1)]. intros t. cbv beta. apply mm_1_r.
Qed.

(** ** velocity updates *)
Lemma row_vel n (J : seg -> M3) tv : (forall s, s <> Vel -> J s = mzero) -> row_mul n J tv = mv (J Vel) (tv Vel).
Proof.
  intros H. rewrite (row_support n J tv [Vel]).
  - unfold fsum. cbn [fold_right]. apply vadd_0_r.
  - constructor; [intros []|constructor].
  - intros s [<-|[]]. exact I.
  - intros s _ N. apply H. intros ->. apply N. now left.
Qed.
Lemma jac_vel_ok n q m x tv : dV (fun t => innov_vel q m (boxplus x (along tv t)) v0) (row_mul n (jac_vel q) tv).
Proof.
  rewrite row_vel by (intros []; intros; try reflexivity; congruence). cbn [jac_vel]. unfold innov_vel, boxplus, along. cbn [x_vel].
  eapply dV_ext; [|apply (dV_line (vadd (mv q (x_vel x)) m) (mv q (tv Vel)))]. intros t. cbv beta. rewrite mv_add, mv_scale, vadd_0_r.
  generalize (mv q (x_vel x)) (mv q (tv Vel)) m. gv.
Qed.
Lemma jac_zero_ok n x tv : dV (fun t => innov_zero (boxplus x (along tv t)) v0) (row_mul n jac_zero tv).
Proof.
  rewrite row_vel by (intros []; intros; try reflexivity; congruence). cbn [jac_zero]. unfold innov_zero, boxplus, along. cbn [x_vel]. rewrite mv_m1.
  eapply dV_ext; [|apply (dV_line (x_vel x) (tv Vel))]. intros t. cbv beta. now rewrite vadd_0_r.
Qed.
Lemma innov_vel_zero q m x : is_rot q -> (innov_vel q m x v0 = v0 <-> m = mv q (vneg (x_vel x))).
Proof.
  intros _. unfold innov_vel. rewrite vadd_0_r, mv_neg. generalize (mv q (x_vel x)). intros a. split; intros H.
  - replace m with (vsub (vadd a m) a) by (revert m H; gv). rewrite H. revert a H. clear. intros. unfold v0. generalize a. gv.
  - rewrite H. generalize a. unfold v0. gv.
Qed.
Lemma innov_zero_iff x : is_rot (x_att x) -> (innov_zero x v0 = v0 <-> world_velocity x = v0).
Proof.
  intros R. unfold innov_zero, world_velocity. rewrite vadd_0_r. split; intros H; [now rewrite H, mv_0, vneg_0|].
  rewrite <- (rot_inv_l (x_att x) (x_vel x)) by auto. replace (mv (x_att x) (x_vel x)) with (vneg (vneg (mv (x_att x) (x_vel x)))) by (generalize (mv (x_att x) (x_vel x)); gv).
  rewrite H, vneg_0. apply mv_0.
Qed.

(** ** extrinsics *)
Lemma extr_effect RCM CrCM c x pM : is_rot RCM -> a_calib (x_aux x) = false ->
  let y := set_extrinsics RCM CrCM c x in mv (qCM y c) (vsub pM (MrMC y c)) = apply RCM CrCM pM.
Proof.
  intros R C y. unfold y, set_extrinsics, qCM, MrMC, apply. cbn [x_aux a_calib a_qCM a_MrMC]. rewrite C, Nat.eqb_refl, mv_sub, mv_neg, rot_inv_r by auto.
  generalize (mv RCM pM) CrCM. gv.
Qed.
Lemma extr_others RCM CrCM c x k : k <> c -> let y := set_extrinsics RCM CrCM c x in qCM y k = qCM x k /\ MrMC y k = MrMC x k.
Proof.
  intros N y. unfold y, set_extrinsics, qCM, MrMC. cbn [x_aux a_calib a_qCM a_MrMC x_vea x_vep]. apply Nat.eqb_neq in N. rewrite N. auto.
Qed.
Lemma extr_noop RCM CrCM c x k : a_calib (x_aux x) = true -> let y := set_extrinsics RCM CrCM c x in qCM y k = qCM x k /\ MrMC y k = MrMC x k.
Proof. intros C y. unfold y, set_extrinsics, qCM, MrMC. cbn [x_aux a_calib a_qCM a_MrMC x_vea x_vep]. rewrite C. auto. Qed.

(** ** resets *)
Lemma reset_acc_state axis c F f : let F' := fstep axis c F (OReset_acc f) in
  f_cur F' = f_init F' /\ f_cur F' = init_acc axis f (f_init F).
Proof. split; reflexivity. Qed.

(** start-up of a resting device, end to end *)
Lemma startup_still axis n P f g x dts : good_axis axis -> / 1000000 < norm f -> wf n x -> x_vel x = v0 -> x_acb x = v0 -> g = x_gyb x ->
  p_g P = (0, 0, - norm f) ->
  let y := init_acc axis f x in let im := {| i_gyr := g; i_acc := f |} in
  same_motion n (fold_left (fun z dt => predict n P im true no_noise dt z) dts y) y.
Proof.
  intros G Hf W V A Hg Pg y im. destruct (init_acc_ok axis f x G Hf) as [R U].
  apply still_run.
  - constructor; [exact R|..]; intros; [apply (wf_vea n x W)|apply (wf_aux n x W)|apply (wf_poa n x W)|apply (wf_fea n x W)]; auto.
  - constructor; [exact V|exact Hg|]. unfold specific_force. cbn [im i_acc]. change (x_acb y) with (x_acb x). rewrite A, vsub_0_r.
    unfold y. rewrite U, Pg. unfold vneg. cbn. repeat (match goal with |- (_, _) = (_, _) => f_equal end); ring.
Qed.

Lemma init_run axis c l F : same_rest (f_init (frun axis c F l)) (f_init F) /\ x_pos (f_init (frun axis c F l)) = last_reset_pos (x_pos (f_init F)) l.
Proof.
  revert F. induction l as [|o l IH]; intros F; [split; [repeat split|reflexivity]|]. change (frun axis c F (o :: l)) with (frun axis c (fstep axis c F o) l).
  destruct (IH (fstep axis c F o)) as [S1 P1].
  assert (E : same_rest (f_init (fstep axis c F o)) (f_init F)).
  { destruct o; try (repeat split; fail). cbn [fstep]. destruct (pre_process c (f_upd F) m (f_cur F)). repeat split. }
  split.
  - destruct S1 as (A1 & A2 & A3 & A4 & A5 & A6 & A7 & A8 & A9 & A10), E as (B1 & B2 & B3 & B4 & B5 & B6 & B7 & B8 & B9 & B10). repeat split; congruence.
  - rewrite P1. destruct o; try reflexivity. cbn [fstep last_reset_pos]. destruct (pre_process c (f_upd F) m (f_cur F)). reflexivity.
Qed.
Lemma frun_snoc axis c F l o : frun axis c F (l ++ [o]) = fstep axis c (frun axis c F l) o.
Proof. unfold frun. now rewrite fold_left_app. Qed.
Lemma reset_acc_history axis c F l f : let x := f_cur (frun axis c F (l ++ [OReset_acc f])) in
  same_rest x (f_init F) /\ x_pos x = last_reset_pos (x_pos (f_init F)) l.
Proof. cbv zeta. rewrite frun_snoc. destruct (init_run axis c l F) as [S1 P1]. split; [exact S1|exact P1]. Qed.
Lemma reset_pose_history axis c F l W q : let x := f_cur (frun axis c F (l ++ [OReset_pose W q])) in
  same_rest x (f_init F) /\ x_pos x = W /\ x_att x = mt q.
Proof. cbv zeta. rewrite frun_snoc. destruct (init_run axis c l F) as [S1 P1]. split; [exact S1|split; reflexivity]. Qed.
