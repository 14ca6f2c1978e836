(** C95: external poses without feedback; C96: extrinsics that are not calibrated; C97: what a measurement
    leaves alone. *)
From Coq Require Import Reals ZArith List Bool Arith Lia Lra FunctionalExtensionality.
From Verif Require Import Geo Lie DistModel FiltModel OutModel CamModel InnoModel UpdModel CovModel BornModel SlotModel SlotSpec SlotProofs SlotProps KalSpec KalProps GaugeProps IsoSpec IsoProofs.
Import ListNotations.
Local Open Scope R_scope.

(** ** C95 *)
(** The external poses could as well have been left out: the rest of the state, its covariance and the features
    in use are the same. *)
Theorem C95_no_feedback : forall n P cams frame logm inv front nth_elt ign track ic l F, separated (k_P F) -> Forall without_feedback l ->
  same_result_but true false (krun n P cams frame logm inv front nth_elt ign track ic F l) (krun n P cams frame logm inv front nth_elt ign track ic F (filter not_pose l)).
Proof.
  intros n P cams frame logm inv front nth_elt ign track ic l F S W. apply no_feedback_run; [exact W|exact S|]. constructor; auto.
Qed.
(** and no other initial guess of the external poses makes a difference *)
Theorem C95_initial_poses_irrelevant : forall n P cams frame logm inv front nth_elt ign track ic l F G, separated (k_P F) -> separated (k_P G) ->
  same_but true false F G -> Forall without_feedback l ->
  match krun n P cams frame logm inv front nth_elt ign track ic F l, krun n P cams frame logm inv front nth_elt ign track ic G l with
  | Some F', Some G' => same_but true false F' G'
  | None, None => True
  | _, _ => False
  end.
Proof.
  intros n P cams frame logm inv front nth_elt ign track ic l F G S S' E W.
  pose proof (no_feedback_run n P cams frame logm inv front nth_elt ign track ic l W F G S E) as A.
  assert (R : same_but true false G G) by (constructor; auto).
  pose proof (no_feedback_run n P cams frame logm inv front nth_elt ign track ic l W G G S' R) as B.
  destruct (krun _ _ _ _ _ _ _ _ _ _ _ F l) as [F'|], (krun _ _ _ _ _ _ _ _ _ _ _ G l) as [G'|], (krun _ _ _ _ _ _ _ _ _ _ _ G (filter not_pose l)) as [K|]; try contradiction; try exact I.
  destruct A as [A0 A1 A2 A3 A4 A5 A6 A7 A8 A9 A10], B as [B0 B1 B2 B3 B4 B5 B6 B7 B8 B9 B10].
  constructor; try congruence; try discriminate.
  - intros _. destruct (A8 eq_refl), (B8 eq_refl). split; congruence.
  - intros s t Cs Ct. rewrite (A10 s t Cs Ct). symmetry. now apply B10.
Qed.
(** the poses themselves stay uncorrelated with the rest *)
Theorem C95_stays_separated : forall n P cams frame logm inv front nth_elt ign track ic l F G, separated (k_P F) -> Forall without_feedback l ->
  krun n P cams frame logm inv front nth_elt ign track ic F l = Some G -> separated (k_P G).
Proof.
  intros n P cams frame logm inv front nth_elt ign track ic l F G S W. revert F S. induction W as [|o l Ho W IH]; intros F S E; [injection E as <-; exact S|].
  unfold krun in *. cbn [fold_left] in E. destruct (kstep n P cams frame logm inv front nth_elt ign track ic F o) as [K|] eqn:ST; [|rewrite run_none in E; discriminate].
  apply (IH K); [|exact E]. destruct (not_pose o) eqn:NP; [now apply (sep_step n P cams frame logm inv front nth_elt ign track ic F o K)|].
  destruct o as [|ms Rn k| | | |]; try discriminate. destruct ms as [| |c m| |]; try discriminate. cbn [without_feedback] in Ho.
  assert (R : same_but true false F F) by (constructor; auto).
  destruct (pose_step n P cams frame logm inv front nth_elt ign track ic F F c m Rn k Ho S R) as (F' & ST' & _ & S'). rewrite ST in ST'. injection ST' as <-. exact S'.
Qed.

(** ** C96 *)
Theorem C96_extrinsics_stay : forall n P cams frame logm inv front nth_elt ign track ic l F G, a_calib (x_aux (k_x F)) = false ->
  krun n P cams frame logm inv front nth_elt ign track ic F l = Some G ->
  a_calib (x_aux (k_x G)) = false /\ forall c, qCM (k_x G) c = qCM (k_x F) c /\ MrMC (k_x G) c = MrMC (k_x F) c.
Proof.
  intros n P cams frame logm inv front nth_elt ign track ic l F G C E. destruct (fixed_run n P cams frame logm inv front nth_elt ign track ic l F G C E) as (A & B1 & B2).
  split; [exact A|]. intros c. now rewrite B1, B2.
Qed.
(** the estimated extrinsics and everything the covariance says about them is without influence *)
Theorem C96_estimated_extrinsics_irrelevant : forall n P cams frame logm inv front nth_elt ign track ic l F G, a_calib (x_aux (k_x F)) = false ->
  same_but false true F G ->
  same_result_but false true (krun n P cams frame logm inv front nth_elt ign track ic F l) (krun n P cams frame logm inv front nth_elt ign track ic G l).
Proof.
  intros n P cams frame logm inv front nth_elt ign track ic l F G C E. apply but_run; auto. apply Forall_forall. intros o _. destruct o as [| [] | | | |]; exact I || reflexivity.
Qed.

(** ** C97 *)
(** A measurement leaves everything alone that is not correlated with what it is about. *)
Theorem C97_uncorrelated_parts_stay : forall n P cams frame logm inv front nth_elt ign track ic F ms Rn k G s, concerns F ms = true ->
  (forall t, informs (snd (before F ms)) ms t = true -> k_P F s t = mzero) ->
  kstep n P cams frame logm inv front nth_elt ign track ic F (KMeas ms Rn k) = Some G ->
  same_part s (k_x G) (snd (before F ms)) /\ forall t, k_P G s t = k_P F s t /\ k_P G t s = k_P F t s.
Proof. intros n P cams frame logm inv front nth_elt ign track ic F ms Rn k G s C Z E. now apply (meas_still n P cams frame logm inv front nth_elt ign track ic F ms Rn k G s). Qed.
(** A measurement that says what is predicted anyway changes nothing in the state, however often it is
    relinearised. *)
Theorem C97_agreeing_measurement : forall n P cams frame logm inv front nth_elt ign track ic F ms Rn k G, logm m1 = v0 ->
  agrees cams frame (fst (before F ms)) ms (snd (before F ms)) ->
  kstep n P cams frame logm inv front nth_elt ign track ic F (KMeas ms Rn k) = Some G -> concerns F ms = true -> k_x G = snd (before F ms).
Proof.
  intros n P cams frame logm inv front nth_elt ign track ic F ms Rn k G LM A E C. cbn [kstep] in E. rewrite C in E. destruct (before F ms) as [u x]. cbn [fst snd] in *.
  destruct (linearise cams frame logm ign u ms x) as [[y H]|] eqn:L.
  - assert (Z : Forall (fun r => r = 0) y).
    { destruct ms as [i j dold c|i j dold eqs|c m|q v|]; cbn [linearise agrees] in *.
      - unfold innovation_pix in L. rewrite A in L. destruct (jac_pix _ _ _ _ _ _ _); [|discriminate]. apply (f_equal (fun o => match o with Some (z, _) => z | None => [] end)) in L. rewrite <- L. cbn [fst snd].
        apply Forall_cons; [ring|apply Forall_cons; [ring|apply Forall_nil]].
      - destruct A as (c & B & A1 & A2). unfold innovation_direct in L. rewrite A1, A2 in L. destruct (jac_direct _ _ _ _ _ _ _ _) as [J [|]]; [discriminate|].
        apply (f_equal (fun o => match o with Some (z, _) => z | None => [] end)) in L. rewrite <- L. cbn [fst snd]. apply Forall_cons; [ring|apply Forall_cons; [ring|apply Forall_nil]].
      - destruct A as [A1 A2]. apply (f_equal (fun o => match o with Some (z, _) => z | None => [] end)) in L. rewrite <- L. clear L.
        assert (P0 : innov_pos c u m x v0 = v0).
        { unfold innov_pos. destruct (enPos c); [|reflexivity]. rewrite (A1 eq_refl). generalize (m_pos m). intros a. unfold v0. veq. }
        assert (P1 : innov_att c u m x v0 = m1).
        { unfold innov_att. destruct (enAtt c); [|apply expm_0]. destruct (A2 eq_refl) as [A3 A4]. rewrite expm_0, mm_1_l, A3. apply A4. }
        rewrite P0, P1, LM. repeat (apply Forall_cons; [reflexivity|]). apply Forall_nil.
      - apply (f_equal (fun o => match o with Some (z, _) => z | None => [] end)) in L. rewrite <- L. assert (P0 : innov_vel q v x v0 = v0) by (unfold innov_vel; rewrite A; clear; unfold v0; veq).
        rewrite P0. repeat (apply Forall_cons; [reflexivity|]). apply Forall_nil.
      - apply (f_equal (fun o => match o with Some (z, _) => z | None => [] end)) in L. rewrite <- L. assert (P0 : innov_zero x v0 = v0) by (unfold innov_zero; rewrite A; clear; unfold v0; veq).
        rewrite P0. repeat (apply Forall_cons; [reflexivity|]). apply Forall_nil. }
    destruct (agree_iterate n inv Rn (k_P F) (linearise cams frame logm ign u ms) x y H k L Z) as [P' I]. rewrite I in E. injection E as <-. cbn [k_x]. apply box_0.
  - assert (I : iterate n inv Rn (k_P F) (linearise cams frame logm ign u ms) x k (fun _ => v0) = None) by (destruct k; cbn [iterate]; now rewrite box_0, L).
    rewrite I in E. injection E as <-. reflexivity.
Qed.

(** ** Examples *)
Definition pose_cfg : pcfg := {| enPos := true; enAtt := true; noFb := true; doAlign := true; inertial := Some 0%nat; body := Some 1%nat |}.
Example C95_ex : separated unit_cov /\ Forall without_feedback (KMeas (MPose pose_cfg {| m_pos := (1, 2, 3); m_att := m1 |}) unit_noise 1 :: ex_hist).
Proof.
  assert (S : separated unit_cov).
  { intros s t Cs Ct. unfold unit_cov. destruct (seg_eq s t), (seg_eq t s); try congruence; now split. }
  split; [exact S|]. unfold ex_hist. apply Forall_cons; [reflexivity|]. apply Forall_cons; [exact I|]. apply Forall_cons; [exact I|]. apply Forall_cons; [exact S|]. apply Forall_cons; [exact I|]. apply Forall_cons; [exact I|apply Forall_nil].
Qed.
(** the pose is not ignored: it is about the estimated frames *)
Example C95_ex_informs : forall x m, informs x (MPose pose_cfg m) (Pop 0) = true /\ informs x (MPose pose_cfg m) Pos = false.
Proof. intros x m. split; reflexivity. Qed.
Definition fixed_x : state :=
  {| x_pos := v0; x_vel := v0; x_acb := v0; x_gyb := v0; x_att := m1; x_vep := fun _ => v0; x_vea := fun _ => m1; x_fea := fun _ => ex_fea;
     x_pop := fun _ => v0; x_poa := fun _ => m1;
     x_aux := {| a_wmeas := v0; a_west := v0; a_wcov := m1; a_calib := false; a_qCM := fun _ => quarter; a_MrMC := fun _ => (1, 0, 0); a_timerI := 0; a_timerV := 0 |} |}.
Example C96_ex : a_calib (x_aux fixed_x) = false /\ qCM fixed_x 0%nat <> x_vea fixed_x 0%nat.
Proof. split; [reflexivity|]. cbn. apply (proj2 C94_ex_turn). Qed.
Example C97_ex_agrees : forall cams frame u, agrees cams frame u MZero ex_x /\ informs ex_x MZero Pos = false.
Proof. intros cams frame u. split; reflexivity. Qed.

Print Assumptions C95_no_feedback.
Print Assumptions C95_initial_poses_irrelevant.
Print Assumptions C95_stays_separated.
Print Assumptions C96_extrinsics_stay.
Print Assumptions C96_estimated_extrinsics_irrelevant.
Print Assumptions C97_uncorrelated_parts_stay.
Print Assumptions C97_agreeing_measurement.
