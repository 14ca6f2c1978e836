(** C91: feature slots that are not in use. *)
From Coq Require Import Reals ZArith List Bool Arith Lia Lra FunctionalExtensionality.
From Verif Require Import Geo Lie DistModel FiltModel OutModel CamModel InnoModel UpdModel CovModel CovSpec CovProofs BornModel SlotModel SlotSpec SlotProofs.
Import ListNotations.
Local Open Scope R_scope.

(** Whatever state, covariance and correlations the free slots hold: after any history of predictions,
    measurements, removals and additions the estimate (motion, biases, extrinsics, poses, features in use,
    and their joint covariance) is the same. *)
Theorem C91_free_slots_do_not_matter : forall n P cams frame logm inv front nth_elt ign track ic l F G, same_estimate F G ->
  same_result (krun n P cams frame logm inv front nth_elt ign track ic F l) (krun n P cams frame logm inv front nth_elt ign track ic G l).
Proof. intros n P cams frame logm inv front nth_elt ign track ic l F G E. now apply run_same. Qed.
(** in particular the run is that of a filter whose free slots have never been used *)
Theorem C91_as_good_as_new : forall n P cams frame logm inv front nth_elt ign track ic l f0 F,
  same_result (krun n P cams frame logm inv front nth_elt ign track ic F l)
              (krun n P cams frame logm inv front nth_elt ign track ic (wipe f0 F) l).
Proof. intros. apply C91_free_slots_do_not_matter, wipe_same. Qed.

(** removing a feature marginalises it out: nothing else changes *)
Theorem C91_removal_keeps_the_rest : forall n P cams frame logm inv front nth_elt ign track ic i F,
  exists G, kstep n P cams frame logm inv front nth_elt ign track ic F (KFree i) = Some G /\
  k_x G = k_x F /\ k_u G = k_u F /\ k_used G i = false /\ (forall j, j <> i -> k_used G j = k_used F j) /\
  (forall s t, s <> Fea i -> t <> Fea i -> k_P G s t = k_P F s t) /\
  (k_used F i = true -> uncorrelated G i /\ k_P G (Fea i) (Fea i) = m1).
Proof.
  intros n P cams frame logm inv front nth_elt ign track ic i F. cbn [kstep]. destruct (k_used F i) eqn:U; eexists; (split; [reflexivity|]); cbn [k_x k_P k_used k_u].
  - rewrite Nat.eqb_refl. split; [reflexivity|]. split; [reflexivity|]. split; [reflexivity|]. split; [|split; [|intros _; split]].
    + intros j N. destruct (Nat.eqb_spec j i); [contradiction|reflexivity].
    + intros s t Ns Nt. now apply reset_off.
    + intros s N. cbn [k_P]. split; [now apply reset_row|now apply reset_col].
    + apply reset_diag.
  - split; [reflexivity|]. split; [reflexivity|]. split; [exact U|]. split; [reflexivity|]. split; [reflexivity|]. discriminate.
Qed.
(** a new feature starts without correlation, and leaves the rest alone *)
Theorem C91_addition_keeps_the_rest : forall track ic p F w G, k_used F (w_slot w) = false -> use_slot track ic p F w = Some G ->
  uncorrelated G (w_slot w) /\ k_used G (w_slot w) = true /\ (forall j, j <> w_slot w -> k_used G j = k_used F j /\ x_fea (k_x G) j = x_fea (k_x F) j) /\
  (forall s t, s <> Fea (w_slot w) -> t <> Fea (w_slot w) -> k_P G s t = k_P F s t) /\
  x_pos (k_x G) = x_pos (k_x F) /\ x_vel (k_x G) = x_vel (k_x F) /\ x_acb (k_x G) = x_acb (k_x F) /\ x_gyb (k_x G) = x_gyb (k_x F) /\
  x_att (k_x G) = x_att (k_x F) /\ x_vep (k_x G) = x_vep (k_x F) /\ x_vea (k_x G) = x_vea (k_x F) /\
  x_pop (k_x G) = x_pop (k_x F) /\ x_poa (k_x G) = x_poa (k_x F) /\ x_aux (k_x G) = x_aux (k_x F).
Proof.
  intros track ic p F w G U E. unfold use_slot in E. rewrite U in E. destruct (init_feature _ _ _ _ _ _ _ _ _ _) as [[d|] c]; [|discriminate].
  injection E as <-. cbn [k_x k_P k_used k_u set_fea x_pos x_vel x_acb x_gyb x_att x_vep x_vea x_fea x_pop x_poa x_aux]. split.
  { intros s N. cbn [k_P]. split; [now apply reset_row|now apply reset_col]. }
  rewrite Nat.eqb_refl. split; [reflexivity|]. split.
  { intros j N. destruct (Nat.eqb_spec j (w_slot w)); [contradiction|now split]. }
  split; [intros s t Ns Nt; now apply reset_off|]. repeat split.
Qed.

(** the blocks describe what resetFeatureCovariance does to the matrix *)
Lemma id_inb n s i a : seg_in n s -> (i < d_max n)%nat -> (a < 3)%nat ->
  inb (seg_id n (Fea i)) 3 (seg_id n s + a) = if seg_eq s (Fea i) then true else false.
Proof.
  intros Hs Hi Ha. destruct (state_ids (d_cam n) (d_max n) (d_pose n)) as (I1 & I2 & I3 & I4 & I5 & I6 & I7 & I8 & I9 & I10 & _).
  destruct (seg_eq s (Fea i)) as [->|N]; [apply inb_spec; lia|]. apply inb_false.
  destruct s; cbn [seg_id seg_in] in *; rewrite ?I1, ?I2, ?I3, ?I4, ?I5, ?I6, ?I7, ?I8, ?I9, ?I10; try lia.
  assert (i0 <> i) by congruence. lia.
Qed.
Lemma id_fits n s a : seg_in n s -> (a < 3)%nat -> (seg_id n s + a < size_of (state_layout (d_cam n) (d_max n) (d_pose n)))%nat.
Proof.
  intros Hs Ha. destruct (state_ids (d_cam n) (d_max n) (d_pose n)) as (I1 & I2 & I3 & I4 & I5 & I6 & I7 & I8 & I9 & I10 & IS).
  destruct s; cbn [seg_id seg_in] in *; rewrite ?I1, ?I2, ?I3, ?I4, ?I5, ?I6, ?I7, ?I8, ?I9, ?I10, IS; lia.
Qed.
Lemma lt3 a : (a < 3)%nat -> a = 0%nat \/ a = 1%nat \/ a = 2%nat. Proof. lia. Qed.
Theorem C91_entries : forall n m P i init, (i < d_max n)%nat -> represents n m P ->
  represents n (reset_feature (size_of (state_layout (d_cam n) (d_max n) (d_pose n))) (seg_id n (Fea i)) init m) (reset_slot i (state_order init) P).
Proof.
  intros n m P i init Hi H s t a b Hs Ht Ha Hb.
  pose proof (id_fits n (Fea i) 2 Hi ltac:(lia)) as FF. pose proof (id_fits n s a Hs Ha) as Fs. pose proof (id_fits n t b Ht Hb) as Ft.
  rewrite reset_value by lia. unfold reset_expected. rewrite (id_inb n s i a Hs Hi Ha), (id_inb n t i b Ht Hi Hb).
  destruct (seg_eq s (Fea i)) as [->|Ns], (seg_eq t (Fea i)) as [->|Nt].
  - rewrite reset_diag. unfold init_index.
    destruct (lt3 a Ha) as [->|[->| ->]], (lt3 b Hb) as [->|[->| ->]];
      repeat match goal with |- context [Nat.eqb ?u ?v] => destruct (Nat.eqb_spec u v); [try lia|try lia] end;
      repeat match goal with |- context [(?q + ?c - ?q)%nat] => replace (q + c - q)%nat with c by lia end; reflexivity.
  - rewrite reset_row by exact Nt. unfold ent, comp, mzero, v0. destruct (lt3 a Ha) as [->|[->| ->]], (lt3 b Hb) as [->|[->| ->]]; reflexivity.
  - rewrite reset_col by exact Ns. unfold ent, comp, mzero, v0. destruct (lt3 a Ha) as [->|[->| ->]], (lt3 b Hb) as [->|[->| ->]]; reflexivity.
  - rewrite reset_off by assumption. now apply H.
Qed.

(** A slot that has never been assigned to a camera loses its whole covariance in the first prediction. *)
Lemma msum_zero l : msum l (fun _ => mzero) = mzero.
Proof. induction l as [|s l IH]; [reflexivity|]. change (madd mzero (msum l (fun _ => mzero)) = mzero). rewrite IH. apply madd_0. Qed.
Lemma cong_row_zero n J P s t : (forall a, J s a = mzero) -> cong n J P s t = mzero.
Proof.
  intros Z. unfold cong. transitivity (msum (segs n) (fun _ => mzero)); [|apply msum_zero]. apply msum_ext. intros a _. transitivity (msum (segs n) (fun _ => mzero)); [|apply msum_zero]. apply msum_ext. intros b _.
  now rewrite Z, !mm_0_l.
Qed.
Lemma cong_col_zero n J P s t : (forall a, J s a = mzero) -> cong n J P t s = mzero.
Proof.
  intros Z. unfold cong. transitivity (msum (segs n) (fun _ => mzero)); [|apply msum_zero]. apply msum_ext. intros a _. transitivity (msum (segs n) (fun _ => mzero)); [|apply msum_zero]. apply msum_ext. intros b _.
  now rewrite Z, mt_0, !mm_0_r.
Qed.
Theorem C91_unassigned_slot : forall n P cams frame logm inv front nth_elt ign track ic m dt Q F i, cam_of n (x_fea (k_x F) i) = None ->
  exists G, kstep n P cams frame logm inv front nth_elt ign track ic F (KPredict m dt Q) = Some G /\
  forall s, k_P G (Fea i) s = mzero /\ k_P G s (Fea i) = mzero.
Proof.
  intros n P cams frame logm inv front nth_elt ign track ic m dt Q F i N. eexists. split; [reflexivity|]. cbn [k_P]. intros s. unfold predict_cov.
  assert (Z1 : forall a, jac_state n P m (k_x F) dt (Fea i) a = mzero) by (intros a; cbn [jac_state]; now rewrite N).
  assert (Z2 : forall a, FiltModel.jac_noise n P m (k_x F) dt (Fea i) a = mzero) by (intros a; cbn [FiltModel.jac_noise]; now rewrite N).
  rewrite !(cong_row_zero _ _ _ _ _ Z1), !(cong_row_zero _ _ _ _ _ Z2), !(cong_col_zero _ _ _ _ _ Z1), !(cong_col_zero _ _ _ _ _ Z2). split; apply madd_0.
Qed.

(** A freed slot does not stay uncorrelated: the prediction goes by the camera number, which the removal
    leaves in place, so the next prediction correlates the slot with the velocity again. *)
Definition ex_n : dims := {| d_cam := 1; d_max := 1; d_pose := 0 |}.
Definition ex_P : params := {| p_g := (0, 0, -10); p_rorTh := 1; p_accTh := 1; p_attcov := m1 |}.
Definition ex_fea : feat := {| ft_cam := 0; ft_Q := m1; ft_d := {| fd_type := REGULAR; fd_p := 2 |}; ft_track := true; ft_warp := ((1, 0), (0, 1)) |}.
Definition ex_x : state :=
  {| x_pos := v0; x_vel := v0; x_acb := v0; x_gyb := v0; x_att := m1; x_vep := fun _ => v0; x_vea := fun _ => m1; x_fea := fun _ => ex_fea;
     x_pop := fun _ => v0; x_poa := fun _ => m1;
     x_aux := {| a_wmeas := v0; a_west := v0; a_wcov := m1; a_calib := true; a_qCM := fun _ => m1; a_MrMC := fun _ => v0; a_timerI := 0; a_timerV := 0 |} |}.
Definition ex_cov : bmat := fun s t => match s, t with Vel, Vel => m1 | _, _ => mzero end.
Definition ex_F : kf := {| k_x := ex_x; k_P := ex_cov; k_used := fun i => (i =? 0)%nat; k_u := {| u_IrIW := v0; u_qWI := m1; u_MrMV := v0; u_qVM := m1; u_did := true |} |}.
Definition ex_still : imu := {| i_gyr := v0; i_acc := (0, 0, 10) |}.
Lemma madd_0_l a : madd mzero a = a. Proof. unfold mzero, v0. veq. Qed.
Lemma madd_0_r a : madd a mzero = a. Proof. unfold mzero, v0. veq. Qed.
Theorem C91_freed_slot_uncorrelated_refuted : exists n P F m dt Q i, k_used F i = true /\
  forall cams frame logm inv front nth_elt ign track ic, exists G H,
  kstep n P cams frame logm inv front nth_elt ign track ic F (KFree i) = Some G /\ uncorrelated G i /\
  kstep n P cams frame logm inv front nth_elt ign track ic G (KPredict m dt Q) = Some H /\ k_used H i = false /\ ~ uncorrelated H i.
Proof.
  exists ex_n, ex_P, ex_F, ex_still, 1, (fun _ _ => mzero), 0%nat. split; [reflexivity|]. intros cams frame logm inv front nth_elt ign track ic.
  eexists. eexists. split; [reflexivity|]. split.
  { intros s N. cbn [k_P]. split; [now apply reset_row|now apply reset_col]. }
  split; [reflexivity|]. split; [reflexivity|]. intros U. destruct (U Vel ltac:(discriminate)) as [U' _]. clear U.
  cbn [k_P k_x] in U'. unfold predict_cov in U'.
  assert (Z : cong ex_n (FiltModel.jac_noise ex_n ex_P ex_still ex_x 1) (fun _ _ => mzero) (Fea 0) Vel = mzero).
  { unfold cong. transitivity (msum (segs ex_n) (fun _ => mzero)); [|apply msum_zero]. apply msum_ext. intros a _. transitivity (msum (segs ex_n) (fun _ => mzero)); [|apply msum_zero]. apply msum_ext. intros b _. now rewrite mm_0_r, mm_0_l. }
  change (k_x ex_F) with ex_x in U'. rewrite Z, madd_0_r in U'. clear Z. revert U'.
  set (J := jac_state ex_n ex_P ex_still ex_x 1). unfold cong, segs, ex_n. cbn [d_cam d_max d_pose map seq app msum fold_right].
  change (k_P ex_F) with ex_cov. cbn [reset_slot ex_cov Nat.eqb]. rewrite !mm_0_r, !mm_0_l, !madd_0_l.
  rewrite !madd_0_r, mm_1_r.
  assert (JV : J Vel Vel = m1).
  { unfold J, jac_state. unfold ex_still, ex_x. cbn [i_gyr x_gyb]. unfold vsub, vscale, v0, skew, mneg, madd, vneg, vadd, m1, vx, vy, vz, r0, r1, r2. cbn [fst snd].
    repeat apply f_equal2; ring. }
  rewrite JV, mt_1, mm_1_r. intros E. apply (f_equal (fun M => vz (r2 M))) in E.
  assert (JR : r2 (J (Fea 0%nat) Vel) = vscale (1 * parameter_derivative (ft_d ex_fea)) (mv (mt m1) (nor m1))) by reflexivity.
  rewrite JR, mt_1, mv_m1 in E. unfold nor in E. rewrite mv_m1 in E. unfold vscale, vz, mzero, r2, v0, parameter_derivative in E. cbn in E. lra.
Qed.

(** the example above is a filter in which the theorems say something: slot 0 is in use, then freed, then
    refilled *)
Example C91_ex_run : forall cams frame logm inv front nth_elt ign track Q, exists G,
  krun ex_n ex_P cams frame logm inv front nth_elt ign track
    {| c_b := {| b_ncam := 1; b_stereo := false; b_cov := fun i j => if (i =? j)%nat then 1 else 0 |}; c_init := 3; c_ratio := 0; c_dold := ft_d ex_fea |}
    ex_F [KFree 0; KPredict ex_still 1 Q; KUse [{| w_slot := 0; w_cam := 0; w_Q := m1; w_type := REGULAR; w_seen := None |}]; KMeas MZero [] 0] = Some G /\
  k_used G 0%nat = true.
Proof.
  intros cams frame logm inv front nth_elt ign track Q. unfold krun. cbn [fold_left]. cbn [kstep].
  cbn [fold_left]. unfold use_slot, depths. cbn [k_used k_x k_P w_slot w_cam w_type w_Q w_seen ex_F Nat.eqb c_b c_ratio].
  eexists. split; [reflexivity|]. reflexivity.
Qed.
(** two filters with the same estimate whose free slots differ *)
Example C91_ex_differs : exists F G, k_used F 0%nat = false /\ same_estimate F G /\ ~ uncorrelated F 0 /\ uncorrelated G 0.
Proof.
  exists {| k_x := ex_x; k_P := fun _ _ => m1; k_used := fun _ => false; k_u := k_u ex_F |}. eexists. split; [reflexivity|]. split; [apply (wipe_same ex_fea)|]. split.
  - intros U. destruct (U Pos ltac:(discriminate)) as [E _]. apply (f_equal (fun M => vx (r0 M))) in E. unfold m1, mzero, v0, r0, vx in E. cbn in E. lra.
  - intros s N. cbn [wipe k_P k_used liveb]. rewrite andb_false_r. cbn [andb]. destruct (seg_eq (Fea 0) s); [congruence|]. destruct (seg_eq s (Fea 0)); [congruence|]. now split.
Qed.

Print Assumptions C91_free_slots_do_not_matter.
Print Assumptions C91_as_good_as_new.
Print Assumptions C91_removal_keeps_the_rest.
Print Assumptions C91_addition_keeps_the_rest.
Print Assumptions C91_entries.
Print Assumptions C91_unassigned_slot.
Print Assumptions C91_freed_slot_uncorrelated_refuted.
