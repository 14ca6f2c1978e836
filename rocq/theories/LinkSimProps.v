(** C91, C94, C95, C96 for whole histories with images. *)
From Coq Require Import Reals List ZArith QArith Bool Arith Lia Lra FunctionalExtensionality.
From Verif Require Import Util Geo Lie DistModel FiltModel OutModel CamModel InnoModel UpdModel CovModel BornModel SlotModel SlotSpec SlotProofs SlotProps KalSpec KalProofs KalProps GaugeSpec GaugeProofs GaugeProps IsoSpec IsoProofs IsoProps.
From Verif Require Import StatModel FsetModel ImgModel ImgProofs ImgProps ImgSim LinkModel LinkSpec LinkProofs LinkProps LinkSim.
Import ListNotations.
Local Open Scope R_scope.

Lemma alike_weaken {Patch H} (E E' : kf -> kf -> Prop) (s : sight Patch H) : (forall F G, E' F G -> E F G) -> sees_alike E s -> sees_alike E' s.
Proof. intros I [S1 S2 S3 S4 S5 S6 S7 S8 S9 S10]. constructor; intros; auto. Qed.
Lemma course_weaken {Patch H} (E E' : kf -> kf -> Prop) (a b : res (ist Patch (world H))) : (forall F G, E' F G -> E F G) -> same_course E' a b -> same_course E a b.
Proof.
  intros I. unfold same_course. destruct a as [x| |], b as [y| |]; auto. intros (A & B & C & D & K). repeat (split; [assumption|]). destruct (w_F (i_w x)), (w_F (i_w y)); auto.
Qed.

Section Inst.
Context {Patch H : Type}.
Variables (n : dims) (P : FiltModel.params) (cams : nat -> camera) (frame : V3 -> M3) (logm : M3 -> V3) (inv : list (list R) -> list (list R))
  (front : feat -> bool) (nth_elt : list R -> nat -> list R) (ign track : bool) (ic : icfg) (zc : zcfg) (cf : config).
Notation step := (kstep n P cams frame logm inv front nth_elt ign track ic).
Notation history := (history n P cams frame logm inv front nth_elt ign track ic zc cf).
Notation respects := (respects n P cams frame logm inv front nth_elt ign track ic).
Notation related := (related n P cams frame logm inv front nth_elt ign track ic).
Notation ist := (ist Patch (world H)).
Lemma course E fuel es fs (x : ist) F G : respects E -> related E es fs -> w_F (i_w x) = Some F -> in_step x F -> E F G -> same_course E (history fuel x es) (history fuel (with_filter G x) fs).
Proof.
  intros RE RL A I K. pose proof (related_histories n P cams frame logm inv front nth_elt ign track ic zc cf E RE fuel es fs RL x (with_filter G x)) as T.
  assert (R : paired E x (with_filter G x)).
  { split; [constructor; try reflexivity; split; [cbn [with_filter i_w w_F]; rewrite A; exact K|split; reflexivity]|]. intros F' A'. rewrite A in A'. now injection A' as <-. }
  destruct (T R) as [a b [[S1 S2 S3 S4 S5 (S6 & S7 & S8)] _]| |].
  - cbn [same_course]. repeat (split; [assumption|]). exact S6.
  - exact Logic.I.
  - exact Logic.I.
Qed.
Lemma course_refl E fuel es fs (x : ist) F : respects E -> related E es fs -> w_F (i_w x) = Some F -> in_step x F -> E F F -> same_course E (history fuel x es) (history fuel x fs).
Proof.
  intros RE RL A I K. assert (X : with_filter F x = x) by (destruct x as [? ? ? ? [? ? ?] ?]; cbn in *; unfold with_filter; cbn; now rewrite A). rewrite <- X at 2. now apply course with (F := F).
Qed.
(** ** free slots *)
Lemma step_est F G o : same_estimate F G -> both same_estimate (step F o) (step G o).
Proof. exact (step_same n P cams frame logm inv front nth_elt ign track ic F G o). Qed.
Lemma respects_estimate : respects same_estimate.
Proof.
  constructor.
  - intros F G o _ K. exact (step_same n P cams frame logm inv front nth_elt ign track ic F G o K).
  - intros p F G w K. exact (use_same track ic p F G w K).
  - intros F G K. apply functional_extensionality. intros c. unfold depths. destruct (Rlt_dec 0 (c_ratio ic)); [|reflexivity]. now apply median_same.
  - intros F G i K U. now apply (ss_fea _ _ _ (se_state _ _ K)).
  - intros F G K. exact (ss_aux _ _ _ (se_state _ _ K)).
Qed.
Lemma related_estimate (es : list (event Patch H)) : Forall (event_alike same_estimate) es -> related same_estimate es es.
Proof.
  induction 1 as [|e es A _ IH]; [constructor|]. destruct e as [m dt Q|c m Rn k|q v Rn k|t s]; [| | |now constructor].
  all: eapply re_both; [reflexivity|reflexivity| |exact IH]; intros F G K; now apply step_est.
Qed.
(** ** world frame *)
Section Frame.
Variables (Y : M3) (t : V3) (iw : nat -> bool).
Hypothesis HY : heading_rotation (p_g P) Y.
Definition framed_as (F G : kf) : Prop := G = moved Y t iw F.
Lemma both_map (f : kf -> kf) a b : b = option_map f a -> both (fun F G => G = f F) a b. Proof. intros ->. destruct a; reflexivity. Qed.
Lemma step_frame F o : pose_fits t iw o -> step (moved Y t iw F) (moved_op Y iw o) = option_map (moved Y t iw) (step F o).
Proof.
  intros PF. pose proof (C94_any_world_frame n P cams frame logm inv front nth_elt ign track ic Y t iw [o] F HY (Forall_cons _ PF (Forall_nil _))) as K. exact K.
Qed.
Lemma respects_frame : respects framed_as.
Proof.
  constructor; unfold framed_as.
  - intros F G o IO ->. apply both_map. rewrite <- step_frame; [f_equal; destruct o as [| | | | |]; try reflexivity; contradiction|]. destruct o as [|ms Rn k| | | |]; try exact I. destruct ms; exact I || contradiction.
  - intros p F G w ->. apply both_map. rewrite <- mvd_zero. rewrite use_moved by (intros ? ? _; reflexivity). destruct (use_slot track ic p F w); cbn [option_map]; [now rewrite mvd_zero|reflexivity].
  - intros F G ->. rewrite <- mvd_zero. symmetry. apply (depths_moved Y t iw cams frame logm). intros ? ? _. reflexivity.
  - intros F G i -> _. reflexivity.
  - intros F G ->. reflexivity.
Qed.
Lemma related_frame (es : list (event Patch H)) : Forall (event_fits t iw) es -> Forall (event_alike framed_as) es -> related framed_as es (map (moved_event Y iw) es).
Proof.
  intros FI AL. revert FI. induction AL as [|e es A _ IH]; intros FI; [constructor|]. inversion FI as [|? ? F1 F2]; subst. cbn [map]. destruct e as [m dt Q|c m Rn k|q v Rn k|t0 s]; [| | |constructor; auto].
  all: eapply re_both; [reflexivity|reflexivity| |now apply IH]; intros F G ->; apply both_map.
  - apply (step_frame F (KPredict m dt Q)). exact I.
  - apply (step_frame F (KMeas (MPose c m) Rn k)). exact F1.
  - apply (step_frame F (KMeas (MVel q v) Rn k)). exact I.
Qed.
End Frame.
(** ** external poses and extrinsics *)
Lemma depths_but xp xv F G : (xv = true -> a_calib (x_aux (k_x F)) = false) -> same_but xp xv F G -> depths n frame front nth_elt ic F = depths n frame front nth_elt ic G.
Proof.
  intros C K. pose proof K as [Hu _ _ _ _ _ _ _ _ Hpose Hc]. pose proof (but_st _ _ _ _ K C) as S.
  apply functional_extensionality. intros k. unfold depths. destruct (Rlt_dec 0 (c_ratio ic)); [|reflexivity]. unfold median_of, median. rewrite <- Hu. do 2 f_equal.
  all: assert (M : map (fun i => (k_used F i, seen_in n frame front (c_dold ic) k (k_x F) (k_P F) i)) (seq 0 (d_max n)) = map (fun i => (k_used F i, seen_in n frame front (c_dold ic) k (k_x G) (k_P G) i)) (seq 0 (d_max n))) by (apply map_ext; intros i; now rewrite (seen_but n frame front (c_dold ic) k xp xv (k_x F) (k_x G) (k_P F) (k_P G) i S Hc)).
  all: now rewrite M.
Qed.
Definition aside (F G : kf) : Prop := same_but true false F G /\ separated (k_P F).
Definition fixed (F G : kf) : Prop := same_but false true F G /\ a_calib (x_aux (k_x F)) = false.
Lemma step_aside F G o : not_pose o = true -> without_feedback o -> aside F G -> both aside (step F o) (step G o).
Proof.
  intros NP WF [K S]. assert (FO : fine true o) by (destruct o as [| [] | | | |]; cbn [fine usable not_pose] in *; auto; discriminate).
  pose proof (but_step n P cams frame logm inv front nth_elt ign track ic true false F G o (fun Z => ltac:(discriminate)) FO K) as U.
  destruct (step F o) as [F'|] eqn:ST, (step G o) as [G'|]; try contradiction; cbn [both]; [|exact I]. split; [exact U|]. exact (sep_step n P cams frame logm inv front nth_elt ign track ic F o F' NP WF ST S).
Qed.
Lemma step_fixed F G o : fixed F G -> both fixed (step F o) (step G o).
Proof.
  intros [K S]. assert (FO : fine false o) by (destruct o as [| [] | | | |]; exact I || reflexivity).
  pose proof (but_step n P cams frame logm inv front nth_elt ign track ic false true F G o (fun _ => S) FO K) as U.
  destruct (step F o) as [F'|] eqn:ST, (step G o) as [G'|]; try contradiction; cbn [both]; [|exact I]. split; [exact U|]. now rewrite (calib_step n P cams frame logm inv front nth_elt ign track ic F o F' ST).
Qed.
Lemma respects_aside : respects aside.
Proof.
  constructor.
  - intros F G o IO K. apply step_aside; [| |exact K]; destruct o as [| [] | | | |]; cbn in *; auto; contradiction.
  - intros p F G w [K S]. pose proof (but_use track ic true false p F G w (fun Z => ltac:(discriminate)) K) as U.
    destruct (use_slot track ic p F w) as [F'|] eqn:ST, (use_slot track ic p G w) as [G'|]; try contradiction; cbn [both]; [|exact I]. split; [exact U|]. exact (sep_use track ic p F w F' ST S).
  - intros F G [K _]. now apply (depths_but true false); [discriminate|].
  - intros F G i [K _] _. now rewrite (sb_fea _ _ _ _ K).
  - intros F G [K _]. exact (sb_aux _ _ _ _ K).
Qed.
Lemma respects_fixed : respects fixed.
Proof.
  constructor.
  - intros F G o _ K. now apply step_fixed.
  - intros p F G w [K S]. pose proof (but_use track ic false true p F G w (fun _ => S) K) as U.
    destruct (use_slot track ic p F w) as [F'|] eqn:ST, (use_slot track ic p G w) as [G'|]; try contradiction; cbn [both]; [|exact I]. split; [exact U|]. now rewrite (calib_use track ic p F w F' ST).
  - intros F G [K S]. now apply (depths_but false true).
  - intros F G i [K _] _. now rewrite (sb_fea _ _ _ _ K).
  - intros F G [K _]. exact (sb_aux _ _ _ _ K).
Qed.
Lemma related_aside (es : list (event Patch H)) : Forall event_no_feedback es -> Forall (event_alike (same_but true false)) es -> related aside es (filter event_not_pose es).
Proof.
  intros FI AL. revert FI. induction AL as [|e es A _ IH]; intros FI; [constructor|]. inversion FI as [|? ? F1 F2]; subst. cbn [filter]. destruct e as [m dt Q|c m Rn k|q v Rn k|t0 s]; cbn [event_not_pose].
  - eapply re_both; [reflexivity|reflexivity| |now apply IH]. intros F G K. apply step_aside; [reflexivity|exact F1|exact K].
  - eapply re_left; [reflexivity| |now apply IH]. intros F G [K S]. destruct (pose_step n P cams frame logm inv front nth_elt ign track ic F G c m Rn k F1 S K) as (F' & ST & E' & S'). rewrite ST. now split.
  - eapply re_both; [reflexivity|reflexivity| |now apply IH]. intros F G K. apply step_aside; [reflexivity|exact I|exact K].
  - constructor; [|now apply IH]. cbn [event_alike] in A. revert A. apply alike_weaken. now intros F G [K _].
Qed.
Lemma related_fixed (es : list (event Patch H)) : Forall (event_alike fixed) es -> related fixed es es.
Proof.
  induction 1 as [|e es A _ IH]; [constructor|]. destruct e as [m dt Q|c m Rn k|q v Rn k|t s].
  4: now constructor.
  all: eapply re_both; [reflexivity|reflexivity| |exact IH]; intros F G K; now apply step_fixed.
Qed.
End Inst.

(** What is left in free slots never matters, as long as the images are not searched there. *)
Theorem C91_with_images : forall Patch H n P cams frame logm inv front nth_elt ign track ic zc cf fuel (es : list (event Patch H)) (x : ist Patch (world H)) F G,
  w_F (i_w x) = Some F -> in_step x F -> same_estimate F G -> Forall (event_alike same_estimate) es ->
  same_course same_estimate (history n P cams frame logm inv front nth_elt ign track ic zc cf fuel x es)
                            (history n P cams frame logm inv front nth_elt ign track ic zc cf fuel (with_filter G x) es).
Proof. intros. eapply course; eauto using respects_estimate, related_estimate. Qed.
Print Assumptions C91_with_images.

(** The choice of the world frame does not matter: seen from another frame, any history takes the same course. *)
Theorem C94_with_images : forall Patch H n P cams frame logm inv front nth_elt ign track ic zc cf fuel (es : list (event Patch H)) (x : ist Patch (world H)) F Y t iw,
  heading_rotation (p_g P) Y -> w_F (i_w x) = Some F -> in_step x F ->
  Forall (event_fits t iw) es -> Forall (event_alike (fun F G => G = moved Y t iw F)) es ->
  same_course (fun F G => G = moved Y t iw F)
    (history n P cams frame logm inv front nth_elt ign track ic zc cf fuel x es)
    (history n P cams frame logm inv front nth_elt ign track ic zc cf fuel (with_filter (moved Y t iw F) x) (map (moved_event Y iw) es)).
Proof. intros. eapply course; eauto; [now apply respects_frame|now apply related_frame]. Qed.
Print Assumptions C94_with_images.

(** External poses without feedback make no difference to anything but themselves. *)
Theorem C95_with_images : forall Patch H n P cams frame logm inv front nth_elt ign track ic zc cf fuel (es : list (event Patch H)) (x : ist Patch (world H)) F,
  w_F (i_w x) = Some F -> in_step x F -> separated (k_P F) ->
  Forall event_no_feedback es -> Forall (event_alike (same_but true false)) es ->
  same_course (same_but true false)
    (history n P cams frame logm inv front nth_elt ign track ic zc cf fuel x es)
    (history n P cams frame logm inv front nth_elt ign track ic zc cf fuel x (filter event_not_pose es)).
Proof.
  intros. apply (course_weaken _ aside); [now intros ? ? [K _]|]. eapply course_refl; eauto; [apply respects_aside|now apply related_aside|]. split; [constructor; auto|assumption].
Qed.
Print Assumptions C95_with_images.

(** Extrinsics that are not calibrated: what is estimated about them makes no difference. *)
Theorem C96_with_images : forall Patch H n P cams frame logm inv front nth_elt ign track ic zc cf fuel (es : list (event Patch H)) (x : ist Patch (world H)) F G,
  w_F (i_w x) = Some F -> in_step x F -> a_calib (x_aux (k_x F)) = false -> same_but false true F G ->
  Forall (event_alike (fun F G => same_but false true F G /\ a_calib (x_aux (k_x F)) = false)) es ->
  same_course (same_but false true)
    (history n P cams frame logm inv front nth_elt ign track ic zc cf fuel x es)
    (history n P cams frame logm inv front nth_elt ign track ic zc cf fuel (with_filter G x) es).
Proof.
  intros. apply (course_weaken _ fixed); [now intros ? ? [K _]|]. eapply course; eauto; [apply respects_fixed|now apply related_fixed|now split].
Qed.
Print Assumptions C96_with_images.

(** ** Example *)
(** an image whose effect depends on the velocity, on the distances of the features and on their variances *)
Definition exl_looking : sight nat unit := {|
  s_moving F _ := if Rlt_dec 0 (dot (x_vel (k_x F)) (x_vel (k_x F))) then true else false;
  s_pre F _ i _ := if Rlt_dec 1 (fd_p (ft_d (x_fea (k_x F) i))) then PFound else PNotInFrame;
  s_meas F _ i _ := if Rlt_dec (vz (r2 (k_P F (Fea i) (Fea i)))) 9 then Some (ft_d (x_fea (k_x F) i), inl (0, 0)%R, unit_noise, 1%nat) else None;
  s_tracked F _ i _ := ft_track (x_fea (k_x F) i); s_patch F _ i := Some i;
  s_cands _ _ c := ex_cands c; s_proj _ _ _ f := Some (f_c f); s_choose _ _ _ _ _ := 0%nat; s_new _ _ _ _ := (m1, REGULAR, None); s_hidden _ _ h := h |}.
Example C91_ex_images : sees_alike same_estimate exl_looking.
Proof.
  constructor; intros; try reflexivity; cbn [exl_looking s_moving s_pre s_meas s_tracked].
  - destruct H as [_ _ S _]. now rewrite (ss_vel _ _ _ S).
  - destruct H as [_ _ S _]. now rewrite (ss_fea _ _ _ S i H0).
  - destruct H as [_ _ S C]. now rewrite (ss_fea _ _ _ S i H0), (C (Fea i) (Fea i) H0 H0).
  - destruct H as [_ _ S _]. now rewrite (ss_fea _ _ _ S i H0).
Qed.
Example C94_ex_images : forall Y t iw, sees_alike (fun F G => G = moved Y t iw F) exl_looking.
Proof.
  intros Y t iw. constructor; intros; subst; try reflexivity. cbn [exl_looking s_meas moved moved_state k_x k_P x_fea].
  replace (turned (turn Y iw) (k_P F) (Fea i) (Fea i)) with (k_P F (Fea i) (Fea i)); [reflexivity|]. unfold turned, turn. symmetry. now rewrite mm_1_l, mt_1, mm_1_r.
Qed.
Example C95_ex_images : forall xp xv, sees_alike (same_but xp xv) exl_looking.
Proof.
  intros xp xv. constructor; intros; try reflexivity; cbn [exl_looking s_moving s_pre s_meas s_tracked]; destruct H.
  - now rewrite sb_vel.
  - now rewrite sb_fea.
  - now rewrite sb_fea, (sb_cov (Fea i) (Fea i) eq_refl eq_refl).
  - now rewrite sb_fea.
Qed.
Example C95_ex_start : separated (k_P ex_F) /\ Forall event_no_feedback [VImu ex_still 1 ex_cov; VImage 1 exl_looking] /\ in_step exl_start ex_F.
Proof.
  split; [|split].
  - intros s t Cs Ct. destruct t; try discriminate; destruct s; auto.
  - constructor; [|constructor; [exact I|constructor]]. intros s t Cs Ct. destruct t; try discriminate; destruct s; auto.
  - apply C99_ex_start.
Qed.
