(** C91, C94, C95, C96 for histories with images as the code looks at them: no condition on the images. *)
From Coq Require Import Reals List ZArith QArith Bool Arith Lia Lra FunctionalExtensionality.
From Verif Require Import Util Geo Lie DistModel FiltModel OutModel CamModel InnoModel UpdModel CovModel BornModel SlotModel SlotSpec SlotProofs SlotProps KalSpec KalProofs KalProps GaugeSpec GaugeProofs GaugeProps IsoSpec IsoProofs IsoProps.
From Verif Require Import StatModel FsetModel ImgModel ImgProofs ImgProps ImgSim LinkModel LinkSpec LinkProofs LinkProps LinkSim LinkSimProps EyesModel EyesSpec.
Import ListNotations.
Local Open Scope R_scope.

Lemma outlook_ext n frame F G : k_used F = k_used G -> (forall i, k_used F i = true -> x_fea (k_x F) i = x_fea (k_x G) i) ->
  (forall i c d, k_used F i = true -> transfer frame c (k_x F) i d = transfer frame c (k_x G) i d) ->
  (forall i c g s t, k_used F i = true -> mm (mm (transfer_jac frame g c (k_x F) i s) (k_P F s t)) (mt (transfer_jac frame g c (k_x F) i t)) = mm (mm (transfer_jac frame g c (k_x G) i s) (k_P G s t)) (mt (transfer_jac frame g c (k_x G) i t))) ->
  qCM (k_x F) = qCM (k_x G) -> MrMC (k_x F) = MrMC (k_x G) -> outlook_of n frame F = outlook_of n frame G.
Proof.
  intros U K1 K2 K3 K4 K5. unfold outlook_of. rewrite K4, K5. f_equal. apply functional_extensionality; intros i. rewrite <- U. destruct (k_used F i) eqn:V; [|reflexivity].
  f_equal. rewrite (K1 i V). f_equal; apply functional_extensionality; intros a; apply functional_extensionality; intros c; [now apply K2|].
  unfold out_cov. apply msum_ext; intros s _. apply msum_ext; intros t _. now apply K3.
Qed.
Lemma outlook_same n frame F G : same_estimate F G -> outlook_of n frame F = outlook_of n frame G.
Proof.
  intros [U _ S C]. apply outlook_ext; auto.
  - intros i V. exact (ss_fea _ _ _ S i V).
  - intros i c d V. now apply (transfer_same frame (k_used F)).
  - intros i c g s t V. rewrite !(transfer_jac_same frame (k_used F) g c i (k_x F) (k_x G) _ V S).
    destruct (live_dec (k_used F) s) as [Ls|(j & -> & Vj)]; [|rewrite (transfer_jac_other frame g c (k_x G) i j) by (intros ->; congruence); now rewrite !mm_0_l].
    destruct (live_dec (k_used F) t) as [Lt|(j & -> & Vj)]; [now rewrite (C s t Ls Lt)|]. rewrite (transfer_jac_other frame g c (k_x G) i j) by (intros ->; congruence). now rewrite mt_0, !mm_0_r.
  - ssplit S. reflexivity.
  - ssplit S. reflexivity.
Qed.
Lemma turn_inner Y iw s : inner s -> turn Y iw s = m1.
Proof. destruct s; cbn; try tauto; reflexivity. Qed.
Lemma outlook_moved n frame Y t iw F : outlook_of n frame (moved Y t iw F) = outlook_of n frame F.
Proof.
  apply outlook_ext; try reflexivity. intros i c g s r _. cbn [moved k_x k_P].
  change (transfer_jac frame g c (moved_state Y t iw (k_x F)) i s) with (transfer_jac frame g c (k_x F) i s). change (transfer_jac frame g c (moved_state Y t iw (k_x F)) i r) with (transfer_jac frame g c (k_x F) i r).
  destruct (inner_dec s) as [Is|Is]; [|rewrite (transfer_outer frame g c i (k_x F) s Is); now rewrite !mm_0_l].
  destruct (inner_dec r) as [Ir|Ir]; [|rewrite (transfer_outer frame g c i (k_x F) r Ir); now rewrite mt_0, !mm_0_r].
  unfold turned. rewrite (turn_inner Y iw s Is), (turn_inner Y iw r Ir), mt_1, mm_1_l, mm_1_r. reflexivity.
Qed.
Lemma outlook_but n frame xp xv F G : (xv = true -> a_calib (x_aux (k_x F)) = false) -> same_but xp xv F G -> outlook_of n frame F = outlook_of n frame G.
Proof.
  intros CA K. pose proof (but_st _ _ _ _ K CA) as S. apply outlook_ext.
  - exact (sb_used _ _ _ _ K).
  - intros i _. now rewrite (sb_fea _ _ _ _ K).
  - intros i c d _. now apply (transfer_but frame xp xv).
  - intros i c g s t _. destruct (counts xp xv s) eqn:Cs.
    + destruct (counts xp xv t) eqn:Ct; [now rewrite (sb_cov _ _ _ _ K s t Cs Ct), !(transfer_jac_but frame xp xv g c i _ _ S)|].
      rewrite <- !(transfer_jac_but frame xp xv g c i _ _ S), (transfer_jac_aside frame xp xv g c i _ t (b_cal _ _ _ _ S) Ct), mt_0. now rewrite !mm_0_r.
    + rewrite <- !(transfer_jac_but frame xp xv g c i _ _ S), (transfer_jac_aside frame xp xv g c i _ s (b_cal _ _ _ _ S) Cs). now rewrite !mm_0_l.
  - bsplit S. cases xp xv Hv Hp Hc; reflexivity.
  - bsplit S. cases xp xv Hv Hp Hc; reflexivity.
Qed.
Lemma eyes_alike {Patch H} n frame (E : kf -> kf -> Prop) (e : eyes Patch H) : (forall F G, E F G -> outlook_of n frame F = outlook_of n frame G) -> sees_alike E (looking n frame e).
Proof. intros K. constructor; intros; cbn [looking s_moving s_pre s_meas s_tracked s_patch s_cands s_proj s_choose s_new s_hidden]; now rewrite (K F G). Qed.
Lemma all_alike {Patch H} n frame (E : kf -> kf -> Prop) (es : list (event Patch H)) : (forall F G, E F G -> outlook_of n frame F = outlook_of n frame G) -> Forall (as_coded n frame) es -> Forall (event_alike E) es.
Proof. intros K. apply Forall_impl. intros [| | |t s]; try exact (fun _ => I). intros (e & ->). now apply eyes_alike. Qed.

Theorem C91_images_as_coded : forall Patch H n P cams frame logm inv front nth_elt ign track ic zc cf fuel (es : list (event Patch H)) (x : ist Patch (world H)) F G,
  w_F (i_w x) = Some F -> in_step x F -> same_estimate F G -> Forall (as_coded n frame) es ->
  same_course same_estimate (history n P cams frame logm inv front nth_elt ign track ic zc cf fuel x es)
                            (history n P cams frame logm inv front nth_elt ign track ic zc cf fuel (with_filter G x) es).
Proof. intros. eapply C91_with_images; eauto. eapply all_alike; eauto. intros. now apply outlook_same. Qed.
Print Assumptions C91_images_as_coded.

Theorem C94_images_as_coded : forall Patch H n P cams frame logm inv front nth_elt ign track ic zc cf fuel (es : list (event Patch H)) (x : ist Patch (world H)) F Y t iw,
  heading_rotation (p_g P) Y -> w_F (i_w x) = Some F -> in_step x F ->
  Forall (event_fits t iw) es -> Forall (as_coded n frame) es ->
  same_course (fun F G => G = moved Y t iw F)
    (history n P cams frame logm inv front nth_elt ign track ic zc cf fuel x es)
    (history n P cams frame logm inv front nth_elt ign track ic zc cf fuel (with_filter (moved Y t iw F) x) (map (moved_event Y iw) es)).
Proof. intros. apply C94_with_images; auto. eapply all_alike; eauto. intros A B ->. now rewrite outlook_moved. Qed.
Print Assumptions C94_images_as_coded.

Theorem C95_images_as_coded : forall Patch H n P cams frame logm inv front nth_elt ign track ic zc cf fuel (es : list (event Patch H)) (x : ist Patch (world H)) F,
  w_F (i_w x) = Some F -> in_step x F -> separated (k_P F) ->
  Forall event_no_feedback es -> Forall (as_coded n frame) es ->
  same_course (same_but true false)
    (history n P cams frame logm inv front nth_elt ign track ic zc cf fuel x es)
    (history n P cams frame logm inv front nth_elt ign track ic zc cf fuel x (filter event_not_pose es)).
Proof. intros. eapply C95_with_images; eauto. eapply all_alike; eauto. intros A B K. apply (outlook_but n frame true false); [discriminate|exact K]. Qed.
Print Assumptions C95_images_as_coded.

Theorem C96_images_as_coded : forall Patch H n P cams frame logm inv front nth_elt ign track ic zc cf fuel (es : list (event Patch H)) (x : ist Patch (world H)) F G,
  w_F (i_w x) = Some F -> in_step x F -> a_calib (x_aux (k_x F)) = false -> same_but false true F G ->
  Forall (as_coded n frame) es ->
  same_course (same_but false true)
    (history n P cams frame logm inv front nth_elt ign track ic zc cf fuel x es)
    (history n P cams frame logm inv front nth_elt ign track ic zc cf fuel (with_filter G x) es).
Proof. intros. eapply C96_with_images; eauto. eapply all_alike; eauto. intros A B [K C]. apply (outlook_but n frame false true); auto. Qed.
Print Assumptions C96_images_as_coded.

(** ** Example *)
(** eyes that use all of the outlook: the distance of a feature, its transfer to the camera, the covariance
    there and the base line *)
Definition exl_eyes : eyes nat unit := {|
  e_moving o _ := match o_slots o 0%nat with Some g => if Rlt_dec 1 (get_distance (ft_d (gl_fea g))) then true else false | None => false end;
  e_pre o _ i c := match o_slots o i with Some g => match gl_there g (ft_d (gl_fea g)) c with Some _ => PFound | None => PNotInFrame end | None => PFailed end;
  e_meas o _ i c := match o_slots o i with Some g => if Rlt_dec (vz (r2 (gl_cov g false c))) 9 then Some (ft_d (gl_fea g), inl (0, 0)%R, unit_noise, 1%nat) else None | None => None end;
  e_tracked o _ _ c := if Rlt_dec (norm (o_MrMC o c)) 1 then true else false; e_patch o _ i := Some i;
  e_cands _ _ c := ex_cands c; e_proj _ _ _ f := Some (f_c f); e_choose _ _ _ _ _ := 0%nat; e_new _ _ _ _ := (m1, REGULAR, None); e_hidden _ _ h := h |}.
Example C94_ex_coded : forall n frame, Forall (as_coded n frame) [VImu ex_still 1 ex_cov; VImage 1 (looking n frame exl_eyes)].
Proof. intros n frame. constructor; [exact I|]. constructor; [|constructor]. cbn [as_coded]. now exists exl_eyes. Qed.
Example C94_ex_found : forall n frame, s_pre (looking n frame exl_eyes) ex_F tt 0 0 = PFound /\ s_pre (looking n frame exl_eyes) ex_F tt 1 0 = PFailed.
Proof. intros n frame. split; reflexivity. Qed.
