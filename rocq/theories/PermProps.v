(** C98: the numbering of the feature slots. *)
From Coq Require Import Reals ZArith List Bool Arith Lia Lra FunctionalExtensionality.
From Verif Require Import Geo Lie DistModel FiltModel OutModel CamModel InnoModel UpdModel CovModel CovSpec CovProps BornModel SlotModel SlotSpec SlotProofs SlotProps PermSpec PermProofs.
Import ListNotations.
Local Open Scope R_scope.

(** The slots only name the features. With the features kept in other slots, and every event referring to
    the new slots, every history leads to the same filter, up to the numbering. *)
Theorem C98_any_numbering : forall n P cams frame logm inv front nth_elt ign track ic f b l F, renumbering n f b -> nth_element_spec nth_elt ->
  krun n P cams frame logm inv front nth_elt ign track ic (renumbered b F) (map (renumbered_op f b) l) =
  option_map (renumbered b) (krun n P cams frame logm inv front nth_elt ign track ic F l).
Proof. intros. now apply run_renumbered. Qed.
(** motion, biases, extrinsics and poses, and their covariance, are the same *)
Theorem C98_motion : forall n P cams frame logm inv front nth_elt ign track ic f b l F G, renumbering n f b -> nth_element_spec nth_elt ->
  krun n P cams frame logm inv front nth_elt ign track ic F l = Some G ->
  exists G', krun n P cams frame logm inv front nth_elt ign track ic (renumbered b F) (map (renumbered_op f b) l) = Some G' /\
    same_motion (k_x G) (k_x G') /\ k_u G' = k_u G /\ (forall i, k_used G' (f i) = k_used G i /\ x_fea (k_x G') (f i) = x_fea (k_x G) i) /\
    forall s t, k_P G' (renumbered_seg f s) (renumbered_seg f t) = k_P G s t.
Proof.
  intros n P cams frame logm inv front nth_elt ign track ic f b l F G RN NE E. exists (renumbered b G). rewrite C98_any_numbering, E by assumption.
  split; [reflexivity|]. split; [repeat split|]. split; [reflexivity|]. split.
  - intros i. cbn. now rewrite (bf n f b RN).
  - intros s t. cbn [k_P renumbered]. unfold renumbered_cov. f_equal; [destruct s|destruct t]; cbn; rewrite ?(bf n f b RN); reflexivity.
Qed.

(** Which of two free slots a new feature gets makes no difference. *)
Lemma exchange_self n i j : (i < d_max n)%nat -> (j < d_max n)%nat -> renumbering n (exchange i j) (exchange i j).
Proof.
  intros Hi Hj. assert (E : forall k, exchange i j (exchange i j k) = k).
  { intros k. unfold exchange. destruct (Nat.eqb_spec k i); [subst; rewrite Nat.eqb_refl; destruct (Nat.eqb_spec j i); congruence|].
    destruct (Nat.eqb_spec k j); [subst; now rewrite Nat.eqb_refl|]. destruct (Nat.eqb_spec k i); [contradiction|]. destruct (Nat.eqb_spec k j); [contradiction|reflexivity]. }
  split; auto. intros k. unfold exchange. destruct (Nat.eqb_spec k i); [subst; tauto|]. destruct (Nat.eqb_spec k j); [subst; tauto|tauto].
Qed.
Lemma exchange_free i j F : k_used F i = false -> k_used F j = false -> same_estimate (renumbered (exchange i j) F) F.
Proof.
  intros Ui Uj. assert (U : forall k, k_used F (exchange i j k) = k_used F k).
  { intros k. unfold exchange. destruct (Nat.eqb_spec k i); [congruence|]. destruct (Nat.eqb_spec k j); congruence. }
  assert (S : forall k, k_used F k = true -> exchange i j k = k).
  { intros k Uk. unfold exchange. destruct (Nat.eqb_spec k i); [congruence|]. destruct (Nat.eqb_spec k j); congruence. }
  split; cbn [k_used k_u k_x k_P renumbered].
  - extensionality k. apply U.
  - reflexivity.
  - split; try reflexivity. intros k Uk. cbn. rewrite U in Uk. now rewrite S.
  - intros s t Ls Lt. unfold renumbered_cov. f_equal; [destruct s|destruct t]; try reflexivity; cbn in *; rewrite U in *; now rewrite S.
Qed.
Theorem C98_choice_of_the_slot : forall n P cams frame logm inv front nth_elt ign track ic i j l F, (i < d_max n)%nat -> (j < d_max n)%nat ->
  k_used F i = false -> k_used F j = false -> nth_element_spec nth_elt ->
  same_result (krun n P cams frame logm inv front nth_elt ign track ic F (map (renumbered_op (exchange i j) (exchange i j)) l))
              (option_map (renumbered (exchange i j)) (krun n P cams frame logm inv front nth_elt ign track ic F l)).
Proof.
  intros n P cams frame logm inv front nth_elt ign track ic i j l F Hi Hj Ui Uj NE.
  rewrite <- (C98_any_numbering n P cams frame logm inv front nth_elt ign track ic _ _ l F (exchange_self n i j Hi Hj) NE).
  apply C91_free_slots_do_not_matter. pose proof (exchange_free i j F Ui Uj) as [A B [] D].
  assert (U : forall k, k_used F k = k_used (renumbered (exchange i j) F) k) by now rewrite A.
  split; [now symmetry..| |]; [split; try now symmetry|].
  - intros k Hk. symmetry. apply ss_fea. now rewrite <- U.
  - intros s t Hs Ht. symmetry. apply D; now rewrite A.
Qed.
(** with one noise setting for all features, the events themselves only differ in the slots *)
Lemma same_noise : forall f b o, same_noise_for_all b o ->
  match o with KPredict m dt Q => renumbered_op f b o = o | _ => True end.
Proof.
  intros f b [m dt Q| | | | |] H; try exact I. cbn. f_equal. extensionality s. extensionality t. apply H.
Qed.

(** two free slots, and a history that puts features into both, one after the other *)
Definition two : dims := {| d_cam := 1; d_max := 2; d_pose := 0 |}.
Definition free_F : kf := {| k_x := ex_x; k_P := k_P ex_F; k_used := fun _ => false; k_u := k_u ex_F |}.
Definition at_slot (i : nat) : newf := {| w_slot := i; w_cam := 0; w_Q := m1; w_type := REGULAR; w_seen := None |}.
Definition even_noise : bmat := fun s t => if seg_eq s t then m1 else mzero.
Definition two_hist : list kop := [KUse [at_slot 0]; KPredict ex_still 1 even_noise; KUse [at_slot 1]; KFree 0].
Example C98_ex : renumbering two (exchange 0 1) (exchange 0 1) /\ k_used free_F 0%nat = false /\ k_used free_F 1%nat = false /\
  Forall (same_noise_for_all (exchange 0 1)) two_hist /\ nth_element_spec (fun l _ => isort l) /\
  map (renumbered_op (exchange 0 1) (exchange 0 1)) two_hist = [KUse [at_slot 1]; KPredict ex_still 1 even_noise; KUse [at_slot 0]; KFree 1].
Proof.
  assert (N : same_noise_for_all (exchange 0 1) (KPredict ex_still 1 even_noise)).
  { intros s t. unfold even_noise. pose proof (exchange_self two 0 1 ltac:(cbn; lia) ltac:(cbn; lia)) as RN.
    destruct (seg_eq s t) as [->|D]; [now destruct (seg_eq _ _)|]. destruct (seg_eq _ _) as [E|_]; [|reflexivity].
    apply (bk_inj two _ _ RN) in E. contradiction. }
  split; [apply exchange_self; cbn; lia|]. split; [reflexivity|]. split; [reflexivity|]. split; [|split].
  - unfold two_hist. apply Forall_cons; [exact I|]. apply Forall_cons; [exact N|]. apply Forall_cons; [exact I|]. apply Forall_cons; [exact I|constructor].
  - exact C35_contract_met.
  - cbn [map two_hist]. rewrite (same_noise (exchange 0 1) (exchange 0 1) _ N). reflexivity.
Qed.
(** the run of the example reaches a filter in which slot 1, and only slot 1, is in use *)
Example C98_ex_run : forall cams frame logm inv front nth_elt ign track, exists G,
  krun two ex_P cams frame logm inv front nth_elt ign track
    {| c_b := {| b_ncam := 1; b_stereo := false; b_cov := fun i j => if (i =? j)%nat then 1 else 0 |}; c_init := 3; c_ratio := 0; c_dold := ft_d ex_fea |}
    free_F two_hist = Some G /\ k_used G 0%nat = false /\ k_used G 1%nat = true.
Proof.
  intros cams frame logm inv front nth_elt ign track. unfold krun, two_hist. cbn [fold_left]. cbn [kstep].
  cbn [fold_left]. unfold use_slot, depths. cbn [k_used k_x k_P w_slot w_cam w_type w_Q w_seen free_F at_slot Nat.eqb c_b c_ratio].
  eexists. split; [reflexivity|]. split; reflexivity.
Qed.

Print Assumptions C98_any_numbering.
Print Assumptions C98_motion.
Print Assumptions C98_choice_of_the_slot.
