(** C81: the feature tracker node. *)
From Coq Require Import List ZArith QArith Bool Lia.
From Verif Require Import Util StatModel FsetModel FsetSpec FsetProofs FsetAdd FsetProps TrackModel TrackSpec TrackProofs.
Import ListNotations.

(** One image, whatever it shows: the callback ends normally; every feature whose alignment succeeds
    stays in its slot, with its id, at the aligned place and with a fresh patch if it fits; every other
    feature is given up; what is live afterwards is either such a feature or made from an eligible
    candidate under a new id; and candidates are only added (as many as allowed, free and eligible) when
    fewer features than the minimum were found. *)
Theorem C81_image : forall Patch cf (fr : frame Patch) (fs : tset Patch), tracker_params cf -> exists fs', callback cf fr fs = Ok fs' /\ capacity fs' = capacity fs /\
  (forall i f, live fs i f -> ~ lost fr f -> exists g, live fs' i g /\ follows fr f g) /\
  (forall i g, live fs' i g -> (exists f, live fs i f /\ follows fr f g) \/
     ((forall f, live fs i f -> lost fr f) /\ (fs_maxIdx fs <= f_idx g)%Z /\ exists cd, In cd (fr_cands fr) /\ eligible (t_add cf) cd /\ made_from cd g)) /\
  Z.of_nat (n_live fs') = (Z.of_nat (n_found fr fs) + if (n_found fr fs <? t_min cf)%nat
     then Z.min (p_max (t_add cf)) (Z.min (Z.of_nat (capacity fs - n_found fr fs)) (Z.of_nat (n_eligible (t_add cf) (fr_cands fr)))) else 0)%Z /\
  (forall i g, live fs' i g -> k_prev (f_patch g) = f_c g /\ k_status (f_patch g) = TRACKED) /\
  ((0 <= fs_maxIdx fs)%Z -> ids_ok fs -> (0 <= fs_maxIdx fs')%Z /\ ids_ok fs').
Proof.
  intros Patch cf fr fs (SA & RQ & MX). unfold callback. destruct (followed_capacity fr fs) as [FC FM].
  assert (FL : n_live (followed fr fs) = n_found fr fs) by (rewrite <- valid_count_live; apply followed_count).
  assert (IDS : (0 <= fs_maxIdx fs)%Z -> ids_ok fs -> ids_ok (followed fr fs)).
  { intros Z0 [I1 I2]. split.
    - intros i g H. apply followed_live in H as (f & L & F). destruct (found_follows _ _ _ F) as ((c & _ & _ & E & _) & _). rewrite E, FM. eauto.
    - intros i j g g' H H' E. apply followed_live in H as (f & L & F). apply followed_live in H' as (f' & L' & F').
      destruct (found_follows _ _ _ F) as ((c & _ & _ & E1 & _) & _). destruct (found_follows _ _ _ F') as ((c' & _ & _ & E2 & _) & _). apply (I2 i j f f'); congruence. }
  rewrite followed_count. destruct (n_found fr fs <? t_min cf)%nat eqn:LT.
  - destruct (C10_bucketing_never_out_of_range _ (t_add cf) (fr_cands fr) (fun f => Some (f_c f)) (fr_choose fr) (followed fr fs) SA) as (fs1 & news & E). rewrite E. cbn [rbind fst snd].
    exists (mark_all news fs1). split; [reflexivity|].
    destruct (C06_budget_and_capacity_respected _ _ _ _ _ _ _ _ E) as (_ & _ & CC & ND & NI & NO & NL).
    destruct (mark_all_rest news fs1) as (M1 & M2 & M3). rewrite M1, M2, M3, CC, FC.
    assert (NEW : forall i, In i (map fst news) -> exists k cd, nth_error (fr_cands fr) k = Some cd /\ eligible (t_add cf) cd /\ exists j : nat,
       live (mark_all news fs1) i (mark {| f_idx := fs_maxIdx fs + Z.of_nat j; f_cam := p_cam (t_add cf); f_c := cd_c cd; f_warpid := true; f_patch := cd_p cd |})).
    { intros i Hi. apply in_map_iff in Hi as ((i' & c) & <- & Hic). cbn [fst]. destruct (In_nth_error _ _ Hic) as (j & Hj).
      destruct (C06_added_feature_is_the_candidate _ _ _ _ _ _ _ _ _ _ _ E Hj) as (cd & C1 & C2). exists c, cd. split; [exact C1|]. split.
      - destruct (proj1 (proj2 (C07_each_candidate_once_and_above_min_score _ _ _ _ _ _ _ _ SA E)) _ _ Hic) as (cd' & C1' & C3 & _). unfold eligible. congruence.
      - exists j. unfold live in *. rewrite mark_all_nth, C2. cbn [option_map].
        replace (existsb (Nat.eqb i') (map fst news)) with true; [cbn [sl_valid sl_feat]; now rewrite FM|]. symmetry. apply existsb_exists. exists i'. split; [apply in_map_iff; exists (i', c); auto|apply Nat.eqb_refl]. }
    assert (OLD : forall i, ~ In i (map fst news) -> nth_error (fs_slots (mark_all news fs1)) i = nth_error (fs_slots (followed fr fs)) i).
    { intros i Hi. rewrite mark_all_nth, (NO i Hi). replace (existsb (Nat.eqb i) (map fst news)) with false; [destruct (nth_error _ i); reflexivity|].
      symmetry. apply not_true_is_false. intros X. apply existsb_exists in X as (i' & X & Y). apply Nat.eqb_eq in Y. subst. contradiction. }
    assert (CAS : forall i g, live (mark_all news fs1) i g -> (exists f, live fs i f /\ found fr f = Some g) \/
       (In i (map fst news) /\ exists k cd j, nth_error (fr_cands fr) k = Some cd /\ eligible (t_add cf) cd /\ g = mark {| f_idx := fs_maxIdx fs + Z.of_nat j; f_cam := p_cam (t_add cf); f_c := cd_c cd; f_warpid := true; f_patch := cd_p cd |})).
    { intros i g L. destruct (in_dec Nat.eq_dec i (map fst news)) as [I|N].
      - right. split; [exact I|]. destruct (NEW i I) as (k & cd & C1 & C2 & j & L'). exists k, cd, j. split; [exact C1|]. split; [exact C2|]. unfold live in L, L'. congruence.
      - left. unfold live in L. rewrite (OLD i N) in L. now apply followed_live in L. }
    split; [reflexivity|]. split; [|split; [|split; [|split]]].
    + intros i f L NLo. destruct (found fr f) as [g|] eqn:F; [|exfalso; apply NLo; now apply found_none].
      exists g. split; [|now apply found_follows]. assert (LF : live (followed fr fs) i g) by (apply followed_live; eauto).
      unfold live. rewrite OLD; [exact LF|]. intros I. apply NI in I as [(f0 & X) _]. unfold live in LF. congruence.
    + intros i g L. destruct (CAS i g L) as [(f & L1 & F)|(I & k & cd & j & C1 & C2 & ->)].
      * left. exists f. split; [exact L1|]. now apply found_follows.
      * right. split; [|split].
        -- intros f Lf. apply found_none. destruct (found fr f) as [g'|] eqn:F; [|reflexivity]. exfalso. assert (LF : live (followed fr fs) i g') by (apply followed_live; eauto).
           apply NI in I as [(f0 & X) _]. unfold live in LF. congruence.
        -- cbn. lia.
        -- exists cd. split; [eapply nth_error_In; eauto|]. split; [exact C2|]. split; reflexivity.
    + rewrite NL, FL, Nat2Z.inj_add. f_equal. rewrite (C08_adds_exactly_the_maximum _ _ _ _ _ _ _ _ SA RQ MX E).
      replace (n_free (followed fr fs)) with (capacity fs - n_found fr fs)%nat; [reflexivity|]. pose proof (n_live_free (followed fr fs)) as X. rewrite FL, FC in X. lia.
    + intros i g L. destruct (CAS i g L) as [(f & L1 & F)|(I & k & cd & j & C1 & C2 & ->)].
      * now apply found_follows in F as (_ & X & Y).
      * split; reflexivity.
    + intros Z0 I0. destruct (C05_candidates_keep_ids_distinct _ _ _ _ _ _ _ _ E ltac:(rewrite FM; exact Z0) (IDS Z0 I0)) as (Z1 & I1 & I2). split; [exact Z1|].
      assert (BACK : forall i g, live (mark_all news fs1) i g -> exists f, live fs1 i f /\ f_idx f = f_idx g).
      { intros i g L. unfold live in *. rewrite mark_all_nth in L. destruct (nth_error (fs_slots fs1) i) as [[v f]|]; [|discriminate]. cbn [option_map sl_valid sl_feat] in L.
        destruct (existsb _ _); injection L as -> <-; eexists; (split; [reflexivity|reflexivity]). }
      split.
      * intros i g L. destruct (BACK i g L) as (f & L1 & <-). rewrite M2. eauto.
      * intros i j g g' L L' EQ. destruct (BACK i g L) as (f & L1 & E1). destruct (BACK j g' L') as (f' & L2 & E2). apply (I2 i j f f'); congruence.
  - exists (followed fr fs). split; [reflexivity|]. split; [exact FC|]. split; [|split; [|split; [|split]]].
    + intros i f L NLo. destruct (found fr f) as [g|] eqn:F; [|exfalso; apply NLo; now apply found_none].
      exists g. split; [apply followed_live; eauto|now apply found_follows].
    + intros i g L. apply followed_live in L as (f & L1 & F). left. exists f. split; [exact L1|]. now apply found_follows.
    + rewrite FL. lia.
    + intros i g L. apply followed_live in L as (f & L1 & F). now apply found_follows in F as (_ & X & Y).
    + intros Z0 I0. rewrite FM. split; [exact Z0|]. now apply IDS.
Qed.
(** Every history of images from the start: nothing undefined happens, ids stay distinct, every live
    feature was found in the last image, there are never more features than one below the minimum plus
    the number added at a time, and never more than slots; and the next search starts where the feature
    was found last - the prediction from the last two places never moves it. *)
Theorem C81_history : forall Patch cf (frs : list (frame Patch)) (fs0 : tset Patch), tracker_params cf -> blank fs0 -> (0 < t_min cf)%nat -> exists fs, track cf frs fs0 = Ok fs /\
  ids_ok fs /\ (n_live fs <= capacity fs0)%nat /\ (Z.of_nat (n_live fs) <= Z.of_nat (t_min cf) - 1 + p_max (t_add cf))%Z /\
  (forall i f, live fs i f -> k_status (f_patch f) = TRACKED) /\
  (forall i f, live fs i f -> forall fr, same_place (start_at fr f) (f_c f)).
Proof.
  intros Patch cf frs fs0 TP B M.
  assert (G : forall frs (fs : tset Patch), (0 <= fs_maxIdx fs)%Z -> ids_ok fs -> capacity fs = capacity fs0 -> (Z.of_nat (n_live fs) <= Z.of_nat (t_min cf) - 1 + p_max (t_add cf))%Z ->
     (forall i g, live fs i g -> k_prev (f_patch g) = f_c g /\ k_status (f_patch g) = TRACKED) ->
     exists fs', track cf frs fs = Ok fs' /\ ids_ok fs' /\ capacity fs' = capacity fs0 /\ (Z.of_nat (n_live fs') <= Z.of_nat (t_min cf) - 1 + p_max (t_add cf))%Z /\
       (forall i g, live fs' i g -> k_prev (f_patch g) = f_c g /\ k_status (f_patch g) = TRACKED)).
  { clear frs. induction frs as [|fr r IH]; intros fs Z0 I0 C0 N0 P0.
    - exists fs. auto.
    - destruct (C81_image Patch cf fr fs TP) as (fs' & E & C & _ & _ & N & P & I). destruct (I Z0 I0) as [Z1 I1]. cbn [track]. rewrite E. cbn [rbind]. apply IH; auto; [congruence|].
      assert (NF : (n_found fr fs <= n_live fs)%nat).
      { rewrite <- valid_count_live. unfold n_found, valid_count. clear. induction (fs_slots fs) as [|s l IH]; cbn; [lia|]. destruct (sl_valid s); cbn; [|exact IH]. destruct (fr_align _ _ _); cbn; lia. }
      destruct TP as (_ & _ & MX). rewrite N. destruct (Nat.ltb_spec (n_found fr fs) (t_min cf)); lia. }
  destruct B as [B0 B1].
  assert (NO : forall i f, ~ live fs0 i f).
  { intros i f L. unfold n_live in B0. unfold live in L. revert i L. induction (fs_slots fs0) as [|s l IH]; intros [|i] L; cbn in *; try discriminate.
    - injection L as ->. cbn in B0. discriminate.
    - apply (IH ltac:(lia) i L). }
  destruct (G frs fs0) as (fs & E & I & C & N & P).
  - lia.
  - split; [intros i f L; destruct (NO i f L)|intros i j f g L; destruct (NO i f L)].
  - reflexivity.
  - destruct TP as (_ & _ & MX). lia.
  - intros i g L. destruct (NO i g L).
  - exists fs. split; [exact E|]. split; [exact I|]. split; [rewrite <- C; pose proof (n_live_free fs); lia|]. split; [exact N|]. split; [intros i f L; now apply (P i f)|].
    intros i f L fr. destruct (P i f L) as [X _]. unfold start_at, same_place. rewrite X. destruct (f_c f). destruct (fr_in fr false _); cbn [fst snd]; split; ring.
Qed.
(** With the parameters of the node at most 69 of its 100 slots are ever in use. *)
Theorem C81_at_most_69 : forall Patch cf (frs : list (frame Patch)) (fs0 fs : tset Patch), tracker_params cf -> blank fs0 -> t_min cf = 50%nat -> p_max (t_add cf) = 20%Z ->
  track cf frs fs0 = Ok fs -> (n_live fs <= 69)%nat.
Proof.
  intros Patch cf frs fs0 fs TP B M X E. destruct (C81_history Patch cf frs fs0 TP B ltac:(rewrite M; lia)) as (fs' & E' & _ & _ & N & _). rewrite E in E'. injection E' as <-. rewrite M, X in N. lia.
Qed.
(** so a feature that moved is not searched for at the place extrapolated from its last two places *)
Definition tp : params := {| p_nb := 100; p_pow := fun q => q; p_dist := 20; p_pen := 10000; p_max := 20; p_req := true; p_min := 0; p_cam := 0 |}.
Definition tcf : tconf := {| t_min := 50; t_add := tp |}.
Definition empty4 : tset nat := {| fs_slots := repeat {| sl_valid := false; sl_feat := {| f_idx := 0; f_cam := 0; f_c := (0, 0); f_warpid := true; f_patch := {| k_patch := 0%nat; k_prev := (0, 0); k_status := UNKNOWN |} |} |} 4; fs_maxIdx := 0 |}.
Definition fr1 : frame nat := {| fr_in := fun _ _ => true; fr_align := fun _ c => Some c; fr_extract := fun _ => 7%nat;
  fr_cands := [{| cd_c := (30, 30); cd_in := true; cd_s := 5; cd_p := {| k_patch := 3%nat; k_prev := (0, 0); k_status := UNKNOWN |} |}]; fr_choose := fun k _ => k |}.
Definition fr2 : frame nat := {| fr_in := fun _ _ => true; fr_align := fun _ c => Some (fst c + 4, snd c); fr_extract := fun _ => 8%nat; fr_cands := []; fr_choose := fun k _ => k |}.
Lemma tracker_ok : tracker_params tcf /\ blank empty4.
Proof.
  split; [|split; reflexivity]. split; [|split; [reflexivity|cbn; lia]]. constructor.
  - cbn. unfold int_max. lia.
  - cbn [p_pow tcf t_add tp p_nb]. intros r [H0 H1]. split; [now apply Qlt_le_weak|]. apply Qle_trans with (99 * 1)%Q; [|discriminate].
    rewrite (Qmult_comm (inject_Z (100 - 1))), (Qmult_comm 99). apply Qmult_le_compat_r; [exact H1|discriminate].
  - cbn. split; discriminate.
Qed.
Theorem C81_velocity_prediction_refuted : exists cf (fs0 s1 s2 : tset nat) fr1 fr2 i f1 f2, tracker_params cf /\ blank fs0 /\ track cf [fr1] fs0 = Ok s1 /\ live s1 i f1 /\
  track cf [fr1; fr2] fs0 = Ok s2 /\ live s2 i f2 /\ f_idx f1 = f_idx f2 /\ ~ same_place (f_c f1) (f_c f2) /\
  forall fr, ~ same_place (start_at fr f2) (fst (f_c f2) + (3 # 4) * (fst (f_c f2) - fst (f_c f1)), snd (f_c f2) + (3 # 4) * (snd (f_c f2) - snd (f_c f1))).
Proof.
  destruct tracker_ok as [TP B].
  destruct (track tcf [fr1] empty4) as [s1| |] eqn:E1; [|vm_compute in E1; discriminate|vm_compute in E1; discriminate].
  destruct (track tcf [fr1; fr2] empty4) as [s2| |] eqn:E2; [|vm_compute in E2; discriminate|vm_compute in E2; discriminate].
  pose proof (C81_history nat tcf [fr1; fr2] empty4 TP B ltac:(cbn; lia)) as (s & E & _ & _ & _ & _ & P). rewrite E2 in E. injection E as <-.
  vm_compute in E1. injection E1 as E1. assert (E2' := E2). vm_compute in E2'. injection E2' as E2'.
  eexists tcf, empty4, s1, s2, fr1, fr2, 0%nat, _, _. split; [exact TP|]. split; [exact B|]. split; [vm_compute; now rewrite E1|]. split; [rewrite <- E1; reflexivity|].
  split; [exact E2|]. split; [rewrite <- E2'; reflexivity|]. split; [reflexivity|]. split; [intros [X _]; vm_compute in X; discriminate|].
  intros fr [X _]. destruct (P 0%nat _ ltac:(rewrite <- E2'; reflexivity) fr) as [Y _]. rewrite Y in X. vm_compute in X. discriminate.
Qed.
Example C81_ex : exists s i f, track tcf [fr1; fr2; fr2] empty4 = Ok s /\ live s i f /\ n_live s = 1%nat /\ same_place (f_c f) (38, 30) /\ f_idx f = 0%Z /\ k_patch (f_patch f) = 8%nat.
Proof.
  destruct (track tcf [fr1; fr2; fr2] empty4) as [s| |] eqn:E; vm_compute in E; try discriminate. injection E as <-. eexists _, 0%nat, _. split; [reflexivity|]. split; [reflexivity|]. split; [reflexivity|]. repeat split.
Qed.
Print Assumptions C81_image.
Print Assumptions C81_history.
Print Assumptions C81_at_most_69.
Print Assumptions C81_velocity_prediction_refuted.
