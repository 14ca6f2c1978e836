(** C01 and C04 in IEEE-754 double precision, with or without contraction. *)
From Coq Require Import List ZArith Bool Reals Lia Lra.
From Flocq Require Import Core BinarySingleNaN.
From Verif Require Import Util IeeeModel IeeeReal IeeeProofs StampProofs StatModel StatSpec StatProofs IgoodModel IgoodSpec IgoodProofs.
Import ListNotations.
Local Open Scope R_scope.

(** after any history every reported quality is a finite double between 0 and 1; the largest is the largest *)
Theorem C01_ieee_all_qualities : forall fuse ncam t0 os s, Forall int_ranges os ->
  run (ops64 fuse) (init (ops64 fuse) ncam t0) os = Some s -> (Z.of_nat (length (frames (log_run ncam t0 os))) <= 2147483647)%Z ->
  (forall i q, local_quality (ops64 fuse) s i = Some q -> proper q /\ B2R q <= B2R (max_local_quality64 fuse s)) /\
  (forall i q, local_visibility (ops64 fuse) s i = Some q -> proper q) /\
  proper (average_local_quality (ops64 fuse) s) /\ proper (joint_local_visibility (ops64 fuse) s) /\
  proper (global_quality64 s) /\ proper (max_local_quality64 fuse s) /\
  (ncam = 0%nat \/ exists i, (i < ncam)%nat /\ exists q, local_quality (ops64 fuse) s i = Some q /\ B2R q = B2R (max_local_quality64 fuse s)).
Proof.
  intros fuse ncam t0 os s Ho R Cn. assert (Ho' : Forall ranges_ok os) by (eapply Forall_impl; [|exact Ho]; apply int_ok).
  pose proof (run_proper fuse _ os s (init_ok (ops64 fuse) proper one_proper ncam t0) Ho' R) as K. pose proof (run_abs (ops64 fuse) ncam os t0 s R) as A.
  assert (Z0 : proper (g64_of_Z 0)) by (destruct (of_Z64' 0 ltac:(lia)) as [F0 E0]; split; [exact F0|rewrite E0; lra]).
  destruct (max_ok fuse s (s_cams s) (g64_of_Z 0) Z0 (fun c Hc => proj1 (cams_proper fuse s c K Hc))) as (M1 & M2 & M3 & M4). fold (max_local_quality64 fuse s) in *.
  destruct (getters fuse s K) as (G1 & G2 & G3 & G4). split; [|split; [exact G2|split; [exact G3|split; [exact G4|split; [|split; [exact M1|]]]]]].
  - intros i q E. split; [exact (G1 i q E)|]. unfold local_quality in E. destruct (nth_error (s_cams s) i) as [c|] eqn:Ec; [|discriminate]. injection E as E. rewrite <- E. apply M3. eapply nth_error_In. exact Ec.
  - destruct (tracked_ok ncam s _ A) as [_ T]. apply global_proper; [exact T| |].
    + unfold count_tot. rewrite (ab_tot _ _ _ A). unfold frames in Cn. cbn [length] in Cn. unfold positive_int. lia.
    + apply (run_rg fuse os (init (ops64 fuse) ncam t0)); [unfold positive_int; cbn; lia|exact Ho|exact R].
  - destruct ncam as [|n]; [now left|]. right. destruct (nth_error (s_cams s) 0) as [c0|] eqn:E0; [|apply nth_error_None in E0; rewrite (ab_len _ _ _ A) in E0; lia].
    destruct M4 as [M4|(c & Hc & M4)].
    + exists 0%nat. split; [lia|]. eexists. split; [unfold local_quality; rewrite E0; reflexivity|]. apply nth_error_In in E0. pose proof (M3 c0 E0) as L. destruct (cams_proper fuse s c0 K E0) as [[_ P] _]. 
      assert (V : B2R (max_local_quality64 fuse s) = 0) by (rewrite M4; apply (of_Z64' 0); lia). rewrite V in L |- *. lra.
    + apply In_nth_error in Hc as [i Ei]. exists i. split; [rewrite <- (ab_len _ _ _ A); apply nth_error_Some; congruence|]. eexists. split; [unfold local_quality; rewrite Ei; reflexivity|]. now rewrite M4.
Qed.
Print Assumptions C01_ieee_all_qualities.

(** a feature tracked in some camera in every frame since its creation keeps the quality exactly one: the
    filter does not drift, and it is good *)
Theorem C04_ieee_always_tracked_is_good : forall fuse ncam t0 rq rv rg os s i upper lower,
  positive_int rq -> positive_int rv -> positive_int rg -> (i < ncam)%nat -> Forall no_ranges os ->
  run (ops64 fuse) (set_ranges rq rv rg (init (ops64 fuse) ncam t0)) os = Some s ->
  (Z.of_nat (length (frames (log_run ncam t0 os))) <= 2147483647)%Z ->
  Forall (fun f => seen_as i TRACKED f = true) (frames (log_run ncam t0 os)) -> thresholds upper lower ->
  (exists q v, local_quality (ops64 fuse) s i = Some q /\ local_visibility (ops64 fuse) s i = Some v /\ B2R q = 1 /\ B2R v = 1) /\
  is_good_feature64 fuse s upper lower = true.
Proof.
  intros fuse ncam t0 rq rv rg os s i u l Hq Hv Hg Hi N R C T (Fu & Fl & L & U). split.
  - destruct (StatFilter.filters (ops64 fuse) ncam rq rv rg t0 os s N R) as [X _]. destruct (X i Hi) as [A B]. eexists. eexists. split; [exact A|]. split; [exact B|]. split.
    + exact (proj2 (low_pass_up fuse rq _ _ _ Hq T)).
    + apply (proj2 (low_pass_up fuse rv (visible_in i) (fun _ => true) _ Hv ltac:(eapply Forall_impl; [|exact T]; intros f H; unfold visible_in; now rewrite H))).
  - exact (tracked_good fuse ncam rq rv rg t0 Hq Hv Hg os s N R C u l Fu Fl L i Hi T U).
Qed.
Print Assumptions C04_ieee_always_tracked_is_good.

(** one that fails in every camera in every frame becomes bad, although a rounded product could stay
    where it is: for lower thresholds of at least 1e-9 *)
Theorem C04_ieee_failing_becomes_bad : forall fuse ncam t0 rq rv rg upper lower,
  positive_int rq -> positive_int rv -> positive_int rg -> thresholds upper lower -> / 1000000000 <= B2R lower ->
  exists N : nat, forall os s, Forall no_ranges os ->
    run (ops64 fuse) (set_ranges rq rv rg (init (ops64 fuse) ncam t0)) os = Some s ->
    (forall i, (i < ncam)%nat -> Forall (fun f => failed_in i f = true) (frames (log_run ncam t0 os))) ->
    (N <= length (frames (log_run ncam t0 os)))%nat -> (Z.of_nat (length (frames (log_run ncam t0 os))) <= 2147483647)%Z ->
    is_good_feature64 fuse s upper lower = false.
Proof.
  intros fuse ncam t0 rq rv rg u l Hq Hv Hg (Fu & Fl & L & U) B. destruct (decs_small rq (proj1 Hq) (proj2 Hq) (B2R l / 4) ltac:(lra)) as [N HN]. exists N. intros os s NR R Ff Ln Cn.
  apply (lost_bad fuse ncam rq rv rg t0 Hq Hv Hg os s NR R Cn u l Fu Fl L B ltac:(lra)). intros c Hc. left.
  destruct (in_cam fuse ncam rq rv rg t0 os s R c Hc) as (i & Hi & E). rewrite (proj1 (q_is fuse ncam rq rv rg t0 os s NR R i c Hi E)). rewrite low_pass_down'; [apply HN; exact Ln|].
  eapply Forall_impl; [|exact (Ff i Hi)]. intros f Hf. split; [now apply failed_not_tracked|exact Hf].
Qed.
Print Assumptions C04_ieee_failing_becomes_bad.

(** and so does one that is out of view everywhere *)
Theorem C04_ieee_unseen_becomes_bad : forall fuse ncam t0 rq rv rg upper lower,
  positive_int rq -> positive_int rv -> positive_int rg -> thresholds upper lower -> / 1000000000 <= B2R lower ->
  exists N : nat, forall os s, Forall no_ranges os ->
    run (ops64 fuse) (set_ranges rq rv rg (init (ops64 fuse) ncam t0)) os = Some s ->
    (forall i, (i < ncam)%nat -> Forall (fun f => unseen_in i f = true) (frames (log_run ncam t0 os))) ->
    (N <= length (frames (log_run ncam t0 os)))%nat -> (Z.of_nat (length (frames (log_run ncam t0 os))) <= 2147483647)%Z ->
    is_good_feature64 fuse s upper lower = false.
Proof.
  intros fuse ncam t0 rq rv rg u l Hq Hv Hg (Fu & Fl & L & U) B. destruct (decs_small rv (proj1 Hv) (proj2 Hv) (B2R l / 4) ltac:(lra)) as [N HN]. exists N. intros os s NR R Ff Ln Cn.
  apply (lost_bad fuse ncam rq rv rg t0 Hq Hv Hg os s NR R Cn u l Fu Fl L B ltac:(lra)). intros c Hc. right.
  destruct (in_cam fuse ncam rq rv rg t0 os s R c Hc) as (i & Hi & E). rewrite (proj2 (q_is fuse ncam rq rv rg t0 os s NR R i c Hi E)). rewrite low_pass_down'; [apply HN; exact Ln|].
  eapply Forall_impl; [|exact (Ff i Hi)]. intros f Hf. split; [now apply unseen_not_visible|reflexivity].
Qed.
Print Assumptions C04_ieee_unseen_becomes_bad.

(** lowering the lower threshold never turns a good feature into a bad one *)
Theorem C04_ieee_lower_monotone : forall fuse ncam t0 os s upper lower lower', Forall int_ranges os ->
  run (ops64 fuse) (init (ops64 fuse) ncam t0) os = Some s -> (Z.of_nat (length (frames (log_run ncam t0 os))) <= 2147483647)%Z ->
  thresholds upper lower -> thresholds upper lower' -> B2R lower' <= B2R lower ->
  is_good_feature64 fuse s upper lower = true -> is_good_feature64 fuse s upper lower' = true.
Proof.
  intros fuse ncam t0 os s u l l' Ho R Cn (Fu & Fl & L & U) (_ & Fl' & L' & _) M G. destruct (C01_ieee_all_qualities fuse ncam t0 os s Ho R Cn) as (_ & _ & _ & _ & Q & _).
  assert (Ho' : Forall ranges_ok os) by (eapply Forall_impl; [|exact Ho]; apply int_ok).
  pose proof (run_proper fuse _ os s (init_ok (ops64 fuse) proper one_proper ncam t0) Ho' R) as K.
  apply good_iff64 in G as (c & Hc & G). apply good_iff64. exists c. split; [exact Hc|]. destruct (cams_proper fuse s c K Hc) as [P V].
  destruct (thr_le fuse s u l Q Fu Fl L ltac:(lra)) as [Ft _]. destruct (thr_le fuse s u l' Q Fu Fl' L' ltac:(lra)) as [Ft' _].
  apply (good_cam_val fuse s u l c Ft P V) in G. apply (good_cam_val fuse s u l' c Ft' P V). eapply Rle_lt_trans; [|exact G]. apply thr_mono; auto; lra.
Qed.
Print Assumptions C04_ieee_lower_monotone.

(** the default thresholds 0.8 and 0.1 (line 330) are thresholds of this kind *)
Definition default_upper : g64 := binary_normalize 53 1024 q53 q1024 mode_NE 7205759403792794 (-53) false.
Definition default_lower : g64 := binary_normalize 53 1024 q53 q1024 mode_NE 7205759403792794 (-56) false.
Example C04_ieee_hypotheses_met : thresholds default_upper default_lower /\ / 1000000000 <= B2R default_lower /\
  (exists s, run (ops64 true) (set_ranges 10 100 100 (init (ops64 true) 2 0)) [OpStatus 0 TRACKED; OpIncrease 1; OpStatus 0 TRACKED] = Some s).
Proof.
  assert (A : B2R default_upper = 7205759403792794 / 9007199254740992).
  { rewrite <- SF2R_B2SF. replace (B2SF default_upper) with (SpecFloat.S754_finite false 7205759403792794 (-53)) by (vm_compute; reflexivity). unfold SF2R, F2R. cbn [Fnum Fexp cond_Zopp]. change (bpow radix2 (-53)) with (/ 9007199254740992). lra. }
  assert (B : B2R default_lower = 7205759403792794 / 72057594037927936).
  { rewrite <- SF2R_B2SF. replace (B2SF default_lower) with (SpecFloat.S754_finite false 7205759403792794 (-56)) by (vm_compute; reflexivity). unfold SF2R, F2R. cbn [Fnum Fexp cond_Zopp]. change (bpow radix2 (-56)) with (/ 72057594037927936). lra. }
  split; [unfold thresholds; rewrite A, B; repeat split; try (vm_compute; reflexivity); lra|]. split; [rewrite B; lra|].
  destruct (run_defined (ops64 true) 2 [OpStatus 0 TRACKED; OpIncrease 1; OpStatus 0 TRACKED] _ _ (StatFilter.abs_init (ops64 true) 2 10 100 100 0)) as [s E]; [repeat constructor|exists s; exact E].
Qed.
