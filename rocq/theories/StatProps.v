(** Property theorems C01-C04 (FeatureStatistics). *)
From Coq Require Import List ZArith QArith Bool.
From Verif Require Import Util StatModel StatSpec StatProofs StatQual StatFloat StatFilter.
Import ListNotations.

(** a concrete, non-trivial history used to show that hypotheses are satisfiable: two cameras *)
Definition demo_ops : list op :=
  [OpRanges 4 5 3; OpStatus 0 TRACKED; OpStatus 1 NOT_IN_FRAME; OpIncrease 2;
   OpStatus 0 FAILED_TRACKING; OpIncrease 3; OpStatus 0 TRACKED; OpStatus 1 TRACKED; OpIncrease 7;
   OpStatus 0 FAILED_ALIGNEMENT].

(** ** C01 *)
Theorem C01_qualities_in_unit_interval :
  forall ncam t0 os s, Forall ranges_ok os -> run exactQ (init exactQ ncam t0) os = Some s ->
  (forall i q, local_quality exactQ s i = Some q -> unit_quality q) /\
  (forall i q, local_visibility exactQ s i = Some q -> unit_quality q) /\
  unit_quality (average_local_quality exactQ s) /\
  unit_quality (joint_local_visibility exactQ s).
Proof. exact exact_qualities. Qed.
Print Assumptions C01_qualities_in_unit_interval.

Theorem C01_global_quality_in_unit_interval :
  forall ncam t0 os s, Forall ranges_ok os -> run exactQ (init exactQ ncam t0) os = Some s ->
  (0 <= global_quality s <= 1)%Q.
Proof. exact global_quality_unit. Qed.
Print Assumptions C01_global_quality_in_unit_interval.

Theorem C01_max_quality_in_unit_interval :
  forall ncam t0 os s, Forall ranges_ok os -> run exactQ (init exactQ ncam t0) os = Some s ->
  (0 <= max_local_quality s <= 1)%Q /\
  (forall i x, local_quality exactQ s i = Some (Some x) -> (x <= max_local_quality s)%Q).
Proof. exact max_quality_unit. Qed.
Print Assumptions C01_max_quality_in_unit_interval.

Theorem C01_qualities_any_rounding :
  forall rnd, good_rounding rnd ->
  forall ncam t0 os s, Forall ranges_ok os ->
  run (roundedQ rnd) (init (roundedQ rnd) ncam t0) os = Some s ->
  (forall i q, local_quality (roundedQ rnd) s i = Some q -> unit_quality q) /\
  (forall i q, local_visibility (roundedQ rnd) s i = Some q -> unit_quality q) /\
  unit_quality (average_local_quality (roundedQ rnd) s) /\
  unit_quality (joint_local_visibility (roundedQ rnd) s).
Proof. exact rounded_qualities. Qed.
Print Assumptions C01_qualities_any_rounding.

(** the same for genuine IEEE binary64 arithmetic *)
Theorem C01_qualities_ieee_double :
  forall ncam t0 os s, Forall ranges_ok os -> run f64_ops (init f64_ops ncam t0) os = Some s ->
  (forall i q, local_quality f64_ops s i = Some q -> f64_unit q) /\
  (forall i q, local_visibility f64_ops s i = Some q -> f64_unit q) /\
  f64_unit (average_local_quality f64_ops s) /\
  f64_unit (joint_local_visibility f64_ops s).
Proof. exact f64_qualities. Qed.
Print Assumptions C01_qualities_ieee_double.

(** no sequence of operations on existing cameras is undefined *)
Theorem C01_no_undefined_access :
  forall (T : Type) (O : qops T) ncam t0 os, Forall (cam_in_range ncam) os ->
  exists s, run O (init O ncam t0) os = Some s.
Proof. exact (fun T O ncam t0 os H => run_defined O ncam os _ _ (init_abs O ncam t0) H). Qed.
Print Assumptions C01_no_undefined_access.

Example C01_hypotheses_met :
  Forall ranges_ok demo_ops /\ good_rounding fixpoint_rnd /\
  match run exactQ (init exactQ 2 0) demo_ops with
  | Some s => option_map (option_map Qred) (local_quality exactQ s 0) = Some (Some (39 # 64))
  | None => False end /\
  (exists s, run f64_ops (init f64_ops 2 0) demo_ops = Some s).
Proof.
  split; [repeat constructor; discriminate|].
  split; [exact fixpoint_good_rounding|].
  split; [vm_compute; reflexivity|].
  apply (C01_no_undefined_access f64 f64_ops); repeat constructor.
Qed.

(** a configured range of 0 leaves the unit interval (1.0/0 is not finite) *)
Theorem C01_zero_range_refuted :
  exists os s q, run exactQ (init exactQ 1 0) os = Some s /\ local_quality exactQ s 0 = Some q /\ ~ unit_quality q.
Proof.
  exists [OpRanges 0 1 1; OpStatus 0 TRACKED]; eexists; eexists; split; [reflexivity|]; split; [reflexivity|].
  intros (x & H & _); discriminate H.
Qed.
Print Assumptions C01_zero_range_refuted.

(** ** C02 *)
Theorem C02_counts_match_history :
  forall (T : Type) (O : qops T) ncam t0 os s, run O (init O ncam t0) os = Some s ->
  forall i st, (i < ncam)%nat ->
  count_status s st (Z.of_nat i) 0 = count (seen_as i st) (frames (log_run ncam t0 os)).
Proof. exact (fun T O ncam t0 os s H i st Hi => count_status_frames ncam s _ i st (run_abs O ncam os t0 s H) Hi). Qed.
Print Assumptions C02_counts_match_history.

Theorem C02_counts_partition :
  forall (T : Type) (O : qops T) ncam t0 os s, run O (init O ncam t0) os = Some s ->
  forall i, (i < ncam)%nat ->
  (count_status s UNKNOWN (Z.of_nat i) 0 + count_status s NOT_IN_FRAME (Z.of_nat i) 0
   + count_status s FAILED_ALIGNEMENT (Z.of_nat i) 0 + count_status s FAILED_TRACKING (Z.of_nat i) 0
   + count_status s TRACKED (Z.of_nat i) 0)%Z = count_tot s
  /\ count_tot s = Z.of_nat (length (frames (log_run ncam t0 os))).
Proof. exact (fun T O ncam t0 os s H i Hi => partition_ok ncam s _ i (run_abs O ncam os t0 s H) Hi). Qed.
Print Assumptions C02_counts_partition.

Theorem C02_tracked_count :
  forall (T : Type) (O : qops T) ncam t0 os s, run O (init O ncam t0) os = Some s ->
  count_tracked s = count tracked_anywhere (frames (log_run ncam t0 os)) /\
  (0 <= count_tracked s <= count_tot s)%Z.
Proof. exact (fun T O ncam t0 os s H => tracked_ok ncam s _ (run_abs O ncam os t0 s H)). Qed.
Print Assumptions C02_tracked_count.

Theorem C02_all_cameras_is_sum :
  forall (T : Type) (s : stat T) st n,
  count_status s st (-1) n =
  fold_right (fun i z => count_status s st (Z.of_nat i) n + z)%Z 0%Z (seq 0 (length (s_cams s))).
Proof. exact (fun T s st n => count_all s st n). Qed.
Print Assumptions C02_all_cameras_is_sum.

Example C02_demo :
  option_map (fun s => (count_status s TRACKED 0 0, count_tot s, count_tracked s))
    (run exactQ (init exactQ 2 0) demo_ops) = Some (2, 4, 2)%Z /\
  length (frames (log_run 2 0 demo_ops)) = 4%nat.
Proof. split; vm_compute; reflexivity. Qed.

(** ** C03 *)
Theorem C03_window_counts_last_frames :
  forall (T : Type) (O : qops T) ncam t0 os s, run O (init O ncam t0) os = Some s ->
  times_increase t0 os ->
  forall i st n, (i < ncam)%nat -> (1 <= n)%Z ->
  count_status s st (Z.of_nat i) n = count (seen_as i st) (firstn (Z.to_nat n) (frames (log_run ncam t0 os))).
Proof.
  exact (fun T O ncam t0 os s H Ht i st n Hi Hn =>
    count_status_window ncam s _ i st n (run_abs O ncam os t0 s H)
      (run_hist O ncam os _ _ s (init_abs O ncam t0) (init_hist O ncam t0) Ht H) Hi Hn).
Qed.
Print Assumptions C03_window_counts_last_frames.

Example C03_hypotheses_met : times_increase 0 demo_ops /\
  option_map (fun s => (count_status s TRACKED 0 2, count_status s TRACKED 0 4))
    (run exactQ (init exactQ 2 0) demo_ops) = Some (1, 2)%Z.
Proof. split; [cbn; repeat split; reflexivity|vm_compute; reflexivity]. Qed.

(** with a repeated frame time the window misses frames: three tracked frames, window of three, count 2 *)
Theorem C03_repeated_time_refuted :
  exists os s, run exactQ (init exactQ 1 0) os = Some s /\
    count_status s TRACKED 0 3 <> count (seen_as 0 TRACKED) (firstn 3 (frames (log_run 1 0 os))) /\
    count_status s TRACKED 0 0 = count (seen_as 0 TRACKED) (frames (log_run 1 0 os)).
Proof.
  exists [OpStatus 0 TRACKED; OpIncrease 0; OpStatus 0 TRACKED; OpIncrease 5; OpStatus 0 TRACKED].
  eexists; split; [reflexivity|]; split; [discriminate|reflexivity].
Qed.
Print Assumptions C03_repeated_time_refuted.

(** ** C04 *)
Theorem C04_always_tracked_is_good :
  forall ncam t0 os s i upper lower, (i < ncam)%nat -> Forall ranges_ok os ->
  run exactQ (init exactQ ncam t0) os = Some s ->
  Forall (fun f => seen_as i TRACKED f = true) (frames (log_run ncam t0 os)) ->
  (lower <= upper)%Q -> (upper < 1)%Q ->
  is_good_feature s upper lower = true.
Proof. exact always_tracked_good. Qed.
Print Assumptions C04_always_tracked_is_good.

Theorem C04_failing_becomes_bad :
  forall ncam t0 rq rv rg upper lower,
  (1 <= rq)%Z -> (1 <= rv)%Z -> (1 <= rg)%Z -> (0 < lower)%Q -> (lower <= upper)%Q ->
  exists N : nat, forall os s, Forall no_ranges os ->
    run exactQ (set_ranges rq rv rg (init exactQ ncam t0)) os = Some s ->
    (forall i, (i < ncam)%nat -> Forall (fun f => failed_in i f = true) (frames (log_run ncam t0 os))) ->
    (N <= length (frames (log_run ncam t0 os)))%nat ->
    is_good_feature s upper lower = false.
Proof. exact failing_becomes_bad. Qed.
Print Assumptions C04_failing_becomes_bad.

Theorem C04_unseen_becomes_bad :
  forall ncam t0 rq rv rg upper lower,
  (1 <= rq)%Z -> (1 <= rv)%Z -> (1 <= rg)%Z -> (0 < lower)%Q -> (lower <= upper)%Q ->
  exists N : nat, forall os s, Forall no_ranges os ->
    run exactQ (set_ranges rq rv rg (init exactQ ncam t0)) os = Some s ->
    (forall i, (i < ncam)%nat -> Forall (fun f => unseen_in i f = true) (frames (log_run ncam t0 os))) ->
    (N <= length (frames (log_run ncam t0 os)))%nat ->
    is_good_feature s upper lower = false.
Proof. exact unseen_becomes_bad. Qed.
Print Assumptions C04_unseen_becomes_bad.

Theorem C04_good_monotone_in_thresholds :
  forall ncam t0 os s upper lower upper' lower', Forall ranges_ok os ->
  run exactQ (init exactQ ncam t0) os = Some s -> (upper' <= upper)%Q -> (lower' <= lower)%Q ->
  is_good_feature s upper lower = true -> is_good_feature s upper' lower' = true.
Proof. exact good_monotone. Qed.
Print Assumptions C04_good_monotone_in_thresholds.

Definition demo_tracked : list op :=
  [OpStatus 0 TRACKED; OpIncrease 1; OpStatus 0 TRACKED; OpStatus 1 FAILED_TRACKING; OpIncrease 2; OpStatus 0 TRACKED].
Definition demo_failing : list op := concat (repeat [OpStatus 0 FAILED_TRACKING; OpIncrease 1] 20) ++ [OpStatus 0 FAILED_TRACKING].
Example C04_hypotheses_met :
  Forall (fun f => seen_as 0 TRACKED f = true) (frames (log_run 2 0 demo_tracked)) /\
  match run exactQ (init exactQ 2 0) demo_tracked with
  | Some s => is_good_feature s (9#10) (8#10) = true | None => False end /\
  Forall no_ranges demo_failing /\
  forallb (failed_in 0) (frames (log_run 1 0 demo_failing)) = true /\
  match run exactQ (set_ranges 10 100 100 (init exactQ 1 0)) demo_failing with
  | Some s => is_good_feature s (9#10) (8#10) = false | None => False end.
Proof.
  split; [repeat constructor|]; split; [vm_compute; reflexivity|].
  split; [repeat constructor|]; split; [vm_compute; reflexivity|].
  vm_compute; reflexivity.
Qed.

(** ** C60 *)
Theorem C60_local_quality_is_low_pass :
  forall (T : Type) (O : qops T) ncam rq rv rg t0 os s i, Forall no_ranges os ->
  run O (set_ranges rq rv rg (init O ncam t0)) os = Some s -> (i < ncam)%nat ->
  local_quality O s i = Some (low_pass O rq (seen_as i TRACKED) (failed_in i) (frames (log_run ncam t0 os))).
Proof. intros T O ncam rq rv rg t0 os s i N R Hi. exact (proj1 (proj1 (filters O ncam rq rv rg t0 os s N R) i Hi)). Qed.
Print Assumptions C60_local_quality_is_low_pass.

Theorem C60_local_visibility_is_low_pass :
  forall (T : Type) (O : qops T) ncam rq rv rg t0 os s i, Forall no_ranges os ->
  run O (set_ranges rq rv rg (init O ncam t0)) os = Some s -> (i < ncam)%nat ->
  local_visibility O s i = Some (low_pass O rv (visible_in i) (fun _ => true) (frames (log_run ncam t0 os))).
Proof. intros T O ncam rq rv rg t0 os s i N R Hi. exact (proj2 (proj1 (filters O ncam rq rv rg t0 os s N R) i Hi)). Qed.
Print Assumptions C60_local_visibility_is_low_pass.

Theorem C60_joint_values_are_low_pass :
  forall (T : Type) (O : qops T) ncam rq rv rg t0 os s, Forall no_ranges os ->
  run O (set_ranges rq rv rg (init O ncam t0)) os = Some s ->
  joint_local_visibility O s = low_pass O rv visible_anywhere (fun _ => true) (frames (log_run ncam t0 os)) /\
  average_local_quality O s = low_pass_all O rq ncam (frames (log_run ncam t0 os)).
Proof. intros T O ncam rq rv rg t0 os s N R. exact (proj2 (filters O ncam rq rv rg t0 os s N R)). Qed.
Print Assumptions C60_joint_values_are_low_pass.

Theorem C02_in_frame_count :
  forall (T : Type) (O : qops T) ncam t0 os s i, run O (init O ncam t0) os = Some s -> (i < ncam)%nat ->
  count_in_frame s (Z.of_nat i) 0 = count (visible_in i) (frames (log_run ncam t0 os)).
Proof. exact @in_frame_count. Qed.
Print Assumptions C02_in_frame_count.

Definition demo_q : list op := [OpStatus 0 TRACKED; OpIncrease 1; OpStatus 0 FAILED_TRACKING; OpStatus 1 TRACKED; OpIncrease 2; OpStatus 0 FAILED_ALIGNEMENT].
Example C60_hypotheses_met : Forall no_ranges demo_q /\
  match run exactQ (set_ranges 4 5 3 (init exactQ 2 0)) demo_q with
  | Some s => match local_quality exactQ s 0 with Some (Some q) => (q == 9 # 16)%Q | _ => False end /\ count_in_frame s 0 0 = 3%Z
  | None => False end.
Proof. split; [repeat constructor|]. vm_compute. split; reflexivity. Qed.
