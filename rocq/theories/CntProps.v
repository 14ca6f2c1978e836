(** C104: the 32-bit counters. *)
From Coq Require Import List ZArith Bool Lia.
From Verif Require Import Util StatModel StatSpec StatProofs FsetModel CntModel CntSpec CntProofs.
Import ListNotations.
Local Open Scope Z_scope.

(** A history runs without overflow exactly when no life of the feature (between resets) has more than
    2147483647 completed frames; the state is then that of unbounded counters. *)
Theorem C104_defined_iff_lives_are_short : forall (T : Type) (O : qops T) ncam t0 os, Forall (cam_in_range ncam) os ->
  (lives_at_most 0 largest_int os <-> run32 O (init O ncam t0) os <> None) /\
  (forall s, run32 O (init O ncam t0) os = Some s -> run O (init O ncam t0) os = Some s).
Proof.
  intros T O ncam t0 os C. pose proof (init_abs O ncam t0) as A. split; [split|].
  - intros L. rewrite (run_ok O ncam os _ _ A L). destruct (run_defined O ncam os _ _ A C) as [s E]. congruence.
  - intros N. destruct (run32 O (init O ncam t0) os) as [s|] eqn:E; [|congruence]. exact (proj2 (run_inv O ncam os _ _ s A E)).
  - intros s E. exact (proj1 (run_inv O ncam os _ _ s A E)).
Qed.
Print Assumptions C104_defined_iff_lives_are_short.

(** Every query is then defined and returns the true count, as long as the number of frames times the
    number of cameras is an int, for every camera number and every window except the smallest int. *)
Theorem C104_queries_defined : forall (T : Type) (O : qops T) ncam t0 os s,
  run32 O (init O ncam t0) os = Some s -> let n_frames := Z.of_nat (length (frames (log_run ncam t0 os))) in
  (n_frames <= largest_int -> count_tot32 s = Some n_frames /\ count_tracked32 s = Some (count tracked_anywhere (frames (log_run ncam t0 os)))) /\
  (Z.of_nat ncam * n_frames <= largest_int ->
   forall camID n, is_int n -> n <> -2147483648 ->
   (forall st, count_status32 s st camID n = Some (count_status s st camID n)) /\ count_in_frame32 s camID n = Some (count_in_frame s camID n) /\
   0 <= count_in_frame s camID n <= Z.of_nat ncam * n_frames).
Proof.
  intros T O ncam t0 os s R NF. subst NF. pose proof (init_abs O ncam t0) as A0. destruct (run_inv O ncam os _ _ s A0 R) as [R' _].
  pose proof (run_abs O ncam os t0 s R') as A. pose proof (run_short O ncam os _ _ s (init_short O ncam t0) R') as Sh. change (fold_left (log_step ncam) os (log_init ncam t0)) with (log_run ncam t0 os) in Sh.
  set (l := log_run ncam t0 os) in *. assert (E : Z.of_nat (length (frames l)) = Z.of_nat (length (l_past l)) + 1) by (unfold frames; cbn [length]; lia). rewrite E. split.
  - intros L. destruct (tot_ok ncam s l A L) as [H1 H2]. rewrite H1, H2. unfold count_tot, count_tracked. rewrite (ab_tot _ _ _ A), (ab_trk _ _ _ A). split; [reflexivity|]. f_equal.
    unfold frames. rewrite count_cons. rewrite (trk_abs s l (ab_now _ _ _ A)). lia.
  - intros L camID n I N. split; [intros st; now apply (status_ok ncam s l A Sh L)|]. split; [now apply (in_frame_ok ncam s l A Sh L)|].
    destruct (status3 ncam s l A Sh camID n) as (X & Y). unfold count_in_frame. lia.
Qed.
Print Assumptions C104_queries_defined.

Lemma as_nat z : 0 <= z -> exists n, Z.of_nat n = z.
Proof. intros H. exists (Z.to_nat z). now apply Z2Nat.id. Qed.
Lemma lives_rep t : forall n k, lives_at_most k largest_int (repeat (OpIncrease t) n) -> n = 0%nat \/ k + Z.of_nat n <= largest_int.
Proof. induction n as [|n IH]; intros k H; [now left|]. cbn [repeat lives_at_most] in H. destruct H as [H1 H2]. right. destruct (IH _ H2) as [->|H3]; lia. Qed.
Lemma rep_lives t : forall n k, k + Z.of_nat n <= largest_int -> lives_at_most k largest_int (repeat (OpIncrease t) n).
Proof. induction n as [|n IH]; intros k H; cbn [repeat lives_at_most]; [exact Logic.I|]. split; [lia|]. apply IH. lia. Qed.
Lemma rep_range ncam t n : Forall (cam_in_range ncam) (repeat (OpIncrease t) n).
Proof. apply Forall_forall. intros o H. apply repeat_spec in H. now subst. Qed.

(** beyond that the counters overflow: this history is harmless with unbounded counters *)
Theorem C104_long_life_refuted : exists os, Forall (cam_in_range 1) os /\ forall (T : Type) (O : qops T), run32 O (init O 1 0) os = None /\ run O (init O 1 0) os <> None.
Proof.
  destruct (as_nat 2147483648 ltac:(discriminate)) as [n Hn]. exists (repeat (OpIncrease 0) n). split; [apply rep_range|]. intros T O. split.
  - destruct (run32 O (init O 1 0) _) as [s|] eqn:E; [|reflexivity]. exfalso. destruct (run_inv O 1 _ _ _ s (init_abs O 1 0) E) as [_ L]. apply lives_rep in L. unfold largest_int in L. cbn [log_init l_past length] in L. lia.
  - destruct (run_defined O 1 (repeat (OpIncrease 0) n) _ _ (init_abs O 1 0) (rep_range 1 0 _)) as [s E]. rewrite E. discriminate.
Qed.
Print Assumptions C104_long_life_refuted.

Lemma cams_inv {T} st : forall (cs : list (camstat T)) k v, is_int k -> count_cams32 st 0 k cs = Some v -> v = fold_left (fun a c => a + count_cam st 0 c) cs k /\ is_int v.
Proof.
  induction cs as [|c cs IH]; intros k v I E; cbn [count_cams32 fold_left] in *; [injection E as <-; auto|].
  unfold count_cam32 in E. cbn [Z.eqb] in E. destruct (add32 (c_cum c st) _) as [a|] eqn:Ea; [|discriminate]. cbn [bind] in E. destruct (add32 k a) as [b|] eqn:Eb; [|discriminate]. cbn [bind] in E.
  apply int32_inv in Ea as [-> _]. apply int32_inv in Eb as [-> Ib]. apply IH in E; [|exact Ib]. exact E.
Qed.
Lemma rep_past ncam t : forall n l, l_now l = repeat UNKNOWN ncam -> Forall (fun f => f = repeat UNKNOWN ncam) (l_past l) ->
  let l' := fold_left (log_step ncam) (repeat (OpIncrease t) n) l in
  l_now l' = repeat UNKNOWN ncam /\ Forall (fun f => f = repeat UNKNOWN ncam) (l_past l') /\ length (l_past l') = (n + length (l_past l))%nat.
Proof.
  induction n as [|n IH]; intros l N P; cbn [repeat fold_left]; [auto|]. destruct (IH (log_step ncam l (OpIncrease t))) as (X & Y & W); [reflexivity|constructor; assumption|].
  cbn zeta. split; [exact X|]. split; [exact Y|]. rewrite W. cbn. lia.
Qed.
Lemma count_all_true {A} (p : A -> bool) l : Forall (fun x => p x = true) l -> count p l = Z.of_nat (length l).
Proof. intros H. induction H; [reflexivity|]. rewrite count_cons, H, IHForall. cbn [b2z length]. lia. Qed.

(** a count over two cameras overflows after half as many frames *)
Theorem C104_two_cameras_refuted : exists os, Forall (cam_in_range 2) os /\ Z.of_nat (length (frames (log_run 2 0 os))) < largest_int /\
  forall (T : Type) (O : qops T), exists s, run32 O (init O 2 0) os = Some s /\ count_status32 s UNKNOWN (-1) 0 = None.
Proof.
  destruct (as_nat 1073741823 ltac:(discriminate)) as [n Hn]. exists (repeat (OpIncrease 0) n). destruct (rep_past 2 0 n (log_init 2 0) eq_refl (Forall_nil _)) as (X & Y & W).
  change (fold_left (log_step 2) (repeat (OpIncrease 0) n) (log_init 2 0)) with (log_run 2 0 (repeat (OpIncrease 0) n)) in *. cbn [log_init l_past length] in W.
  split; [apply rep_range|]. split; [unfold frames, largest_int; cbn [length]; lia|]. intros T O.
  destruct (run_defined O 2 (repeat (OpIncrease 0) n) _ _ (init_abs O 2 0) (rep_range 2 0 _)) as [s E]. exists s. pose proof (run_abs O 2 _ 0 s E) as A.
  assert (R : run32 O (init O 2 0) (repeat (OpIncrease 0) n) = Some s) by (rewrite (run_ok O 2 _ _ _ (init_abs O 2 0)); [exact E|apply rep_lives; cbn; unfold largest_int; lia]).
  split; [exact R|]. set (l := log_run 2 0 (repeat (OpIncrease 0) n)) in *. unfold count_status32. cbn [Z.eqb]. destruct (count_cams32 UNKNOWN 0 0 (s_cams s)) as [v|] eqn:V; [|reflexivity]. exfalso.
  apply cams_inv in V as [V I]; [|unfold is_int; lia]. pose proof (ab_len _ _ _ A) as Ln. pose proof (ab_now _ _ _ A) as Nw. rewrite X in Nw.
  pose proof (ab_cam _ _ _ A) as Cm. destruct (s_cams s) as [|c0 [|c1 [|c2 cs]]]; try discriminate Ln. cbn [fold_left] in V. cbn in Nw. injection Nw as N0 N1.
  assert (Q : forall i, (i < 2)%nat -> count (seen_as i UNKNOWN) (l_past l) = 1073741823).
  { intros i Hi. rewrite count_all_true; [lia|]. eapply Forall_impl; [|exact Y]. intros f ->. destruct i as [|[|i]]; [reflexivity|reflexivity|lia]. }
  unfold count_cam in V. cbn [Z.eqb] in V. rewrite (Cm 0%nat c0 eq_refl), (Cm 1%nat c1 eq_refl), N0, N1, !Q in V by lia. cbn in V. unfold is_int in I. lia.
Qed.
Print Assumptions C104_two_cameras_refuted.

(** a window of the smallest int overflows, whatever happened before, whenever there is a camera to look at *)
Theorem C104_smallest_window_refuted : forall (T : Type) (s : stat T) st camID, (camID = -1 /\ s_cams s <> []) \/ 0 <= camID < Z.of_nat (length (s_cams s)) -> count_status32 s st camID (-2147483648) = None.
Proof.
  assert (W : forall (T : Type) st k (c : camstat T), count_cam32 st (-2147483648) k c = None). { intros T st k c. unfold count_cam32. cbn [Z.eqb]. destruct (c_hist c); reflexivity. }
  intros T s st camID [[-> H]|H]; unfold count_status32.
  - cbn [Z.eqb]. destruct (s_cams s) as [|c cs]; [congruence|]. cbn [count_cams32]. now rewrite W.
  - destruct (Z.eqb_spec camID (-1)); [lia|]. destruct (Z.ltb_spec camID 0); [lia|]. destruct (Z.leb_spec (Z.of_nat (length (s_cams s))) camID); [lia|]. cbn [orb].
    destruct (nth_error (s_cams s) (Z.to_nat camID)) as [c|] eqn:E; [apply W|]. apply nth_error_None in E. lia.
Qed.
Print Assumptions C104_smallest_window_refuted.

(** the stored history of a camera never holds more entries than completed frames, and exactly one per
    completed frame when the time stamps increase: it is never thinned out *)
Theorem C104_history_grows_with_every_frame : forall (T : Type) (O : qops T) ncam t0 os s c,
  run32 O (init O ncam t0) os = Some s -> In c (s_cams s) ->
  (length (c_hist c) <= length (l_past (log_run ncam t0 os)))%nat /\
  (times_increase t0 os -> length (c_hist c) = length (l_past (log_run ncam t0 os))).
Proof.
  intros T O ncam t0 os s c R Hc. destruct (run_inv O ncam os _ _ s (init_abs O ncam t0) R) as [R' _]. split.
  - exact (run_short O ncam os _ _ s (init_short O ncam t0) R' c Hc).
  - intros Ti. apply In_nth_error in Hc as [i Hi]. destruct (run_hist O ncam os _ _ s (init_abs O ncam t0) (init_hist O ncam t0) Ti R' i c Hi) as [M _].
    apply (f_equal (@length tstatus)) in M. rewrite !map_length in M. exact M.
Qed.
Print Assumptions C104_history_grows_with_every_frame.

(** identities: no overflow while at most 2147483647 features are requested between resets of the set *)
Theorem C104_identities : forall P (fs : fset P) os, requests_at_most 0 largest_int os ->
  fs_run32 (fs_reset fs) os = Some (fs_run (fs_reset fs) os) /\ 0 <= fs_maxIdx (fs_run (fs_reset fs) os).
Proof. intros P fs os H. apply (fs_run_ok os _ 0); [cbn; lia|exact H]. Qed.
Print Assumptions C104_identities.

(** the hypotheses are met by a feature seen for three frames in two cameras, and by filling and clearing a set *)
Definition ex_ops : list op := [OpStatus 0 TRACKED; OpIncrease 1; OpStatus 1 FAILED_TRACKING; OpIncrease 2; OpStatus 0 TRACKED].
Example C104_ex : Forall (cam_in_range 2) ex_ops /\ lives_at_most 0 largest_int ex_ops /\
  exists s, run32 exactQ (init exactQ 2 0) ex_ops = Some s /\ count_tot32 s = Some 3 /\ count_tracked32 s = Some 2 /\ count_status32 s TRACKED (-1) 0 = Some 2 /\
  count_status32 s TRACKED (-1) 2 = Some 1 /\ count_in_frame32 s (-1) 0 = Some 3 /\ count_in_frame32 s 1 1 = Some 0.
Proof.
  split; [repeat (constructor; [cbn; lia|]); constructor|]. split; [cbn; unfold largest_int; lia|]. eexists. split; [vm_compute; reflexivity|]. vm_compute. auto 10.
Qed.
Example C104_ex_ids : requests_at_most 0 largest_int [FsMake; FsMake; FsInvalidate 0; FsMake; FsReset; FsMake].
Proof. cbn. unfold largest_int. lia. Qed.
