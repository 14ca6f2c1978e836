(** C34, C35, C44, C48, C59: covariance bookkeeping. *)
From Coq Require Import List Reals Arith Bool Lia Lra Permutation Sorting.
From Verif Require Import AlignModel AlignLoop CovModel CovSpec CovProofs.
Import ListNotations.
Local Open Scope R_scope.

(** ** C34. *)
Theorem C34_others_unchanged : forall D id init cov i j, (id + 3 <= D)%nat -> (i < D)%nat -> (j < D)%nat ->
  ~ belongs id i -> ~ belongs id j -> reset_feature D id init cov i j = cov i j.
Proof.
  intros D id init cov i j H Hi Hj Ni Nj. rewrite reset_value by auto. unfold reset_expected.
  destruct (inb id 3 i) eqn:E; [apply inb_spec in E; contradiction|]. destruct (inb id 3 j) eqn:E'; [apply inb_spec in E'; contradiction|]. reflexivity.
Qed.
Theorem C34_decorrelated : forall D id init cov i j, (id + 3 <= D)%nat -> (i < D)%nat -> (j < D)%nat ->
  belongs id i -> ~ belongs id j -> reset_feature D id init cov i j = 0 /\ reset_feature D id init cov j i = 0.
Proof.
  intros D id init cov i j H Hi Hj Bi Nj. rewrite !reset_value by auto. unfold reset_expected.
  apply inb_spec in Bi. rewrite Bi. destruct (inb id 3 j) eqn:E'; [apply inb_spec in E'; contradiction|]. split; reflexivity.
Qed.
Theorem C34_initial_block : forall D id init cov i j, (id + 3 <= D)%nat -> belongs id i -> belongs id j ->
  reset_feature D id init cov i j = init (init_index id i) (init_index id j).
Proof.
  intros D id init cov i j H Bi Bj. unfold belongs in *. rewrite reset_value by lia. unfold reset_expected.
  apply inb_spec in Bi, Bj. now rewrite Bi, Bj.
Qed.
Theorem C34_stays_covariance : forall D id init cov, (id + 3 <= D)%nat -> covariance 3 init -> covariance D cov ->
  covariance D (reset_feature D id init cov).
Proof. intros D id init cov H [S P] [S' P']. split; [now apply reset_symmetric|now apply reset_psd]. Qed.
(** every sequence of resets keeps the covariance valid *)
Theorem C34_reset_sequence : forall D rs cov, (forall r, In r rs -> (fst r + 3 <= D)%nat /\ covariance 3 (snd r)) -> covariance D cov ->
  covariance D (fold_left (fun c r => reset_feature D (fst r) (snd r) c) rs cov).
Proof.
  intros D rs. induction rs as [|r rs IH]; intros cov H C; cbn; [exact C|]. apply IH; [intros; apply H; now right|].
  destruct (H r (or_introl eq_refl)). now apply C34_stays_covariance.
Qed.
(** the feature blocks fit into the state, for every configuration *)
Theorem C34_feature_fits : forall ncam nmax npose i, (i < nmax)%nat ->
  (get_id (state_layout ncam nmax npose) _fea i + 3 <= size_of (state_layout ncam nmax npose))%nat.
Proof. intros ncam nmax npose i H. destruct (state_ids ncam nmax npose) as (_&_&_&_&_&_&_&F&_&_&S). rewrite F, S. lia. Qed.
Example C34_ex : let init : mat := fun i j => if Nat.eqb i j then INR (1 + i) else 0 in
  let cov : mat := fun i j => 7 in
  reset_feature 27 21 init cov 23%nat 23%nat = 1 /\ reset_feature 27 21 init cov 21%nat 21%nat = 2 /\ reset_feature 27 21 init cov 20%nat 26%nat = 7.
Proof. cbv zeta. unfold reset_feature, set_block, sub, zero, inb. cbn. repeat split; lra. Qed.
Example C34_ex_cov : covariance 27 (fun i j => 7).
Proof.
  split; [intros i j _ _; reflexivity|]. intros x. unfold quad.
  rewrite (fsum_ext 27 _ (fun i => x i * (7 * fsum 27 x))) by (intros; rewrite <- !fsum_scale; apply fsum_ext; intros; ring).
  rewrite fsum_mult_r. set (s := fsum 27 x). clearbody s. nra.
Qed.

(** ** C35. *)
Theorem C35_default_for_few : forall f init r slots, (length (collect r slots) <= 3)%nat -> median f init r slots = init.
Proof. intros f init r slots H. unfold median. destruct (Nat.ltb_spec 3 (length (collect r slots))); [lia|reflexivity]. Qed.
Theorem C35_confident_features : forall r slots x, In x (collect r slots) <->
  exists o, In (true, o) slots /\ s_front o = true /\ s_unc o / s_depth o < r /\ s_par o = x.
Proof. exact collect_in. Qed.
Theorem C35_true_median : forall f init r slots, nth_element_spec f -> (3 < length (collect r slots))%nat ->
  let l := collect r slots in let m := median f init r slots in
  In m l /\ (2 * count (below m) l <= length l)%nat /\ (2 * count (above m) l <= length l)%nat.
Proof. exact median_ok. Qed.
(** the value does not depend on how std::nth_element arranges the other elements *)
Theorem C35_deterministic : forall f f' init r slots, nth_element_spec f -> nth_element_spec f' -> median f init r slots = median f' init r slots.
Proof. exact median_unique. Qed.
(** "Require a minimum of three features" (comment in the code): three are not enough *)
Theorem C35_three_features_suffice_refuted : exists init r slots, length (collect r slots) = 3%nat /\
  (forall x, In x (collect r slots) -> x = 5) /\ forall f, median f init r slots = init /\ init <> 5.
Proof.
  exists 1, 1, (repeat (true, {| s_front := true; s_unc := 0; s_depth := 2; s_par := 5 |}) 3).
  assert (E : collect 1 (repeat (true, {| s_front := true; s_unc := 0; s_depth := 2; s_par := 5 |}) 3) = [5; 5; 5]).
  { unfold collect, confident. cbn. destruct (Rlt_dec (0 / 2) 1); [reflexivity|lra]. }
  rewrite E. split; [reflexivity|]. split; [intros x [<-|[<-|[<-|[]]]]; reflexivity|]. intros f. split; [|lra].
  unfold median. rewrite E. reflexivity.
Qed.
(** a feature with negative distance counts as confident whatever its uncertainty *)
Theorem C35_negative_depth_rejected_refuted : exists r o, 0 < r /\ s_depth o < 0 /\ s_unc o > 1000 * Rabs (s_depth o) /\ confident r o = true.
Proof.
  exists 1, {| s_front := true; s_unc := 2000; s_depth := -1; s_par := -1 |}. cbn. repeat split; try lra.
  - rewrite Rabs_left by lra. lra.
  - unfold confident. cbn. destruct (Rlt_dec _ _); [reflexivity|lra].
Qed.
(** witness that the contract of nth_element can be met: insertion sort *)
Fixpoint ins (x : R) (l : list R) : list R := match l with [] => [x] | y :: r => if Rle_dec x y then x :: l else y :: ins x r end.
Definition isort (l : list R) : list R := fold_right ins [] l.
Lemma ins_perm x l : Permutation (x :: l) (ins x l).
Proof. induction l as [|y l IH]; cbn; [auto|]. destruct (Rle_dec x y); [auto|]. rewrite perm_swap. now rewrite IH. Qed.
Lemma isort_perm l : Permutation l (isort l).
Proof. induction l; cbn; [auto|]. rewrite <- ins_perm. now constructor. Qed.
Lemma ins_sorted x l : StronglySorted Rle l -> StronglySorted Rle (ins x l).
Proof.
  induction 1 as [|y l S IH F]; cbn; [repeat constructor|]. destruct (Rle_dec x y).
  - constructor; [constructor; auto|]. constructor; [auto|]. eapply Forall_impl; [|exact F]. cbn. intros; lra.
  - constructor; [exact IH|]. apply (Permutation_Forall (ins_perm x l)). constructor; [lra|exact F].
Qed.
Lemma isort_sorted l : StronglySorted Rle (isort l).
Proof. induction l; cbn; [constructor|now apply ins_sorted]. Qed.
Lemma sorted_nth l : StronglySorted Rle l -> forall i j, (i < j < length l)%nat -> nth i l 0 <= nth j l 0.
Proof.
  induction 1 as [|y l S IH F]; intros i j H; cbn in H; [lia|]. destruct j; [lia|]. destruct i; cbn.
  - rewrite Forall_forall in F. apply F. apply nth_In. lia.
  - apply IH. lia.
Qed.
Example C35_contract_met : nth_element_spec (fun l _ => isort l).
Proof.
  intros l k Hk. split; [apply isort_perm|]. pose proof (Permutation_length (isort_perm l)) as L.
  split; intros j Hj; apply sorted_nth; auto using isort_sorted; lia.
Qed.
(** hence the result is the middle element of the sorted values *)
Theorem C35_middle_of_sorted : forall f init r slots, nth_element_spec f -> (3 < length (collect r slots))%nat ->
  exists s, Permutation (collect r slots) s /\ (forall i j, (i < j < length s)%nat -> nth i s 0 <= nth j s 0) /\
    median f init r slots = nth (length s / 2) s 0.
Proof.
  intros f init r slots F H. exists (isort (collect r slots)). split; [apply isort_perm|]. split; [apply sorted_nth, isort_sorted|].
  rewrite (median_unique f (fun l _ => isort l)) by auto using C35_contract_met. unfold median.
  destruct (Nat.ltb_spec 3 (length (collect r slots))); [|lia]. now rewrite <- (Permutation_length (isort_perm (collect r slots))).
Qed.

(** ** C44. *)
Theorem C44_product_symmetric_iff_commute : forall n default measured, symmetric n default -> symmetric n measured ->
  (symmetric n (mmul n default measured) <-> forall i j, (i < n)%nat -> (j < n)%nat -> mmul n default measured i j = mmul n measured default i j).
Proof. exact product_sym_iff. Qed.
Theorem C44_uniform_noise_is_covariance : forall c ep ea default measured, 0 <= c ->
  (forall i j, (i < 6)%nat -> (j < 6)%nat -> default i j = if Nat.eqb i j then c else 0) ->
  covariance 6 measured -> ep = ea -> covariance 6 (update_noise true ep ea default measured).
Proof. exact uniform_noise_ok. Qed.
(** with position only (or attitude only) the cross terms are cleared and per-block uniform noise suffices *)
Theorem C44_position_only_is_covariance : forall cp ca default measured, 0 <= cp -> 0 <= ca ->
  (forall i j, (i < 6)%nat -> (j < 6)%nat -> default i j = if Nat.eqb i j then (if (i <? 3)%nat then cp else ca) else 0) ->
  covariance 6 measured -> covariance 6 (update_noise true true false default measured) /\ covariance 6 (update_noise true false true default measured).
Proof. intros. split; [|change (update_noise true false true) with (update_noise true true false)]; apply (cleared_noise_ok cp ca); auto. Qed.
Theorem C44_without_odometry_default : forall ep ea default measured, update_noise false ep ea default measured = default.
Proof. reflexivity. Qed.
(** different default noise for position and attitude and correlated odometry: not symmetric *)
Theorem C44_always_symmetric_refuted : exists default measured, diagonal 6 default /\ covariance 6 default /\ covariance 6 measured /\
  ~ symmetric 6 (update_noise true true true default measured).
Proof.
  exists (fun i j => if Nat.eqb i j then (if (i <? 3)%nat then 1 else 2) else 0), (fun i j => 1).
  assert (D : diagonal 6 (fun i j => if Nat.eqb i j then (if (i <? 3)%nat then 1 else 2) else 0)).
  { intros i j _ _ N. destruct (Nat.eqb_spec i j); [lia|reflexivity]. }
  split; [exact D|]. split; [|split].
  - split; [intros i j _ _; rewrite Nat.eqb_sym; destruct (Nat.eqb_spec j i); [subst|]; reflexivity|]. intros x. unfold quad. cbn.
    pose proof (Rle_0_sqr (x 0%nat)). pose proof (Rle_0_sqr (x 1%nat)). pose proof (Rle_0_sqr (x 2%nat)). pose proof (Rle_0_sqr (x 3%nat)).
    pose proof (Rle_0_sqr (x 4%nat)). pose proof (Rle_0_sqr (x 5%nat)). unfold Rsqr in *. lra.
  - split; [intros i j _ _; reflexivity|]. intros x. unfold quad. rewrite (fsum_ext 6 _ (fun i => x i * fsum 6 x)).
    + rewrite fsum_mult_r. pose proof (Rle_0_sqr (fsum 6 x)). unfold Rsqr in *. lra.
    + intros i _. rewrite <- fsum_scale. apply fsum_ext. intros; ring.
  - intros S. specialize (S 0%nat 3%nat ltac:(lia) ltac:(lia)). unfold update_noise in S. cbn [Bool.eqb] in S. rewrite !mmul_diag in S by (auto; lia). cbn in S. lra.
Qed.

(** ** C48. [jac] the output Jacobian (12 x D), [wcov] the gyro covariance. *)
Theorem C48_output_is_covariance : forall D jac cov wcov, covariance D cov -> covariance 3 wcov -> covariance 12 (output_cov D jac cov wcov).
Proof. intros D jac cov wcov C W. unfold output_cov. apply add_block_ok; [cbn; lia|exact W|]. now apply transform_ok. Qed.
Theorem C48_gyro_noise_is_covariance : forall D noise att dt, (att + 3 <= D)%nat -> 0 < dt -> covariance D noise -> covariance 3 (rate_cov noise att dt).
Proof. exact rate_cov_ok. Qed.
(** row/column 0..2 of the pose array are the position, 3..5 the attitude, and so on *)
Theorem C48_pose_order : forall m i j, (i < 6)%nat -> (j < 6)%nat ->
  entry6 (pose_message m) i j = m (if (i <? 3)%nat then i else i + 6)%nat (if (j <? 3)%nat then j else j + 6)%nat.
Proof. intros m i j Hi Hj. unfold pose_message. rewrite cov_message_entry by auto. unfold pick, get_id. cbn [size_of firstn nth fst snd _opos _oatt output_layout fold_right].
  destruct (Nat.leb_spec 3 i), (Nat.leb_spec 3 j), (Nat.ltb_spec i 3), (Nat.ltb_spec j 3); try lia; f_equal; lia. Qed.
Theorem C48_twist_order : forall m i j, (i < 6)%nat -> (j < 6)%nat -> entry6 (twist_message m) i j = m (3 + i)%nat (3 + j)%nat.
Proof. intros m i j Hi Hj. unfold twist_message. rewrite cov_message_entry by auto. unfold pick, get_id. cbn [size_of firstn nth fst snd _ovel _oror output_layout fold_right].
  destruct (Nat.leb_spec 3 i), (Nat.leb_spec 3 j); f_equal; lia. Qed.
Theorem C48_extrinsics_order : forall ncam nmax npose cam m i j, (i < 6)%nat -> (j < 6)%nat ->
  entry6 (extrinsics_message ncam nmax npose cam m) i j =
  m (15 + 3 * cam + (if (i <? 3)%nat then i else 3 * ncam + i - 3))%nat (15 + 3 * cam + (if (j <? 3)%nat then j else 3 * ncam + j - 3))%nat.
Proof.
  intros ncam nmax npose cam m i j Hi Hj. unfold extrinsics_message. rewrite cov_message_entry by auto.
  destruct (state_ids ncam nmax npose) as (_&_&_&_&_&P&A&_). rewrite P, A. unfold pick.
  destruct (Nat.leb_spec 3 i), (Nat.leb_spec 3 j), (Nat.ltb_spec i 3), (Nat.ltb_spec j 3); try lia; f_equal; lia.
Qed.
Theorem C48_messages_are_covariances : forall D jac cov wcov, covariance D cov -> covariance 3 wcov ->
  covariance 6 (entry6 (pose_message (output_cov D jac cov wcov))) /\ covariance 6 (entry6 (twist_message (output_cov D jac cov wcov))).
Proof. intros D jac cov wcov C W. split; (apply (cov_message_ok 12); [cbn; lia|cbn; lia|now apply C48_output_is_covariance]). Qed.
Theorem C48_extrinsics_message_is_covariance : forall ncam nmax npose cam cov, (cam < ncam)%nat ->
  covariance (size_of (state_layout ncam nmax npose)) cov -> covariance 6 (entry6 (extrinsics_message ncam nmax npose cam cov)).
Proof.
  intros ncam nmax npose cam cov H C. destruct (state_ids ncam nmax npose) as (_&_&_&_&_&P&A&_&_&_&S).
  apply (cov_message_ok (size_of (state_layout ncam nmax npose))); [rewrite P, S; lia|rewrite A, S; lia|exact C].
Qed.
(** The variance of any combination of the output is that of the estimate, propagated through the Jacobian, plus that of the gyroscope
    in the rate, which is components 6..8. *)
Theorem C48_output_variance : forall D jac cov wcov y,
  quad 12 (output_cov D jac cov wcov) y = quad D cov (fun k => fsum 12 (fun i => y i * jac i k)) + quad 3 wcov (fun k => y (6 + k)%nat).
Proof. intros D jac cov wcov y. unfold output_cov. rewrite add_block_quad by (cbn; lia). rewrite transform_quad. reflexivity. Qed.
(** The gyroscope noise over a step is [dt] times the covariance of the rate. *)
Theorem C48_gyro_noise_variance : forall D noise att dt x, (att + 3 <= D)%nat -> 0 < dt ->
  dt * quad 3 (rate_cov noise att dt) x = quad D noise (fun k => if (att <=? k) && (k <? att + 3) then x (k - att)%nat else 0).
Proof. intros D noise att dt x H Hd. rewrite (rate_cov_quad D) by (auto; lra). unfold inb. field. lra. Qed.
(** IMU bias message: gyroscope bias, then accelerometer bias *)
Theorem C48_bias_order : forall ncam nmax npose m i j, (i < 3)%nat -> (j < 3)%nat ->
  entry3 (gyr_bias_message ncam nmax npose m) i j = m (9 + i)%nat (9 + j)%nat /\ entry3 (acc_bias_message ncam nmax npose m) i j = m (6 + i)%nat (6 + j)%nat.
Proof.
  intros ncam nmax npose m i j Hi Hj. unfold gyr_bias_message, acc_bias_message. rewrite !bias_entry by auto. destruct (state_ids ncam nmax npose) as (_&_&A&G&_). rewrite A, G. split; reflexivity.
Qed.
Theorem C48_bias_message_is_covariance : forall ncam nmax npose cov, covariance (size_of (state_layout ncam nmax npose)) cov ->
  covariance 3 (entry3 (gyr_bias_message ncam nmax npose cov)) /\ covariance 3 (entry3 (acc_bias_message ncam nmax npose cov)).
Proof.
  intros ncam nmax npose cov C. destruct (state_ids ncam nmax npose) as (_&_&_&_&_&_&_&_&_&_&S). split.
  - apply (covariance_ext 3 (fun i j => cov (9 + i)%nat (9 + j)%nat)); [intros i j Hi Hj; symmetry; exact (proj1 (C48_bias_order ncam nmax npose cov i j Hi Hj))|]. apply (select_ok 3 (size_of (state_layout ncam nmax npose)) (fun i => 9 + i)%nat cov); [intros i Hi; rewrite S; lia|exact C].
  - apply (covariance_ext 3 (fun i j => cov (6 + i)%nat (6 + j)%nat)); [intros i j Hi Hj; symmetry; exact (proj2 (C48_bias_order ncam nmax npose cov i j Hi Hj))|]. apply (select_ok 3 (size_of (state_layout ncam nmax npose)) (fun i => 6 + i)%nat cov); [intros i Hi; rewrite S; lia|exact C].
Qed.
Example C48_ex : covariance 3 (fun i j => if Nat.eqb i j then 1 else 0) /\ entry6 (pose_message (fun i j => INR (i * 12 + j))) 0 3 = 9.
Proof.
  split; [|cbn; lra]. split; [intros i j _ _; now rewrite Nat.eqb_sym|]. intros x. unfold quad. cbn.
  pose proof (Rle_0_sqr (x 0%nat)). pose proof (Rle_0_sqr (x 1%nat)). pose proof (Rle_0_sqr (x 2%nat)). unfold Rsqr in *. lra.
Qed.

(** ** C59: the state elements partition the covariance indices. *)
Theorem C59_every_index_in_one_block : forall l k, (k < size_of l)%nat -> exists e i, (e < length l)%nat /\ (i < fst (nth e l (0, 0)%nat))%nat /\
  (get_id l e i <= k < get_id l e i + snd (nth e l (0, 0)%nat))%nat.
Proof. exact get_id_cover. Qed.
Theorem C59_blocks_disjoint : forall l e i e' i' k, (e < length l)%nat -> (i < fst (nth e l (0, 0)%nat))%nat -> (e' < length l)%nat -> (i' < fst (nth e' l (0, 0)%nat))%nat ->
  (get_id l e i <= k < get_id l e i + snd (nth e l (0, 0)%nat))%nat -> (get_id l e' i' <= k < get_id l e' i' + snd (nth e' l (0, 0)%nat))%nat ->
  e = e' /\ i = i'.
Proof. exact get_id_disjoint. Qed.
Theorem C59_state_offsets : forall ncam nmax npose, let l := state_layout ncam nmax npose in
  get_id l _pos 0 = 0%nat /\ get_id l _vel 0 = 3%nat /\ get_id l _acb 0 = 6%nat /\ get_id l _gyb 0 = 9%nat /\ get_id l _att 0 = 12%nat /\
  (forall i, get_id l _vep i = 15 + 3 * i)%nat /\ (forall i, get_id l _vea i = 15 + 3 * ncam + 3 * i)%nat /\
  (forall i, get_id l _fea i = 15 + 6 * ncam + 3 * i)%nat /\
  (forall i, get_id l _pop i = 15 + 6 * ncam + 3 * nmax + 3 * i)%nat /\
  (forall i, get_id l _poa i = 15 + 6 * ncam + 3 * nmax + 3 * npose + 3 * i)%nat /\
  (size_of l = 15 + 6 * ncam + 3 * nmax + 6 * npose)%nat.
Proof. exact state_ids. Qed.
Example C59_ex : size_of (state_layout 1 25 0) = 96%nat. Proof. reflexivity. Qed.

Print Assumptions C34_others_unchanged.
Print Assumptions C34_decorrelated.
Print Assumptions C34_initial_block.
Print Assumptions C34_stays_covariance.
Print Assumptions C34_reset_sequence.
Print Assumptions C34_feature_fits.
Print Assumptions C35_default_for_few.
Print Assumptions C35_confident_features.
Print Assumptions C35_true_median.
Print Assumptions C35_deterministic.
Print Assumptions C35_three_features_suffice_refuted.
Print Assumptions C35_negative_depth_rejected_refuted.
Print Assumptions C35_middle_of_sorted.
Print Assumptions C44_product_symmetric_iff_commute.
Print Assumptions C44_uniform_noise_is_covariance.
Print Assumptions C44_position_only_is_covariance.
Print Assumptions C44_without_odometry_default.
Print Assumptions C44_always_symmetric_refuted.
Print Assumptions C48_output_is_covariance.
Print Assumptions C48_gyro_noise_is_covariance.
Print Assumptions C48_pose_order.
Print Assumptions C48_twist_order.
Print Assumptions C48_extrinsics_order.
Print Assumptions C48_messages_are_covariances.
Print Assumptions C48_extrinsics_message_is_covariance.
Print Assumptions C59_every_index_in_one_block.
Print Assumptions C59_blocks_disjoint.
Print Assumptions C59_state_offsets.
Print Assumptions C48_output_variance.
Print Assumptions C48_gyro_noise_variance.
Print Assumptions C48_bias_order.
Print Assumptions C48_bias_message_is_covariance.
