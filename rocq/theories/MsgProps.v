(** C49 and C75: the point cloud, patch and marker messages. *)
From Coq Require Import Reals ZArith List Bool Arith String Lia Lra.
From Verif Require Import Geo DistModel DistProofs FiltModel FiltSpec OutModel OutSpec OutProofs MsgModel MsgSpec MsgProofs MsgMore.
Import ListNotations.

(** ** C49 *)
Theorem C49_messages_well_formed : forall nMax nLevels patchSize,
  well_formed (pcl_cloud nMax) /\ m_width (pcl_cloud nMax) = nMax /\
  well_formed (patch_cloud nMax nLevels patchSize) /\ m_width (patch_cloud nMax nLevels patchSize) = nMax.
Proof.
  intros n nL ps.
  split; [apply new_well_formed; [apply pcl_sizes | apply pcl_names]|]. split; [reflexivity|].
  split; [apply new_well_formed; [apply patch_sizes | apply patch_names]|]. reflexivity.
Qed.
Print Assumptions C49_messages_well_formed.

Lemma kept_pcl_shape bits n m : kept_pcl bits n m -> pcl_shape n m.
Proof. intros K. induction K as [|m ss m' K IH N W]; [apply pcl_shape_new | eapply write_pcl_shape; eauto]. Qed.
Lemma kept_patch_shape bits n nL ps m : kept_patch bits n nL ps m -> patch_shape nL ps n m.
Proof. intros K. induction K as [|m ss m' K IH N W]; [apply patch_shape_new | eapply write_patch_shape; eauto]. Qed.
Lemma shape_wf_pcl n m : pcl_shape n m -> well_formed m.
Proof.
  intros (F & St & W & L). destruct (new_well_formed n pcl_decls pcl_sizes pcl_names) as [_ A B C D].
  assert (S0 : m_step (new_cloud n pcl_decls) = 72) by reflexivity.
  change (m_fields (pcl_cloud n)) with (m_fields (new_cloud n pcl_decls)) in F.
  constructor; rewrite ?F, ?St, ?W; rewrite ?S0 in *; auto.
Qed.
Lemma shape_wf_patch n nL ps m : patch_shape nL ps n m -> well_formed m.
Proof.
  intros (F & St & W & L). destruct (new_well_formed n (patch_decls nL ps) (patch_sizes nL ps) (patch_names nL ps)) as [_ A B C D].
  destruct (patch_shape_new nL ps n) as (_ & S0 & _ & _).
  change (patch_cloud n nL ps) with (new_cloud n (patch_decls nL ps)) in F, S0.
  constructor; rewrite ?F, ?St, ?W; rewrite ?S0 in *; auto.
Qed.
Lemma pcl_get n m i name j : pcl_shape n m -> i < n -> nth_error (map d_name pcl_decls) j = Some name ->
  get m i name 0 = Some (read4 (m_data m) (4 * (18 * i + j))).
Proof.
  intros (F & St & W & L) Hi E. unfold get. rewrite F, St, W. apply Nat.ltb_lt in Hi. 
  do 18 (destruct j as [|j]; [cbn in E; injection E as <-;
    cbn [pcl_cloud new_cloud pcl_decls layout map app scalar d_size d_count d_name d_type m_fields find f_name String.eqb Ascii.eqb Bool.eqb f_offset f_count];
    rewrite Hi; cbn [Nat.ltb Nat.leb andb]; do 2 f_equal; lia|]).
  exfalso. cbn in E. destruct j; discriminate.
Qed.
Lemma patch_get n nL ps m i j k name : patch_shape nL ps n m -> i < n -> k < pixels nL ps ->
  nth_error ["patch"; "dx"; "dy"; "error"]%string j = Some name ->
  get m i name k = Some (read4 (m_data m) (4 * pword nL ps i (1 + j * pixels nL ps + k))).
Proof.
  intros (F & St & W & L) Hi Hk E. unfold get. rewrite F, St, W. apply Nat.ltb_lt in Hi. 
  do 4 (destruct j as [|j]; [cbn in E; injection E as <-;
    cbn [patch_cloud new_cloud patch_decls layout map app scalar d_size d_count d_name d_type m_fields find f_name String.eqb Ascii.eqb Bool.eqb f_offset f_count];
    rewrite Hi; fold (pixels nL ps); rewrite (proj2 (Nat.ltb_lt _ _) Hk); cbn [andb]; do 2 f_equal; unfold pstep, pword; lia|]).
  exfalso. cbn in E. destruct j; discriminate.
Qed.
Lemma patch_get_id n nL ps m i : patch_shape nL ps n m -> i < n ->
  get m i "id" 0 = Some (read4 (m_data m) (4 * pword nL ps i 0)).
Proof.
  intros (F & St & W & L) Hi. unfold get. rewrite F, St, W. apply Nat.ltb_lt in Hi. 
  cbn [patch_cloud new_cloud patch_decls layout map app scalar d_size d_count d_name d_type m_fields find f_name String.eqb Ascii.eqb Bool.eqb f_offset f_count].
  rewrite Hi. cbn [Nat.ltb Nat.leb andb]. do 2 f_equal. unfold pstep, pword. lia.
Qed.
Lemma signed_int z : int32 z -> signed (int_bits z mod 4294967296) = z.
Proof.
  intros H. unfold int_bits. rewrite Z.mod_mod by lia. unfold int32 in H. unfold signed.
  destruct (Z_lt_le_dec z 0) as [G|G].
  - replace (z mod 4294967296)%Z with (z + 4294967296)%Z by (rewrite <- (Z.mod_small (z + 4294967296) 4294967296) by lia; rewrite <- (Z.mod_add z 1) by lia; f_equal; lia).
    destruct (Z.ltb_spec (z + 4294967296) 2147483648); lia.
  - rewrite Z.mod_small by lia. destruct (Z.ltb_spec z 2147483648); lia.
Qed.

(** What a subscriber reads from a published point cloud, whatever was published before. *)
Theorem C49_point_cloud : forall bits n m ss, pattern bits -> kept_pcl bits n m -> List.length ss = n ->
  exists m', write_pcl bits m ss = Some m' /\ kept_pcl bits n m' /\ well_formed m' /\ m_width m' = n /\
  forall i s, nth_error ss i = Some s ->
  match s with
  | Some v =>
      (int32 (v_id v) -> option_map signed (get m' i "id" 0) = Some (v_id v)) /\
      (int32 (v_cam v) -> option_map signed (get m' i "camId" 0) = Some (v_cam v)) /\
      (int32 (v_status v) -> option_map signed (get m' i "status" 0) = Some (v_status v)) /\
      get m' i "rgb" 0 = Some (255 + 256 * 255 + 65536 * 255)%Z /\
      (get m' i "x" 0 = Some (bits (vx (v_pos v))) /\ get m' i "y" 0 = Some (bits (vy (v_pos v))) /\ get m' i "z" 0 = Some (bits (vz (v_pos v)))) /\
      (get m' i "b_x" 0 = Some (bits (vx (v_bea v))) /\ get m' i "b_y" 0 = Some (bits (vy (v_bea v))) /\ get m' i "b_z" 0 = Some (bits (vz (v_bea v)))) /\
      get m' i "d" 0 = Some (bits (v_dis v)) /\ get m' i "c_d" 0 = Some (bits (v_dcov v)) /\
      (get m' i "c_00" 0 = Some (bits (vx (r0 (v_cov v)))) /\ get m' i "c_01" 0 = Some (bits (vy (r0 (v_cov v)))) /\
       get m' i "c_02" 0 = Some (bits (vz (r0 (v_cov v)))) /\ get m' i "c_11" 0 = Some (bits (vy (r1 (v_cov v)))) /\
       get m' i "c_12" 0 = Some (bits (vz (r1 (v_cov v)))) /\ get m' i "c_22" 0 = Some (bits (vz (r2 (v_cov v)))))
  | None => option_map signed (get m' i "id" 0) = Some (-1)%Z /\
      forall name, In name (map f_name (m_fields m')) -> name <> "id"%string -> get m' i name 0 = Some nan_bits
  end.
Proof.
  intros bits n m ss Pb K N. pose proof (kept_pcl_shape _ _ _ K) as Sh.
  destruct (write_pcl_run bits n m ss Sh N) as (d & M & E). exists (with_data m d). split; [exact E|].
  pose proof (write_pcl_shape bits n m ss _ Sh N E) as Sh'.
  split; [eapply kept_written; eauto|]. split; [now apply (shape_wf_pcl n)|]. split; [apply Sh'|].
  intros i s Hi. assert (I : i < n) by (rewrite <- N; apply nth_error_Some; congruence).
  assert (G : forall j name w, nth_error (map d_name pcl_decls) j = Some name -> nth_error (words bits s) j = Some w ->
            get (with_data m d) i name 0 = Some (w mod 4294967296)%Z).
  { intros j name w H1 H2. rewrite (pcl_get n _ _ _ j Sh' I H1). f_equal. exact (write_pcl_word bits n m ss _ i j s w Sh N E Hi H2). }
  assert (Gb : forall j name r, nth_error (map d_name pcl_decls) j = Some name -> nth_error (words bits s) j = Some (bits r) ->
            get (with_data m d) i name 0 = Some (bits r)).
  { intros j name r H1 H2. rewrite (G j name _ H1 H2). f_equal. apply Z.mod_small, Pb. }
  destruct s as [v|].
  - split; [intros H; rewrite (G 0 "id"%string (int_bits (v_id v))) by reflexivity; cbn [option_map]; f_equal; now apply signed_int|].
    split; [intros H; rewrite (G 1 "camId"%string (int_bits (v_cam v))) by reflexivity; cbn [option_map]; f_equal; now apply signed_int|].
    split; [intros H; rewrite (G 3 "status"%string (int_bits (v_status v))) by reflexivity; cbn [option_map]; f_equal; now apply signed_int|].
    split; [now rewrite (G 2 "rgb"%string white) by reflexivity|].
    split; [split; [now apply (Gb 4)|split; [now apply (Gb 5)|now apply (Gb 6)]]|].
    split; [split; [now apply (Gb 7)|split; [now apply (Gb 8)|now apply (Gb 9)]]|].
    split; [now apply (Gb 10)|]. split; [now apply (Gb 17)|].
    split; [now apply (Gb 11)|]. split; [now apply (Gb 12)|]. split; [now apply (Gb 13)|].
    split; [now apply (Gb 14)|]. split; [now apply (Gb 15)|]. now apply (Gb 16).
  - split; [rewrite (G 0 "id"%string (int_bits (-1))) by reflexivity; reflexivity|].
    intros name In1 Ne. destruct Sh' as (F & _). rewrite F in In1.
    apply In_nth_error in In1 as [j Hj].
    assert (Hj' : nth_error (map d_name pcl_decls) j = Some name) by exact Hj.
    assert (J : j < 18) by (change 18 with (List.length (map d_name pcl_decls)); apply nth_error_Some; congruence).
    destruct j as [|j]; [cbn in Hj'; congruence|].
    rewrite (G (S j) name nan_bits Hj'); [reflexivity|].
    cbn [words nth_error]. apply (nth_error_repeat nan_bits). lia.
Qed.
Print Assumptions C49_point_cloud.

(** nothing of an earlier publication is left *)
Theorem C49_point_cloud_no_history : forall bits n m1 m2 ss, kept_pcl bits n m1 -> kept_pcl bits n m2 -> List.length ss = n ->
  write_pcl bits m1 ss = write_pcl bits m2 ss.
Proof. intros bits n m1 m2 ss K1 K2 N. eapply write_pcl_any; eauto using kept_pcl_shape. Qed.
Print Assumptions C49_point_cloud_no_history.

(** What a subscriber reads from a published patch message: the record of a feature is complete, the record of
    an unused slot has the id -1 and keeps all other fields of the previous publication. *)
Theorem C49_patches : forall bits n nL ps m ss, pattern bits -> kept_patch bits n nL ps m -> List.length ss = n ->
  exists m', write_patch bits nL ps m ss = Some m' /\ kept_patch bits n nL ps m' /\ well_formed m' /\ m_width m' = n /\
  forall i s, nth_error ss i = Some s ->
  match s with
  | Some v =>
      (int32 (q_id v) -> option_map signed (get m' i "id" 0) = Some (q_id v)) /\
      forall l y x, l < nL -> y < ps -> x < ps ->
        get m' i "patch" (l * ps * ps + y * ps + x) = Some (bits (q_patch v l (y * ps + x))) /\
        get m' i "dx" (l * ps * ps + y * ps + x) = Some (bits (q_dx v l (y * ps + x))) /\
        get m' i "dy" (l * ps * ps + y * ps + x) = Some (bits (q_dy v l (y * ps + x))) /\
        get m' i "error" (l * ps * ps + y * ps + x) = Some (bits (q_err v l (y * ps + x)))
  | None => option_map signed (get m' i "id" 0) = Some (-1)%Z /\
      forall name k, In name ["patch"; "dx"; "dy"; "error"]%string -> k < nL * ps * ps -> get m' i name k = get m i name k
  end.
Proof.
  intros bits n nL ps m ss Pb K N. pose proof (kept_patch_shape _ _ _ _ _ K) as Sh.
  destruct (write_patch_run bits nL ps n m ss Sh N) as (d & M & E). exists (with_data m d). split; [exact E|].
  pose proof (write_patch_shape bits nL ps n m ss _ Sh N E) as Sh'.
  split; [eapply kept_written; eauto|]. split; [now apply (shape_wf_patch n nL ps)|]. split; [apply Sh'|].
  intros i s Hi. assert (I : i < n) by (rewrite <- N; apply nth_error_Some; congruence).
  destruct s as [v|].
  - split.
    + intros H. rewrite (patch_get_id n nL ps _ i Sh' I). cbn [option_map].
      rewrite (write_patch_word bits nL ps n m ss _ i 0 (Some v) (int_bits (q_id v)) Sh N E Hi) by (now left).
      f_equal. now apply signed_int.
    + intros l y x Hl Hy Hx. pose proof (pixel_lt nL ps l y x Hl Hy Hx) as P.
      assert (G : forall j name, nth_error ["patch"; "dx"; "dy"; "error"]%string j = Some name ->
                get (with_data m d) i name (l * ps * ps + y * ps + x) = Some (bits (arr v j l (y * ps + x)))).
      { intros j name Hj. assert (J : j < 4) by (change 4 with (List.length ["patch"; "dx"; "dy"; "error"]%string); apply nth_error_Some; congruence).
        rewrite (patch_get n nL ps _ i j _ name Sh' I P Hj). f_equal.
        rewrite (write_patch_word bits nL ps n m ss _ i _ (Some v) (bits (arr v j l (y * ps + x))) Sh N E Hi).
        - apply Z.mod_small, Pb.
        - right. exists j, l, y, x. auto 10. }
      split; [now apply (G 0)|]. split; [now apply (G 1)|]. split; [now apply (G 2)|now apply (G 3)].
  - split.
    + rewrite (patch_get_id n nL ps _ i Sh' I). cbn [option_map].
      rewrite (write_patch_word bits nL ps n m ss _ i 0 None (int_bits (-1)) Sh N E Hi) by (now split). reflexivity.
    + intros name k In1 Hk. apply In_nth_error in In1 as [j Hj].
      assert (J : j < 4) by (change 4 with (List.length ["patch"; "dx"; "dy"; "error"]%string); apply nth_error_Some; congruence).
      rewrite (patch_get n nL ps _ i j _ name Sh' I Hk Hj), (patch_get n nL ps _ i j _ name Sh I Hk Hj). f_equal.
      assert (j * pixels nL ps <= 3 * pixels nL ps) by (apply Nat.mul_le_mono_r; lia). fold (pixels nL ps) in Hk.
      eapply write_patch_kept; eauto; lia.
Qed.
Print Assumptions C49_patches.

(** The record of an unused slot therefore still holds the pixels of the feature that used it last. *)
Theorem C49_unused_slot_cleared_refuted : forall bits, pattern bits -> exists n nL ps m ss m', kept_patch bits n nL ps m /\ List.length ss = n /\
  write_patch bits nL ps m ss = Some m' /\ nth_error ss 0 = Some None /\ get m' 0 "patch" 0 = Some (bits 1%R).
Proof.
  intros bits Pb.
  set (v := {| q_id := 7; q_patch := fun _ _ => 1%R; q_dx := fun _ _ => 0%R; q_dy := fun _ _ => 0%R; q_err := fun _ _ => 0%R |}).
  pose proof (kept_new (patch_cloud 1 1 1) 1 (write_patch bits 1 1)) as K0.
  destruct (C49_patches bits 1 1 1 _ [Some v] Pb K0 eq_refl) as (m1 & E1 & K1 & _ & _ & R1).
  destruct (C49_patches bits 1 1 1 m1 [None] Pb K1 eq_refl) as (m2 & E2 & K2 & _ & _ & R2).
  exists 1, 1, 1, m1, [None], m2. split; [exact K1|]. split; [reflexivity|]. split; [exact E2|]. split; [reflexivity|].
  destruct (R2 0 None eq_refl) as [_ R]. rewrite R; [|cbn; tauto|cbn; lia].
  destruct (R1 0 (Some v) eq_refl) as [_ Q]. destruct (Q 0 0 0 ltac:(lia) ltac:(lia) ltac:(lia)) as [Q1 _]. exact Q1.
Qed.
Print Assumptions C49_unused_slot_cleared_refuted.

Example C49_three_slots : forall bits, pattern bits ->
  let v := {| v_id := -5; v_cam := 1; v_status := 3; v_pos := v0; v_bea := v0; v_dis := 0%R; v_cov := mzero3; v_dcov := 0%R |} in
  exists m', write_pcl bits (pcl_cloud 3) [None; Some v; None] = Some m' /\
    option_map signed (get m' 1 "id" 0) = Some (-5)%Z /\ get m' 2 "camId" 0 = Some nan_bits.
Proof.
  intros bits Pb v. pose proof (kept_new (pcl_cloud 3) 3 (write_pcl bits)) as K0.
  destruct (C49_point_cloud bits 3 _ [None; Some v; None] Pb K0 eq_refl) as (m & E & _ & _ & _ & R). exists m. split; [exact E|].
  pose proof (R 1 (Some v) eq_refl) as (A & _). split; [apply A; unfold int32; cbn; lia|].
  pose proof (R 2 None eq_refl) as (_ & B). apply B; [|discriminate].
  rewrite (proj1 (write_pcl_shape bits 3 _ [None; Some v; None] _ (pcl_shape_new 3) eq_refl E)). cbn. tauto.
Qed.

Local Open Scope R_scope.
(** the six covariance fields determine the landmark covariance, which is one *)
Theorem C49_landmark_covariance : forall n x C id status i, sym C ->
  let c := v_cov (point_of n x C id status i) in
  c = from_upper (ment c 0 0) (ment c 0 1) (ment c 0 2) (ment c 1 1) (ment c 1 2) (ment c 2 2) /\
  (psd n C -> forall u, 0 <= dot u (mv c u)) /\
  (psd n C -> (i < d_max n)%nat -> 0 <= v_dcov (point_of n x C id status i)).
Proof.
  intros n x C id status i S c. split; [apply upper_sym; now apply row_cov_sym|]. split.
  - intros P u. unfold c, point_of. cbn [v_cov]. rewrite row_cov_quad. apply P.
  - intros P Hi. cbn [point_of v_dcov]. set (u := readable_jac_dis (x_fea x i)).
    specialize (P (fun s => if seg_eq s (Fea i) then u else v0)).
    assert (Q : quad n C (fun s => if seg_eq s (Fea i) then u else v0) = dot u (mv (C (Fea i) (Fea i)) u)); [|lra].
    unfold quad.
    assert (I : In (Fea i) (segs n)) by (now apply FiltProofs.segs_in). pose proof (FiltProofs.segs_NoDup n) as ND.
    assert (V : forall s, fold_right (fun t a => vadd (mv (C s t) (if seg_eq t (Fea i) then u else v0)) a) v0 (segs n) = mv (C s (Fea i)) u).
    { intros s. revert I ND. induction (segs n) as [|t l IH]; [intros []|]. intros I ND. apply NoDup_cons_iff in ND as [N1 N2]. cbn [fold_right].
      destruct I as [->|I].
      - destruct (seg_eq (Fea i) (Fea i)) as [_|Z]; [|contradiction]. replace (fold_right _ _ l) with v0; [apply vadd_0_r|].
        clear - N1. induction l as [|t l IH]; [reflexivity|]. cbn [fold_right]. rewrite <- IH by (intros K; apply N1; now right).
        destruct (seg_eq t (Fea i)) as [->|_]; [exfalso; apply N1; now left|]. generalize (C s t); intros M. clear. unfold v0. veq.
      - rewrite (IH I N2). destruct (seg_eq t (Fea i)) as [->|_]; [contradiction|]. generalize (C s t) (mv (C s (Fea i)) u); intros M w. clear. unfold v0. veq. }
    rewrite (sum_ext _ _ (fun s => dot (if seg_eq s (Fea i) then u else v0) (mv (C s (Fea i)) u))) by (intros s; now rewrite V).
    clear V P. revert I ND. induction (segs n) as [|t l IH]; [intros []|]. intros I ND. apply NoDup_cons_iff in ND as [N1 N2]. cbn [fold_right].
    destruct I as [->|I].
    + destruct (seg_eq (Fea i) (Fea i)) as [_|Z]; [|contradiction]. replace (fold_right _ _ l) with 0; [apply Rplus_0_r|].
      clear - N1. induction l as [|t l IH]; [reflexivity|]. cbn [fold_right]. rewrite <- IH by (intros K; apply N1; now right).
      destruct (seg_eq t (Fea i)) as [->|_]; [exfalso; apply N1; now left|]. rewrite dot_comm, dot_0_r. ring.
    + rewrite (IH I N2). destruct (seg_eq t (Fea i)) as [->|_]; [contradiction|]. rewrite dot_comm, dot_0_r. ring.
Qed.
Print Assumptions C49_landmark_covariance.

(** the position written for a feature is the landmark, on the ray of the written bearing at the written distance *)
Theorem C49_point_values : forall n x C id status i, wf n x -> usable n x i ->
  let p := point_of n x C id status i in
  v_pos p = in_imu (qCM x (fcam x i)) (MrMC x (fcam x i)) (vscale (v_dis p) (v_bea p)) /\
  v_dcov p = distance_derivative (ft_d (x_fea x i)) * distance_derivative (ft_d (x_fea x i)) * vz (r2 (C (Fea i) (Fea i))).
Proof.
  intros n x C id status i W U p. split; [reflexivity|].
  cbn [p point_of v_dcov]. unfold readable_jac_dis. generalize (distance_derivative (ft_d (x_fea x i))) (C (Fea i) (Fea i)). intros a M. clear. geo. ring.
Qed.
Print Assumptions C49_point_values.

(** ** C75 *)
Theorem C75_one_segment_per_feature : forall nMax valid x C,
  marker_points nMax valid x C = flat_map (marker_pair x C) (filter valid (seq 0 nMax)) /\
  List.length (marker_points nMax valid x C) = (2 * List.length (filter valid (seq 0 nMax)))%nat /\
  forall p, In p (marker_points nMax valid x C) -> exists i d, (i < nMax)%nat /\ valid i = true /\ 0 <= d <= 1000 /\
    p = vscale d (nor (ft_Q (x_fea x i))).
Proof.
  intros nMax valid x C. unfold marker_points. split; [|split].
  - induction (seq 0 nMax) as [|i l IH]; [reflexivity|]. cbn [flat_map filter]. rewrite IH. destruct (valid i); reflexivity.
  - induction (seq 0 nMax) as [|i l IH]; [reflexivity|]. cbn [flat_map filter]. rewrite app_length, IH.
    destruct (valid i); cbn [List.length marker_pair]; lia.
  - intros p I. apply in_flat_map in I as (i & Is & I). apply in_seq in Is. destruct (valid i) eqn:V; [|destruct I].
    exists i. destruct I as [<-|[<-|[]]]; eexists; (split; [lia|]; split; [exact V|]; split; [|reflexivity]); apply clamp_range.
Qed.
Print Assumptions C75_one_segment_per_feature.

(** the segment contains the estimate, unless an inverse depth can be zero within three standard deviations *)
Theorem C75_segment_contains_feature : forall x C i, 0 <= get_distance (ft_d (x_fea x i)) <= 1000 ->
  (fd_type (ft_d (x_fea x i)) = INVERSE -> 0 <= fd_p (ft_d (x_fea x i)) - 3 * sigma_of C i) ->
  match marker_pair x C i with [near; far] => between near far (ray (x_fea x i)) | _ => False end.
Proof.
  intros x C i D P. cbn [marker_pair]. unfold ray. set (f := ft_d (x_fea x i)) in *. set (b := nor (ft_Q (x_fea x i))). 
  assert (S : 0 <= sigma_of C i) by (apply sqrt_pos). destruct (bounds_around f (sigma_of C i) S D) as [B1 B2].
  destruct (fd_type f) eqn:T; try (refine (proj2 (between_scale b _ _ _ (B1 _))); discriminate).
  exact (proj1 (between_scale b _ _ _ (B2 eq_refl (P eq_refl)))).
Qed.
Print Assumptions C75_segment_contains_feature.

(** a feature with parametrisation and parameter [f] straight ahead of camera [c] in the state [ox] *)
Definition mx (MrMC0 : V3) (f : fdist) : state :=
  {| x_pos := v0; x_vel := v0; x_acb := v0; x_gyb := v0; x_att := m1; x_vep := fun _ => MrMC0; x_vea := fun _ => m1;
     x_fea := fun _ => {| ft_cam := 0; ft_Q := m1; ft_d := f; ft_track := false; ft_warp := ((1, 0), (0, 1)) |};
     x_pop := fun _ => v0; x_poa := fun _ => m1;
     x_aux := {| a_wmeas := v0; a_west := v0; a_wcov := mzero3; a_calib := true; a_qCM := fun _ => m1; a_MrMC := fun _ => v0; a_timerI := 0; a_timerV := 0 |} |}.
Definition mx_n : dims := {| d_cam := 1; d_max := 1; d_pose := 0 |}.
Definition mx_C (v : R) : seg -> seg -> M3 := fun s t => match s, t with Fea 0, Fea 0 => ((1, 0, 0), (0, 1, 0), (0, 0, v)) | _, _ => mzero3 end.
Lemma mx_wf r f : wf mx_n (mx r f).
Proof. constructor; intros; apply rot_1. Qed.
Lemma mx_sigma s : 0 <= s -> sigma_of (mx_C (s * s)) 0 = s.
Proof. intros H. unfold sigma_of. cbn [mx_C r2 vz fst snd]. now apply sqrt_square. Qed.
Lemma mx_nor r f : nor (ft_Q (x_fea (mx r f) 0)) = (0, 0, 1).
Proof. unfold nor. cbn [mx x_fea ft_Q]. apply mv_m1. Qed.

(** inverse depth 1 with standard deviation 1/2: the segment goes from the camera to distance 2/5 and misses the
    feature at distance 1 *)
Theorem C75_segment_contains_feature_refuted : exists n x C i, wf n x /\ sym C /\ psd n C /\ 0 < get_distance (ft_d (x_fea x i)) <= 1000 /\
  match marker_pair x C i with [near; far] => far = v0 /\ ~ between near far (ray (x_fea x i)) | _ => True end.
Proof.
  exists mx_n, (mx v0 {| fd_type := INVERSE; fd_p := 1 |}), (mx_C (1 / 2 * (1 / 2))), 0%nat.
  assert (M1 : make_non_zero 1 = 1) by (apply mnz_self; rewrite Rabs_pos_eq; lra).
  split; [apply mx_wf|]. split.
  { intros [| | | | |c|c|[|i]|k|k] [| | | | |c'|c'|[|i']|k'|k']; cbn [mx_C]; unfold mzero3, v0; veq. }
  split.
  { intros v. unfold quad. cbn [segs mx_n d_cam d_max d_pose seq map app fold_right mx_C]. generalize (v Pos) (v Vel) (v Acb) (v Gyb) (v Att) (v (Vep 0)) (v (Vea 0)) (v (Fea 0)).
    intros a b c d e f g [[h1 h2] h3]. 
    replace (dot a _ + _) with (h1 * h1 + h2 * h2 + 1 / 2 * (1 / 2) * (h3 * h3)); [nra|]. unfold mzero3. clear. unfold v0. geo. ring. }
  split; [unfold get_distance; cbn [mx x_fea ft_d fd_type fd_p dist_of]; rewrite M1; lra|].
  cbn [marker_pair]. rewrite mx_sigma by lra. rewrite mx_nor. cbn [mx x_fea ft_d]. unfold d_minus, d_plus. cbn [fd_type fd_p dist_of].
  replace (1 - 3 * (1 / 2)) with (- (1 / 2)) by lra. replace (- (1 / 2) + 2 * 3 * (1 / 2)) with (5 / 2) by lra.
  rewrite !mnz_self by (unfold Rabs; destruct (Rcase_abs _); lra).
  replace (clamp (1 / - (1 / 2))) with 0.
  2:{ replace (1 / - (1 / 2)) with (-2) by field. unfold clamp. destruct (Rlt_dec 1000 (-2)); [lra|]. destruct (Rlt_dec (-2) 0); lra. }
  replace (clamp (1 / (5 / 2))) with (2 / 5) by (replace (1 / (5 / 2)) with (2 / 5) by field; rewrite clamp_id; lra).
  split; [unfold v0, vscale, vx, vy, vz; cbn; f_equal; [f_equal|]; ring|].
  intros (t & Ht & E). apply (f_equal vz) in E. unfold ray, get_distance in E. cbn [mx x_fea ft_d ft_Q fd_type fd_p dist_of] in E.
  rewrite M1 in E. unfold nor in E. rewrite mv_m1 in E. unfold vadd, vscale, vsub, vx, vy, vz in E. cbn in E. nra.
Qed.
Print Assumptions C75_segment_contains_feature_refuted.

(** the point called near is the nearer one for the inverse parametrisation, otherwise it is the farther one *)
Theorem C75_near_far : forall f sigma, 0 <= sigma ->
  (fd_type f = INVERSE -> 0 <= fd_p f - 3 * sigma -> d_plus f sigma <= d_minus f sigma) /\
  (fd_type f <> INVERSE -> d_minus f sigma <= d_plus f sigma).
Proof.
  intros f s Hs. unfold d_minus, d_plus. split.
  - intros T P. rewrite T. apply clamp_mono, inv_mono. lra.
  - intros T. apply clamp_mono, ViewDraw.dist_mono; auto; lra.
Qed.
Print Assumptions C75_near_far.
Theorem C75_near_is_nearer_refuted : exists f sigma, 0 < sigma /\ 0 < get_distance f /\ d_minus f sigma < d_plus f sigma.
Proof.
  exists {| fd_type := REGULAR; fd_p := 10 |}, 1. unfold get_distance, d_minus, d_plus. cbn [fd_type fd_p dist_of].
  rewrite !clamp_id by lra. lra.
Qed.
Print Assumptions C75_near_is_nearer_refuted.

(** The message is stamped with the IMU frame but its points are camera coordinates: they are the landmark's
    ray only if the camera sits at the IMU's origin with the same axes. *)
Theorem C75_imu_frame : forall x C i, qCM x (fcam x i) = m1 -> MrMC x (fcam x i) = v0 -> 0 <= get_distance (ft_d (x_fea x i)) <= 1000 ->
  (fd_type (ft_d (x_fea x i)) = INVERSE -> 0 <= fd_p (ft_d (x_fea x i)) - 3 * sigma_of C i) ->
  match marker_pair x C i with [near; far] => between near far (landmark_out x i) | _ => False end.
Proof.
  intros x C i Q T D P. pose proof (C75_segment_contains_feature x C i D P) as H. cbn [marker_pair] in *.
  unfold landmark_out. rewrite Q, T, mt_1, mv_m1, vadd_0_l. exact H.
Qed.
Print Assumptions C75_imu_frame.
Theorem C75_imu_frame_refuted : exists n x C i, wf n x /\ usable n x i /\ 0 < get_distance (ft_d (x_fea x i)) <= 1000 /\
  (0 < sigma_of C i) /\ match marker_pair x C i with [near; far] => ~ between near far (landmark_out x i) | _ => True end.
Proof.
  exists mx_n, (mx (1, 0, 0) {| fd_type := REGULAR; fd_p := 10 |}), (mx_C (1 * 1)), 0%nat.
  split; [apply mx_wf|]. split; [split; [cbn; lia|]; unfold smooth_fea, get_distance; cbn; split; [lra|exact I]|].
  split; [unfold get_distance; cbn; lra|]. rewrite mx_sigma by lra. split; [lra|].
  cbn [marker_pair]. rewrite mx_nor. intros (t & Ht & E). apply (f_equal vx) in E.
  unfold landmark_out in E. cbn [mx qCM MrMC x_aux a_calib x_vea x_vep x_fea] in E. unfold qCM, MrMC in E. cbn [mx x_aux a_calib x_vea x_vep] in E.
  rewrite mt_1, mv_m1 in E. unfold ray, nor in E. cbn [ft_Q] in E. rewrite mv_m1 in E. unfold vadd, vscale, vsub, vx, vy, vz in E. cbn [fst snd] in E. lra.
Qed.
Print Assumptions C75_imu_frame_refuted.
