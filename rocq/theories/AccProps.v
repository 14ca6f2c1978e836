(** C78: which feature measurements are accepted. *)
From Coq Require Import List ZArith QArith Qreals Reals Bool Arith Lia Lra.
From Verif Require Import PatchModel PatchSpec PyrModel PyrSpec PyrProofs AvgModel AvgSpec AvgProofs AccModel AccSpec AccProofs.
Import ListNotations.
Local Open Scope R_scope.

(** The outlier check always decides (nothing is read outside an image) and accepts iff the iterations
    converged and, with a rejection threshold, the predicted patch lies in the image, its error is within
    the threshold and, with a sampling distance, at least two of the four samples around it look
    different. *)
Theorem C78_accepted_iff : forall near cf converged py patch here at_step, acc_ok cf -> filled (k_n cf) patch (k_s cf) ->
  fair near cf py here -> (forall v, In v (steps (k_dist cf)) -> fair near cf py (at_step v)) ->
  exists b, outlier_check near cf converged py patch here at_step = Some b /\
    (b = true <-> converged = true /\ (k_th cf < 0 \/
      (visible near cf py here /\ exists r, intensity_error near cf py patch here r /\ r <= k_th cf /\
        ((k_dist cf <= 0)%Q \/ exists v1 v2, v1 <> v2 /\ In v1 (steps (k_dist cf)) /\ In v2 (steps (k_dist cf)) /\
           differs near cf py patch (sample_limit cf r) (at_step v1) /\ differs near cf py patch (sample_limit cf r) (at_step v2))))).
Proof.
  intros near cf converged py patch here at_step OK FP FH FS. unfold outlier_check.
  destruct converged; cbn [negb]; [|exists false; split; [reflexivity|]; split; [discriminate|intros [X _]; discriminate]].
  destruct (Rle_dec 0 (k_th cf)) as [T|T]; [|exists true; split; [reflexivity|]; split; auto; intros _; split; auto; left; lra].
  destruct (spot_in near cf py here) eqn:V; cbn [negb].
  2:{ exists false. split; [reflexivity|]. split; [discriminate|]. intros (_ & [X|(X & _)]); [lra|]. unfold visible in X. congruence. }
  destruct (error_some near cf py patch OK FP here FH V) as (avg & E & I). rewrite E. cbn [bind].
  assert (U : forall r, intensity_error near cf py patch here r -> r = avg) by (intros r Hr; exact (error_unique near cf py patch OK FP here avg r E FH V Hr)).
  destruct (Rltb (k_th cf) avg) eqn:LT.
  { apply Rltb_iff in LT. exists false. split; [reflexivity|]. split; [discriminate|]. intros (_ & [X|(_ & r & Hr & Le & _)]); [lra|]. apply U in Hr. subst r. lra. }
  apply Rltb_false in LT. destruct (Qle_bool (k_dist cf) 0) eqn:D; cbn [negb].
  { apply Qle_bool_iff in D. exists true. split; [reflexivity|]. split; auto. intros _. split; auto. right. split; [exact V|]. exists avg. auto. }
  assert (D' : (0 < k_dist cf)%Q) by (apply Qnot_le_lt; intros C; apply Qle_bool_iff in C; congruence).
  rewrite (count_above_eq near cf py patch OK FP) by (intros i Hi; apply FS; rewrite <- steps_eq; now apply in_map).
  rewrite steps_eq. cbn [bind]. exists (negb (0 + length (filter (hit near cf py patch at_step avg) (steps (k_dist cf))) <? 2)%nat). split; [reflexivity|].
  rewrite negb_true_iff, Nat.ltb_ge, Nat.add_0_l. rewrite (two_hits (hit near cf py patch at_step avg) _ (steps_nodup _ D')). split.
  - intros (a & b & NE & Ia & Ib & Ha & Hb). split; [reflexivity|]. right. split; [exact V|]. exists avg. split; [exact I|]. split; [exact LT|]. right. exists a, b.
    rewrite (hit_iff near cf py patch OK FP) in Ha, Hb by auto. auto.
  - intros (_ & [X|(_ & r & Hr & _ & [X|(a & b & NE & Ia & Ib & Ha & Hb)])]).
    + lra.
    + exfalso. apply (Qlt_not_le _ _ D' X).
    + apply U in Hr. subst r. exists a, b. repeat split; auto; apply (hit_iff near cf py patch OK FP); auto.
Qed.
(** a place whose surroundings look alike (no neighbour differs more from the patch than the place
    itself) is rejected whenever the sampling check is made *)
Theorem C78_repetitive_texture_rejected : forall near cf py patch here at_step, acc_ok cf -> filled (k_n cf) patch (k_s cf) ->
  fair near cf py here -> (forall v, In v (steps (k_dist cf)) -> fair near cf py (at_step v)) -> 0 <= k_th cf -> (0 < k_dist cf)%Q ->
  (forall v r r', In v (steps (k_dist cf)) -> intensity_error near cf py patch here r -> intensity_error near cf py patch (at_step v) r' -> r' <= r) ->
  forall converged, outlier_check near cf converged py patch here at_step = Some false.
Proof.
  intros near cf py patch here at_step OK FP FH FS T D SAME converged. destruct (C78_accepted_iff near cf converged py patch here at_step OK FP FH FS) as (b & E & I).
  rewrite E. destruct b; [exfalso|reflexivity]. destruct (proj1 I eq_refl) as (_ & [X|(V & r & Hr & Le & [X|(a & b & NE & Ia & Ib & (Va & e & He & L) & _)])]).
  - lra.
  - apply (Qlt_not_le _ _ D X).
  - specialize (SAME a r e Ia Hr He). destruct Hr as (_ & _ & _ & R0 & _). unfold sample_limit in L. destruct (Rlt_dec 1 (k_gain cf)); [nra|lra].
Qed.
(** an accepted measurement with both checks enabled: the error at the feature is below that of two
    neighbours, by the gain when it exceeds one *)
Theorem C78_accepted_is_distinctive : forall near cf py patch here at_step converged, acc_ok cf -> filled (k_n cf) patch (k_s cf) ->
  fair near cf py here -> (forall v, In v (steps (k_dist cf)) -> fair near cf py (at_step v)) -> 0 <= k_th cf -> (0 < k_dist cf)%Q ->
  outlier_check near cf converged py patch here at_step = Some true ->
  exists r v1 v2 e1 e2, intensity_error near cf py patch here r /\ v1 <> v2 /\ In v1 (steps (k_dist cf)) /\ In v2 (steps (k_dist cf)) /\
    intensity_error near cf py patch (at_step v1) e1 /\ intensity_error near cf py patch (at_step v2) e2 /\ r <= k_th cf /\ r < e1 /\ r < e2 /\
    (1 < k_gain cf -> k_gain cf * r < e1 /\ k_gain cf * r < e2).
Proof.
  intros near cf py patch here at_step converged OK FP FH FS T D A. destruct (C78_accepted_iff near cf converged py patch here at_step OK FP FH FS) as (b & E & I).
  rewrite A in E. injection E as <-. destruct (proj1 I eq_refl) as (_ & [X|(V & r & Hr & Le & [X|(a & b & NE & Ia & Ib & (Va & e & He & L) & (Vb & e' & He' & L'))])]).
  - lra.
  - exfalso. apply (Qlt_not_le _ _ D X).
  - exists r, a, b, e, e'. unfold sample_limit in L, L'. pose proof Hr as (_ & _ & _ & R0 & _).
    destruct (Rlt_dec 1 (k_gain cf)); do 9 (split; [solve [auto|nra]|]); intros; split; nra.
Qed.
(** the documentation of the sampling distance names one condition for leaving the check out (a distance
    not above zero); a negative rejection threshold leaves it out too, and the in-frame test with it *)
Theorem C78_sampling_check_made_refuted : exists near cf py patch here at_step, acc_ok cf /\ built false py /\ filled (k_n cf) patch (k_s cf) /\ (0 < k_dist cf)%Q /\
  ~ visible near cf py here /\ (forall v, In v (steps (k_dist cf)) -> ~ visible near cf py (at_step v)) /\
  outlier_check near cf true py patch here at_step = Some true.
Proof.
  set (cf := {| k_th := -1; k_dist := 1; k_gain := 2; k_s := 0; k_e := 0; k_n := 2; k_ncam := 1 |}).
  set (py := {| py_img := fun l => {| cols := size_at 20 l; rows := size_at 20 l; pix := fun _ _ => 0%Q |}; py_ct := centers false 20 20 |}).
  set (at_ := fun v : Q * Q => (true, {| q_c := (100 + fst v, 100 + snd v)%Q; q_warp := Some id_warp; q_wid := true; q_cam := true |})).
  exists (fun _ => true), cf, py, [[1; 2; 3; 4]], (at_ (0, 0)%Q), at_.
  split; [split; [exists 1%nat; reflexivity|split; cbn; lia]|]. split; [exists 20%Z, 20%Z; repeat split; lia|].
  split; [split; [cbn; lia|intros p [<-|[]]; reflexivity]|]. split; [reflexivity|]. split; [unfold visible, spot_in; vm_compute; discriminate|].
  split; [intros v H; repeat (destruct H as [<-|H]; [unfold visible, spot_in; vm_compute; discriminate|]); destruct H|].
  unfold outlier_check. cbn [negb]. destruct (Rle_dec 0 (k_th cf)) as [X|X]; [cbn in X; lra|reflexivity].
Qed.

(** Pixel measurements: accepted iff the alignment succeeded, ended in the image, and its error is within
    the threshold (a negative threshold switches the error test off, not the in-frame test). *)
Theorem C78_alignment_accepted_iff : forall near cf py patch aligned, acc_ok cf -> filled (k_n cf) patch (k_s cf) ->
  (forall p, aligned = Some p -> fair near cf py p) ->
  exists b, aligned_ok near cf py patch aligned = Some b /\
    (b = true <-> exists p, aligned = Some p /\ visible near cf py p /\ (k_th cf < 0 \/ exists r, intensity_error near cf py patch p r /\ r <= k_th cf)).
Proof.
  intros near cf py patch [p|] OK FP FA; unfold aligned_ok; [|exists false; split; [reflexivity|]; split; [discriminate|intros (p & X & _); discriminate]].
  specialize (FA p eq_refl). destruct (spot_in near cf py p) eqn:V.
  2:{ exists false. split; [reflexivity|]. split; [discriminate|]. intros (p' & X & Y & _). injection X as <-. unfold visible in Y. congruence. }
  destruct (Rle_dec 0 (k_th cf)) as [T|T].
  - destruct (error_some near cf py patch OK FP p FA V) as (avg & E & I). rewrite E. cbn [bind andb]. eexists. split; [reflexivity|].
    rewrite negb_true_iff, Rltb_false. split.
    + intros L. exists p. split; [reflexivity|]. split; [exact V|]. right. exists avg. auto.
    + intros (p' & X & _ & [Y|(r & Hr & L)]); [lra|]. injection X as <-. rewrite (error_unique near cf py patch OK FP p avg r E FA V Hr) in L. exact L.
  - cbn. exists true. split; [reflexivity|]. split; auto. intros _. exists p. split; [reflexivity|]. split; [exact V|]. left. lra.
Qed.

(** The in-frame gate before the update and the one for the status after it test the coordinates in the
    camera the feature is observed in. With images of one size this is the test in that camera. *)
Theorem C78_gate_same_size : forall near cf prev cur cam counter there accepted, same_size (prev cam) (cur (active_camera cf counter cam)) -> same_size (cur cam) (cur (active_camera cf counter cam)) ->
  (gate near cf prev cam there = true <-> visible near cf (cur (active_camera cf counter cam)) there) /\
  (tracked near cf accepted cur cam there = true <-> accepted = true /\ visible near cf (cur (active_camera cf counter cam)) there).
Proof.
  intros near cf prev cur cam counter there accepted S1 S2.
  assert (K : forall a b, same_size a b -> spot_in near cf a there = spot_in near cf b there).
  { intros a b [A B]. unfold spot_in, ml_in_frame. destruct (fst there && _); [|reflexivity]. unfold level_in_frame.
    assert (ET : level_transform (py_ct a) (snd there) 0 (k_s cf) = level_transform (py_ct b) (snd there) 0 (k_s cf)) by (unfold level_transform, level_c; now rewrite !B).
    rewrite ET. unfold in_frame, in_frame_id, in_frame_warp, corner_ok. destruct (A (k_s cf)) as [A1 A2]. rewrite A1, A2. reflexivity. }
  unfold gate, tracked, visible. rewrite (K _ _ S1), (K _ _ S2), andb_true_iff. tauto.
Qed.
(** with two cameras of different image size the gate passes features that are not in the image they are
    observed in, and holds back features that are; the status afterwards is wrong in the same way *)
Definition plain (w : Z) : pyramid := {| py_img := fun l => {| cols := size_at w l; rows := size_at w l; pix := fun _ _ => 0%Q |}; py_ct := centers false w w |}.
Definition place (x : Q) : spot := (true, {| q_c := (x, x); q_warp := Some id_warp; q_wid := true; q_cam := true |}).
Theorem C78_gate_tests_observing_camera_refuted : exists near cf img there counter, k_ncam cf = 2%nat /\ (forall c, built false (img c)) /\
  gate near cf img 0 there = true /\ tracked near cf true img 0 there = true /\ ~ visible near cf (img (active_camera cf counter 0)) there /\
  gate near cf img 1 there = false /\ tracked near cf true img 1 there = false /\ visible near cf (img (active_camera cf counter 1)) there.
Proof.
  exists (fun _ => true), {| k_th := 1; k_dist := 0; k_gain := 0; k_s := 0; k_e := 0; k_n := 2; k_ncam := 2 |}, (fun c => match c with O => plain 60 | _ => plain 30 end), (place 40), 1%nat.
  split; [reflexivity|]. split; [intros c; destruct c as [|c]; [exists 60%Z, 60%Z|exists 30%Z, 30%Z]; repeat split; lia|].
  unfold visible, spot_in, gate, tracked, spot_in. cbn [k_n k_s active_camera k_ncam].
  repeat split; try (vm_compute; reflexivity); vm_compute; discriminate.
Qed.

(** a bright spot: found where it is, with neighbours that differ; a dark place among dark places is
    rejected *)
Definition bump : pyramid := {| py_img := fun l => {| cols := size_at 40 l; rows := size_at 40 l; pix := fun u v => if (Z.eqb u 20 && Z.eqb v 20)%bool then 100%Q else 0%Q |}; py_ct := centers false 40 40 |}.
Definition bcf : acfg := {| k_th := 10; k_dist := 5; k_gain := 1; k_s := 0; k_e := 0; k_n := 2; k_ncam := 1 |}.
Definition bat (u : Q) (v : Q * Q) : spot := (true, {| q_c := (u + fst v, 20 + snd v)%Q; q_warp := Some id_warp; q_wid := true; q_cam := true |}).
Definition all_near (_ : warp) : bool := true.
Lemma bcf_ok : acc_ok bcf.
Proof. split; [exists 1%nat; reflexivity|split; cbn; lia]. Qed.
Lemma bump_fair p : fair all_near bcf bump p.
Proof. left. exists 40%Z, 40%Z. repeat split; lia. Qed.
Lemma four_filled a b c d : filled (k_n bcf) [[a; b; c; d]] (k_s bcf).
Proof. split; [cbn; lia|intros p [<-|[]]; reflexivity]. Qed.
Lemma four_error a b c d a' b' c' d' : average_difference 2 [[a; b; c; d]] [[a'; b'; c'; d']] 0 0 =
  Some (let o := (a - a' + (b - b') + (c - c') + (d - d')) / 4 in sqrt (((a - a' - o) ^ 2 + (b - b' - o) ^ 2 + (c - c' - o) ^ 2 + (d - d' - o) ^ 2) / 4)).
Proof.
  unfold average_difference, differences. cbn [Nat.mul Nat.add Nat.sub seq flat_map map app pixel_at nth_error bind seqo fold_left].
  f_equal. cbv zeta. unfold avg_count. cbn [Nat.mul Nat.add Nat.sub]. replace (INR 4) with 4 by (cbn; lra).
  replace (0 + (a - a') + (b - b') + (c - c') + (d - d')) with (a - a' + (b - b') + (c - c') + (d - d')) by ring. f_equal. f_equal. ring.
Qed.
Lemma bump_error u v B P r : ml_extract all_near 2 bump (snd (bat u v)) 0 false = Some B -> average_difference 2 (map (map Q2R) B) P 0 0 = Some r -> spot_error all_near bcf bump P (bat u v) = Some r.
Proof. intros E1 E2. unfold spot_error. cbn [k_n k_s k_e bcf]. rewrite E1. exact E2. Qed.
Lemma q0 : Q2R 0 = 0. Proof. unfold Q2R. cbn. lra. Qed.
Lemma q100 : Q2R 100 = 100. Proof. unfold Q2R. cbn. lra. Qed.
Lemma same_error a b c d : average_difference 2 [[a; b; c; d]] [[a; b; c; d]] 0 0 = Some 0.
Proof. rewrite four_error. cbv zeta. f_equal. etransitivity; [|exact sqrt_0]. f_equal. field. Qed.
Lemma spot_differs r : average_difference 2 [[0; 0; 0; 0]] [[0; 0; 0; 100]] 0 0 = Some r -> 10 < r.
Proof.
  rewrite four_error. cbv zeta. intros H. injection H as <-. rewrite <- (sqrt_square 10) at 1 by lra. apply sqrt_lt_1_alt. lra.
Qed.
Example C78_ex : outlier_check all_near bcf true bump [[0; 0; 0; 100]] (bat 20 (0, 0)%Q) (bat 20) = Some true /\
  outlier_check all_near bcf true bump [[0; 0; 0; 0]] (bat 10 (0, 0)%Q) (bat 10) = Some false.
Proof.
  split.
  - destruct (C78_accepted_iff all_near bcf true bump [[0; 0; 0; 100]] (bat 20 (0, 0)%Q) (bat 20) bcf_ok (four_filled _ _ _ _) (bump_fair _) (fun v _ => bump_fair _)) as (b & E & I).
    rewrite E. f_equal. apply I. split; [reflexivity|]. right. split; [unfold visible, spot_in; vm_compute; reflexivity|].
    assert (D : forall v, In v (steps 5) -> differs all_near bcf bump [[0; 0; 0; 100]] (sample_limit bcf 0) (bat 20 v)).
    { intros v Hv. assert (V : visible all_near bcf bump (bat 20 v)) by (unfold visible, spot_in; repeat (destruct Hv as [<-|Hv]; [vm_compute; reflexivity|]); destruct Hv).
      split; [exact V|]. destruct (error_some all_near bcf bump [[0; 0; 0; 100]] bcf_ok (four_filled _ _ _ _) (bat 20 v) (bump_fair _) V) as (e & E1 & E2). exists e. split; [exact E2|].
      unfold sample_limit. destruct (Rlt_dec 1 (k_gain bcf)) as [X|_]; [cbn in X; lra|]. change (k_th bcf) with 10. apply spot_differs.
      rewrite <- E1. symmetry. unfold spot_error. assert (M : ml_extract all_near (k_n bcf) bump (snd (bat 20 v)) (k_s bcf) false = Some [[0; 0; 0; 0]]%Q) by (repeat (destruct Hv as [<-|Hv]; [vm_compute; reflexivity|]); destruct Hv).
      rewrite M. cbn [bind map]. now rewrite !q0. }
    assert (V : visible all_near bcf bump (bat 20 (0, 0)%Q)) by (unfold visible, spot_in; vm_compute; reflexivity).
    destruct (error_some all_near bcf bump [[0; 0; 0; 100]] bcf_ok (four_filled _ _ _ _) (bat 20 (0, 0)%Q) (bump_fair _) V) as (e & E1 & E2).
    rewrite (bump_error 20 (0, 0)%Q [[0; 0; 0; 100]]%Q [[0; 0; 0; 100]] 0) in E1; [|vm_compute; reflexivity|cbn [map]; rewrite q0, q100; apply same_error].
    injection E1 as <-. exists 0. split; [exact E2|]. split; [cbn; lra|]. right. exists (- 5, 0)%Q, (0, 5)%Q. split; [discriminate|]. split; [now left|]. split; [right; right; right; now left|].
    split; apply D; [now left|right; right; right; now left].
  - apply C78_repetitive_texture_rejected; [exact bcf_ok|apply four_filled|apply bump_fair|intros; apply bump_fair|cbn; lra|reflexivity|].
    intros v r r' Hv Hr Hr'.
    assert (K : forall w e, In w ((0, 0)%Q :: steps 5) -> intensity_error all_near bcf bump [[0; 0; 0; 0]] (bat 10 w) e -> e = 0).
    { intros w e Hw He. assert (V : visible all_near bcf bump (bat 10 w)) by (unfold visible, spot_in; repeat (destruct Hw as [<-|Hw]; [vm_compute; reflexivity|]); destruct Hw).
      apply (error_unique all_near bcf bump [[0; 0; 0; 0]] bcf_ok (four_filled _ _ _ _) (bat 10 w) 0 e); [|apply bump_fair|exact V|exact He].
      apply (bump_error 10 w [[0; 0; 0; 0]]%Q); [repeat (destruct Hw as [<-|Hw]; [vm_compute; reflexivity|]); destruct Hw|]. cbn [map]. rewrite q0. apply same_error. }
    rewrite (K (0, 0)%Q r (or_introl eq_refl) Hr), (K v r' (or_intror Hv) Hr'). lra.
Qed.
Print Assumptions C78_accepted_iff.
Print Assumptions C78_repetitive_texture_rejected.
Print Assumptions C78_accepted_is_distinctive.
Print Assumptions C78_sampling_check_made_refuted.
Print Assumptions C78_alignment_accepted_iff.
Print Assumptions C78_gate_same_size.
Print Assumptions C78_gate_tests_observing_camera_refuted.
