(** Proofs about the numeric quality values (C01, C04). *)
From Coq Require Import List ZArith QArith Qround Qpower Bool Lia Lqa Psatz.
From Verif Require Import Util StatModel StatSpec StatProofs.
Import ListNotations.
Local Open Scope Q_scope.

Ltac qne := let H := fresh in intro H; lra.

Lemma inv_range r : (1 <= r)%Z -> 0 < / inject_Z r /\ / inject_Z r <= 1.
Proof.
  intros H; assert (H0 : 1 <= inject_Z r) by (change 1 with (inject_Z 1); rewrite <- Zle_Qle; exact H).
  assert (0 < / inject_Z r) by (apply Qinv_lt_0_compat; lra).
  split; [assumption|].
  rewrite <- (Qmult_1_l (/ inject_Z r)). apply Qle_shift_div_r; lra.
Qed.

Section Rnd.
Variable rnd : Q -> Q.
Hypothesis GR : good_rounding rnd.

Lemma rnd_unit x : 0 <= x <= 1 -> 0 <= rnd x <= 1.
Proof.
  intros [H1 H2]; split.
  - rewrite <- (gr_0 _ GR); apply (gr_mono _ GR); exact H1.
  - rewrite <- (gr_1 _ GR); apply (gr_mono _ GR); exact H2.
Qed.

Lemma rnd_inv_ok r : (1 <= r)%Z -> exists i, rnd_inv rnd r = Some i /\ 0 <= i <= 1 /\ rnd i == i.
Proof.
  intros H; unfold rnd_inv; destruct (Z.eqb_spec r 0); [lia|].
  eexists; split; [reflexivity|]; split.
  - destruct (inv_range r H); apply rnd_unit; lra.
  - apply (gr_idem _ GR).
Qed.

Lemma mul_unit x y : 0 <= x <= 1 -> 0 <= y <= 1 -> 0 <= x * y <= y.
Proof. intros [? ?] [? ?]; split; nra. Qed.

Lemma rnd_dec_unit r q : (1 <= r)%Z -> unit_quality q -> unit_quality (rnd_dec rnd r q).
Proof.
  intros Hr (x & -> & Hx); destruct (rnd_inv_ok r Hr) as (i & Ei & Hi & _).
  unfold rnd_dec; rewrite Ei; eexists; split; [reflexivity|].
  apply rnd_unit. assert (0 <= rnd (1 - i) <= 1) by (apply rnd_unit; lra).
  pose proof (mul_unit x (rnd (1 - i)) Hx H); lra.
Qed.

Lemma rnd_rai_unit r q : (1 <= r)%Z -> unit_quality q -> unit_quality (rnd_rai rnd r q).
Proof.
  intros Hr (x & -> & Hx); destruct (rnd_inv_ok r Hr) as (i & Ei & Hi & Hri).
  unfold rnd_rai; rewrite Ei; eexists; split; [reflexivity|].
  assert (Hc : 0 <= rnd (1 - i) <= 1) by (apply rnd_unit; lra).
  pose proof (mul_unit x (rnd (1 - i)) Hx Hc) as Hm.
  assert (Hd : 0 <= rnd (x * rnd (1 - i)) <= rnd (1 - i)).
  { split.
    - apply rnd_unit; lra.
    - apply Qle_trans with (rnd (rnd (1 - i))); [apply (gr_mono _ GR); lra|].
      pose proof (gr_idem _ GR (1 - i)); lra. }
  split.
  - rewrite <- (gr_0 _ GR); apply (gr_mono _ GR); lra.
  - eapply Qle_trans; [|apply (gr_compl _ GR i Hi Hri)]; apply (gr_mono _ GR); lra.
Qed.

Lemma rounded_qualities ncam t0 os s :
  Forall ranges_ok os -> run (roundedQ rnd) (init (roundedQ rnd) ncam t0) os = Some s ->
  (forall i q, local_quality (roundedQ rnd) s i = Some q -> unit_quality q) /\
  (forall i q, local_visibility (roundedQ rnd) s i = Some q -> unit_quality q) /\
  unit_quality (average_local_quality (roundedQ rnd) s) /\
  unit_quality (joint_local_visibility (roundedQ rnd) s).
Proof.
  intros Ho Hr.
  assert (P1 : unit_quality (q_one (roundedQ rnd))) by (exists 1; split; [reflexivity|lra]).
  apply (getters_ok (roundedQ rnd) unit_quality rnd_rai_unit rnd_dec_unit).
  eapply run_ok; eauto using rnd_rai_unit, rnd_dec_unit, init_ok.
Qed.
End Rnd.

Lemma id_good_rounding : good_rounding (fun x => x).
Proof. constructor; intros; lra. Qed.

Lemma fix_gen_rounding (p : Q) (z1 : Z) : 0 < p -> inject_Z z1 == p -> forall rnd,
  (forall q, rnd q = inject_Z (Qfloor (q * p + (1 # 2))) / p) -> good_rounding rnd.
Proof.
  intros Hp Hz1 rnd Hrnd.
  assert (HZ : forall z, rnd (inject_Z z / p) == inject_Z z / p).
  { intros z; rewrite Hrnd.
    assert (E : inject_Z z / p * p + (1 # 2) == inject_Z z + (1 # 2)) by (field; qne).
    assert (F : Qfloor (inject_Z z + (1 # 2)) = z).
    { pose proof (Qfloor_le (inject_Z z + (1 # 2))) as G1; pose proof (Qlt_floor (inject_Z z + (1 # 2))) as G2.
      rewrite inject_Z_plus in G2; change (inject_Z 1) with 1 in G2.
      assert (H1 : inject_Z (Qfloor (inject_Z z + (1 # 2))) < inject_Z (z + 1))
        by (rewrite inject_Z_plus; change (inject_Z 1) with 1; lra).
      assert (H2 : inject_Z z < inject_Z (Qfloor (inject_Z z + (1 # 2)) + 1))
        by (rewrite inject_Z_plus; change (inject_Z 1) with 1; lra).
      rewrite <- Zlt_Qlt in H1, H2; lia. }
    rewrite (Qfloor_comp _ _ E), F; reflexivity. }
  assert (M : forall a b, a == b -> rnd a == rnd b).
  { intros a b E; rewrite !Hrnd; rewrite (Qfloor_comp _ (b * p + (1 # 2))); [reflexivity|]; rewrite E; reflexivity. }
  constructor.
  - intros a b H; rewrite !Hrnd.
    assert (H0 : a * p + (1 # 2) <= b * p + (1 # 2)) by nra.
    apply Qfloor_resp_le in H0; rewrite Zle_Qle in H0.
    unfold Qdiv; apply Qmult_le_compat_r; [exact H0|]; apply Qlt_le_weak, Qinv_lt_0_compat, Hp.
  - intros a; rewrite (Hrnd a); apply HZ.
  - rewrite (M 0 (inject_Z 0 / p)), HZ; change (inject_Z 0) with 0; field; qne.
  - rewrite (M 1 (inject_Z z1 / p)), HZ; rewrite Hz1; field; qne.
  - intros x _ Hx; rewrite Hrnd in Hx; set (z := Qfloor (x * p + (1 # 2))) in Hx.
    assert (E : 1 - x == inject_Z (z1 - z) / p).
    { rewrite <- Hx; unfold Z.sub; rewrite inject_Z_plus, inject_Z_opp, Hz1; field; qne. }
    assert (E2 : rnd (1 - x) == 1 - x) by (rewrite (M _ _ E), HZ, E; reflexivity).
    assert (E3 : rnd (1 - x) + x == 1) by (rewrite E2; ring).
    rewrite (M _ _ E3), (M 1 (inject_Z z1 / p)), HZ; [|rewrite Hz1; field; qne].
    rewrite Hz1; apply Qle_shift_div_r; lra.
Qed.

Lemma fixpoint_good_rounding : good_rounding fixpoint_rnd.
Proof. apply (fix_gen_rounding (inject_Z (2 ^ 53)) (2 ^ 53)); reflexivity. Qed.

Lemma exact_qualities ncam t0 os s :
  Forall ranges_ok os -> run exactQ (init exactQ ncam t0) os = Some s ->
  (forall i q, local_quality exactQ s i = Some q -> unit_quality q) /\
  (forall i q, local_visibility exactQ s i = Some q -> unit_quality q) /\
  unit_quality (average_local_quality exactQ s) /\
  unit_quality (joint_local_visibility exactQ s).
Proof. exact (rounded_qualities (fun x => x) id_good_rounding ncam t0 os s). Qed.

(** global quality *)
Lemma global_unit {T} (s : stat T) :
  (0 <= count_tracked s <= count_tot s)%Z -> (1 <= count_tot s)%Z -> (1 <= s_rg s)%Z ->
  0 <= global_quality s <= 1.
Proof.
  intros Ht Hc Hg; unfold global_quality.
  assert (Hc' : 0 < inject_Z (count_tot s)) by (change 0 with (inject_Z 0); rewrite <- Zlt_Qlt; lia).
  assert (Hg' : 0 < inject_Z (s_rg s)) by (change 0 with (inject_Z 0); rewrite <- Zlt_Qlt; lia).
  assert (H1 : 0 <= inject_Z (count_tracked s)) by (change 0 with (inject_Z 0); rewrite <- Zle_Qle; lia).
  assert (H2 : inject_Z (count_tracked s) <= inject_Z (count_tot s)) by (rewrite <- Zle_Qle; lia).
  assert (R : 0 <= inject_Z (count_tracked s) / inject_Z (count_tot s) <= 1).
  { split; [apply Qle_shift_div_l; lra|apply Qle_shift_div_r; lra]. }
  destruct (Z.eqb_spec (s_rg s) 0) as [E|E]; [lia|].
  assert (F : 0 <= inject_Z (count_tot s) / inject_Z (s_rg s)) by (apply Qle_shift_div_l; lra).
  set (r := inject_Z (count_tracked s) / inject_Z (count_tot s)) in *.
  set (f := inject_Z (count_tot s) / inject_Z (s_rg s)) in *; cbv zeta.
  destruct (Qlt_le_dec 1 f); split; nra.
Qed.

Lemma exact_ok_run ncam t0 os s : Forall ranges_ok os ->
  run exactQ (init exactQ ncam t0) os = Some s -> stat_ok unit_quality s.
Proof.
  intros Ho Hr; eapply (run_ok exactQ unit_quality); [| | |apply init_ok|exact Ho|exact Hr].
  - exists 1; split; [reflexivity|lra].
  - exact (rnd_rai_unit _ id_good_rounding).
  - exact (rnd_dec_unit _ id_good_rounding).
  - exists 1; split; [reflexivity|lra].
Qed.

Lemma global_quality_unit ncam t0 os s : Forall ranges_ok os ->
  run exactQ (init exactQ ncam t0) os = Some s -> 0 <= global_quality s <= 1.
Proof.
  intros Ho Hr.
  pose proof (run_abs exactQ ncam os t0 s Hr) as Ha.
  destruct (tracked_ok ncam s _ Ha) as [_ Ht].
  pose proof (exact_ok_run _ _ _ _ Ho Hr) as Hk.
  apply global_unit; [exact Ht| |apply Hk].
  unfold count_tot; rewrite (ab_tot _ _ _ Ha); lia.
Qed.

Lemma Qltb_true a b : Qltb a b = true <-> a < b.
Proof. unfold Qltb; destruct (Qlt_le_dec a b); split; try discriminate; auto; intros; lra. Qed.
Lemma Qltb_false a b : Qltb a b = false <-> b <= a.
Proof. unfold Qltb; destruct (Qlt_le_dec a b); split; try discriminate; auto; intros; lra. Qed.

Lemma max_unit_gen s cs q : (forall c x, In c cs -> cam_local_quality exactQ s c = Some x -> 0 <= x <= 1) ->
  0 <= q <= 1 ->
  let m := fold_left (fun q c => match cam_local_quality exactQ s c with
                        | Some x => if Qltb q x then x else q | None => q end) cs q in
  0 <= m <= 1 /\ q <= m /\
  (forall c x, In c cs -> cam_local_quality exactQ s c = Some x -> x <= m).
Proof.
  revert q; induction cs as [|c cs IH]; intros q H Hq; cbn [fold_left].
  - repeat split; try lra; cbn; tauto.
  - set (q1 := match cam_local_quality exactQ s c with Some x => if Qltb q x then x else q | None => q end).
    assert (H1 : 0 <= q1 <= 1 /\ q <= q1 /\ (forall x, cam_local_quality exactQ s c = Some x -> x <= q1)).
    { unfold q1; destruct (cam_local_quality exactQ s c) as [x|] eqn:E.
      - specialize (H c x (or_introl eq_refl) E); destruct (Qltb q x) eqn:L.
        + apply Qltb_true in L; repeat split; try lra; intros y [= <-]; lra.
        + apply Qltb_false in L; repeat split; try lra; intros y [= <-]; lra.
      - repeat split; try lra; discriminate. }
    destruct H1 as (A & B & C).
    destruct (IH q1 (fun d x Hd => H d x (or_intror Hd)) A) as (D & E & F); cbn zeta in *.
    repeat split; try lra; intros d x [->|Hd] Ex; [specialize (C _ Ex); lra|eauto].
Qed.

Lemma max_quality_unit ncam t0 os s : Forall ranges_ok os ->
  run exactQ (init exactQ ncam t0) os = Some s ->
  0 <= max_local_quality s <= 1 /\
  (forall i x, local_quality exactQ s i = Some (Some x) -> x <= max_local_quality s).
Proof.
  intros Ho Hr; destruct (exact_qualities _ _ _ _ Ho Hr) as (Hq & _).
  destruct (max_unit_gen s (s_cams s) 0) as (A & B & C); [|lra|].
  - intros c x Hc Ex; apply In_nth_error in Hc as [i Hi].
    destruct (Hq i (Some x)) as (y & [= <-] & Hy); [|exact Hy].
    unfold local_quality; rewrite Hi; cbn; congruence.
  - split; [exact A|]; intros i x Hx; unfold local_quality in Hx.
    destruct (nth_error (s_cams s) i) as [c|] eqn:E; [|discriminate].
    cbn in Hx; injection Hx as Hx; eapply C; eauto using nth_error_In.
Qed.

(** ** isGoodFeature *)
Lemma good_iff s u l : is_good_feature s u l = true <-> exists c, In c (s_cams s) /\ good_cam s u l c = true.
Proof.
  unfold is_good_feature.
  assert (G : forall cs b, fold_left (fun g c => g || good_cam s u l c) cs b = true <->
                b = true \/ exists c, In c cs /\ good_cam s u l c = true).
  { induction cs as [|c cs IH]; intros b; cbn [fold_left].
    - split; [auto|]; intros [H|(c & [] & _)]; exact H.
    - rewrite IH, orb_true_iff; split.
      + intros [[H|H]|(d & Hd & H)]; [auto|right; exists c; split; [left|]; auto|right; exists d; split; [right|]; auto].
      + intros [H|(d & [<-|Hd] & H)]; [auto|auto|right; exists d; auto]. }
  rewrite G; split; [intros [H|H]; [discriminate|exact H]|auto].
Qed.

Definition threshold (s : stat (option Q)) (u l : Q) : Q := u - (u - l) * global_quality s.

Lemma threshold_between s u l : 0 <= global_quality s <= 1 -> l <= u -> l <= threshold s u l <= u.
Proof. intros [H1 H2] H; unfold threshold; split; nra. Qed.

Lemma good_monotone ncam t0 os s u l u' l' : Forall ranges_ok os ->
  run exactQ (init exactQ ncam t0) os = Some s -> u' <= u -> l' <= l ->
  is_good_feature s u l = true -> is_good_feature s u' l' = true.
Proof.
  intros Ho Hr Hu Hl; pose proof (global_quality_unit _ _ _ _ Ho Hr) as [G0 G1].
  rewrite !good_iff; intros (c & Hc & Hg); exists c; split; [exact Hc|].
  unfold good_cam in *; destruct (cam_local_quality exactQ s c) as [q|]; [|discriminate].
  destruct (cam_local_visibility exactQ s c) as [v|]; [|discriminate].
  apply Qltb_true in Hg; apply Qltb_true; nra.
Qed.

(** per-camera closed forms, driven by the frame log *)
Definition is_one (q : option Q) : Prop := exists x, q = Some x /\ x == 1.
Lemma exact_rai_one r q : (1 <= r)%Z -> is_one q -> is_one (exact_rai r q).
Proof.
  intros Hr (x & -> & Hx); unfold exact_rai, qinv; destruct (Z.eqb_spec r 0); [lia|].
  eexists; split; [reflexivity|]; rewrite Hx; ring.
Qed.

Definition seen_all i st (fs : list frame) : Prop := Forall (fun f => seen_as i st f = true) fs.

Lemma tracked_one os s l s' i : (1 <= s_rq s)%Z -> (1 <= s_rv s)%Z ->
  abs_ok (length (l_now l)) s l ->
  (seen_all i TRACKED (l_past l) -> forall c, nth_error (s_cams s) i = Some c -> is_one (c_lq c) /\ is_one (c_lv c)) ->
  Forall ranges_ok os -> run exactQ s os = Some s' ->
  let l' := fold_left (log_step (length (l_now l))) os l in
  (seen_all i TRACKED (l_past l') -> forall c, nth_error (s_cams s') i = Some c -> is_one (c_lq c) /\ is_one (c_lv c)).
Proof.
  cbv zeta; set (n := length (l_now l)).
  assert (N : n = length (l_now l)) by reflexivity; clearbody n.
  revert s l N; induction os as [|o os IH]; cbn [run fold_left]; intros s l N Hq Hv Ha Hi Ho Hr.
  { injection Hr as <-; exact Hi. }
  destruct (step exactQ s o) as [s1|] eqn:E; [|discriminate].
  apply Forall_cons_iff in Ho as [Ho1 Ho2].
  assert (Ha' := step_abs exactQ n _ _ _ _ Ha E).
  apply (IH s1 (log_step n l o)); auto; clear IH Hr.
  - symmetry; apply (abs_now_len _ _ _ Ha').
  - destruct o; cbn in E; try (injection E as <-; cbn; auto).
    + unfold set_status in E; destruct (Nat.ltb i0 _); [|discriminate]; injection E as <-; exact Hq.
    + cbn in Ho1; lia.
  - destruct o; cbn in E; try (injection E as <-; cbn; auto).
    + unfold set_status in E; destruct (Nat.ltb i0 _); [|discriminate]; injection E as <-; exact Hv.
    + cbn in Ho1; lia.
  - destruct o as [t|j st|t|a b c]; cbn in E.
    + injection E as <-; intros _ c Hc; cbn in Hc; rewrite map_const in Hc; apply nth_error_repeat_inv in Hc; subst.
      split; exists 1; split; reflexivity.
    + unfold set_status in E; destruct (Nat.ltb j _); [|discriminate]; injection E as <-.
      intros Hs c Hc; cbn in Hc, Hs.
      destruct (Nat.eq_dec j i) as [->|Hij].
      * rewrite nth_error_upd_nth_eq in Hc; destruct (nth_error (s_cams s) i) as [c0|] eqn:E2; [|discriminate].
        injection Hc as <-; cbn; eapply Hi; eauto.
      * rewrite nth_error_upd_nth_ne in Hc by auto; eapply Hi; eauto.
    + injection E as <-; intros Hs c Hc; cbn in Hc, Hs; rewrite nth_error_map in Hc.
      destruct (nth_error (s_cams s) i) as [c0|] eqn:E2; [|discriminate]; injection Hc as <-; cbn.
      inversion Hs as [|? ? Hs1 Hs2]; subst.
      assert (St : c_status c0 = TRACKED).
      { unfold seen_as in Hs1; rewrite <- (ab_now _ _ _ Ha), nth_error_map, E2 in Hs1; cbn in Hs1.
        apply tstatus_eqb_eq in Hs1; exact Hs1. }
      destruct (Hi Hs2 c0 eq_refl) as [A B]; rewrite St; cbn; split; apply exact_rai_one; auto.
    + injection E as <-; exact Hi.
Qed.

Lemma always_tracked_good ncam t0 os s i u l : (i < ncam)%nat -> Forall ranges_ok os ->
  run exactQ (init exactQ ncam t0) os = Some s ->
  seen_all i TRACKED (frames (log_run ncam t0 os)) -> l <= u -> u < 1 ->
  is_good_feature s u l = true.
Proof.
  intros Hi Ho Hr Hs Hlu Hu.
  pose proof (run_abs exactQ ncam os t0 s Hr) as Ha.
  assert (Hl : length (l_now (log_init ncam t0)) = ncam) by (cbn; apply repeat_length).
  unfold frames in Hs; inversion Hs as [|? ? Hs1 Hs2]; subst.
  destruct (nth_error (s_cams s) i) as [c|] eqn:E.
  2:{ apply nth_error_None in E; rewrite (ab_len _ _ _ Ha) in E; lia. }
  assert (K : is_one (c_lq c) /\ is_one (c_lv c)).
  { eapply (tracked_one os (init exactQ ncam t0) (log_init ncam t0) s i); try (cbn; lia); auto.
    - rewrite Hl; apply init_abs.
    - intros _ d Hd; cbn in Hd; apply nth_error_repeat_inv in Hd; subst; split; exists 1; split; reflexivity.
    - rewrite Hl; exact Hs2. }
  destruct K as [K1 K2].
  assert (St : c_status c = TRACKED).
  { unfold seen_as in Hs1; rewrite <- (ab_now _ _ _ Ha), nth_error_map, E in Hs1; cbn in Hs1.
    apply tstatus_eqb_eq in Hs1; exact Hs1. }
  pose proof (exact_ok_run _ _ _ _ Ho Hr) as Hk.
  pose proof (global_quality_unit _ _ _ _ Ho Hr) as Hg.
  apply good_iff; exists c; split; [eapply nth_error_In; eauto|].
  unfold good_cam, cam_local_quality, cam_local_visibility; rewrite St.
  assert (1 <= s_rq s /\ 1 <= s_rv s)%Z as [Rq Rv] by (destruct Hk as (?&?&?&?&?&?); auto).
  destruct (exact_rai_one (s_rq s) _ Rq K1) as (x & Ex & Hx).
  destruct (exact_rai_one (s_rv s) _ Rv K2) as (y & Ey & Hy).
  change (upd_quality exactQ (s_rq s) TRACKED (c_lq c)) with (exact_rai (s_rq s) (c_lq c)).
  change (upd_visibility exactQ (s_rv s) (in_frame TRACKED) (c_lv c)) with (exact_rai (s_rv s) (c_lv c)).
  rewrite Ex, Ey; apply Qltb_true; rewrite Hx, Hy.
  pose proof (threshold_between s u l Hg Hlu); unfold threshold in *; lra.
Qed.

(** geometric decay *)
Fixpoint qpow (a : Q) (n : nat) : Q := match n with O => 1 | S k => a * qpow a k end.

Lemma qpow_pos a n : 0 <= a -> 0 <= qpow a n.
Proof. intros; induction n; cbn [qpow]; [lra|nra]. Qed.

(** Bernoulli: (1+n*h) * a^n <= 1 when (1+h)*a <= 1 *)
Lemma bernoulli a h n : 0 <= a -> 0 <= h -> (1 + h) * a <= 1 -> (1 + inject_Z (Z.of_nat n) * h) * qpow a n <= 1.
Proof.
  intros Ha Hh Hah; induction n as [|n IH].
  - cbn [qpow]; change (inject_Z (Z.of_nat 0)) with 0; lra.
  - cbn [qpow]; rewrite Nat2Z.inj_succ; unfold Z.succ; rewrite inject_Z_plus; change (inject_Z 1) with 1.
    set (k := inject_Z (Z.of_nat n)) in *; assert (0 <= k) by (unfold k; change 0 with (inject_Z 0); rewrite <- Zle_Qle; lia).
    pose proof (qpow_pos a n Ha) as Hp; set (p := qpow a n) in *; clearbody k p.
    assert (X : (1 + (k + 1) * h) <= (1 + k * h) * (1 + h)) by nra.
    assert (Y : (1 + (k + 1) * h) * (a * p) <= (1 + k * h) * (1 + h) * (a * p))
      by (apply Qmult_le_compat_r; [exact X|apply Qmult_le_0_compat; assumption]).
    assert (Z1 : (1 + k * h) * (1 + h) * (a * p) == ((1 + k * h) * p) * ((1 + h) * a)) by ring.
    assert (W : ((1 + k * h) * p) * ((1 + h) * a) <= 1).
    { assert (0 <= (1 + k * h) * p) by (apply Qmult_le_0_compat; nra).
      assert (0 <= (1 + h) * a) by nra.
      pose proof (mul_unit ((1 + k * h) * p) ((1 + h) * a)); lra. }
    lra.
Qed.

Lemma decay_below r (eps : Q) : (1 <= r)%Z -> 0 < eps ->
  exists N : nat, forall n, (N <= n)%nat -> qpow (1 - / inject_Z r) n < eps.
Proof.
  intros Hr He; destruct (inv_range r Hr) as [I1 I2].
  set (a := 1 - / inject_Z r); set (h := / inject_Z r).
  assert (Hah : (1 + h) * a <= 1) by (unfold a; fold h; nra).
  assert (Ha : 0 <= a) by (unfold a; lra).
  assert (Hr' : 0 < inject_Z r) by (change 0 with (inject_Z 0); rewrite <- Zlt_Qlt; lia).
  set (M := Z.to_nat (Qceiling (inject_Z r / eps))).
  exists M; intros n Hn.
  pose proof (bernoulli a h n Ha) as B.
  assert (Hh : 0 <= h) by (unfold h; lra).
  specialize (B Hh Hah).
  assert (K : inject_Z r / eps <= inject_Z (Z.of_nat n)).
  { eapply Qle_trans; [apply Qle_ceiling|]; rewrite <- Zle_Qle; unfold M in Hn; lia. }
  set (k := inject_Z (Z.of_nat n)) in *; set (p := qpow a n) in *.
  assert (K2 : inject_Z r <= k * eps).
  { apply (Qmult_le_compat_r _ _ eps) in K; [|lra].
    assert (X : inject_Z r / eps * eps == inject_Z r) by (field; qne). lra. }
  assert (K3 : 1 <= k * h * eps).
  { assert (X : inject_Z r * h == 1) by (unfold h; field; qne). nra. }
  assert (P0 : 0 <= p) by (apply qpow_pos; exact Ha).
  (* p * (1 + k h) <= 1 and k h eps >= 1 *)
  destruct (Qlt_le_dec p eps) as [L|L]; [exact L|exfalso].
  assert (0 <= k * h) by (assert (0 <= k) by (unfold k; change 0 with (inject_Z 0); rewrite <- Zle_Qle; lia); nra).
  nra.
Qed.

Definition is_pow (a : Q) (n : nat) (q : option Q) : Prop := exists x, q = Some x /\ x == qpow a n.

Lemma exact_dec_pow r n q : (1 <= r)%Z -> is_pow (1 - / inject_Z r) n q -> is_pow (1 - / inject_Z r) (S n) (exact_dec r q).
Proof.
  intros Hr (x & -> & Hx); unfold exact_dec, qinv; destruct (Z.eqb_spec r 0); [lia|].
  eexists; split; [reflexivity|]; cbn [qpow]; rewrite Hx; ring.
Qed.

Lemma step_ranges {T} (O : qops T) s o s' : no_ranges o -> step O s o = Some s' ->
  s_rq s' = s_rq s /\ s_rv s' = s_rv s /\ s_rg s' = s_rg s.
Proof.
  destruct o as [t|j st|t|a b c]; cbn; intros Hn E; try contradiction; try (injection E as <-; cbn; auto).
  unfold set_status in E; destruct (Nat.ltb j _); [|discriminate]; injection E as <-; auto.
Qed.

(** generic: a per-camera value [v] which decays in every frame satisfying [p] *)
Lemma decays os s l s' i r (v : camstat (option Q) -> option Q) (p : frame -> bool) n :
  (1 <= r)%Z -> (forall st, v (cam_reset exactQ) = Some 1 /\ forall c, v (set_status_cam st c) = v c) ->
  (forall c l0 t (s0 : stat (option Q)), s_rq s0 = s_rq s -> s_rv s0 = s_rv s -> nth_error (l_now l0) i = Some (c_status c) -> p (l_now l0) = true ->
     v (cam_increase exactQ (s_rq s0) (s_rv s0) t c) = exact_dec r (v c)) ->
  abs_ok n s l ->
  (Forall (fun f => p f = true) (l_past l) -> forall c, nth_error (s_cams s) i = Some c ->
     is_pow (1 - / inject_Z r) (length (l_past l)) (v c)) ->
  Forall no_ranges os -> run exactQ s os = Some s' ->
  let l' := fold_left (log_step n) os l in
  (Forall (fun f => p f = true) (l_past l') -> forall c, nth_error (s_cams s') i = Some c ->
     is_pow (1 - / inject_Z r) (length (l_past l')) (v c)).
Proof.
  intros Hr Hv1 Hdec0; cbv zeta; remember (s_rq s) as RQ eqn:ERQ; remember (s_rv s) as RV eqn:ERV.
  revert s l ERQ ERV; induction os as [|o os IH]; cbn [run fold_left]; intros s l ERQ ERV Ha Hi Ho Hrun.
  { injection Hrun as <-; exact Hi. }
  destruct (step exactQ s o) as [s1|] eqn:E; [|discriminate].
  apply Forall_cons_iff in Ho as [Ho1 Ho2].
  assert (Ha' := step_abs exactQ n _ _ _ _ Ha E).
  destruct (step_ranges _ _ _ _ Ho1 E) as (R1 & R2 & R3).
  apply (IH s1 (log_step n l o)); auto; try congruence; clear IH Hrun.
  destruct o as [t|j st|t|a b c]; cbn in E.
  - injection E as <-; intros _ c Hc; cbn in Hc; rewrite map_const in Hc; apply nth_error_repeat_inv in Hc; subst.
    cbn; destruct (Hv1 UNKNOWN) as [-> _]; exists 1; split; reflexivity.
  - unfold set_status in E; destruct (Nat.ltb j _); [|discriminate]; injection E as <-.
    intros Hs c Hc; cbn in Hc, Hs |- *.
    destruct (Nat.eq_dec j i) as [->|Hij].
    + rewrite nth_error_upd_nth_eq in Hc; destruct (nth_error (s_cams s) i) as [c0|] eqn:E2; [|discriminate].
      injection Hc as <-; destruct (Hv1 st) as [_ ->]; eapply Hi; eauto.
    + rewrite nth_error_upd_nth_ne in Hc by auto; eapply Hi; eauto.
  - injection E as <-; intros Hs c Hc; cbn in Hc, Hs |- *; rewrite nth_error_map in Hc.
    destruct (nth_error (s_cams s) i) as [c0|] eqn:E2; [|discriminate]; injection Hc as <-.
    inversion Hs as [|? ? Hs1 Hs2]; subst.
    rewrite (Hdec0 c0 l (s_cur s) s); auto.
    + apply exact_dec_pow; auto.
    + rewrite <- (ab_now _ _ _ Ha), nth_error_map, E2; reflexivity.
  - contradiction.
Qed.

Lemma start_abs ncam t0 rq rv rg : abs_ok ncam (set_ranges rq rv rg (init exactQ ncam t0)) (log_init ncam t0).
Proof. pose proof (init_abs exactQ ncam t0) as []; constructor; auto. Qed.

Lemma run_ranges {T} (O : qops T) os s s' : Forall no_ranges os -> run O s os = Some s' ->
  s_rq s' = s_rq s /\ s_rv s' = s_rv s /\ s_rg s' = s_rg s.
Proof.
  revert s; induction os as [|o os IH]; cbn [run]; intros s Hn H; [injection H as <-; auto|].
  inversion Hn; subst; destruct (step O s o) as [s1|] eqn:E; [|discriminate].
  destruct (step_ranges _ _ _ _ H2 E) as (?&?&?); destruct (IH s1 H3 H) as (?&?&?); repeat split; congruence.
Qed.

Lemma start_ok ncam t0 rq rv rg os s : (1 <= rq)%Z -> (1 <= rv)%Z -> (1 <= rg)%Z -> Forall no_ranges os ->
  run exactQ (set_ranges rq rv rg (init exactQ ncam t0)) os = Some s ->
  stat_ok unit_quality s /\ 0 <= global_quality s <= 1.
Proof.
  intros Hq Hv Hg Hn Hr.
  assert (R : run exactQ (init exactQ ncam t0) (OpRanges rq rv rg :: os) = Some s) by exact Hr.
  assert (F : Forall ranges_ok (OpRanges rq rv rg :: os)).
  { constructor; [cbn; auto|]; eapply Forall_impl; [|exact Hn]; intros []; cbn; tauto. }
  split; [eapply exact_ok_run; eauto|eapply global_quality_unit; eauto].
Qed.

Lemma lost_bad_gen ncam t0 rq rv rg u l r (v : camstat (option Q) -> option Q) (p : nat -> frame -> bool) :
  (1 <= rq)%Z -> (1 <= rv)%Z -> (1 <= rg)%Z -> 0 < l -> l <= u -> (1 <= r)%Z ->
  (forall st, v (cam_reset exactQ) = Some 1 /\ forall c, v (set_status_cam st c) = v c) ->
  (forall i c l0 t (s0 : stat (option Q)), s_rq s0 = rq -> s_rv s0 = rv -> nth_error (l_now l0) i = Some (c_status c) -> p i (l_now l0) = true ->
     v (cam_increase exactQ (s_rq s0) (s_rv s0) t c) = exact_dec r (v c)) ->
  (* the product reported for a camera is at most the next value of [v] *)
  (forall i c s0 q w x, s_rq s0 = rq -> s_rv s0 = rv -> stat_ok unit_quality s0 -> In c (s_cams s0) ->
     cam_local_quality exactQ s0 c = Some q -> cam_local_visibility exactQ s0 c = Some w ->
     p i [] = p i [] -> exact_dec r (v c) = Some x ->
     (forall l0, nth_error (l_now l0) i = Some (c_status c) -> p i (l_now l0) = true -> q * w <= x)) ->
  exists N : nat, forall os s, Forall no_ranges os ->
    run exactQ (set_ranges rq rv rg (init exactQ ncam t0)) os = Some s ->
    (forall i, (i < ncam)%nat -> Forall (fun f => p i f = true) (frames (log_run ncam t0 os))) ->
    (N <= length (frames (log_run ncam t0 os)))%nat ->
    is_good_feature s u l = false.
Proof.
  intros Hq Hv Hg Hl Hlu Hr Hv1 Hdec Hprod.
  destruct (decay_below r l Hr Hl) as [N HN]; exists N; intros os s Hn Hrun Hall Hlen.
  destruct (start_ok _ _ _ _ _ _ _ Hq Hv Hg Hn Hrun) as [Hk Hgq].
  pose proof (run_abs_gen exactQ ncam os _ _ s (start_abs ncam t0 rq rv rg) Hrun) as Ha.
  fold (log_run ncam t0 os) in Ha.
  destruct (run_ranges _ _ _ _ Hn Hrun) as (Rq & Rv & Rg); cbn in Rq, Rv, Rg.
  destruct (is_good_feature s u l) eqn:G; [exfalso|reflexivity].
  apply good_iff in G as (c & Hc & Hgood).
  apply In_nth_error in Hc as [i Hi].
  assert (Hin : (i < ncam)%nat) by (rewrite <- (ab_len _ _ _ Ha); apply nth_error_Some; congruence).
  specialize (Hall i Hin); unfold frames in Hall; inversion Hall as [|? ? Hn1 Hp1]; subst.
  assert (Hpow : is_pow (1 - / inject_Z r) (length (l_past (log_run ncam t0 os))) (v c)).
  { eapply (decays os (set_ranges (s_rq s) (s_rv s) (s_rg s) (init exactQ ncam t0)) (log_init ncam t0) s i r v (p i) ncam Hr Hv1);
      [|apply start_abs| |exact Hn|exact Hrun|exact Hp1|exact Hi].
    - intros d l0 t s0 E1 E2 E3 E4; cbn in E1, E2; eapply Hdec; eauto.
    - intros _ d Hd; cbn in Hd; apply nth_error_repeat_inv in Hd; subst; cbn.
      destruct (Hv1 UNKNOWN) as [-> _]; exists 1; split; reflexivity. }
  apply (exact_dec_pow r) in Hpow; [|exact Hr]; destruct Hpow as (x & Ex & Hx).
  unfold good_cam in Hgood.
  destruct (cam_local_quality exactQ s c) as [q|] eqn:E1; [|discriminate].
  destruct (cam_local_visibility exactQ s c) as [w|] eqn:E2; [|discriminate].
  apply Qltb_true in Hgood.
  assert (Hle : q * w <= x).
  { eapply (Hprod i c s q w x); eauto using nth_error_In.
    rewrite <- (ab_now _ _ _ Ha), nth_error_map, Hi; reflexivity. }
  assert (x < l) by (rewrite Hx; apply HN; exact Hlen).
  pose proof (threshold_between s u l Hgq Hlu); unfold threshold in *; lra.
Qed.

Lemma failed_status i f c : nth_error f i = Some (c_status (T:=option Q) c) -> failed_in i f = true ->
  c_status c = FAILED_ALIGNEMENT \/ c_status c = FAILED_TRACKING.
Proof.
  unfold failed_in, seen_as; intros ->; rewrite orb_true_iff, !tstatus_eqb_eq; auto.
Qed.
Lemma unseen_status i f c : nth_error f i = Some (c_status (T:=option Q) c) -> unseen_in i f = true ->
  c_status c = UNKNOWN \/ c_status c = NOT_IN_FRAME.
Proof.
  unfold unseen_in, seen_as; intros ->; rewrite orb_true_iff, !tstatus_eqb_eq; auto.
Qed.

Lemma unit_cam s c : stat_ok unit_quality s -> In c (s_cams s) ->
  (forall q, cam_local_quality exactQ s c = Some q -> 0 <= q <= 1) /\
  (forall q, cam_local_visibility exactQ s c = Some q -> 0 <= q <= 1).
Proof.
  intros Hk Hc; destruct (getters_ok exactQ unit_quality (rnd_rai_unit _ id_good_rounding) (rnd_dec_unit _ id_good_rounding) s Hk) as (A & B & _).
  apply In_nth_error in Hc as [i Hi]; split; intros q Hq.
  - destruct (A i (Some q)) as (x & [= ->] & H); [unfold local_quality; rewrite Hi; cbn; congruence|exact H].
  - destruct (B i (Some q)) as (x & [= ->] & H); [unfold local_visibility; rewrite Hi; cbn; congruence|exact H].
Qed.

Lemma failing_becomes_bad ncam t0 rq rv rg u l :
  (1 <= rq)%Z -> (1 <= rv)%Z -> (1 <= rg)%Z -> 0 < l -> l <= u ->
  exists N : nat, forall os s, Forall no_ranges os ->
    run exactQ (set_ranges rq rv rg (init exactQ ncam t0)) os = Some s ->
    (forall i, (i < ncam)%nat -> Forall (fun f => failed_in i f = true) (frames (log_run ncam t0 os))) ->
    (N <= length (frames (log_run ncam t0 os)))%nat ->
    is_good_feature s u l = false.
Proof.
  intros; apply (lost_bad_gen ncam t0 rq rv rg u l rq (@c_lq _) failed_in); auto.
  - intros i c l0 t s0 E1 E2 E3 E4; cbn; rewrite E1.
    destruct (failed_status _ _ _ E3 E4) as [-> | ->]; reflexivity.
  - intros i c s0 q w x E1 E2 Hk Hc Eq Ew _ Ex l0 E3 E4.
    destruct (unit_cam _ _ Hk Hc) as [A B]; specialize (A _ Eq); specialize (B _ Ew).
    assert (q = x).
    { unfold cam_local_quality in Eq; rewrite E1 in Eq; cbn in Eq.
      destruct (failed_status _ _ _ E3 E4) as [S|S]; rewrite S in Eq; cbn in Eq; congruence. }
    subst; nra.
Qed.

Lemma unseen_becomes_bad ncam t0 rq rv rg u l :
  (1 <= rq)%Z -> (1 <= rv)%Z -> (1 <= rg)%Z -> 0 < l -> l <= u ->
  exists N : nat, forall os s, Forall no_ranges os ->
    run exactQ (set_ranges rq rv rg (init exactQ ncam t0)) os = Some s ->
    (forall i, (i < ncam)%nat -> Forall (fun f => unseen_in i f = true) (frames (log_run ncam t0 os))) ->
    (N <= length (frames (log_run ncam t0 os)))%nat ->
    is_good_feature s u l = false.
Proof.
  intros; apply (lost_bad_gen ncam t0 rq rv rg u l rv (@c_lv _) unseen_in); auto.
  - intros i c l0 t s0 E1 E2 E3 E4; cbn; rewrite E2.
    destruct (unseen_status _ _ _ E3 E4) as [-> | ->]; reflexivity.
  - intros i c s0 q w x E1 E2 Hk Hc Eq Ew _ Ex l0 E3 E4.
    destruct (unit_cam _ _ Hk Hc) as [A B]; specialize (A _ Eq); specialize (B _ Ew).
    assert (w = x).
    { unfold cam_local_visibility in Ew; rewrite E2 in Ew; cbn in Ew.
      destruct (unseen_status _ _ _ E3 E4) as [S|S]; rewrite S in Ew; cbn in Ew; congruence. }
    subst; nra.
Qed.
