From Coq Require Import List ZArith QArith Bool Lia Lqa Psatz.
From Verif Require Import Util StatModel StatSpec.
Import ListNotations.

Lemma tstatus_eqb_eq a b : tstatus_eqb a b = true <-> a = b.
Proof. destruct a, b; cbn; split; congruence. Qed.
Lemma tstatus_eqb_refl a : tstatus_eqb a a = true.
Proof. apply tstatus_eqb_eq; reflexivity. Qed.

(** * Generic invariant on quality values *)
Section Gen.
Context {T : Type} (Ops : qops T) (P : T -> Prop).
Hypothesis P_one : P (q_one Ops).
Hypothesis P_rai : forall r q, (1 <= r)%Z -> P q -> P (q_rai Ops r q).
Hypothesis P_dec : forall r q, (1 <= r)%Z -> P q -> P (q_dec Ops r q).

Definition cam_ok (c : camstat T) : Prop := P (c_lq c) /\ P (c_lv c).
Definition stat_ok (s : stat T) : Prop :=
  Forall cam_ok (s_cams s) /\ P (s_jlv s) /\ P (s_alq s) /\
  (1 <= s_rq s)%Z /\ (1 <= s_rv s)%Z /\ (1 <= s_rg s)%Z.

Lemma upd_quality_ok r st q : (1 <= r)%Z -> P q -> P (upd_quality Ops r st q).
Proof. destruct st; cbn; auto. Qed.
Lemma upd_visibility_ok r b q : (1 <= r)%Z -> P q -> P (upd_visibility Ops r b q).
Proof. destruct b; cbn; auto. Qed.

Lemma cam_reset_ok : cam_ok (cam_reset Ops).
Proof. split; exact P_one. Qed.

Lemma init_ok n t : stat_ok (init Ops n t).
Proof.
  unfold stat_ok, init; cbn; repeat split; auto; try lia.
  apply Forall_forall; intros c Hc; apply repeat_spec in Hc; subst; apply cam_reset_ok.
Qed.

Lemma avg_ok r (cams : list (camstat T)) q :
  (1 <= r)%Z -> P q -> P (fold_left (fun q c => upd_quality Ops r (c_status c) q) cams q).
Proof.
  intros Hr; revert q; induction cams as [|c cs IH]; intros q Hq; cbn [fold_left]; auto.
  apply IH, upd_quality_ok; auto.
Qed.

Lemma step_ok s o s' : stat_ok s -> ranges_ok o -> step Ops s o = Some s' -> stat_ok s'.
Proof.
  intros (Hc & Hj & Ha & Hq & Hv & Hg) Ho Hs; destruct o as [t|i st|t|a b c]; cbn in Hs.
  - injection Hs as <-; unfold stat_ok, reset; cbn; repeat split; auto.
    apply Forall_forall; intros x Hx; apply in_map_iff in Hx as (? & <- & _); apply cam_reset_ok.
  - unfold set_status in Hs; destruct (Nat.ltb i _); [|discriminate]; injection Hs as <-.
    unfold stat_ok; cbn; repeat split; auto.
    apply Forall_upd_nth; [exact Hc|intros x [? ?]; split; assumption].
  - injection Hs as <-; unfold stat_ok, increase; cbn; repeat split; auto.
    + apply Forall_forall; intros x Hx; apply in_map_iff in Hx as (y & <- & Hy).
      rewrite Forall_forall in Hc; destruct (Hc y Hy); split; cbn;
        [apply upd_quality_ok|apply upd_visibility_ok]; auto.
    + apply upd_visibility_ok; auto.
    + apply avg_ok; auto.
  - injection Hs as <-; cbn in Ho; unfold stat_ok, set_ranges; cbn; tauto.
Qed.

Lemma run_ok os s s' : stat_ok s -> Forall ranges_ok os -> run Ops s os = Some s' -> stat_ok s'.
Proof.
  revert s; induction os as [|o os IH]; cbn [run]; intros s Hs Ho Hr; [congruence|].
  inversion Ho as [|? ? Ho1 Ho2]; subst.
  destruct (step Ops s o) as [s1|] eqn:E; [|discriminate].
  exact (IH s1 (step_ok _ _ _ Hs Ho1 E) Ho2 Hr).
Qed.

Lemma getters_ok s : stat_ok s ->
  (forall i q, local_quality Ops s i = Some q -> P q) /\
  (forall i q, local_visibility Ops s i = Some q -> P q) /\
  P (average_local_quality Ops s) /\ P (joint_local_visibility Ops s).
Proof.
  intros (Hc & Hj & Ha & Hq & Hv & Hg); rewrite Forall_forall in Hc; repeat split.
  - intros i q; unfold local_quality; destruct (nth_error _ i) as [c|] eqn:E; [|discriminate].
    intros [= <-]; apply upd_quality_ok; auto; apply Hc; eapply nth_error_In; eauto.
  - intros i q; unfold local_visibility; destruct (nth_error _ i) as [c|] eqn:E; [|discriminate].
    intros [= <-]; apply upd_visibility_ok; auto; apply Hc; eapply nth_error_In; eauto.
  - apply avg_ok; auto.
  - apply upd_visibility_ok; auto.
Qed.
End Gen.

(** * Refinement to the frame log *)
Section Ref.
Context {T : Type} (Ops : qops T) (ncam : nat).

Definition cam_abs (i : nat) (c : camstat T) (l : flog) : Prop :=
  nth_error (l_now l) i = Some (c_status c) /\
  (forall st, c_cum c st = count (seen_as i st) (l_past l)).

Record abs_ok (s : stat T) (l : flog) : Prop := {
  ab_len : length (s_cams s) = ncam;
  ab_now : map (@c_status T) (s_cams s) = l_now l;
  ab_cam : forall i c, nth_error (s_cams s) i = Some c ->
             forall st, c_cum c st = count (seen_as i st) (l_past l);
  ab_past : Forall (fun f => length f = ncam) (l_past l);
  ab_tot : s_tot s = Z.of_nat (length (l_past l));
  ab_trk : s_tracked s = count tracked_anywhere (l_past l);
  ab_time : s_cur s = l_time l
}.

Lemma count_cons {A} (p : A -> bool) x l : count p (x :: l) = (b2z (p x) + count p l)%Z.
Proof. unfold count; cbn [filter]; destruct (p x); cbn [length b2z]; lia. Qed.

Lemma map_const {A B} (b : B) (l : list A) : map (fun _ => b) l = repeat b (length l).
Proof. induction l; cbn; congruence. Qed.

Lemma nth_error_repeat_inv {A} (x y : A) n i : nth_error (repeat x n) i = Some y -> y = x.
Proof. intros H; apply nth_error_In, repeat_spec in H; exact H. Qed.

Lemma trk_abs s l : map (@c_status T) (s_cams s) = l_now l ->
  tracked_in_some_frame s = tracked_anywhere (l_now l).
Proof.
  intros <-; unfold tracked_in_some_frame, tracked_anywhere.
  induction (s_cams s); cbn; congruence.
Qed.

Lemma init_abs t : abs_ok (init Ops ncam t) (log_init ncam t).
Proof.
  constructor; cbn; auto.
  - apply repeat_length.
  - induction ncam; cbn; congruence.
  - intros i c H st; apply nth_error_repeat_inv in H; subst; reflexivity.
Qed.

Lemma abs_now_len s l : abs_ok s l -> length (l_now l) = ncam.
Proof. intros H; rewrite <- (ab_now _ _ H), map_length; apply (ab_len _ _ H). Qed.

Lemma step_abs s l o s' : abs_ok s l -> step Ops s o = Some s' -> abs_ok s' (log_step ncam l o).
Proof.
  intros H Hs; pose proof (abs_now_len _ _ H) as Hnl; destruct H; destruct o as [t|i st|t|a b c]; cbn in Hs.
  - injection Hs as <-; constructor; cbn; auto.
    + rewrite map_length; auto.
    + rewrite map_map, map_const; cbn; congruence.
    + intros i c Hc st; rewrite map_const in Hc; apply nth_error_repeat_inv in Hc; subst; reflexivity.
  - unfold set_status in Hs; destruct (Nat.ltb i _) eqn:E; [|discriminate]; injection Hs as <-.
    constructor; cbn; auto.
    + rewrite upd_nth_length; auto.
    + rewrite <- ab_now0. apply map_upd_nth; reflexivity.
    + intros j c Hc st'.
      destruct (Nat.eq_dec i j) as [->|Hij].
      * rewrite nth_error_upd_nth_eq in Hc; destruct (nth_error (s_cams s) j) as [c0|] eqn:E2; [|discriminate].
        injection Hc as <-; cbn; eapply ab_cam0; eauto.
      * rewrite nth_error_upd_nth_ne in Hc by auto; eapply ab_cam0; eauto.
  - injection Hs as <-; constructor; cbn; auto.
    + rewrite map_length; auto.
    + rewrite map_map; cbn; rewrite map_const; congruence.
    + intros i c Hc st; rewrite nth_error_map in Hc.
      destruct (nth_error (s_cams s) i) as [c0|] eqn:E; [|discriminate]; injection Hc as <-; cbn.
      rewrite count_cons; unfold cum_incr.
      replace (seen_as i st (l_now l)) with (tstatus_eqb st (c_status c0)).
      * rewrite (ab_cam0 _ _ E); destruct (tstatus_eqb st (c_status c0)); cbn [b2z]; lia.
      * unfold seen_as; rewrite <- ab_now0, nth_error_map, E; cbn.
        destruct st, (c_status c0); reflexivity.
    + lia.
    + rewrite count_cons, (trk_abs _ _ ab_now0).
      destruct (tracked_anywhere (l_now l)); cbn [b2z]; lia.
  - injection Hs as <-; constructor; cbn; auto.
Qed.

Lemma run_abs_gen os s l s' : abs_ok s l -> run Ops s os = Some s' ->
  abs_ok s' (fold_left (log_step ncam) os l).
Proof.
  revert s l; induction os as [|o os IH]; cbn [run fold_left]; intros s l H Hr; [congruence|].
  destruct (step Ops s o) as [s1|] eqn:E; [|discriminate].
  exact (IH s1 _ (step_abs _ _ _ _ H E) Hr).
Qed.

Lemma run_abs os t0 s : run Ops (init Ops ncam t0) os = Some s -> abs_ok s (log_run ncam t0 os).
Proof. apply run_abs_gen, init_abs. Qed.

Lemma run_defined os s l : abs_ok s l -> Forall (cam_in_range ncam) os -> exists s', run Ops s os = Some s'.
Proof.
  revert s l; induction os as [|o os IH]; intros s l Ha Ho; [eexists; reflexivity|].
  apply Forall_cons_iff in Ho as [Ho1 Ho2]; cbn [run].
  assert (D : exists s1, step Ops s o = Some s1).
  { destruct o as [t|i st|t|a b c]; cbn; try (eexists; reflexivity).
    unfold set_status; cbn in Ho1; rewrite (ab_len _ _ Ha).
    destruct (Nat.ltb_spec i ncam); [eexists; reflexivity|lia]. }
  destruct D as [s1 E]; rewrite E; exact (IH s1 _ (step_abs _ _ _ _ Ha E) Ho2).
Qed.

Lemma count_cam_frames s l i c st : abs_ok s l -> nth_error (s_cams s) i = Some c ->
  count_cam st 0 c = count (seen_as i st) (frames l).
Proof.
  intros H Hc; unfold count_cam, frames; cbn [Z.eqb]. rewrite count_cons.
  unfold seen_as at 1; rewrite <- (ab_now _ _ H), nth_error_map, Hc; cbn [option_map].
  rewrite (ab_cam _ _ H _ _ Hc); lia.
Qed.

Lemma count_status_frames s l i st : abs_ok s l -> (i < ncam)%nat ->
  count_status s st (Z.of_nat i) 0 = count (seen_as i st) (frames l).
Proof.
  intros H Hi; unfold count_status.
  destruct (Z.eqb_spec (Z.of_nat i) (-1)); [lia|].
  rewrite (ab_len _ _ H).
  destruct (Z.ltb_spec (Z.of_nat i) 0); [lia|]; destruct (Z.leb_spec (Z.of_nat ncam) (Z.of_nat i)); [lia|].
  cbn [orb]; rewrite Nat2Z.id.
  destruct (nth_error (s_cams s) i) as [c|] eqn:E.
  - eapply count_cam_frames; eauto.
  - apply nth_error_None in E; rewrite (ab_len _ _ H) in E; lia.
Qed.

Lemma count_partition i (fs : list frame) : Forall (fun f => (i < length f)%nat) fs ->
  (count (seen_as i UNKNOWN) fs + count (seen_as i NOT_IN_FRAME) fs + count (seen_as i FAILED_ALIGNEMENT) fs
   + count (seen_as i FAILED_TRACKING) fs + count (seen_as i TRACKED) fs)%Z = Z.of_nat (length fs).
Proof.
  induction 1 as [|f fs Hf Hfs IH]; [reflexivity|]; rewrite !count_cons; cbn [length].
  unfold seen_as at 1 3 5 7 9.
  destruct (nth_error f i) as [x|] eqn:E; [|apply nth_error_None in E; lia].
  destruct x; cbn [tstatus_eqb b2z]; lia.
Qed.

Lemma count_le {A} (p : A -> bool) l : (0 <= count p l <= Z.of_nat (length l))%Z.
Proof. unfold count; induction l as [|x l IH]; cbn [filter]; [cbn; lia|]; destruct (p x); cbn [length]; lia. Qed.

Lemma partition_ok s l i : abs_ok s l -> (i < ncam)%nat ->
  (count_status s UNKNOWN (Z.of_nat i) 0 + count_status s NOT_IN_FRAME (Z.of_nat i) 0
   + count_status s FAILED_ALIGNEMENT (Z.of_nat i) 0 + count_status s FAILED_TRACKING (Z.of_nat i) 0
   + count_status s TRACKED (Z.of_nat i) 0)%Z = count_tot s
  /\ count_tot s = Z.of_nat (length (frames l)).
Proof.
  intros H Hi; rewrite !(count_status_frames _ _ _ _ H Hi).
  assert (E : count_tot s = Z.of_nat (length (frames l))).
  { unfold count_tot, frames; cbn [length]; rewrite (ab_tot _ _ H); lia. }
  split; [rewrite E|exact E]; apply count_partition; unfold frames; constructor.
  - rewrite (abs_now_len _ _ H); lia.
  - eapply Forall_impl; [|apply (ab_past _ _ H)]; cbn; intros f Hf; rewrite Hf; lia.
Qed.

Lemma tracked_ok s l : abs_ok s l ->
  count_tracked s = count tracked_anywhere (frames l) /\ (0 <= count_tracked s <= count_tot s)%Z.
Proof.
  intros H; assert (E : count_tracked s = count tracked_anywhere (frames l)).
  { unfold count_tracked, frames; rewrite count_cons, (trk_abs _ _ (ab_now _ _ H)), (ab_trk _ _ H); lia. }
  split; [exact E|]; rewrite E.
  pose proof (count_le tracked_anywhere (frames l)).
  assert (count_tot s = Z.of_nat (length (frames l))).
  { unfold count_tot, frames; cbn [length]; rewrite (ab_tot _ _ H); lia. }
  lia.
Qed.

(** all cameras at once *)
Lemma fold_sum {A} (f : A -> Z) l a : fold_left (fun a c => a + f c)%Z l a = (a + fold_right (fun c s => f c + s) 0 l)%Z.
Proof. revert a; induction l as [|x l IH]; intros a; cbn [fold_left fold_right]; [lia|]; rewrite IH; lia. Qed.

Lemma count_all (s : stat T) st n :
  count_status s st (-1) n = fold_right (fun i z => count_status s st (Z.of_nat i) n + z)%Z 0%Z (seq 0 (length (s_cams s))).
Proof.
  unfold count_status at 1; change (-1 =? -1)%Z with true; cbv iota; rewrite fold_sum, Z.add_0_l.
  assert (G : forall i c, nth_error (s_cams s) i = Some c -> count_status s st (Z.of_nat i) n = count_cam st n c).
  { intros i c Hc; assert ((i < length (s_cams s))%nat) by (apply nth_error_Some; congruence).
    unfold count_status; destruct (Z.eqb_spec (Z.of_nat i) (-1)); [lia|].
    destruct (Z.ltb_spec (Z.of_nat i) 0); [lia|]; destruct (Z.leb_spec (Z.of_nat (length (s_cams s))) (Z.of_nat i)); [lia|].
    cbn [orb]; rewrite Nat2Z.id, Hc; reflexivity. }
  assert (K : forall (cs : list (camstat T)) k (g : nat -> Z),
    (forall i c, nth_error cs i = Some c -> g (k + i)%nat = count_cam st n c) ->
    fold_right (fun c z => count_cam st n c + z)%Z 0%Z cs = fold_right (fun i z => g i + z)%Z 0%Z (seq k (length cs))).
  { clear; induction cs as [|c cs IH]; intros k g G; cbn [fold_right seq length]; [reflexivity|].
    rewrite (IH (S k) g).
    - pose proof (G 0%nat c eq_refl) as G0; rewrite Nat.add_0_r in G0; rewrite G0; reflexivity.
    - intros i d Hd; rewrite <- (G (S i) d Hd); f_equal; lia. }
  apply (K (s_cams s) 0%nat (fun i => count_status s st (Z.of_nat i) n)); exact G.
Qed.

(** * history window *)
Definition hist_ok (s : stat T) (l : flog) : Prop :=
  forall i c, nth_error (s_cams s) i = Some c ->
    map snd (c_hist c) = map (fun f => nth i f UNKNOWN) (l_past l) /\
    Forall (fun e => fst e < s_cur s)%Z (c_hist c).

Lemma tmap_set_new k v m : Forall (fun e => fst e < k)%Z m -> tmap_set k v m = (k, v) :: m.
Proof.
  intros H; destruct m as [|[k' v'] m]; [reflexivity|]; cbn.
  inversion H as [|? ? H1]; subst; cbn in H1; destruct (Z.ltb_spec k' k); [reflexivity|lia].
Qed.

Lemma run_hist os s l s' : abs_ok s l -> hist_ok s l -> times_increase (l_time l) os ->
  run Ops s os = Some s' -> hist_ok s' (fold_left (log_step ncam) os l).
Proof.
  revert s l; induction os as [|o os IH]; cbn [run fold_left]; intros s l Ha Hh Ht Hr; [injection Hr as <-; exact Hh|].
  destruct (step Ops s o) as [s1|] eqn:E; [|discriminate].
  assert (Ha' := step_abs _ _ _ _ Ha E).
  assert (Ht' : times_increase (l_time (log_step ncam l o)) os)
    by (destruct o; cbn in Ht |- *; tauto).
  eapply IH; [exact Ha'| |exact Ht'|exact Hr].
  clear IH Hr Ht' Ha'.
  destruct o as [t|i st|t|a b c]; cbn in E.
  - injection E as <-; intros i c Hc; cbn in Hc; rewrite map_const in Hc; apply nth_error_repeat_inv in Hc; subst; cbn; auto.
  - unfold set_status in E; destruct (Nat.ltb i _); [|discriminate]; injection E as <-.
    intros j c Hc; cbn in Hc |- *.
    destruct (Nat.eq_dec i j) as [->|Hij].
    + rewrite nth_error_upd_nth_eq in Hc; destruct (nth_error (s_cams s) j) as [c0|] eqn:E2; [|discriminate].
      injection Hc as <-; cbn; apply (Hh _ _ E2).
    + rewrite nth_error_upd_nth_ne in Hc by auto; apply (Hh _ _ Hc).
  - injection E as <-; intros i c Hc; cbn in Hc |- *; rewrite nth_error_map in Hc.
    destruct (nth_error (s_cams s) i) as [c0|] eqn:E; [|discriminate]; injection Hc as <-; cbn.
    destruct (Hh _ _ E) as [H1 H2]; rewrite (tmap_set_new _ _ _ H2); cbn [map snd fst]; split.
    + rewrite H1; f_equal.
      erewrite nth_error_nth; [reflexivity|].
      rewrite <- (ab_now _ _ Ha), nth_error_map, E; reflexivity.
    + cbn in Ht; rewrite <- (ab_time _ _ Ha) in Ht.
      constructor; cbn; [lia|]; eapply Forall_impl; [|exact H2]; cbn; intros; lia.
  - injection E as <-; exact Hh.
Qed.

Lemma init_hist t : hist_ok (init Ops ncam t) (log_init ncam t).
Proof. intros i c Hc; cbn in Hc; apply nth_error_repeat_inv in Hc; subst; cbn; auto. Qed.

Lemma filter_map_len {A B} (f : A -> B) p l : length (filter p (map f l)) = length (filter (fun x => p (f x)) l).
Proof. induction l as [|x l IH]; cbn; [reflexivity|]; destruct (p (f x)); cbn; congruence. Qed.

Lemma filter_ext_len {A} (p q : A -> bool) l : (forall x, In x l -> p x = q x) -> length (filter p l) = length (filter q l).
Proof.
  induction l as [|x l IH]; intros H; cbn; [reflexivity|].
  rewrite (H x (or_introl eq_refl)); destruct (q x); cbn; rewrite IH; auto with datatypes.
Qed.

Lemma in_firstn {A} k (x : A) l : In x (firstn k l) -> In x l.
Proof. revert l; induction k; intros [|y l]; cbn; intuition. Qed.

Lemma window_ok s l i c st n : abs_ok s l -> hist_ok s l -> nth_error (s_cams s) i = Some c -> (1 <= n)%Z ->
  count_cam st n c = count (seen_as i st) (firstn (Z.to_nat n) (frames l)).
Proof.
  intros Ha Hh Hc Hn; unfold count_cam; destruct (Z.eqb_spec n 0); [lia|].
  replace (Z.to_nat n) with (S (Z.to_nat (n - 1))) by lia.
  unfold frames; cbn [firstn]; rewrite count_cons.
  unfold seen_as at 1; rewrite <- (ab_now _ _ Ha), nth_error_map, Hc; cbn [option_map].
  rewrite Z.add_comm; f_equal.
  unfold count_recent, count; f_equal; set (k := Z.to_nat (n - 1)).
  rewrite <- (filter_map_len snd (fun x => tstatus_eqb x st)).
  rewrite <- firstn_map, (proj1 (Hh _ _ Hc)), firstn_map, filter_map_len.
  apply filter_ext_len; intros f Hf; unfold seen_as.
  assert (Hlen : length f = ncam).
  { pose proof (ab_past _ _ Ha) as Hp; rewrite Forall_forall in Hp; apply Hp; eapply in_firstn; eauto. }
  assert ((i < ncam)%nat) by (rewrite <- (ab_len _ _ Ha); apply nth_error_Some; congruence).
  rewrite (nth_error_nth' f UNKNOWN) by lia; reflexivity.
Qed.

Lemma count_status_window s l i st n : abs_ok s l -> hist_ok s l -> (i < ncam)%nat -> (1 <= n)%Z ->
  count_status s st (Z.of_nat i) n = count (seen_as i st) (firstn (Z.to_nat n) (frames l)).
Proof.
  intros H Hh Hi Hn; unfold count_status.
  destruct (Z.eqb_spec (Z.of_nat i) (-1)); [lia|].
  rewrite (ab_len _ _ H).
  destruct (Z.ltb_spec (Z.of_nat i) 0); [lia|]; destruct (Z.leb_spec (Z.of_nat ncam) (Z.of_nat i)); [lia|].
  cbn [orb]; rewrite Nat2Z.id.
  destruct (nth_error (s_cams s) i) as [c|] eqn:E.
  - eapply window_ok; eauto.
  - apply nth_error_None in E; rewrite (ab_len _ _ H) in E; lia.
Qed.
End Ref.
