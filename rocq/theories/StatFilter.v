(** The quality values are low-pass filters of the frame log. *)
From Coq Require Import List ZArith Bool Lia.
From Verif Require Import Util StatModel StatSpec StatProofs.
Import ListNotations.

Section Filt.
Context {T : Type} (O : qops T) (ncam : nat) (rq rv rg : Z).

Definition lq_of (i : nat) (fs : list frame) : T := low_pass O rq (seen_as i TRACKED) (failed_in i) fs.
Definition lv_of (i : nat) (fs : list frame) : T := low_pass O rv (visible_in i) (fun _ => true) fs.
Definition jv_of (fs : list frame) : T := low_pass O rv visible_anywhere (fun _ => true) fs.

Record filt (s : stat T) (l : flog) : Prop := {
  fl_lq : forall i c, nth_error (s_cams s) i = Some c -> c_lq c = lq_of i (l_past l) /\ c_lv c = lv_of i (l_past l);
  fl_jv : s_jlv s = jv_of (l_past l);
  fl_al : s_alq s = low_pass_all O rq ncam (l_past l);
  fl_rq : s_rq s = rq; fl_rv : s_rv s = rv }.

Lemma seen_now (s : stat T) l i c st : abs_ok ncam s l -> nth_error (s_cams s) i = Some c -> seen_as i st (l_now l) = tstatus_eqb (c_status c) st.
Proof.
  intros A H. unfold seen_as. rewrite <- (ab_now _ _ _ A). rewrite nth_error_map, H. reflexivity.
Qed.
Lemma lq_step (s : stat T) l i c : abs_ok ncam s l -> nth_error (s_cams s) i = Some c ->
  upd_quality O rq (c_status c) (lq_of i (l_past l)) = lq_of i (l_now l :: l_past l).
Proof.
  intros A H. unfold lq_of at 2, low_pass. cbn [fold_right]. unfold failed_in. rewrite !(seen_now s l i c) by auto.
  destruct (c_status c); reflexivity.
Qed.
Lemma lv_step (s : stat T) l i c : abs_ok ncam s l -> nth_error (s_cams s) i = Some c ->
  upd_visibility O rv (in_frame (c_status c)) (lv_of i (l_past l)) = lv_of i (l_now l :: l_past l).
Proof.
  intros A H. unfold lv_of at 2, low_pass. cbn [fold_right]. unfold visible_in, failed_in. rewrite !(seen_now s l i c) by auto.
  destruct (c_status c); reflexivity.
Qed.
Lemma existsb_shift {A} (p : nat -> bool) (q : A -> bool) (l : list A) k : (forall i x, nth_error l i = Some x -> p (k + i)%nat = q x) -> existsb p (seq k (length l)) = existsb q l.
Proof.
  revert k. induction l as [|x l IH]; intros k H; cbn; [reflexivity|]. rewrite <- (H 0%nat x) by reflexivity. rewrite Nat.add_0_r. f_equal.
  apply IH. intros i y Hi. rewrite <- (H (S i) y) by auto. f_equal. lia.
Qed.
Lemma jv_step (s : stat T) l : abs_ok ncam s l -> upd_visibility O rv (in_some_frame s) (jv_of (l_past l)) = jv_of (l_now l :: l_past l).
Proof.
  intros A. unfold jv_of at 2, low_pass. cbn [fold_right]. replace (visible_anywhere (l_now l)) with (in_some_frame s); [reflexivity|].
  unfold in_some_frame, visible_anywhere. rewrite <- (ab_now _ _ _ A), map_length. symmetry. apply existsb_shift.
  intros i c Hc. cbn [Nat.add]. rewrite (ab_now _ _ _ A). unfold visible_in, failed_in. rewrite !(seen_now s l i c) by auto. destruct (c_status c); reflexivity.
Qed.
Lemma fold_shift {A B} (f : B -> nat -> B) (g : B -> A -> B) (l : list A) k q :
  (forall i x q, nth_error l i = Some x -> f q (k + i)%nat = g q x) -> fold_left f (seq k (length l)) q = fold_left g l q.
Proof.
  revert k q. induction l as [|x l IH]; intros k q H; cbn; [reflexivity|]. rewrite <- (H 0%nat x) by reflexivity. rewrite Nat.add_0_r.
  apply IH. intros i y q' Hi. rewrite <- (H (S i) y) by auto. f_equal. lia.
Qed.
Lemma al_step (s : stat T) l : abs_ok ncam s l ->
  fold_left (fun q c => upd_quality O rq (c_status c) q) (s_cams s) (low_pass_all O rq ncam (l_past l)) = low_pass_all O rq ncam (l_now l :: l_past l).
Proof.
  intros A. unfold low_pass_all at 2. cbn [fold_right]. fold (low_pass_all O rq ncam (l_past l)). rewrite <- (ab_len _ _ _ A). symmetry. apply fold_shift.
  intros i c q Hc. cbn [Nat.add]. unfold failed_in. rewrite !(seen_now s l i c) by auto. destruct (c_status c); reflexivity.
Qed.
Lemma filt_step s l o s' : abs_ok ncam s l -> filt s l -> no_ranges o -> step O s o = Some s' -> filt s' (log_step ncam l o).
Proof.
  intros A F N E. destruct F as [F1 F2 F3 F4 F5]. destruct o as [t|i st|t|a b c]; cbn in E; [| | |contradiction].
  - injection E as <-. constructor; cbn; auto. intros i c Hc. rewrite nth_error_map in Hc. destruct (nth_error (s_cams s) i); [|discriminate].
    injection Hc as <-. split; reflexivity.
  - unfold set_status in E. destruct (Nat.ltb i (length (s_cams s))); [|discriminate]. injection E as <-. constructor; cbn; auto.
    intros j c Hc. destruct (Nat.eq_dec j i) as [->|Nj].
    + rewrite nth_error_upd_nth_eq in Hc. destruct (nth_error (s_cams s) i) as [c0|] eqn:E0; [|discriminate]. injection Hc as <-. cbn. now apply F1.
    + rewrite nth_error_upd_nth_ne in Hc by auto. now apply F1.
  - injection E as <-. constructor; cbn; auto.
    + intros i c Hc. rewrite nth_error_map in Hc. destruct (nth_error (s_cams s) i) as [c0|] eqn:E0; [|discriminate]. injection Hc as <-.
      destruct (F1 i c0 E0) as [Q V]. cbn. rewrite F4, F5, Q, V. split; [now apply (lq_step s)|now apply (lv_step s)].
    + rewrite F5, F2. now apply jv_step.
    + rewrite F4, F3. now apply al_step.
Qed.
Lemma filt_run os s l s' : abs_ok ncam s l -> filt s l -> Forall no_ranges os -> run O s os = Some s' ->
  filt s' (fold_left (log_step ncam) os l) /\ abs_ok ncam s' (fold_left (log_step ncam) os l).
Proof.
  revert s l. induction os as [|o os IH]; intros s l A F N R; cbn in *; [injection R as <-; auto|].
  inversion N; subst. destruct (step O s o) as [s1|] eqn:E; [|discriminate]. apply (IH s1); auto.
  - now apply (step_abs O ncam s l o s1).
  - now apply (filt_step s l o s1).
Qed.
Lemma filt_init t : filt (set_ranges rq rv rg (init O ncam t)) (log_init ncam t).
Proof.
  constructor; cbn; auto. intros i c Hc. apply nth_error_repeat_inv in Hc. subst c. split; reflexivity.
Qed.
Lemma abs_init t : abs_ok ncam (set_ranges rq rv rg (init O ncam t)) (log_init ncam t).
Proof. destruct (init_abs O ncam t). constructor; auto. Qed.

Theorem filters t0 os s : Forall no_ranges os -> run O (set_ranges rq rv rg (init O ncam t0)) os = Some s ->
  let fs := frames (log_run ncam t0 os) in
  (forall i, (i < ncam)%nat -> local_quality O s i = Some (lq_of i fs) /\ local_visibility O s i = Some (lv_of i fs)) /\
  joint_local_visibility O s = jv_of fs /\ average_local_quality O s = low_pass_all O rq ncam fs.
Proof.
  intros N R. destruct (filt_run os _ _ s (abs_init t0) (filt_init t0) N R) as [F A]. fold (log_run ncam t0 os) in F, A.
  cbv zeta. unfold frames. set (l := log_run ncam t0 os) in *. destruct F as [F1 F2 F3 F4 F5]. split; [|split].
  - intros i Hi. unfold local_quality, local_visibility. destruct (nth_error (s_cams s) i) as [c|] eqn:E.
    + destruct (F1 i c E) as [Q V]. cbn. unfold cam_local_quality, cam_local_visibility. rewrite F4, F5, Q, V. split; f_equal; [now apply (lq_step s)|now apply (lv_step s)].
    + apply nth_error_None in E. rewrite (ab_len _ _ _ A) in E. lia.
  - unfold joint_local_visibility. rewrite F5, F2. now apply jv_step.
  - unfold average_local_quality. rewrite F4, F3. now apply al_step.
Qed.
End Filt.

Lemma in_frame_count {T} (O : qops T) ncam t0 os s i : run O (init O ncam t0) os = Some s -> (i < ncam)%nat ->
  count_in_frame s (Z.of_nat i) 0 = count (visible_in i) (frames (log_run ncam t0 os)).
Proof.
  intros R Hi. unfold count_in_frame. rewrite !(count_status_frames ncam s _ i _ (run_abs O ncam os t0 s R) Hi).
  set (fs := frames _). clearbody fs. induction fs as [|f fs IH]; [reflexivity|]. rewrite !count_cons, <- IH. unfold visible_in at 1, failed_in at 1, seen_as at 1 3 5 7 8 9.
  destruct (nth_error f i) as [[]|]; cbn [tstatus_eqb b2z orb]; lia.
Qed.
