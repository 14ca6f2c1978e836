(** Proofs about the iteration of the image update over features and cameras (C38). *)
From Coq Require Import List ZArith QArith Bool Arith Lia.
From Verif Require Import Util StatModel StatSpec FsetModel FsetSpec ImgModel ImgSpec.
Import ListNotations.
Local Open Scope nat_scope.

Lemma schedule_alt cross n cam : cam < n ->
  schedule cross n cam = map (fun k => (k + cam) mod n) (seq 0 (if cross then n else 1)).
Proof.
  intros H. unfold schedule. destruct cross; [|cbn; now rewrite Nat.mod_small].
  apply (nth_ext _ _ 0 ((0 + cam) mod n)).
  - rewrite app_length, map_length, !seq_length. lia.
  - intros k Hk. rewrite app_length, !seq_length in Hk.
    rewrite (map_nth (fun k => (k + cam) mod n)), seq_nth by lia. cbn [plus].
    destruct (Nat.lt_ge_cases k (n - cam)) as [L|L].
    + rewrite app_nth1 by (rewrite seq_length; lia). rewrite seq_nth by lia. rewrite Nat.mod_small by lia. lia.
    + rewrite app_nth2 by (rewrite seq_length; lia). rewrite seq_length, seq_nth by lia.
      replace (k + cam) with (k - (n - cam) + 1 * n) by lia. rewrite Nat.mod_add, Nat.mod_small by lia. lia.
Qed.

Section P.
Context {Patch World : Type}.
Variables (cf : config) (G : geom Patch World) (t : Z).
Notation ist := (ist Patch World).
Notation n := (c_ncam cf).
Definition N := if c_cross cf then n else 1.
Definition sched (cam : nat) : list nat := map (fun k => (k + cam) mod n) (seq 0 N).

Lemma sched_len cam : length (sched cam) = N. Proof. unfold sched. now rewrite map_length, seq_length. Qed.
Lemma sched_nth cam k : k < N -> nth_error (sched cam) k = Some ((k + cam) mod n).
Proof.
  intros H. unfold sched. rewrite nth_error_map. 
  assert (E : nth_error (seq 0 N) k = Some k). { rewrite (nth_error_nth' _ 0) by (rewrite seq_length; lia). now rewrite seq_nth. }
  now rewrite E.
Qed.
Lemma firstn_snoc {A} (l : list A) k a : nth_error l k = Some a -> firstn (S k) l = firstn k l ++ [a].
Proof. revert k. induction l as [|b l IH]; intros [|k] H; cbn in *; try discriminate; [now injection H as ->|]. f_equal. now apply IH. Qed.

(** ** Slots *)
Lemma valid_remove i x j : slot_valid (remove G i x) j = slot_valid x j && negb (j =? i).
Proof.
  unfold slot_valid, remove, emit, with_w, with_fs, invalidate. cbn [i_fs fs_slots].
  destruct (Nat.eqb_spec j i) as [->|NE].
  - rewrite nth_error_upd_nth_eq. destruct (nth_error _ i); cbn; now rewrite ?andb_false_r.
  - rewrite nth_error_upd_nth_ne by auto. destruct (nth_error _ j); cbn; now rewrite ?andb_true_r.
Qed.
Lemma cam_remove i x j : slot_cam (remove G i x) j = slot_cam x j.
Proof.
  unfold slot_cam, remove, emit, with_w, with_fs, invalidate. cbn [i_fs fs_slots].
  destruct (Nat.eq_dec j i) as [->|NE]; [rewrite nth_error_upd_nth_eq; now destruct (nth_error _ i)|now rewrite nth_error_upd_nth_ne by auto].
Qed.
Lemma nmax_remove i x : nmax (remove G i x) = nmax x.
Proof. unfold nmax, remove, emit, with_w, with_fs, invalidate. cbn. apply upd_nth_length. Qed.

(** ** The invariant *)
Variable x0 : ist.
Hypothesis Hn : 1 <= n.
Hypothesis Hlen : length (i_st x0) = nmax x0.
Hypothesis Hcams : forall i s, nth_error (i_st x0) i = Some s -> length (s_cams s) = n.

Definition prog (x : ist) (i : nat) : nat := if i <? i_id x then N else if i =? i_id x then i_cc x else 0.
Definition cur (pend : bool) (x : ist) (i : nat) : nat := if pend && (i =? i_id x) then 1 else 0.

(** statistics of a live feature *)
Definition stat_ok (pend : bool) (x : ist) (i : nat) : Prop :=
  exists s0 outs, nth_error (i_st x0) i = Some s0 /\ length outs = prog x i /\ Forall definite outs /\
    (if prog x i + cur pend x i =? 0 then nth_error (i_st x) i = Some s0
     else exists s, nth_error (i_st x) i = Some s /\ run exactQ s0 (frame_ops t (sched (slot_cam x0 i)) outs) = Some s) /\
    (forall k s, nth_error outs k = Some s -> (by_update s = true <-> In (EvUpdate i ((k + slot_cam x0 i) mod n)) (i_log x)) /\ observed G i ((k + slot_cam x0 i) mod n) s).
(** visits of any feature *)
Definition visit_ok (pend : bool) (x : ist) (i : nat) : Prop :=
  exists p, visits i (i_log x) = firstn p (sched (slot_cam x0 i)) /\ p <= prog x i + cur pend x i /\
    (slot_valid x i = true -> p = prog x i + cur pend x i) /\ (slot_valid x0 i = false -> p = 0) /\
    increases i (i_log x) = (if p =? 0 then 0 else 1).
(** updates only happen in visited cameras *)
Definition upd_ok (pend : bool) (x : ist) (i : nat) : Prop :=
  forall c, In (EvUpdate i c) (i_log x) -> exists k, k < prog x i + cur pend x i /\ c = (k + slot_cam x0 i) mod n.

Record inv (pend : bool) (x : ist) : Prop := {
  v_nmax : nmax x = nmax x0;
  v_len : length (i_st x) = length (i_st x0);
  v_feat : forall i, option_map sl_feat (nth_error (fs_slots (i_fs x)) i) = option_map sl_feat (nth_error (fs_slots (i_fs x0)) i);
  v_idx : fs_maxIdx (i_fs x) = fs_maxIdx (i_fs x0);
  v_valid : forall i, slot_valid x i = true -> slot_valid x0 i = true;
  v_dead : forall i, slot_valid x i = false -> slot_valid x0 i = true -> In (EvRemove i) (i_log x);
  v_cc : i_cc x < N;
  v_end : nmax x0 <= i_id x -> i_cc x = 0;
  v_pend : pend = true -> i_id x < nmax x0;
  v_cams : forall i s, nth_error (i_st x) i = Some s -> length (s_cams s) = n;
  v_stat : forall i, slot_valid x i = true -> stat_ok pend x i;
  v_visit : forall i, visit_ok pend x i;
  v_upd : forall i, upd_ok pend x i }.

Lemma inv_cam pend x i : inv pend x -> slot_cam x i = slot_cam x0 i.
Proof.
  intros V. pose proof (v_feat _ _ V i) as E. unfold slot_cam.
  destruct (nth_error (fs_slots (i_fs x)) i), (nth_error (fs_slots (i_fs x0)) i); cbn in E; try discriminate; [injection E as ->|]; reflexivity.
Qed.
Lemma N_pos : 1 <= N. Proof. unfold N. destruct (c_cross cf); lia. Qed.
Lemma N_le : N <= n. Proof. unfold N. destruct (c_cross cf); lia. Qed.

Lemma valid_lt (x : ist) i : slot_valid x i = true -> i < nmax x.
Proof. unfold slot_valid, nmax. intros H. destruct (nth_error (fs_slots (i_fs x)) i) eqn:E; [|discriminate]. apply nth_error_Some. congruence. Qed.

Lemma visits_app i l1 l2 : visits i (l1 ++ l2) = visits i l2 ++ visits i l1.
Proof. induction l1 as [|e l1 IH]; cbn; [now rewrite app_nil_r|]. destruct e; auto. destruct (i0 =? i); auto. now rewrite IH, app_assoc. Qed.

(** removal keeps the invariant *)
Lemma inv_remove pend x i : inv pend x -> slot_valid x i = true -> inv pend (remove G i x).
Proof.
  intros V Hi. constructor.
  - rewrite nmax_remove. apply (v_nmax _ _ V).
  - apply (v_len _ _ V).
  - intros j. rewrite <- (v_feat _ _ V j). unfold remove, emit, with_w, with_fs, invalidate. cbn [i_fs fs_slots].
    destruct (Nat.eq_dec i j) as [->|NE]; [rewrite nth_error_upd_nth_eq; now destruct (nth_error _ j)|now rewrite nth_error_upd_nth_ne by auto].
  - apply (v_idx _ _ V).
  - intros j. rewrite valid_remove. intros H. apply andb_true_iff in H as [H _]. now apply (v_valid _ _ V).
  - intros j. rewrite valid_remove. intros H H0. cbn [remove emit i_log]. destruct (Nat.eq_dec j i) as [E|NE]; [subst j; now left|].
    right. apply Nat.eqb_neq in NE. rewrite NE, andb_true_r in H. now apply (v_dead _ _ V).
  - apply (v_cc _ _ V).
  - apply (v_end _ _ V).
  - apply (v_pend _ _ V).
  - apply (v_cams _ _ V).
  - intros j. rewrite valid_remove. intros H. apply andb_true_iff in H as [H _]. destruct (v_stat _ _ V j H) as (s0 & outs & A & B & C & D & E).
    exists s0, outs. split; [exact A|]. split; [exact B|]. split; [exact C|]. split; [exact D|]. intros k s Hk. destruct (E k s Hk) as [E1 E2]. split; [|exact E2].
    rewrite E1. split; intros K.
    + right. exact K.
    + destruct K as [K|K]; [discriminate|exact K].
  - intros j. destruct (v_visit _ _ V j) as (p & A & B & C & D & E). exists p. cbn [remove emit i_log visits]. repeat split; auto.
    rewrite valid_remove. intros H. apply andb_true_iff in H as [H _]. auto.
  - intros j c [K|K]; [discriminate|]. exact (v_upd _ _ V j c K).
Qed.

Lemma fold_inv {A} (P : ist -> Prop) (f : ist -> A -> ist) l x : (forall y a, P y -> P (f y a)) -> P x -> P (fold_left f l x).
Proof. intros H. revert x. induction l as [|a l IH]; intros x Hx; cbn; auto. Qed.
Lemma fold_inv_in {A} (P : ist -> Prop) (f : ist -> A -> ist) l x : (forall y a, In a l -> P y -> P (f y a)) -> P x -> P (fold_left f l x).
Proof. intros H. revert x. induction l as [|a l IH]; intros x Hx; cbn; auto. apply IH; [|apply H; [now left|exact Hx]]. intros y b Hb. apply H. now right. Qed.

Lemma inv_negative pend x : inv pend x -> inv pend (remove_negative cf G x).
Proof.
  intros V. unfold remove_negative. destruct (c_rmneg cf); [|exact V]. apply fold_inv; [|exact V].
  intros y i Vy. destruct (slot_valid y i) eqn:E; cbn [andb]; [|exact Vy]. destruct (g_negative G (i_w y) i); [now apply inv_remove|exact Vy].
Qed.
Lemma negative_pos x : i_id (remove_negative cf G x) = i_id x /\ i_cc (remove_negative cf G x) = i_cc x.
Proof.
  unfold remove_negative. destruct (c_rmneg cf); [|split; reflexivity].
  apply (fold_inv (fun y => i_id y = i_id x /\ i_cc y = i_cc x)); [|split; reflexivity].
  intros y i H. destruct (slot_valid y i && g_negative G (i_w y) i); exact H.
Qed.

(** change of the world *)
Lemma inv_w pend x w : inv pend x -> inv pend (with_w w x).
Proof. intros V. destruct V. constructor; auto. Qed.

Lemma run_app O s a b : run O s (a ++ b) = match @run (option Q) O s a with Some s' => run O s' b | None => None end.
Proof. revert s. induction a as [|o a IH]; intros s; cbn [app run]; [reflexivity|]. destruct (step O s o); auto. Qed.
Lemma combine_snoc {A B} (l : list A) (m : list B) b a k : length m = k -> nth_error l k = Some a -> combine l (m ++ [b]) = combine l m ++ [(a, b)].
Proof.
  revert m k. induction l as [|y l IH]; intros m k L H; [destruct k; discriminate|]. destruct m as [|z m]; cbn in *; subst k.
  - cbn in H. injection H as ->. now destruct l.
  - cbn. f_equal. apply (IH m (length m)); auto.
Qed.
Lemma frame_ops_snoc outs s cam : length outs < N -> frame_ops t (sched cam) (outs ++ [s]) = frame_ops t (sched cam) outs ++ [OpStatus ((length outs + cam) mod n) s].
Proof. intros L. unfold frame_ops. rewrite (combine_snoc _ _ _ _ _ eq_refl (sched_nth cam _ L)), map_app. reflexivity. Qed.
Lemma set_status_some c s (st : stat (option Q)) : c < length (s_cams st) -> exists st', set_status c s st = Some st' /\ length (s_cams st') = length (s_cams st).
Proof. intros H. unfold set_status. destruct (Nat.ltb_spec c (length (s_cams st))); [|lia]. eexists; split; [reflexivity|]. cbn. apply upd_nth_length. Qed.

(** found measurement: the beginning of a visit *)
Definition open_visit (x : ist) : ist :=
  emit (EvVisit (i_id x) (active cf x))
    (if i_cc x =? 0 then emit (EvIncrease (i_id x)) (with_st (upd_nth (i_id x) (increase exactQ t) (i_st x)) x) else x).
Lemma open_fields x : i_fs (open_visit x) = i_fs x /\ i_id (open_visit x) = i_id x /\ i_cc (open_visit x) = i_cc x /\ i_w (open_visit x) = i_w x.
Proof. unfold open_visit. destruct (i_cc x =? 0); repeat split. Qed.
Lemma open_stat x j : nth_error (i_st (open_visit x)) j =
  if (j =? i_id x) && (i_cc x =? 0) then option_map (increase exactQ t) (nth_error (i_st x) j) else nth_error (i_st x) j.
Proof.
  unfold open_visit. destruct (i_cc x =? 0); cbn [emit with_st i_st]; [|now rewrite andb_false_r].
  rewrite andb_true_r. destruct (Nat.eqb_spec j (i_id x)) as [->|NE]; [apply nth_error_upd_nth_eq|now apply nth_error_upd_nth_ne; auto].
Qed.

Lemma active_eq pend x : inv pend x -> active cf x = (i_cc x + slot_cam x0 (i_id x)) mod n.
Proof. intros V. unfold active. now rewrite (inv_cam pend x _ V). Qed.
Lemma in_update_open x i c : In (EvUpdate i c) (i_log (open_visit x)) <-> In (EvUpdate i c) (i_log x).
Proof. unfold open_visit. destruct (i_cc x =? 0); cbn; split; intros H; intuition discriminate. Qed.
Lemma in_remove_open x i : In (EvRemove i) (i_log x) -> In (EvRemove i) (i_log (open_visit x)).
Proof. unfold open_visit. destruct (i_cc x =? 0); cbn; auto. Qed.

Lemma inv_open x : inv false x -> slot_valid x (i_id x) = true -> inv true (open_visit x).
Proof.
  intros V Hv. destruct (open_fields x) as (F1 & F2 & F3 & F4).
  assert (SV : forall j, slot_valid (open_visit x) j = slot_valid x j) by (intros j; unfold slot_valid; now rewrite F1).
  assert (PR : forall j, prog (open_visit x) j = prog x j) by (intros j; unfold prog; now rewrite F2, F3).
  constructor.
  - unfold nmax. rewrite F1. apply (v_nmax _ _ V).
  - rewrite <- (v_len _ _ V). unfold open_visit. destruct (i_cc x =? 0); cbn; [apply upd_nth_length|reflexivity].
  - intros i. rewrite F1. apply (v_feat _ _ V).
  - rewrite F1. apply (v_idx _ _ V).
  - intros i. rewrite SV. apply (v_valid _ _ V).
  - intros i. rewrite SV. intros A B. apply in_remove_open. now apply (v_dead _ _ V).
  - rewrite F3. apply (v_cc _ _ V).
  - rewrite F2, F3. apply (v_end _ _ V).
  - intros _. rewrite F2. apply valid_lt in Hv. rewrite (v_nmax _ _ V) in Hv. exact Hv.
  - intros i s. rewrite open_stat. destruct ((i =? i_id x) && (i_cc x =? 0)); [|apply (v_cams _ _ V)].
    destruct (nth_error (i_st x) i) as [s'|] eqn:E; cbn; [|discriminate]. intros K. injection K as <-. cbn. rewrite map_length. now apply (v_cams _ _ V i).
  - intros i. rewrite SV. intros H. destruct (v_stat _ _ V i H) as (s0 & outs & A & B & C & D & E).
    exists s0, outs. rewrite PR. split; [exact A|]. split; [exact B|]. split; [exact C|]. split.
    + rewrite open_stat. unfold cur in *. rewrite F2. cbn [andb] in *. rewrite Nat.add_0_r in D.
      destruct (Nat.eqb_spec i (i_id x)) as [->|NE]; cbn [andb].
      * replace (prog x (i_id x) + 1 =? 0) with false by (symmetry; apply Nat.eqb_neq; lia).
        assert (PE : prog x (i_id x) = i_cc x) by (unfold prog; rewrite Nat.ltb_irrefl, Nat.eqb_refl; reflexivity).
        rewrite PE in *. destruct (Nat.eqb_spec (i_cc x) 0) as [Z|NZ].
        -- rewrite D. cbn. eexists. split; [reflexivity|]. rewrite Z in B. destruct outs; [|discriminate]. unfold frame_ops. rewrite combine_nil. reflexivity.
        -- exact D.
      * rewrite Nat.add_0_r. exact D.
    + intros k s Hk. rewrite in_update_open. now apply E.
  - intros i. destruct (v_visit _ _ V i) as (p & A & B & C & D & E). unfold visit_ok, cur in *. cbn [andb] in *. rewrite Nat.add_0_r in *.
    destruct (Nat.eq_dec i (i_id x)) as [->|NE].
    + assert (PE : prog x (i_id x) = i_cc x) by (unfold prog; rewrite Nat.ltb_irrefl, Nat.eqb_refl; reflexivity).
      specialize (C Hv). subst p. rewrite PE in *. exists (S (i_cc x)). cbn [andb]. rewrite PR, PE, F2, Nat.eqb_refl. 
      assert (VO : visits (i_id x) (i_log (open_visit x)) = visits (i_id x) (i_log x) ++ [active cf x]).
      { unfold open_visit. destruct (i_cc x =? 0); cbn; now rewrite Nat.eqb_refl. }
      split; [|split; [lia|split; [intros _; lia|split]]].
      * rewrite VO, A. symmetry. apply firstn_snoc. rewrite (active_eq _ _ V). apply sched_nth, (v_cc _ _ V).
      * intros Z. rewrite (v_valid _ _ V _ Hv) in Z. discriminate.
      * cbn [Nat.eqb]. unfold open_visit. destruct (i_cc x =? 0); cbn; [rewrite Nat.eqb_refl; cbn; unfold increases in E; rewrite E; reflexivity|exact E].
    + exists p. cbn [andb]. rewrite PR, F2. destruct (Nat.eqb_spec i (i_id x)); [contradiction|]. rewrite Nat.add_0_r, SV.
      assert (VO : visits i (i_log (open_visit x)) = visits i (i_log x)).
      { unfold open_visit. destruct (i_cc x =? 0); cbn; (destruct (Nat.eqb_spec (i_id x) i); [congruence|reflexivity]). }
      assert (IO : increases i (i_log (open_visit x)) = increases i (i_log x)).
      { unfold increases, open_visit. destruct (i_cc x =? 0); cbn; [destruct (Nat.eqb_spec (i_id x) i); [congruence|reflexivity]|reflexivity]. }
      rewrite VO, IO. repeat split; auto.
  - intros i c. rewrite in_update_open. intros K. destruct (v_upd _ _ V i c K) as (k & K1 & K2). exists k. split; [|exact K2].
    rewrite PR. unfold cur in *. cbn [andb] in K1. rewrite F2. lia.
Qed.

(** the Kalman update *)
Lemma inv_update x w : inv true x -> slot_valid x (i_id x) = true -> (forall c, In (EvUpdate (i_id x) c) (i_log x) -> exists k, k < i_cc x /\ c = (k + slot_cam x0 (i_id x)) mod n) ->
  inv true (emit (EvUpdate (i_id x) (active cf x)) (with_w w x)).
Proof.
  intros V Hv HU.
  assert (PE : prog x (i_id x) = i_cc x) by (unfold prog; rewrite Nat.ltb_irrefl, Nat.eqb_refl; reflexivity).
  assert (AE := active_eq _ _ V). constructor; try (destruct V; assumption).
  - intros i A B. right. now apply (v_dead _ _ V).
  - intros i Hi. destruct (v_stat _ _ V i Hi) as (s0 & outs & A & B & C & D & E). exists s0, outs.
    split; [exact A|]. split; [exact B|]. split; [exact C|]. split; [exact D|]. intros k s Hk. destruct (E k s Hk) as [E1 E2]. split; [|exact E2].
    rewrite E1. split; intros K.
    + right. exact K.
    + destruct K as [K|K]; [|exact K]. exfalso. injection K as K1 K2. subst i. rewrite AE in K2.
      assert (L : k < i_cc x) by (rewrite <- PE, <- B; apply nth_error_Some; congruence).
      pose proof (v_cc _ _ V) as HC. pose proof N_le as HN.
      clear - K2 L HC HN Hn. 
      assert (M : forall a b c, a < b -> b < n -> (a + c) mod n <> (b + c) mod n).
      { intros a b c La Lb Q. pose proof (Nat.div_mod (a + c) n ltac:(lia)) as D1. pose proof (Nat.div_mod (b + c) n ltac:(lia)) as D2. rewrite Q in D1.
        assert (b - a = n * ((b + c) / n - (a + c) / n)) by (rewrite Nat.mul_sub_distr_l; lia).
        destruct ((b + c) / n - (a + c) / n) as [|d]; [lia|]. rewrite Nat.mul_succ_r in H. lia. }
      eapply M; [exact L| |symmetry; exact K2]. lia.
  - intros i c [K|K].
    + injection K as K1 K2. subst i. exists (i_cc x). unfold cur. cbn [emit i_id with_w andb]. rewrite Nat.eqb_refl. 
      split; [change (prog (emit _ (with_w w x)) (i_id x)) with (prog x (i_id x)); rewrite PE; lia|now rewrite <- K2, AE].
    + exact (v_upd _ _ V i c K).
Qed.

(** the end of a visit: outcome and advance *)
Lemma advance_pos (x : ist) : i_cc x < N -> (i_id (advance cf x) = i_id x /\ i_cc (advance cf x) = i_cc x + 1 /\ i_cc x + 1 < N) \/ (i_id (advance cf x) = S (i_id x) /\ i_cc (advance cf x) = 0 /\ i_cc x + 1 = N).
Proof.
  unfold advance, N. intros H. destruct (c_cross cf) eqn:C; cbn [negb orb].
  - rewrite orb_false_r. destruct (Nat.eqb_spec (i_cc x + 1) n); cbn; [right|left]; repeat split; lia.
  - rewrite orb_true_r. right. cbn. repeat split; lia.
Qed.
Lemma advance_fields (x : ist) : i_fs (advance cf x) = i_fs x /\ i_st (advance cf x) = i_st x /\ i_w (advance cf x) = i_w x /\ i_log (advance cf x) = i_log x.
Proof. unfold advance. destruct (_ || _); repeat split. Qed.
Lemma prog_advance (x : ist) i : i_cc x < N -> prog (advance cf x) i = prog x i + (if i =? i_id x then 1 else 0).
Proof.
  intros H. unfold prog. destruct (advance_pos x H) as [(A & B & C)|(A & B & C)]; rewrite A, B.
  - destruct (Nat.eqb_spec i (i_id x)) as [->|NE].
    + rewrite Nat.ltb_irrefl. lia.
    + lia.
  - destruct (Nat.eqb_spec i (i_id x)) as [->|NE].
    + rewrite Nat.ltb_irrefl. destruct (Nat.ltb_spec (i_id x) (S (i_id x))); lia.
    + destruct (Nat.ltb_spec i (i_id x)), (Nat.ltb_spec i (S (i_id x))); try lia. destruct (Nat.eqb_spec i (S (i_id x))); lia.
Qed.

(** leaving the slot of a dead feature *)
Lemma inv_skip pend x : inv pend x -> i_id x < nmax x0 -> slot_valid x (i_id x) = false -> inv false (advance cf x).
Proof.
  intros V Hlt Hv. destruct (advance_fields x) as (F1 & F2 & F3 & F4). pose proof (v_cc _ _ V) as Hcc.
  assert (SV : forall j, slot_valid (advance cf x) j = slot_valid x j) by (intros j; unfold slot_valid; now rewrite F1).
  constructor.
  - unfold nmax. rewrite F1. apply (v_nmax _ _ V).
  - rewrite F2. apply (v_len _ _ V).
  - intros i. rewrite F1. apply (v_feat _ _ V).
  - rewrite F1. apply (v_idx _ _ V).
  - intros i. rewrite SV. apply (v_valid _ _ V).
  - intros i. rewrite SV, F4. apply (v_dead _ _ V).
  - destruct (advance_pos x Hcc) as [(A & B & C)|(A & B & C)]; rewrite B; [exact C|apply N_pos].
  - intros K. destruct (advance_pos x Hcc) as [(A & B & C)|(A & B & C)]; [lia|exact B].
  - discriminate.
  - intros i s. rewrite F2. apply (v_cams _ _ V).
  - intros i. rewrite SV. intros H. destruct (v_stat _ _ V i H) as (s0 & outs & A & B & C & D & E).
    destruct (Nat.eq_dec i (i_id x)) as [->|NE]; [congruence|]. exists s0, outs. rewrite (prog_advance x i Hcc), F2, F4.
    destruct (Nat.eqb_spec i (i_id x)); [contradiction|]. unfold cur in *. cbn [andb]. rewrite !Nat.add_0_r. 
    destruct (Nat.eqb_spec i (i_id x)); [contradiction|]. rewrite andb_false_r, Nat.add_0_r in D. auto.
  - intros i. destruct (v_visit _ _ V i) as (p & A & B & C & D & E). exists p. rewrite F4, SV, (prog_advance x i Hcc). unfold cur in *. cbn [andb]. rewrite Nat.add_0_r.
    destruct (Nat.eqb_spec i (i_id x)) as [->|NE].
    + repeat split; auto; [destruct pend; cbn [andb] in B; lia|congruence].
    + rewrite andb_false_r, Nat.add_0_r in *. repeat split; auto.
  - intros i c. rewrite F4. intros K. destruct (v_upd _ _ V i c K) as (k & K1 & K2). exists k. split; [|exact K2]. rewrite (prog_advance x i Hcc). unfold cur in *. cbn [andb].
    destruct (i =? i_id x), pend; cbn [andb] in K1; lia.
Qed.

(** closing a visit with an outcome *)
Lemma put_fields i c s (x : ist) : i_fs (put_status i c s x) = i_fs x /\ i_id (put_status i c s x) = i_id x /\ i_cc (put_status i c s x) = i_cc x /\
  i_w (put_status i c s x) = i_w x /\ i_log (put_status i c s x) = i_log x.
Proof. repeat split. Qed.
Lemma inv_close x s : inv true x -> slot_valid x (i_id x) = true -> definite s ->
  (by_update s = true <-> In (EvUpdate (i_id x) (active cf x)) (i_log x)) /\ observed G (i_id x) (active cf x) s ->
  inv false (advance cf (put_status (i_id x) (active cf x) s x)).
Proof.
  intros V Hv Hd Hu. set (y := put_status (i_id x) (active cf x) s x).
  destruct (advance_fields y) as (F1 & F2 & F3 & F4). change (i_fs y) with (i_fs x) in F1. change (i_w y) with (i_w x) in F3. change (i_log y) with (i_log x) in F4.
  pose proof (v_cc _ _ V) as Hcc. assert (Hcy : i_cc y < N) by exact Hcc.
  assert (SV : forall j, slot_valid (advance cf y) j = slot_valid x j) by (intros j; unfold slot_valid; now rewrite F1).
  assert (PR : forall j, prog y j = prog x j) by reflexivity.
  assert (AE := active_eq _ _ V).
  assert (AL : active cf x < n) by (rewrite AE; apply Nat.mod_upper_bound; lia).
  assert (PE : prog x (i_id x) = i_cc x) by (unfold prog; rewrite Nat.ltb_irrefl, Nat.eqb_refl; reflexivity).
  assert (ST : forall j, nth_error (i_st (advance cf y)) j = if j =? i_id x then option_map (fun u => match set_status (active cf x) s u with Some u' => u' | None => u end) (nth_error (i_st x) j) else nth_error (i_st x) j).
  { intros j. rewrite F2. unfold y, put_status, with_st. cbn [i_st]. destruct (Nat.eqb_spec j (i_id x)) as [->|NE]; [apply nth_error_upd_nth_eq|now apply nth_error_upd_nth_ne; auto]. }
  constructor.
  - unfold nmax. rewrite F1. apply (v_nmax _ _ V).
  - rewrite <- (v_len _ _ V), F2. unfold y, put_status, with_st. cbn. apply upd_nth_length.
  - intros i. rewrite F1. apply (v_feat _ _ V).
  - rewrite F1. apply (v_idx _ _ V).
  - intros i. rewrite SV. apply (v_valid _ _ V).
  - intros i. rewrite SV, F4. apply (v_dead _ _ V).
  - destruct (advance_pos y Hcy) as [(A & B & C)|(A & B & C)]; rewrite B; [exact C|apply N_pos].
  - intros K. destruct (advance_pos y Hcy) as [(A & B & C)|(A & B & C)]; [|exact B].
    change (i_id y) with (i_id x) in A. pose proof (v_pend _ _ V eq_refl). lia.
  - discriminate.
  - intros i u. rewrite ST. destruct (i =? i_id x); [|apply (v_cams _ _ V)]. destruct (nth_error (i_st x) i) as [u'|] eqn:E; cbn; [|discriminate].
    intros K. injection K as <-. pose proof (v_cams _ _ V i u' E) as L. destruct (set_status_some (active cf x) s u' ltac:(lia)) as (u2 & -> & L2). now rewrite L2.
  - intros i. rewrite SV. intros H. destruct (v_stat _ _ V i H) as (s0 & outs & A & B & C & D & E).
    unfold stat_ok. rewrite (prog_advance y i Hcy), PR, ST, F4. change (i_id y) with (i_id x). unfold cur in *. cbn [andb] in *. rewrite Nat.add_0_r.
    destruct (Nat.eqb_spec i (i_id x)) as [->|NE].
    + exists s0, (outs ++ [s]). rewrite PE in *. split; [exact A|]. split; [rewrite app_length; cbn; lia|]. split; [apply Forall_app; split; auto|].
      replace (i_cc x + 1 =? 0) with false in * by (symmetry; apply Nat.eqb_neq; lia).
      destruct D as (u & D1 & D2). split.
      * pose proof (v_cams _ _ V _ _ D1) as L. destruct (set_status_some (active cf x) s u ltac:(lia)) as (u2 & U2 & _).
        exists u2. rewrite D1. cbn [option_map]. rewrite U2. split; [reflexivity|].
        rewrite frame_ops_snoc by lia. rewrite run_app, D2. cbn [run step]. rewrite B, <- AE, U2. reflexivity.
      * intros k v Hk. destruct (Nat.lt_ge_cases k (length outs)) as [L|L].
        -- rewrite nth_error_app1 in Hk by exact L. now apply E.
        -- rewrite nth_error_app2 in Hk by exact L. destruct (k - length outs) as [|d] eqn:Ek; [|destruct d; discriminate]. cbn in Hk. injection Hk as <-.
           replace k with (i_cc x) by lia. rewrite <- AE. exact Hu.
    + exists s0, outs. rewrite !Nat.add_0_r in *. auto.
  - intros i. destruct (v_visit _ _ V i) as (p & A & B & C & D & E). exists p. rewrite F4, SV, (prog_advance y i Hcy), PR. change (i_id y) with (i_id x). unfold cur in *. cbn [andb] in *. rewrite Nat.add_0_r. auto.
  - intros i c. rewrite F4. intros K. destruct (v_upd _ _ V i c K) as (k & K1 & K2). exists k. split; [|exact K2]. rewrite (prog_advance y i Hcy), PR. change (i_id y) with (i_id x). unfold cur in *. cbn [andb] in *. lia.
Qed.

(** ** The loops *)
Definition meas (x : ist) : nat := (nmax x0 - i_id x) * N - i_cc x.
Lemma meas_advance (x : ist) : i_cc x < N -> i_id x < nmax x0 -> S (meas (advance cf x)) = meas x.
Proof.
  intros H L. unfold meas. destruct (advance_pos x H) as [(A & B & C)|(A & B & C)]; rewrite A, B.
  - assert (N <= (nmax x0 - i_id x) * N) by nia. lia.
  - replace (nmax x0 - i_id x) with (S (nmax x0 - S (i_id x))) by lia. cbn [Nat.mul]. lia.
Qed.
Lemma meas_pos (x : ist) : i_cc x < N -> i_id x < nmax x0 -> 1 <= meas x.
Proof. intros H L. unfold meas. assert (N <= (nmax x0 - i_id x) * N) by nia. lia. Qed.

Definition found_ok (y : ist) : Prop := inv true y /\ slot_valid y (i_id y) = true /\ i_id y < nmax x0 /\
  (forall c, In (EvUpdate (i_id y) c) (i_log y) -> exists k, k < i_cc y /\ c = (k + slot_cam x0 (i_id y)) mod n).

Lemma pre_ok fuel x : inv false x -> meas x <= fuel ->
  exists b y, pre_process cf G fuel t x = Ok (b, y) /\ meas y <= meas x /\
    (if b : bool then found_ok y else inv false y /\ nmax x0 <= i_id y).
Proof.
  revert x. induction fuel as [|fuel IH]; intros x V M; cbn [pre_process]; rewrite (v_nmax _ _ V).
  - destruct (Nat.ltb_spec (i_id x) (nmax x0)) as [L|L]; [pose proof (meas_pos x (v_cc _ _ V) L); lia|]. exists false, x. auto.
  - destruct (Nat.ltb_spec (i_id x) (nmax x0)) as [L|L]; [|exists false, x; auto].
    unfold pre_round. destruct (slot_valid x (i_id x)) eqn:Hv.
    + fold (open_visit x). pose proof (inv_open x V Hv) as VO. destruct (open_fields x) as (F1 & F2 & F3 & F4).
      assert (AO : active cf (open_visit x) = active cf x) by (unfold active, slot_cam; now rewrite F1, F2, F3).
      assert (HO : slot_valid (open_visit x) (i_id (open_visit x)) = true) by (unfold slot_valid in *; now rewrite F1, F2).
      assert (NU : forall s, by_update s = false -> (by_update s = true <-> In (EvUpdate (i_id (open_visit x)) (active cf (open_visit x))) (i_log (open_visit x)))).
      { intros s Hs. rewrite Hs, in_update_open, F2, AO. split; [discriminate|]. intros K. exfalso.
        destruct (v_upd _ _ V _ _ K) as (k & K1 & K2). unfold cur in K1. cbn [andb] in K1. unfold prog in K1. rewrite Nat.ltb_irrefl, Nat.eqb_refl in K1.
        rewrite (active_eq _ _ V) in K2. pose proof (v_cc _ _ V). pose proof N_le.
        pose proof (Nat.div_mod (k + slot_cam x0 (i_id x)) n ltac:(lia)) as D1. pose proof (Nat.div_mod (i_cc x + slot_cam x0 (i_id x)) n ltac:(lia)) as D2. rewrite K2 in D2.
        assert (Q : i_cc x - k = n * ((i_cc x + slot_cam x0 (i_id x)) / n - (k + slot_cam x0 (i_id x)) / n)) by (rewrite Nat.mul_sub_distr_l; lia).
        destruct ((i_cc x + slot_cam x0 (i_id x)) / n - (k + slot_cam x0 (i_id x)) / n) as [|d]; [lia|]. rewrite Nat.mul_succ_r in Q. lia. }
      assert (CL : forall s, definite s -> by_update s = false -> observed G (i_id x) (active cf x) s -> exists b y, pre_process cf G fuel t (advance cf (put_status (i_id x) (active cf x) s (open_visit x))) = Ok (b, y) /\
                  meas y <= meas x /\ (if b : bool then found_ok y else inv false y /\ nmax x0 <= i_id y)).
      { intros s Hd Hs Ho. assert (Ho' : observed G (i_id (open_visit x)) (active cf (open_visit x)) s) by (rewrite F2, AO; exact Ho). pose proof (inv_close (open_visit x) s VO HO Hd (conj (NU s Hs) Ho')) as VC. rewrite F2, AO in VC.
        assert (MC : S (meas (advance cf (put_status (i_id x) (active cf x) s (open_visit x)))) = meas x).
        { rewrite meas_advance by (change (i_cc (put_status (i_id x) (active cf x) s (open_visit x))) with (i_cc (open_visit x)) || idtac; cbn [put_status with_st i_cc i_id]; rewrite ?F2, ?F3; first [apply (v_cc _ _ V)|exact L]).
          unfold meas. cbn [put_status with_st i_cc i_id]. now rewrite F2, F3. }
        destruct (IH _ VC ltac:(lia)) as (b & y & E1 & E2 & E3). exists b, y. split; [exact E1|]. split; [lia|exact E3]. }
      destruct (g_pre G (i_w x) (i_id x) (active cf x)) eqn:EP.
      * apply CL; [discriminate|reflexivity|]. exists (i_w x). exact EP.
      * apply CL; [discriminate|reflexivity|]. exists (i_w x). exact EP.
      * exists true, (open_visit x). split; [reflexivity|]. split; [unfold meas; rewrite F2, F3; lia|].
        split; [exact VO|]. split; [exact HO|]. split; [now rewrite F2|]. intros c. rewrite in_update_open, F2, F3. intros K.
        destruct (v_upd _ _ V _ _ K) as (k & K1 & K2). exists k. split; [|exact K2]. unfold cur in K1. cbn [andb] in K1. unfold prog in K1. rewrite Nat.ltb_irrefl, Nat.eqb_refl in K1. lia.
    + pose proof (inv_skip false x V L Hv) as VS. pose proof (meas_advance x (v_cc _ _ V) L) as MS.
      destruct (IH _ VS ltac:(lia)) as (b & y & E1 & E2 & E3). exists b, y. split; [exact E1|]. split; [lia|exact E3].
Qed.

Lemma update_post y : found_ok y ->
  let z := post_process cf G (emit (EvUpdate (i_id y) (active cf y)) (with_w (g_update G (i_w y) (i_id y) (active cf y)) y)) in
  inv false z /\ S (meas z) = meas y.
Proof.
  intros (V & Hv & L & HU). cbv zeta. set (u := emit _ _). assert (VU : inv true u) by (apply inv_update; auto).
  unfold post_process. pose proof (inv_negative true u VU) as VN. destruct (negative_pos u) as [P1 P2].
  change (i_id u) with (i_id y) in P1. change (i_cc u) with (i_cc y) in P2. set (v := remove_negative cf G u) in *.
  assert (AU : active cf u = active cf v).
  { unfold active. rewrite P1, P2. change (i_id u) with (i_id y). change (i_cc u) with (i_cc y). now rewrite (inv_cam _ _ _ VU), (inv_cam _ _ _ VN). }
  assert (IU : In (EvUpdate (i_id v) (active cf v)) (i_log v)).
  { rewrite <- AU, P1. unfold v, remove_negative. assert (B : In (EvUpdate (i_id y) (active cf u)) (i_log u)) by (left; reflexivity).
    destruct (c_rmneg cf); [|exact B]. apply (fold_inv (fun z => In (EvUpdate (i_id y) (active cf u)) (i_log z))); [|exact B].
    intros z i Hz. destruct (slot_valid z i && g_negative G (i_w z) i); [right; exact Hz|exact Hz]. }
  destruct (slot_valid v (i_id v)) eqn:Hvv.
  - split.
    + rewrite AU. apply inv_close; auto.
      * destruct (g_tracked G (i_w v) (i_id v) (active cf v)); discriminate.
      * destruct (g_tracked G (i_w v) (i_id v) (active cf v)) eqn:ET; (split; [cbn; tauto|]); exists (i_w v); exact ET.
    + rewrite meas_advance.
      * unfold meas. cbn [put_status with_st i_id i_cc]. now rewrite P1, P2.
      * cbn [put_status with_st i_cc]. rewrite P2. apply (v_cc _ _ V).
      * cbn [put_status with_st i_id]. now rewrite P1.
  - split.
    + apply (inv_skip true); auto. now rewrite P1.
    + rewrite meas_advance; [unfold meas; now rewrite P1, P2|rewrite P2; apply (v_cc _ _ V)|now rewrite P1].
Qed.

Lemma drive_ok fuel x : inv false x -> meas x <= fuel -> exists y, drive cf G fuel t x = Ok y /\ inv false y /\ nmax x0 <= i_id y.
Proof.
  revert x. induction fuel as [|fuel IH]; intros x V M.
  - destruct (pre_ok 0 x V M) as (b & y & E1 & E2 & E3). unfold drive. rewrite E1. cbn [rbind fst snd]. destruct b.
    + destruct E3 as (V1 & _ & L & _). pose proof (meas_pos y (v_cc _ _ V1) L). lia.
    + exists y. destruct E3. auto.
  - destruct (pre_ok (S fuel) x V M) as (b & y & E1 & E2 & E3). cbn [drive]. rewrite E1. cbn [rbind fst snd]. destruct b.
    + destruct (update_post y E3) as [V' M']. apply IH; [exact V'|lia].
    + exists y. destruct E3. auto.
Qed.

Lemma inv_init : i_id x0 = 0 -> i_cc x0 = 0 -> i_log x0 = [] -> inv false x0.
Proof.
  intros A B C.
  assert (PZ : forall i, prog x0 i = 0) by (intros i; unfold prog; rewrite A, B; destruct (i =? 0); reflexivity).
  constructor; auto; try congruence.
  - rewrite B. apply N_pos.
  - intros i Hi. apply valid_lt in Hi. rewrite <- Hlen in Hi. destruct (nth_error (i_st x0) i) as [s0|] eqn:E; [|apply nth_error_None in E; lia].
    exists s0, []. rewrite PZ. repeat split; auto; destruct k; discriminate.
  - intros i. exists 0. rewrite PZ, C. cbn. repeat split; auto.
  - intros i c. rewrite C. intros [].
Qed.
Lemma meas_init : i_id x0 = 0 -> i_cc x0 = 0 -> meas x0 = nmax x0 * N.
Proof. intros A B. unfold meas. rewrite A, B. lia. Qed.

(** more fuel changes nothing *)
Lemma pre_fuel fuel x r : pre_process cf G fuel t x = Ok r -> forall fuel', fuel <= fuel' -> pre_process cf G fuel' t x = Ok r.
Proof.
  revert x. induction fuel as [|fuel IH]; intros x H fuel' L; cbn [pre_process] in H.
  - destruct (i_id x <? nmax x) eqn:E; [discriminate|]. destruct fuel'; cbn [pre_process]; now rewrite E.
  - destruct fuel' as [|fuel']; [lia|]. cbn [pre_process]. destruct (i_id x <? nmax x); [|exact H].
    destruct (pre_round cf G t x) as [[] y]; [exact H|]. apply IH; [exact H|lia].
Qed.
Lemma drive_fuel fuel x y : drive cf G fuel t x = Ok y -> forall fuel', fuel <= fuel' -> drive cf G fuel' t x = Ok y.
Proof.
  revert x. induction fuel as [|fuel IH]; intros x H fuel' L.
  - cbn [drive] in H. destruct (pre_process cf G 0 t x) as [r| |] eqn:E; try discriminate. cbn [rbind] in H.
    destruct (fst r) eqn:F; [discriminate|]. destruct fuel'; cbn [drive]; rewrite (pre_fuel _ _ _ E) by lia; cbn [rbind]; now rewrite F.
  - destruct fuel' as [|fuel']; [lia|]. cbn [drive] in *. destruct (pre_process cf G (S fuel) t x) as [r| |] eqn:E; try discriminate.
    rewrite (pre_fuel _ _ _ E) by lia. cbn [rbind] in *. destruct (fst r); [|exact H]. apply IH; [exact H|lia].
Qed.
End P.
