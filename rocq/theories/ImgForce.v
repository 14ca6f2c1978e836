(** Removal of bad features and forced removal (C39). *)
From Coq Require Import List ZArith QArith Qround Bool Arith Lia Lqa.
From Verif Require Import Util StatModel StatSpec StatQual FsetModel FsetSpec FsetProofs ImgModel ImgSpec ImgProofs.
Import ListNotations.
Local Open Scope nat_scope.

Lemma Qpow_pos f k : (0 < f)%Q -> (0 < Qpow f k)%Q.
Proof. intros H. induction k as [|k IH]; cbn [Qpow]; [reflexivity|nra]. Qed.
Lemma Qpow_mono f k : (1 < f)%Q -> (Qpow f k <= Qpow f (S k))%Q.
Proof. intros H. cbn [Qpow]. pose proof (Qpow_pos f k ltac:(lra)). nra. Qed.
Lemma Qpow_mono' f j k : (1 < f)%Q -> j <= k -> (Qpow f j <= Qpow f k)%Q.
Proof. intros H L. induction L; [lra|]. pose proof (Qpow_mono f m H). lra. Qed.
Lemma Qpow_bernoulli f k : (1 < f)%Q -> (1 + inject_Z (Z.of_nat k) * (f - 1) <= Qpow f k)%Q.
Proof.
  intros H. induction k as [|k IH]; [cbn; change (inject_Z 0) with 0%Q; lra|]. cbn [Qpow]. rewrite Nat2Z.inj_succ. unfold Z.succ. rewrite inject_Z_plus.
  assert (0 <= inject_Z (Z.of_nat k))%Q by (change 0%Q with (inject_Z 0); rewrite <- Zle_Qle; lia). change (inject_Z 1) with 1%Q.
  set (m := inject_Z (Z.of_nat k)) in *. set (P := Qpow f k) in *. clearbody m P.
  assert (A : (f * (1 + m * (f - 1)) <= f * P)%Q) by (apply Qmult_le_l; [lra|exact IH]).
  assert (B : (0 <= m * ((f - 1) * (f - 1)))%Q) by (apply Qmult_le_0_compat; [assumption|apply Qmult_le_0_compat; lra]). lra.
Qed.
Lemma Qpow_unbounded f b : (1 < f)%Q -> exists k, (b <= Qpow f k)%Q.
Proof.
  intros H. set (q := (b / (f - 1))%Q). exists (Z.to_nat (Z.max 0 (Qceiling q))).
  eapply Qle_trans; [|apply (Qpow_bernoulli f _ H)].
  rewrite Z2Nat.id by lia. pose proof (Qle_ceiling q) as C. assert (inject_Z (Qceiling q) <= inject_Z (Z.max 0 (Qceiling q)))%Q by (rewrite <- Zle_Qle; lia).
  assert (q * (f - 1) == b)%Q by (unfold q; field; lra). nra.
Qed.

Lemma recorded_cams ncam s : recorded ncam s -> length (s_cams s) = ncam.
Proof.
  intros (t0 & os & _ & H & R). revert H R. assert (L : length (s_cams (init exactQ ncam t0)) = ncam) by (cbn; apply repeat_length). revert L. generalize (init exactQ ncam t0).
  induction os as [|o os IH]; intros s0 L H R; cbn [run] in R; [now injection R as <-|]. inversion H; subst.
  destruct (step exactQ s0 o) as [s1|] eqn:E; [|discriminate]. apply (IH s1); auto. destruct o; cbn in E.
  - injection E as <-. cbn. now rewrite map_length.
  - unfold set_status in E. destruct (Nat.ltb i (length (s_cams s0))); [|discriminate]. injection E as <-. cbn. now rewrite upd_nth_length.
  - injection E as <-. cbn. now rewrite map_length.
  - now injection E as <-.
Qed.
Lemma recorded_step ncam s o s' : recorded ncam s -> ranges_ok o -> cam_in_range ncam o -> step exactQ s o = Some s' -> recorded ncam s'.
Proof.
  intros (t0 & os & A & B & C) D E F. exists t0, (os ++ [o]). split; [apply Forall_app; auto|]. split; [apply Forall_app; auto|].
  rewrite run_app, C. cbn [run]. now rewrite F.
Qed.
Lemma recorded_run ncam s os s' : recorded ncam s -> Forall ranges_ok os -> Forall (cam_in_range ncam) os -> run exactQ s os = Some s' -> recorded ncam s'.
Proof.
  intros (t0 & os0 & A & B & C) D E F. exists t0, (os0 ++ os). split; [apply Forall_app; auto|]. split; [apply Forall_app; auto|].
  now rewrite run_app, C.
Qed.

(** thresholds and goodness *)
Lemma good_mono ncam s u l u' l' : recorded ncam s -> (u' <= u)%Q -> (l' <= l)%Q -> is_good_feature s u l = true -> is_good_feature s u' l' = true.
Proof. intros (t0 & os & A & _ & C) H1 H2. eapply good_monotone; eauto. Qed.
Lemma good_bound ncam s u l : recorded ncam s -> (1 <= u)%Q -> (1 <= l)%Q -> is_good_feature s u l = false.
Proof.
  intros (t0 & os & A & _ & C) H1 H2. destruct (is_good_feature s u l) eqn:E; [|reflexivity]. exfalso.
  apply good_iff in E as (c & Hc & Hg). pose proof (global_quality_unit _ _ _ _ A C) as [G0 G1].
  destruct (exact_qualities _ _ _ _ A C) as (Q1 & Q2 & _). apply In_nth_error in Hc as [i Hi].
  unfold good_cam in Hg.
  destruct (Q1 i (cam_local_quality exactQ s c)) as (q & Eq & Hq); [unfold local_quality; now rewrite Hi|].
  destruct (Q2 i (cam_local_visibility exactQ s c)) as (v & Ev & Hv); [unfold local_visibility; now rewrite Hi|].
  rewrite Eq, Ev in Hg. apply Qltb_true in Hg. 
  assert (q * v <= 1)%Q by nra. assert (1 <= u - (u - l) * global_quality s)%Q by nra. lra.
Qed.

(** counting *)
Lemma filter_ext_len {A} (p q : A -> bool) l : (forall a, In a l -> p a = true -> q a = true) -> length (filter p l) <= length (filter q l).
Proof.
  induction l as [|a l IH]; intros H; cbn; [lia|]. specialize (IH (fun b Hb => H b (or_intror Hb))).
  destruct (p a) eqn:E; [rewrite (H a (or_introl eq_refl) E); cbn; lia|]. destruct (q a); cbn; lia.
Qed.
Lemma filter_len_le {A} (p : A -> bool) l : length (filter p l) <= length l.
Proof. induction l as [|a l IH]; cbn; [lia|]. destruct (p a); cbn; lia. Qed.

Section F.
Context {Patch World : Type}.
Variables (cf : config) (G : geom Patch World).
Notation ist := (ist Patch World).
Notation n := (c_ncam cf).

Lemma valid_count_seq (x : ist) : valid_count (i_fs x) = length (filter (slot_valid x) (seq 0 (nmax x))).
Proof.
  unfold valid_count, nmax, slot_valid. induction (fs_slots (i_fs x)) as [|s l IH] using rev_ind; [reflexivity|].
  rewrite filter_app, app_length, IH, app_length, Nat.add_1_r. cbn [length]. rewrite seq_S, filter_app, app_length. f_equal.
  - f_equal. apply filter_ext_in. intros i Hi. apply in_seq in Hi. rewrite nth_error_app1 by lia. reflexivity.
  - cbn [filter plus]. rewrite nth_error_app2, Nat.sub_diag by lia. cbn. now destruct (sl_valid s).
Qed.
Lemma alive_valid (x : ist) i : alive x i <-> slot_valid x i = true.
Proof.
  unfold alive, live, slot_valid. split; [intros [f ->]; reflexivity|]. destruct (nth_error (fs_slots (i_fs x)) i) as [[v f]|]; [|discriminate].
  cbn. intros ->. now exists f.
Qed.
Lemma count_le (x : ist) : valid_count (i_fs x) <= nmax x.
Proof. unfold valid_count, nmax. apply filter_len_le. Qed.

(** ** Only validity flags change *)
Record shrinks (x y : ist) : Prop := {
  sh_st : i_st y = i_st x;
  sh_pos : i_id y = i_id x /\ i_cc y = i_cc x;
  sh_idx : fs_maxIdx (i_fs y) = fs_maxIdx (i_fs x);
  sh_nmax : nmax y = nmax x;
  sh_feat : forall i, option_map sl_feat (nth_error (fs_slots (i_fs y)) i) = option_map sl_feat (nth_error (fs_slots (i_fs x)) i);
  sh_valid : forall i, slot_valid y i = true -> slot_valid x i = true;
  sh_log : forall i, slot_valid x i = true -> slot_valid y i = false -> In (EvRemove i) (i_log y);
  sh_logs : forall e, In e (i_log x) -> In e (i_log y);
  sh_new : forall e, In e (i_log y) -> In e (i_log x) \/ exists i, e = EvRemove i /\ slot_valid x i = true /\ slot_valid y i = false }.
Lemma shrinks_refl x : shrinks x x. Proof. constructor; auto; congruence. Qed.
Lemma shrinks_trans x y z : shrinks x y -> shrinks y z -> shrinks x z.
Proof.
  intros [A1 A2 A3 A4 A5 A6 A7 A8 A9] [B1 B2 B3 B4 B5 B6 B7 B8 B9]. constructor; try (intros; etransitivity; eauto; fail); auto.
  - destruct A2, B2. split; congruence.
  - intros i V W. destruct (slot_valid y i) eqn:E; auto.
  - intros e He. destruct (B9 e He) as [H|(i & -> & H1 & H2)].
    + destruct (A9 e H) as [H'|(i & -> & H1 & H2)]; [now left|]. right. exists i. repeat split; auto.
      destruct (slot_valid z i) eqn:E; auto. apply B6 in E. congruence.
    + right. exists i. repeat split; auto.
Qed.
Lemma shrinks_remove i x : slot_valid x i = true -> shrinks x (remove G i x).
Proof.
  intros V. constructor; try reflexivity; auto.
  - apply nmax_remove.
  - intros j. unfold remove, emit, with_w, with_fs, invalidate. cbn [i_fs fs_slots].
    destruct (Nat.eq_dec i j) as [->|NE]; [rewrite nth_error_upd_nth_eq; now destruct (nth_error _ j)|now rewrite nth_error_upd_nth_ne by auto].
  - intros j. rewrite valid_remove. intros H. now apply andb_true_iff in H as [H _].
  - intros j Hj. rewrite valid_remove, Hj. cbn [andb]. intros H. apply negb_false_iff, Nat.eqb_eq in H as ->. now left.
  - intros e He. now right.
  - intros e [<-|He]; [|now left]. right. exists i. rewrite valid_remove, Nat.eqb_refl, V. auto.
Qed.
Lemma shrinks_live x y i f : shrinks x y -> live (i_fs y) i f -> live (i_fs x) i f.
Proof.
  intros H L. assert (V : slot_valid y i = true) by (apply alive_valid; now exists f). apply (sh_valid _ _ H) in V. apply alive_valid in V as [g Lg].
  pose proof (sh_feat _ _ H i) as E. unfold live in *. rewrite L, Lg in E. cbn in E. injection E as ->. exact Lg.
Qed.
Lemma shrinks_live' x y i f : shrinks x y -> live (i_fs x) i f -> slot_valid y i = true -> live (i_fs y) i f.
Proof.
  intros H L V. apply alive_valid in V as [g Lg]. pose proof (sh_feat _ _ H i) as E. unfold live in *. rewrite L, Lg in E. cbn in E. injection E as ->. exact Lg.
Qed.
Lemma filter_one {A} (p q : A -> bool) l i : NoDup l -> In i l -> p i = true -> q i = false -> (forall j, j <> i -> p j = q j) ->
  length (filter p l) = S (length (filter q l)).
Proof.
  intros ND Hi Pi Qi E. induction l as [|a l IH]; [destruct Hi|]. inversion ND as [|? ? Na ND']; subst. destruct Hi as [->|Hi]; cbn.
  - rewrite Pi, Qi. cbn. f_equal. f_equal. apply filter_ext_in. intros j Hj. apply E. intros ->. contradiction.
  - rewrite (E a) by (intros ->; contradiction). destruct (q a); cbn; rewrite IH; auto.
Qed.
Lemma count_remove i x : slot_valid x i = true -> valid_count (i_fs x) = S (valid_count (i_fs (remove G i x))).
Proof.
  intros V. rewrite !valid_count_seq, nmax_remove. apply (filter_one _ _ _ i).
  - apply seq_NoDup.
  - apply in_seq. pose proof (valid_lt x i V). lia.
  - exact V.
  - rewrite valid_remove, Nat.eqb_refl. apply andb_false_r.
  - intros j Hj. rewrite valid_remove. apply Nat.eqb_neq in Hj. now rewrite Hj, andb_true_r.
Qed.
Lemma shrinks_stat x y i : shrinks x y -> stat_of y i = stat_of x i.
Proof. intros H. unfold stat_of. now rewrite (sh_st _ _ H). Qed.

(** ** Removal of bad features *)
Definition good (x : ist) (k : nat) (i : nat) : bool := is_good_feature (stat_of x i) (c_ub cf * Qpow (c_factor cf) k) (c_lb cf * Qpow (c_factor cf) k).
Lemma bad_fold l x : NoDup l ->
  let y := fold_left (fun y i => if slot_valid y i && negb (is_good_feature (stat_of y i) (c_ub cf) (c_lb cf)) then remove G i y else y) l x in
  shrinks x y /\ (forall i, slot_valid y i = slot_valid x i && (is_good_feature (stat_of x i) (c_ub cf) (c_lb cf) || negb (existsb (Nat.eqb i) l))).
Proof.
  revert x. induction l as [|a l IH]; intros x ND; cbn [fold_left existsb].
  - split; [apply shrinks_refl|]. intros i. now rewrite orb_true_r, andb_true_r.
  - inversion ND as [|? ? Na ND']; subst. set (x1 := if _ && _ then remove G a x else x).
    assert (S1 : shrinks x x1 /\ forall i, slot_valid x1 i = slot_valid x i && (is_good_feature (stat_of x i) (c_ub cf) (c_lb cf) || negb (i =? a))).
    { unfold x1. destruct (slot_valid x a) eqn:V; cbn [andb]; [destruct (is_good_feature (stat_of x a) (c_ub cf) (c_lb cf)) eqn:E; cbn [negb]|].
      - split; [apply shrinks_refl|]. intros i. destruct (Nat.eqb_spec i a) as [->|NE]; [now rewrite E, andb_true_r|now rewrite orb_true_r, andb_true_r].
      - split; [now apply shrinks_remove|]. intros i. rewrite valid_remove. destruct (Nat.eqb_spec i a) as [->|NE]; [now rewrite E|now rewrite orb_true_r].
      - split; [apply shrinks_refl|]. intros i. destruct (Nat.eqb_spec i a) as [->|NE]; [now rewrite V|now rewrite orb_true_r, andb_true_r]. }
    destruct S1 as [S1 V1]. destruct (IH x1 ND') as [S2 V2]. split; [eapply shrinks_trans; eauto|].
    intros i. rewrite V2, V1, (shrinks_stat _ _ _ S1). destruct (slot_valid x i), (is_good_feature (stat_of x i) (c_ub cf) (c_lb cf)), (i =? a); cbn; auto.
Qed.
Lemma remove_bad_spec x : shrinks x (remove_bad cf G x) /\ (forall i, slot_valid (remove_bad cf G x) i = slot_valid x i && is_good_feature (stat_of x i) (c_ub cf) (c_lb cf)).
Proof.
  destruct (bad_fold (seq 0 (nmax x)) x (seq_NoDup _ _)) as [S V]. split; [exact S|]. intros i. unfold remove_bad. rewrite V.
  destruct (slot_valid x i) eqn:E; [|reflexivity]. cbn [andb]. apply valid_lt in E.
  assert (X : existsb (Nat.eqb i) (seq 0 (nmax x)) = true) by (apply existsb_exists; exists i; split; [apply in_seq; lia|apply Nat.eqb_refl]).
  now rewrite X, orb_false_r.
Qed.

(** ** Forced removal *)
Hypothesis Hf : (1 < c_factor cf)%Q.
Hypothesis Hu : (0 < c_ub cf)%Q.
Hypothesis Hl : (0 < c_lb cf)%Q.

Section Run.
Variables (x2 : ist) (req : Z).
Hypothesis Hst : forall i, slot_valid x2 i = true -> recorded n (stat_of x2 i).
Hypothesis Hgood : forall i, slot_valid x2 i = true -> good x2 0 i = true.
Variable K : nat.
Hypothesis HK : (1 <= c_ub cf * Qpow (c_factor cf) K)%Q /\ (1 <= c_lb cf * Qpow (c_factor cf) K)%Q.
Hypothesis Hreq : forall y, shrinks x2 y -> (forall i, slot_valid y i = true -> tracked_in_some_frame (stat_of y i) = true) -> enough req y = true.

Record finv (k i : nat) (x : ist) : Prop := {
  fi_sh : shrinks x2 x;
  fi_rem : forall j, slot_valid x2 j = true -> slot_valid x j = false -> tracked_in_some_frame (stat_of x2 j) = false /\ good x2 (S k) j = false;
  fi_all : forall j, slot_valid x j = true -> tracked_in_some_frame (stat_of x2 j) = false -> good x2 k j = true;
  fi_done : forall j, j < i -> slot_valid x j = true -> tracked_in_some_frame (stat_of x2 j) = false -> good x2 (S k) j = true;
  fi_i : i < nmax x2 \/ nmax x2 = 0;
  fi_cnt : (Z.of_nat (nmax x2) - Z.of_nat (valid_count (i_fs x)) <= Z.max req (Z.of_nat (nmax x2) - Z.of_nat (valid_count (i_fs x2))))%Z }.

Lemma good_level k j : slot_valid x2 j = true -> good x2 (S k) j = true -> good x2 k j = true.
Proof.
  intros V. unfold good. apply (good_mono n).
  - now apply Hst.
  - pose proof (Qpow_mono (c_factor cf) k Hf). nra.
  - pose proof (Qpow_mono (c_factor cf) k Hf). nra.
Qed.
Lemma step_ok k i x fac : finv k i x -> i < nmax x2 -> (fac == Qpow (c_factor cf) (S k))%Q -> enough req x = false ->
  let y := force_one cf G fac i x in
  if S i =? nmax x then finv (S k) 0 y else finv k (S i) y.
Proof.
  intros V Li Hfac En y.
  assert (GE : forall j, slot_valid x2 j = true -> is_good_feature (stat_of x2 j) (c_ub cf * fac) (c_lb cf * fac) = good x2 (S k) j).
  { intros j Hj. unfold good. pose proof (Hst j Hj) as R. apply eq_true_iff_eq. split; apply (good_mono n _ _ _ _ _ R); rewrite Hfac; lra. }
  assert (SY : shrinks x y /\ (slot_valid x i = true -> slot_valid y i = false -> tracked_in_some_frame (stat_of x2 i) = false /\ good x2 (S k) i = false)
             /\ (slot_valid y i = true -> tracked_in_some_frame (stat_of x2 i) = false -> good x2 (S k) i = true)
             /\ (forall j, j <> i -> slot_valid y j = slot_valid x j)
             /\ (Z.of_nat (valid_count (i_fs x)) - 1 <= Z.of_nat (valid_count (i_fs y)))%Z).
  { unfold y, force_one. rewrite (shrinks_stat _ _ i (fi_sh _ _ _ V)). destruct (slot_valid x i) eqn:Vi; cbn [andb].
    - pose proof (sh_valid _ _ (fi_sh _ _ _ V) i Vi) as Vi2. rewrite (GE i Vi2).
      destruct (tracked_in_some_frame (stat_of x2 i)) eqn:T; cbn [negb andb].
      + split; [apply shrinks_refl|]. repeat split; try congruence; try lia.
      + destruct (good x2 (S k) i) eqn:Gi; cbn [negb andb].
        * split; [apply shrinks_refl|]. repeat split; try congruence; try lia.
        * split; [now apply shrinks_remove|]. split; [auto|]. split; [intros H; rewrite valid_remove, Nat.eqb_refl, andb_false_r in H; discriminate|].
          split; [|rewrite (count_remove i x Vi); lia]. intros j Hj. rewrite valid_remove. apply Nat.eqb_neq in Hj. now rewrite Hj, andb_true_r.
    - split; [apply shrinks_refl|]. repeat split; try congruence; try lia. }
  destruct SY as (S1 & S2 & S3 & S4 & S5).
  assert (CN : (Z.of_nat (nmax x2) - Z.of_nat (valid_count (i_fs y)) <= Z.max req (Z.of_nat (nmax x2) - Z.of_nat (valid_count (i_fs x2))))%Z).
  { unfold enough in En. apply Z.leb_gt in En. rewrite (sh_nmax _ _ (fi_sh _ _ _ V)) in En. lia. }
  assert (REM : forall j, slot_valid x2 j = true -> slot_valid y j = false -> tracked_in_some_frame (stat_of x2 j) = false /\ good x2 (S k) j = false).
  { intros j V2 Vy. destruct (slot_valid x j) eqn:Vx; [|now apply (fi_rem _ _ _ V)]. destruct (Nat.eq_dec j i) as [->|NE]; [now apply S2|]. rewrite (S4 j NE) in Vy. congruence. }
  assert (DONE : forall j, j < S i -> slot_valid y j = true -> tracked_in_some_frame (stat_of x2 j) = false -> good x2 (S k) j = true).
  { intros j Lj Vy T. destruct (Nat.eq_dec j i) as [->|NE]; [now apply S3|]. rewrite (S4 j NE) in Vy. apply (fi_done _ _ _ V); auto. lia. }
  pose proof (shrinks_trans _ _ _ (fi_sh _ _ _ V) S1) as SS.
  rewrite (sh_nmax _ _ (fi_sh _ _ _ V)). destruct (Nat.eqb_spec (S i) (nmax x2)) as [E|NE].
  - constructor; auto.
    + intros j A B. destruct (REM j A B) as [T Gj]. split; [exact T|]. destruct (good x2 (S (S k)) j) eqn:G2; [|reflexivity]. apply (good_level _ _ A) in G2. congruence.
    + intros j A B. apply DONE; auto. rewrite E, <- (sh_nmax _ _ SS). now apply valid_lt.
    + intros j A. lia.
    + lia.
  - constructor; auto.
    + intros j A B. apply (fi_all _ _ _ V); auto. now apply (sh_valid _ _ S1).
    + left. lia.
Qed.
Lemma not_enough_level k i x : finv k i x -> enough req x = false -> k < K /\ i < nmax x2.
Proof.
  intros V En. split.
  - destruct (Nat.lt_ge_cases k K) as [L|L]; [exact L|]. exfalso. rewrite (Hreq x (fi_sh _ _ _ V)) in En; [discriminate|].
    intros j Vj. rewrite (shrinks_stat _ _ _ (fi_sh _ _ _ V)). destruct (tracked_in_some_frame (stat_of x2 j)) eqn:T; [reflexivity|]. exfalso.
    pose proof (fi_all _ _ _ V j Vj T) as Gj. apply (sh_valid _ _ (fi_sh _ _ _ V)) in Vj.
    pose proof (Qpow_mono' (c_factor cf) K k Hf L). destruct HK as [K1 K2]. unfold good in Gj. rewrite (good_bound n) in Gj; [discriminate|now apply Hst| |]; nra.
  - destruct (fi_i _ _ _ V) as [L|E]; [exact L|]. exfalso. rewrite (Hreq x (fi_sh _ _ _ V)) in En; [discriminate|].
    intros j Vj. apply valid_lt in Vj. rewrite (sh_nmax _ _ (fi_sh _ _ _ V)) in Vj. lia.
Qed.
Lemma force_ok fuel k i x fac : finv k i x -> (fac == Qpow (c_factor cf) (S k))%Q -> K * nmax x2 <= k * nmax x2 + i + fuel ->
  exists y k' i', force cf G fuel req fac i x = Ok y /\ finv k' i' y /\ enough req y = true.
Proof.
  revert k i x fac. induction fuel as [|fuel IH]; intros k i x fac V Hfac Hfu; cbn [force]; destruct (enough req x) eqn:En; try (exists x, k, i; auto; fail).
  - exfalso. destruct (not_enough_level k i x V En) as [L1 L2]. nia.
  - destruct (not_enough_level k i x V En) as [L1 L2]. pose proof (step_ok k i x fac V L2 Hfac En) as ST. cbv zeta in ST.
    pose proof (sh_nmax _ _ (fi_sh _ _ _ V)) as NM.
    destruct (S i =? nmax x) eqn:E.
    + apply (IH (S k) 0); auto; [rewrite Hfac; cbn [Qpow]; ring|]. apply Nat.eqb_eq in E. rewrite NM in E. nia.
    + apply (IH k (S i)); auto. lia.
Qed.
Lemma finv_init : finv 0 0 x2.
Proof.
  constructor; auto; try (intros; congruence); try (intros; lia).
  apply shrinks_refl.
Qed.
End Run.

Lemma Qtrunc_le q z : (0 <= z)%Z -> (q <= inject_Z z)%Q -> (Qtrunc q <= z)%Z.
Proof.
  intros H1 H2. unfold Qtrunc. destruct (Qlt_le_dec q 0) as [L|L].
  - assert (0 <= Qfloor (- q))%Z. { change 0%Z with (Qfloor 0). apply Qfloor_resp_le. lra. } lia.
  - rewrite <- (Qfloor_Z z). now apply Qfloor_resp_le.
Qed.
Lemma Qtrunc_bounds q : (q - 1 < inject_Z (Qtrunc q))%Q /\ (0 <= q -> inject_Z (Qtrunc q) <= q)%Q /\ (q < 0 -> (Qtrunc q <= 0)%Z)%Q.
Proof.
  unfold Qtrunc. destruct (Qlt_le_dec q 0) as [L|L].
  - pose proof (Qfloor_le (- q)) as F. rewrite inject_Z_opp. split; [lra|]. split; [lra|]. intros _.
    assert (0 <= Qfloor (- q))%Z. { change 0%Z with (Qfloor 0). apply Qfloor_resp_le. lra. } lia.
  - pose proof (Qfloor_le q). pose proof (Qlt_floor q) as F. rewrite inject_Z_plus in F. change (inject_Z 1) with 1%Q in F. split; [lra|]. split; [auto|lra].
Qed.
Lemma count_tracked_le (x : ist) : count_now_tracked x <= nmax x.
Proof. unfold count_now_tracked. rewrite <- (seq_length (nmax x) 0) at 2. apply filter_len_le. Qed.

Definition needed (x : ist) : Q := (inject_Z (Z.of_nat (nmax x)) * c_share cf - inject_Z (Z.of_nat (count_now_tracked x)))%Q.
Lemma needed_int (x : ist) : (0 <= c_share cf <= 1)%Q -> (Z.of_nat (nmax x) <= int_max)%Z ->
  to_int (needed x) = Some (Qtrunc (needed x)) /\ (Qtrunc (needed x) <= Z.of_nat (nmax x) - Z.of_nat (count_now_tracked x))%Z.
Proof.
  intros Hs Hm. pose proof (count_tracked_le x) as CT. 
  assert (N0 : (0 <= inject_Z (Z.of_nat (nmax x)))%Q) by (change 0%Q with (inject_Z 0); rewrite <- Zle_Qle; lia).
  assert (CQ : (inject_Z (Z.of_nat (count_now_tracked x)) <= inject_Z (Z.of_nat (nmax x)))%Q) by (rewrite <- Zle_Qle; lia).
  assert (UP : (Qtrunc (needed x) <= Z.of_nat (nmax x) - Z.of_nat (count_now_tracked x))%Z).
  { apply Qtrunc_le; [lia|]. unfold Z.sub. rewrite inject_Z_plus, inject_Z_opp. unfold needed. nra. }
  split; [|exact UP]. unfold to_int.
  assert (LO : (- Z.of_nat (nmax x) - 1 < Qtrunc (needed x))%Z).
  { rewrite Zlt_Qlt. unfold Z.sub. rewrite inject_Z_plus, inject_Z_opp. change (inject_Z (- (1))) with (-1)%Q. destruct (Qtrunc_bounds (needed x)) as [B _]. unfold needed in *. nra. }
  unfold int_min, int_max in *.
  destruct (Z.leb_spec (- 2 ^ 31) (Qtrunc (needed x))); [|lia]. destruct (Z.leb_spec (Qtrunc (needed x)) (2 ^ 31 - 1)); [reflexivity|lia].
Qed.

Lemma prune_ok (m : nat) : (0 <= c_share cf <= 1)%Q -> (Z.of_nat m <= int_max)%Z ->
  exists fuel0, forall x fuel, nmax x = m -> (forall i s, nth_error (i_st x) i = Some s -> recorded n s) -> length (i_st x) = m -> fuel0 <= fuel ->
  exists y k, prune cf G fuel (count_now_tracked x) x = Ok y /\ shrinks x y /\
    (forall i, slot_valid x i = true -> slot_valid y i = false -> good x 0 i = false \/ (tracked_in_some_frame (stat_of x i) = false /\ good x (S k) i = false)) /\
    (forall i, slot_valid y i = true -> good x 0 i = true /\ (tracked_in_some_frame (stat_of x i) = false -> good x k i = true)) /\
    (Qtrunc (needed x) <= Z.of_nat m - Z.of_nat (valid_count (i_fs y)))%Z /\
    (Z.of_nat m - Z.of_nat (valid_count (i_fs y)) <= Z.max (Qtrunc (needed x)) (Z.of_nat m - Z.of_nat (valid_count (i_fs (remove_bad cf G x)))))%Z.
Proof.
  intros Hs Hm. destruct (Qpow_unbounded (c_factor cf) (/ c_ub cf + / c_lb cf) Hf) as [K HK].
  assert (HK' : (1 <= c_ub cf * Qpow (c_factor cf) K)%Q /\ (1 <= c_lb cf * Qpow (c_factor cf) K)%Q).
  { assert (IU : (0 < / c_ub cf)%Q) by (now apply Qinv_lt_0_compat). assert (IL : (0 < / c_lb cf)%Q) by (now apply Qinv_lt_0_compat).
    assert (U1 : (c_ub cf * / c_ub cf == 1)%Q) by (field; lra). assert (L1 : (c_lb cf * / c_lb cf == 1)%Q) by (field; lra). split; nra. }
  exists (K * m). intros x fuel Em Hrec Hlen Hfu.
  destruct (remove_bad_spec x) as [SB VB]. set (x2 := remove_bad cf G x) in *.
  destruct (needed_int x Hs ltac:(lia)) as [N1 N2].
  assert (E1 : required_free cf x2 (count_now_tracked x) = Some (Qtrunc (needed x))).
  { unfold required_free. rewrite (sh_nmax _ _ SB). exact N1. }
  unfold prune. fold x2. rewrite E1.
  assert (ST : forall i, slot_valid x i = true -> recorded n (stat_of x i)).
  { intros i V. apply (Hrec i). unfold stat_of. apply nth_error_nth'. apply valid_lt in V. lia. }
  assert (GX : forall k i, good x2 k i = good x k i) by (intros k i; unfold good; now rewrite (shrinks_stat _ _ _ SB)).
  assert (G0 : forall i, slot_valid x i = true -> good x 0 i = is_good_feature (stat_of x i) (c_ub cf) (c_lb cf)).
  { intros i V. unfold good. cbn [Qpow]. apply eq_true_iff_eq. split; apply (good_mono n _ _ _ _ _ (ST i V)); lra. }
  destruct (force_ok x2 (Qtrunc (needed x))) with (K := K) (fuel := fuel) (k := 0) (i := 0) (x := x2) (fac := c_factor cf) as (y & k & i' & F1 & F2 & F3).
  - intros i V. rewrite (shrinks_stat _ _ _ SB). apply ST. now apply (sh_valid _ _ SB).
  - exact HK'.
  - intros y SY HY. unfold enough. apply Z.leb_le. rewrite (sh_nmax _ _ SY), (sh_nmax _ _ SB).
    assert (C : valid_count (i_fs y) <= count_now_tracked x).
    { rewrite valid_count_seq. unfold count_now_tracked. rewrite (sh_nmax _ _ SY), (sh_nmax _ _ SB). apply filter_ext_len.
      intros a _ Va. pose proof (HY a Va) as T. rewrite (shrinks_stat _ _ _ SY), (shrinks_stat _ _ _ SB) in T. rewrite T, andb_true_r.
      apply (sh_valid _ _ SB). now apply (sh_valid _ _ SY). }
    lia.
  - apply finv_init. intros i V. rewrite GX. rewrite (G0 i (sh_valid _ _ SB i V)). rewrite VB in V. now apply andb_true_iff in V.
  - cbn [Qpow]. ring.
  - rewrite (sh_nmax _ _ SB), Em. lia.
  - exists y, k. split; [exact F1|]. pose proof (shrinks_trans _ _ _ SB (fi_sh _ _ _ _ _ F2)) as SY. split; [exact SY|].
    split; [|split; [|split]].
    + intros i V W. destruct (slot_valid x2 i) eqn:V2.
      * right. destruct (fi_rem _ _ _ _ _ F2 i V2 W) as [A B]. rewrite (shrinks_stat _ _ _ SB) in A. rewrite GX in B. auto.
      * left. rewrite VB, V in V2. rewrite (G0 i V). exact V2.
    + intros i V. pose proof (sh_valid _ _ (fi_sh _ _ _ _ _ F2) i V) as V2. pose proof (sh_valid _ _ SB i V2) as V0. split.
      * rewrite (G0 i V0). rewrite VB, V0 in V2. exact V2.
      * intros T. rewrite <- GX. apply (fi_all _ _ _ _ _ F2 i V). now rewrite (shrinks_stat _ _ _ SB).
    + unfold enough in F3. apply Z.leb_le in F3. rewrite (sh_nmax _ _ SY) in F3. lia.
    + pose proof (fi_cnt _ _ _ _ _ F2) as C. rewrite (sh_nmax _ _ SB) in C. rewrite <- Em. exact C.
Qed.
End F.
