(** Image update: the statements of the properties (C38-C40, C71). *)
From Coq Require Import List ZArith QArith Qround Bool Arith Lia Lqa.
From Verif Require Import Util StatModel StatSpec FsetModel FsetSpec FsetProofs FsetAdd FsetGrid FsetFinal ImgModel ImgSpec ImgProofs ImgForce ImgAdd ImgHist.
Import ListNotations.
Local Open Scope nat_scope.

Section Fin.
Context {Patch World : Type}.
Variables (cf : config) (G : geom Patch World).
Notation ist := (ist Patch World).
Notation n := (c_ncam cf).

Lemma iteration_spec t x : config_ok cf -> img_wf n x ->
  exists y, (forall fuel, (capacity (i_fs x) * n <= fuel)%nat -> drive cf G fuel t (begin_update G x) = Ok y) /\
  (forall i f, live (i_fs y) i f -> live (i_fs x) i f) /\
  (forall i, ~ alive x i -> visits i (i_log y) = [] /\ increases i (i_log y) = 0) /\
  (forall i f, live (i_fs x) i f -> exists p, visits i (i_log y) = firstn p (cams_of cf f) /\ p <= length (cams_of cf f) /\ increases i (i_log y) = Nat.min 1 p /\
      (alive y i -> p = length (cams_of cf f)) /\ (~ alive y i -> removed i (i_log y))) /\
  (forall i f, live (i_fs y) i f -> exists s0 s, has_stat x i s0 /\ has_stat y i s /\ one_frame cf G t (i_log y) i f s0 s).
Proof.
  intros Hok W. destruct (drive_total cf G t Hok x W) as (y & D & E). exists y. split; [exact E|]. exact (driven_spec cf G t Hok x y W D).
Qed.

(** translation between model predicates and specification *)
Lemma has_stat_of (x : ist) i s : has_stat x i s -> stat_of x i = s.
Proof. intros H. unfold stat_of. apply nth_error_nth. exact H. Qed.
Lemma stat_of_has (x : ist) i : length (i_st x) = nmax x -> slot_valid x i = true -> has_stat x i (stat_of x i).
Proof. intros L V. apply valid_lt in V. unfold has_stat, stat_of. apply nth_error_nth'. lia. Qed.
Lemma good_at_iff (x : ist) u l i : length (i_st x) = nmax x -> slot_valid x i = true -> (good_at x u l i <-> is_good_feature (stat_of x i) u l = true).
Proof.
  intros L V. split.
  - intros (s & H & E). now rewrite (has_stat_of _ _ _ H).
  - intros E. exists (stat_of x i). split; [now apply stat_of_has|exact E].
Qed.
Lemma tracked_now_iff (x : ist) i : length (i_st x) = nmax x -> slot_valid x i = true -> (tracked_now x i <-> tracked_in_some_frame (stat_of x i) = true).
Proof.
  intros L V. unfold tracked_in_some_frame. split.
  - intros (s & k & c & H & Hk & E). rewrite (has_stat_of _ _ _ H). apply existsb_exists. exists c. split; [eapply nth_error_In; eauto|]. now rewrite E.
  - intros E. apply existsb_exists in E as (c & Hc & E). apply In_nth_error in Hc as [k Hk]. exists (stat_of x i), k, c. split; [now apply stat_of_has|]. split; [exact Hk|].
    destruct (c_status c); try discriminate; reflexivity.
Qed.
Lemma tracked_count (x : ist) : length (i_st x) = nmax x -> is_tracked_count x (count_now_tracked x).
Proof.
  intros L. exists (filter (fun i => slot_valid x i && tracked_in_some_frame (stat_of x i)) (seq 0 (nmax x))).
  split; [apply NoDup_filter, seq_NoDup|]. split; [reflexivity|]. intros i. rewrite filter_In, andb_true_iff, alive_valid. split.
  - intros [_ [V T]]. split; [exact V|]. now apply tracked_now_iff.
  - intros [V T]. apply tracked_now_iff in T; auto. split; [|auto]. apply in_seq. apply valid_lt in V. lia.
Qed.
Lemma tracked_unique (x : ist) a b : is_tracked_count x a -> is_tracked_count x b -> a = b.
Proof.
  intros (l & N1 & <- & H1) (m & N2 & <- & H2). apply Nat.le_antisymm; apply NoDup_incl_length; auto; intros i Hi; [apply H2, H1|apply H1, H2]; exact Hi.
Qed.

Lemma removal_spec (m : nat) : config_ok cf -> (Z.of_nat m <= int_max)%Z ->
  exists fuel0, forall (x : ist) fuel tracked, img_wf n x -> capacity (i_fs x) = m -> is_tracked_count x tracked -> fuel0 <= fuel ->
  exists y k, prune cf G fuel tracked x = Ok y /\
    i_st y = i_st x /\ capacity (i_fs y) = m /\
    (forall i f, live (i_fs y) i f -> live (i_fs x) i f) /\
    (forall i, alive x i -> ~ alive y i -> ~ good_at x (c_ub cf) (c_lb cf) i \/
        (~ tracked_now x i /\ ~ good_at x (c_ub cf * Qpow (c_factor cf) (S k)) (c_lb cf * Qpow (c_factor cf) (S k)) i)) /\
    (forall i, alive y i -> good_at x (c_ub cf) (c_lb cf) i /\
        (tracked_now x i \/ good_at x (c_ub cf * Qpow (c_factor cf) k) (c_lb cf * Qpow (c_factor cf) k) i)) /\
    (inject_Z (Z.of_nat m) * c_share cf - 1 < inject_Z (Z.of_nat (tracked + n_free (i_fs y))))%Q /\
    ((exists i, alive x i /\ good_at x (c_ub cf) (c_lb cf) i /\ ~ alive y i) -> inject_Z (Z.of_nat (tracked + n_free (i_fs y))) <= inject_Z (Z.of_nat m) * c_share cf)%Q.
Proof.
  intros Hok Hm. destruct (prune_ok cf G (ok_factor _ Hok) (ok_ub _ Hok) (ok_lb _ Hok) m (ok_share _ Hok) Hm) as (fuel0 & H). exists fuel0.
  intros x fuel tracked W Hc Ht Hf. assert (L : length (i_st x) = nmax x) by apply (wf_len _ _ W). assert (Em : nmax x = m) by exact Hc.
  rewrite (tracked_unique x tracked (count_now_tracked x) Ht (tracked_count x L)) in *. clear Ht tracked.
  assert (ST : forall i, slot_valid x i = true -> recorded n (stat_of x i)) by (intros i V; apply (wf_stat _ _ W i); now apply stat_of_has).
  assert (G0 : forall i, slot_valid x i = true -> good cf x 0 i = is_good_feature (stat_of x i) (c_ub cf) (c_lb cf)).
  { intros i V. unfold good. cbn [Qpow]. apply eq_true_iff_eq. split; apply (good_mono n _ _ _ _ _ (ST i V)); lra. }
  destruct (H x fuel Em (wf_stat _ _ W) ltac:(lia) Hf) as (y & k & P & S & R & K & E1 & E2).
  exists y, k. split; [exact P|]. split; [apply (sh_st _ _ S)|]. split; [unfold capacity; change (nmax y = m); rewrite (sh_nmax _ _ S); exact Em|].
  assert (FR : (Z.of_nat (n_free (i_fs y)) = Z.of_nat m - Z.of_nat (valid_count (i_fs y)))%Z).
  { rewrite valid_count_live. pose proof (n_live_free (i_fs y)) as Q. unfold capacity in Q. change (length (fs_slots (i_fs y))) with (nmax y) in Q. rewrite (sh_nmax _ _ S) in Q. lia. }
  split; [intros i f; now apply shrinks_live|]. split; [|split; [|split]].
  - intros i A B. apply alive_valid in A as V. assert (VY : slot_valid y i = false) by (destruct (slot_valid y i) eqn:Q; [exfalso; apply B, alive_valid; exact Q|reflexivity]).
    destruct (R i V VY) as [Q|[Q1 Q2]].
    + left. intros Q'. apply good_at_iff in Q'; auto. rewrite G0 in Q by exact V. congruence.
    + right. split; [intros Q'; apply tracked_now_iff in Q'; auto; congruence|]. intros Q'. apply good_at_iff in Q'; auto. unfold good in Q2. congruence.
  - intros i A. apply alive_valid in A as VY. pose proof (sh_valid _ _ S i VY) as V. destruct (K i VY) as [Q1 Q2]. split.
    + apply good_at_iff; auto. now rewrite <- G0.
    + destruct (tracked_in_some_frame (stat_of x i)) eqn:T; [left; now apply tracked_now_iff|right]. apply good_at_iff; auto.
  - rewrite <- FR in E1. destruct (Qtrunc_bounds (needed cf x)) as [B _]. rewrite Nat2Z.inj_add, inject_Z_plus. rewrite Zle_Qle in E1. unfold needed in *. rewrite Em in *. lra.
  - intros (i & A & Gi & B). apply alive_valid in A as V. apply good_at_iff in Gi; auto.
    destruct (remove_bad_spec cf G x) as [SB VB].
    assert (LT : valid_count (i_fs y) < valid_count (i_fs (remove_bad cf G x))).
    { rewrite !valid_count_seq, (sh_nmax _ _ S), (sh_nmax _ _ SB).
      assert (VY : slot_valid y i = false) by (destruct (slot_valid y i) eqn:Q; [exfalso; apply B, alive_valid; exact Q|reflexivity]).
      assert (VYB : forall j, slot_valid y j = true -> slot_valid (remove_bad cf G x) j = true).
      { intros j Vj. rewrite VB, (sh_valid _ _ S j Vj). cbn [andb]. rewrite <- G0 by now apply (sh_valid _ _ S). now apply K. }
      assert (Ii : In i (seq 0 (nmax x))) by (apply in_seq; apply valid_lt in V; lia).
      rewrite (filter_one (slot_valid (remove_bad cf G x)) (fun j => slot_valid (remove_bad cf G x) j && negb (j =? i)) _ i).
      - assert (Q := filter_ext_len (slot_valid y) (fun j => slot_valid (remove_bad cf G x) j && negb (j =? i)) (seq 0 (nmax x))).
        assert (Q' : length (filter (slot_valid y) (seq 0 (nmax x))) <= length (filter (fun j => slot_valid (remove_bad cf G x) j && negb (j =? i)) (seq 0 (nmax x)))).
        { apply Q. intros j _ Vj. rewrite (VYB j Vj). cbn [andb]. destruct (Nat.eqb_spec j i) as [->|]; [congruence|reflexivity]. }
        lia.
      - apply seq_NoDup.
      - exact Ii.
      - now rewrite VB, V.
      - now rewrite Nat.eqb_refl, andb_false_r.
      - intros j Hj. apply Nat.eqb_neq in Hj. now rewrite Hj, andb_true_r. }
    rewrite <- FR in E2. assert (Q : (Z.of_nat (n_free (i_fs y)) <= Qtrunc (needed cf x))%Z) by lia.
    destruct (Qtrunc_bounds (needed cf x)) as (_ & B1 & B2). rewrite Nat2Z.inj_add, inject_Z_plus.
    destruct (Qlt_le_dec (needed cf x) 0) as [Ng|Ng].
    + exfalso. specialize (B2 Ng). assert (n_free (i_fs y) = 0) by lia. assert (valid_count (i_fs y) = m) by lia.
      pose proof (count_le (remove_bad cf G x)) as CL. rewrite (sh_nmax _ _ SB) in CL. lia.
    + specialize (B1 Ng). rewrite Zle_Qle in Q. unfold needed in *. rewrite Em in *. lra.
Qed.

(** a feature tracked in the current frame is never removed by force *)
Lemma addition_spec t x : sane (c_add cf) -> 1 <= n ->
  exists y ls, add_features cf G t x = Ok y /\
    ((inject_Z (Z.of_nat (n_live (i_fs x))) < c_detect cf * inject_Z (Z.of_nat (capacity (i_fs x))))%Q -> length ls = n) /\
    ((c_detect cf * inject_Z (Z.of_nat (capacity (i_fs x))) <= inject_Z (Z.of_nat (n_live (i_fs x))))%Q -> y = x /\ ls = []) /\
    NoDup (concat ls) /\
    (forall c i, In i (nth c ls []) <-> free (i_fs x) i /\ exists f, live (i_fs y) i f /\ f_cam f = Z.of_nat c) /\
    (forall i f, live (i_fs x) i f -> live (i_fs y) i f /\ nth_error (i_st y) i = nth_error (i_st x) i) /\
    capacity (i_fs y) = capacity (i_fs x) /\ n_live (i_fs y) = n_live (i_fs x) + length (concat ls) /\
    (forall c, c < length ls -> length (nth c ls []) <= (n_free (i_fs x) - length (concat (firstn c ls))) / (n - c)) /\
    (forall c, c < length ls -> n_free (i_fs x) / n <= (n_free (i_fs x) - length (concat (firstn c ls))) / (n - c)) /\
    ((2 <= p_nb (c_add cf))%Z -> (forall r, (0 < r <= 1)%Q -> (0 < p_pow (c_add cf) r)%Q) ->
     (inject_Z (Z.of_nat (n_live (i_fs x))) < c_detect cf * inject_Z (Z.of_nat (capacity (i_fs x))))%Q ->
     (forall c z, c < n -> turn cf G t x c = Ok z -> plenty cf G z c) ->
     (forall c, c < n -> length (nth c ls []) = (n_free (i_fs x) - length (concat (firstn c ls))) / (n - c)) /\ n_free (i_fs y) = 0).
Proof.
  intros Hs Hn. destruct (add_features_ok cf G t Hs x) as (y & ls & E & Gr & Ll & H1 & H2 & H3). exists y, ls. split; [exact E|].
  rewrite valid_count_live in H1, H2. split; [exact H1|]. split; [exact H2|]. split; [apply (gr_nd _ _ _ _ _ Gr)|].
  assert (FR : nmax x - valid_count (i_fs x) = n_free (i_fs x)) by (rewrite valid_count_live; pose proof (n_live_free (i_fs x)) as Q; unfold capacity in Q; unfold nmax; lia).
  assert (QU := gr_quota _ _ _ _ _ Gr). rewrite FR in QU.
  split; [|split; [|split; [|split; [|split; [|split]]]]].
  - intros c i. split.
    + intros Hi. destruct (gr_mem _ _ _ _ _ Gr c i Hi) as (A & f & B & C & _). split; [|exists f; auto].
      assert (Li : i < nmax x). { rewrite <- (gr_nmax _ _ _ _ _ Gr). apply valid_lt, alive_valid. now exists f. }
      unfold free, slot_valid in *. destruct (nth_error (fs_slots (i_fs x)) i) as [[v g]|] eqn:K; [|apply nth_error_None in K; unfold nmax in Li; lia]. cbn in A. subst v. now exists g.
    + intros [[g Fg] (f & L & C)]. destruct (in_dec Nat.eq_dec i (concat ls)) as [Hi|Hi].
      * destruct (in_concat_nth _ _ Hi) as (c' & _ & Hc'). destruct (gr_mem _ _ _ _ _ Gr c' i Hc') as (_ & f' & L' & C' & _). unfold live in *. rewrite L in L'. injection L' as <-.
        assert (c = c') by lia. now subst.
      * destruct (gr_old _ _ _ _ _ Gr i Hi) as [Q _]. unfold live in L. rewrite Q, Fg in L. discriminate.
  - intros i f L. destruct (in_dec Nat.eq_dec i (concat ls)) as [Hi|Hi].
    + destruct (in_concat_nth _ _ Hi) as (c' & _ & Hc'). destruct (gr_mem _ _ _ _ _ Gr c' i Hc') as (Q & _). unfold slot_valid in Q. unfold live in L. rewrite L in Q. discriminate.
    + destruct (gr_old _ _ _ _ _ Gr i Hi) as [Q1 Q2]. unfold live in *. rewrite Q1. auto.
  - apply (gr_nmax _ _ _ _ _ Gr).
  - rewrite <- !valid_count_live. apply (gr_cnt _ _ _ _ _ Gr).
  - exact QU.
  - apply quota_mono; [exact Ll|exact QU].
  - intros Hb Hp Hd HP. rewrite FR in H3. specialize (H1 Hd). specialize (H3 Hb Hp HP). rewrite H1 in H3.
    assert (X : forall c, c < n -> length (nth c ls []) = (n_free (i_fs x) - length (concat (firstn c ls))) / (n - c)).
    { intros c Hc. rewrite (H3 c Hc). apply Nat.min_l. apply Nat.div_le_upper_bound; [lia|]. nia. }
    split; [exact X|].
    assert (Y := X (n - 1) ltac:(lia)). replace (n - (n - 1)) with 1 in Y by lia. rewrite Nat.div_1_r in Y.
    assert (Z : length (concat ls) = length (concat (firstn (n - 1) ls)) + length (nth (n - 1) ls [])).
    { rewrite <- (firstn_skipn (n - 1) ls) at 1. rewrite concat_app, app_length. f_equal.
      destruct (skipn (n - 1) ls) as [|a [|b r]] eqn:K.
      - apply (f_equal (@length _)) in K. rewrite skipn_length in K. cbn in K. lia.
      - cbn. rewrite app_nil_r. f_equal. rewrite <- (firstn_skipn (n - 1) ls), K, app_nth2; rewrite firstn_length; [|lia].
        replace (n - 1 - Nat.min (n - 1) (length ls)) with 0 by lia. reflexivity.
      - apply (f_equal (@length _)) in K. rewrite skipn_length in K. cbn in K. lia. }
    pose proof (n_live_free (i_fs x)). pose proof (n_live_free (i_fs y)). pose proof (gr_cnt _ _ _ _ _ Gr) as C. rewrite !valid_count_live in C.
    pose proof (gr_nmax _ _ _ _ _ Gr) as M. unfold nmax in M. unfold capacity in *. lia.
Qed.
End Fin.
