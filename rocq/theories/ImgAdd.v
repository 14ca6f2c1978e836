(** Addition of new features camera by camera (C40). *)
From Coq Require Import List ZArith QArith Bool Arith Lia.
From Verif Require Import Util StatModel StatSpec FsetModel FsetSpec FsetProofs FsetAdd FsetGrid FsetFinal FsetSep ImgModel ImgSpec ImgProofs ImgForce.
Import ListNotations.
Local Open Scope nat_scope.

Section A.
Context {Patch World : Type}.
Variables (cf : config) (G : geom Patch World) (t : Z).
Notation ist := (ist Patch World).
Notation n := (c_ncam cf).

(** statistics of a feature created in camera [cam] in a slot with statistics [s] *)
Definition fresh (cam : nat) (s : stat (option Q)) : stat (option Q) :=
  match set_status cam TRACKED (reset exactQ t s) with Some s' => s' | None => reset exactQ t s end.

Lemma init_fold cam l x : NoDup l ->
  let y := fold_left (init_new G t cam) l x in
  i_fs y = i_fs x /\ i_id y = i_id x /\ i_cc y = i_cc x /\ length (i_st y) = length (i_st x) /\
  (forall i, nth_error (i_st y) i = if existsb (Nat.eqb i) l then option_map (fresh cam) (nth_error (i_st x) i) else nth_error (i_st x) i) /\
  (forall e, In e (i_log y) <-> In e (i_log x) \/ exists i, In i l /\ e = EvNew i cam).
Proof.
  revert x. induction l as [|a l IH]; intros x ND; cbn [fold_left existsb]; cbv zeta.
  - repeat split; auto. intros [H|(i & [] & _)]; exact H.
  - inversion ND as [|? ? Na ND']; subst. destruct (IH (init_new G t cam x a) ND') as (A & B & C & D & E & F). cbv zeta in *.
    split; [rewrite A; reflexivity|]. split; [rewrite B; reflexivity|]. split; [rewrite C; reflexivity|].
    split; [rewrite D; unfold init_new, put_status, with_st, emit, with_w; cbn; now rewrite !upd_nth_length|]. split.
    + intros i. rewrite E. unfold init_new, put_status, with_st, emit, with_w. cbn [i_st]. destruct (Nat.eqb_spec i a) as [->|NE]; cbn [orb].
      * assert (X : existsb (Nat.eqb a) l = false). { destruct (existsb (Nat.eqb a) l) eqn:X; [|reflexivity]. apply existsb_exists in X as (b & Hb & Eb). apply Nat.eqb_eq in Eb. subst. contradiction. }
        rewrite X, !nth_error_upd_nth_eq. destruct (nth_error (i_st x) a); reflexivity.
      * rewrite !nth_error_upd_nth_ne by auto. reflexivity.
    + intros e. rewrite F. unfold init_new, emit. cbn [i_log In]. split.
      * intros [[H|H]|(i & H1 & H2)]; [right; exists a; auto|left; exact H|right; exists i; auto].
      * intros [H|(i & [->|H1] & H2)]; [auto|left; left; auto|right; exists i; auto].
Qed.

Hypothesis Hsane : sane (c_add cf).
Lemma sane_add (x : ist) cam : sane (add_params cf x cam).
Proof. destruct Hsane. constructor; assumption. Qed.

(** what one camera adds *)
Record added (cam q : nat) (x y : ist) (l : list nat) : Prop := {
  ad_nmax : nmax y = nmax x;
  ad_pos : i_id y = i_id x /\ i_cc y = i_cc x;
  ad_len : length (i_st y) = length (i_st x);
  ad_nd : NoDup l;
  ad_max : length l <= q;
  ad_full : (2 <= p_nb (c_add cf))%Z -> (forall r, (0 < r <= 1)%Q -> (0 < p_pow (c_add cf) r)%Q) -> plenty cf G x cam -> length l = Nat.min q (n_free (i_fs x));
  ad_mem : forall i, In i l -> slot_valid x i = false /\ exists f, live (i_fs y) i f /\ f_cam f = Z.of_nat cam /\ (fs_maxIdx (i_fs x) <= f_idx f)%Z;
  ad_old : forall i, ~ In i l -> nth_error (fs_slots (i_fs y)) i = nth_error (fs_slots (i_fs x)) i;
  ad_stat : forall i, nth_error (i_st y) i = if existsb (Nat.eqb i) l then option_map (fresh cam) (nth_error (i_st x) i) else nth_error (i_st x) i;
  ad_cnt : valid_count (i_fs y) = valid_count (i_fs x) + length l;
  ad_idx : (fs_maxIdx (i_fs x) <= fs_maxIdx (i_fs y))%Z;
  ad_log : forall e, In e (i_log y) <-> In e (i_log x) \/ exists i, In i l /\ e = EvNew i cam;
  ad_ids : (0 <= fs_maxIdx (i_fs x))%Z -> ids_ok (i_fs x) -> (0 <= fs_maxIdx (i_fs y))%Z /\ ids_ok (i_fs y) }.

Lemma add_camera_ok cam x : exists y l, add_camera cf G t (Ok x) cam = Ok y /\ added cam (quota cf x cam) x y l.
Proof.
  unfold add_camera. cbn [rbind]. destruct (add_defined (add_params cf x cam) (g_cands G (i_w x) cam) (g_proj G (i_w x) cam) (g_choose G (i_w x) cam) (i_fs x) (sane_add x cam)) as (fs' & news & E).
  rewrite E. cbn [rbind fst snd].
  destruct (add_respects_budget _ _ _ _ _ _ _ E) as (B1 & B2 & B3 & B4 & B5 & B6 & B7).
  destruct (add_best_set _ _ _ _ _ _ _ E) as [[L N O ND I V] _].
  destruct (init_fold cam (map fst news) (with_fs fs' x) B4) as (A & B & C & D & F & H). cbv zeta in *.
  eexists. exists (map fst news). split; [reflexivity|]. constructor.
  - unfold nmax. rewrite A. exact B3.
  - rewrite B, C. split; reflexivity.
  - exact D.
  - exact B4.
  - rewrite map_length. cbn [add_params p_max] in B1. lia.
  - intros Hb Hp [Hsep He]. rewrite map_length.
    pose proof (separated_all_added (add_params cf x cam) _ _ _ _ _ _ (sane_add x cam) Hb Hp Hsep ltac:(cbn; lia) E) as K.
    cbn [add_params p_max] in K. change (n_eligible (add_params cf x cam)) with (n_eligible (Patch:=Patch) (c_add cf)) in K. lia.
  - intros i Hi. destruct (proj1 (B5 i) Hi) as [[f Hf] _]. split; [unfold slot_valid; now rewrite Hf|]. 
    apply in_map_iff in Hi as ([i' c] & <- & Hin). apply In_nth_error in Hin as [k Hk].
    destruct (add_writes_candidate _ _ _ _ _ _ _ _ _ _ E Hk) as (cd & _ & Lv). eexists. rewrite A. split; [exact Lv|]. cbn. split; [reflexivity|lia].
  - intros i Hi. rewrite A. exact (B6 i Hi).
  - exact F.
  - rewrite A. cbn [with_fs i_fs]. rewrite !valid_count_live, B7, map_length. reflexivity.
  - rewrite A. cbn [with_fs i_fs]. rewrite I. lia.
  - exact H.
  - intros H0 H1. rewrite A. exact (add_keeps_ids _ _ _ _ _ _ _ E H0 H1).
Qed.

Lemma concat_nth_in {A} (ls : list (list A)) c a : In a (nth c ls []) -> In a (concat ls).
Proof.
  revert c. induction ls as [|l ls IH]; intros [|c] H; cbn in *; try contradiction; apply in_or_app; [left; exact H|right; eauto].
Qed.
Lemma in_concat_nth {A} (ls : list (list A)) a : In a (concat ls) -> exists c, c < length ls /\ In a (nth c ls []).
Proof.
  induction ls as [|l ls IH]; cbn; [intros []|]. intros H. apply in_app_or in H as [H|H]; [exists 0; split; [lia|exact H]|].
  destruct (IH H) as (c & L & Hc). exists (S c). split; [lia|exact Hc].
Qed.
Lemma nodup_app {A} (l m : list A) : NoDup l -> NoDup m -> (forall a, In a l -> ~ In a m) -> NoDup (l ++ m).
Proof.
  induction l as [|a l IH]; intros H1 H2 H3; cbn; [exact H2|]. inversion H1; subst. constructor.
  - intros K. apply in_app_or in K as [K|K]; [contradiction|]. apply (H3 a); [now left|exact K].
  - apply IH; auto. intros b Hb. apply H3. now right.
Qed.

(** several cameras in turn *)
Variable x0 : ist.
Record grown (ls : list (list nat)) (y : ist) : Prop := {
  gr_nmax : nmax y = nmax x0;
  gr_pos : i_id y = i_id x0 /\ i_cc y = i_cc x0;
  gr_len : length (i_st y) = length (i_st x0);
  gr_nd : NoDup (concat ls);
  gr_mem : forall c i, In i (nth c ls []) -> slot_valid x0 i = false /\ exists f, live (i_fs y) i f /\ f_cam f = Z.of_nat c /\ (fs_maxIdx (i_fs x0) <= f_idx f)%Z;
  gr_old : forall i, ~ In i (concat ls) -> nth_error (fs_slots (i_fs y)) i = nth_error (fs_slots (i_fs x0)) i /\ nth_error (i_st y) i = nth_error (i_st x0) i;
  gr_stat : forall c i, In i (nth c ls []) -> nth_error (i_st y) i = option_map (fresh c) (nth_error (i_st x0) i);
  gr_cnt : valid_count (i_fs y) = valid_count (i_fs x0) + length (concat ls);
  gr_quota : forall c, c < length ls -> length (nth c ls []) <= (nmax x0 - valid_count (i_fs x0) - length (concat (firstn c ls))) / (n - c);
  gr_idx : (fs_maxIdx (i_fs x0) <= fs_maxIdx (i_fs y))%Z;
  gr_log : forall e, In e (i_log y) <-> In e (i_log x0) \/ exists c i, In i (nth c ls []) /\ e = EvNew i c;
  gr_ids : (0 <= fs_maxIdx (i_fs x0))%Z -> ids_ok (i_fs x0) -> (0 <= fs_maxIdx (i_fs y))%Z /\ ids_ok (i_fs y) }.
Lemma grown_nil : grown [] x0.
Proof.
  constructor; auto; try (intros [|c]; cbn; intros; contradiction); try (cbn; lia).
  - constructor.
  - intros e. split; [auto|]. intros [H|([|c] & i & [] & _)]; exact H.
Qed.
Lemma nth_snoc_lt {A} (ls : list (list A)) l c : c < length ls -> nth c (ls ++ [l]) [] = nth c ls [].
Proof. intros H. now rewrite app_nth1. Qed.
Lemma nth_snoc_eq {A} (ls : list (list A)) l : nth (length ls) (ls ++ [l]) [] = l.
Proof. rewrite app_nth2 by lia. now rewrite Nat.sub_diag. Qed.
Lemma nth_snoc_cases {A} (ls : list (list A)) l c a : In a (nth c (ls ++ [l]) []) -> (c < length ls /\ In a (nth c ls [])) \/ (c = length ls /\ In a l).
Proof.
  intros H. destruct (Nat.lt_total c (length ls)) as [L|[->|L]].
  - rewrite nth_snoc_lt in H by exact L. auto.
  - rewrite nth_snoc_eq in H. auto.
  - rewrite nth_overflow in H by (rewrite app_length; cbn; lia). destruct H.
Qed.
Lemma grown_step ls y z l : grown ls y -> added (length ls) (quota cf y (length ls)) y z l -> grown (ls ++ [l]) z.
Proof.
  intros Gr Ad.
  assert (DJ : forall i, In i (concat ls) -> ~ In i l).
  { intros i Hi Hl. destruct (in_concat_nth _ _ Hi) as (c & _ & Hc). destruct (gr_mem _ _ Gr c i Hc) as (_ & f & Lv & _). destruct (ad_mem _ _ _ _ _ Ad i Hl) as [Hv _].
    unfold slot_valid in Hv. rewrite Lv in Hv. discriminate. }
  assert (EX : forall i, existsb (Nat.eqb i) l = true <-> In i l).
  { intros i. rewrite existsb_exists. split; [intros (b & Hb & E); apply Nat.eqb_eq in E; now subst|]. intros H. exists i. split; [exact H|apply Nat.eqb_refl]. }
  assert (CC : concat (ls ++ [l]) = concat ls ++ l) by (rewrite concat_app; cbn; now rewrite app_nil_r).
  constructor.
  - rewrite (ad_nmax _ _ _ _ _ Ad). apply (gr_nmax _ _ Gr).
  - destruct (ad_pos _ _ _ _ _ Ad), (gr_pos _ _ Gr). split; congruence.
  - rewrite (ad_len _ _ _ _ _ Ad). apply (gr_len _ _ Gr).
  - rewrite CC. apply nodup_app; [apply (gr_nd _ _ Gr)|apply (ad_nd _ _ _ _ _ Ad)|exact DJ].
  - intros c i Hi. apply nth_snoc_cases in Hi as [[L Hi]|[-> Hi]].
    + destruct (gr_mem _ _ Gr c i Hi) as (A & f & B & C & D). split; [exact A|]. exists f. split; [|auto]. unfold live in *. rewrite (ad_old _ _ _ _ _ Ad); [exact B|]. apply DJ. eapply concat_nth_in; eauto.
    + destruct (ad_mem _ _ _ _ _ Ad i Hi) as (A & f & B & C & D). split.
      * unfold slot_valid in *. destruct (gr_old _ _ Gr i) as [E _]; [intros K; exact (DJ i K Hi)|]. now rewrite <- E.
      * exists f. pose proof (gr_idx _ _ Gr). repeat split; auto; lia.
  - intros i Hi. rewrite CC in Hi. assert (H1 : ~ In i (concat ls)) by (intros K; apply Hi, in_or_app; auto). assert (H2 : ~ In i l) by (intros K; apply Hi, in_or_app; auto).
    destruct (gr_old _ _ Gr i H1) as [A B]. split; [rewrite (ad_old _ _ _ _ _ Ad i H2); exact A|].
    rewrite (ad_stat _ _ _ _ _ Ad i). destruct (existsb (Nat.eqb i) l) eqn:E; [apply EX in E; contradiction|exact B].
  - intros c i Hi. apply nth_snoc_cases in Hi as [[L Hi]|[-> Hi]]; rewrite (ad_stat _ _ _ _ _ Ad i).
    + assert (H2 : ~ In i l) by (apply DJ; eapply concat_nth_in; eauto). destruct (existsb (Nat.eqb i) l) eqn:E; [apply EX in E; contradiction|]. now apply (gr_stat _ _ Gr).
    + apply EX in Hi as E. rewrite E. destruct (gr_old _ _ Gr i) as [_ ->]; [intros K; exact (DJ i K Hi)|reflexivity].
  - rewrite (ad_cnt _ _ _ _ _ Ad), (gr_cnt _ _ Gr), CC, app_length. lia.
  - intros c Hc. rewrite app_length in Hc. cbn in Hc. destruct (Nat.eq_dec c (length ls)) as [->|NE].
    + rewrite nth_snoc_eq. rewrite firstn_app, firstn_all, Nat.sub_diag. cbn [firstn]. rewrite app_nil_r.
      pose proof (ad_max _ _ _ _ _ Ad) as M. unfold quota in M. rewrite (gr_nmax _ _ Gr), (gr_cnt _ _ Gr) in M. now rewrite Nat.sub_add_distr in M.
    + rewrite nth_snoc_lt by lia. rewrite firstn_app. replace (c - length ls) with 0 by lia. cbn [firstn]. rewrite app_nil_r. apply (gr_quota _ _ Gr). lia.
  - pose proof (gr_idx _ _ Gr). pose proof (ad_idx _ _ _ _ _ Ad). lia.
  - intros e. rewrite (ad_log _ _ _ _ _ Ad), (gr_log _ _ Gr). split.
    + intros [[H|(c & i & H1 & H2)]|(i & H1 & H2)]; [auto| |].
      * right. exists c, i. split; [|exact H2]. destruct (Nat.lt_ge_cases c (length ls)) as [L|L]; [now rewrite nth_snoc_lt|rewrite nth_overflow in H1 by exact L; destruct H1].
      * right. exists (length ls), i. split; [now rewrite nth_snoc_eq|exact H2].
    + intros [H|(c & i & H1 & H2)]; [auto|]. apply nth_snoc_cases in H1 as [[L H1]|[-> H1]]; [left; right; eauto|right; eauto].
  - intros H1 H2. destruct (gr_ids _ _ Gr H1 H2) as [A B]. exact (ad_ids _ _ _ _ _ Ad A B).
Qed.
Notation turn := (ImgSpec.turn cf G t x0).
Lemma add_fold k : exists ls z, turn k = Ok z /\ grown ls z /\ length ls = k /\
  ((2 <= p_nb (c_add cf))%Z -> (forall r, (0 < r <= 1)%Q -> (0 < p_pow (c_add cf) r)%Q) ->
   (forall c y, c < k -> turn c = Ok y -> plenty cf G y c) ->
   forall c, c < k -> length (nth c ls []) = Nat.min ((nmax x0 - valid_count (i_fs x0) - length (concat (firstn c ls))) / (n - c)) (nmax x0 - valid_count (i_fs x0) - length (concat (firstn c ls)))).
Proof.
  induction k as [|k IH].
  - exists [], x0. split; [reflexivity|]. split; [apply grown_nil|]. split; [reflexivity|]. intros; lia.
  - destruct IH as (ls & y & E & Gr & Ll & Fu). destruct (add_camera_ok k y) as (z & l & E' & Ad). 
    exists (ls ++ [l]), z. assert (Et : turn (S k) = Ok z).
    { unfold ImgSpec.turn. rewrite seq_S, fold_left_app. cbn [fold_left plus]. unfold ImgSpec.turn in E. rewrite E. exact E'. }
    split; [exact Et|]. rewrite <- Ll in Ad. split; [eapply grown_step; eauto|]. split; [rewrite app_length; cbn; lia|].
    intros Hb Hp HP c Hc. destruct (Nat.eq_dec c k) as [->|NE].
    + rewrite <- Ll. rewrite nth_snoc_eq, firstn_app, firstn_all, Nat.sub_diag. cbn [firstn]. rewrite app_nil_r.
      pose proof (ad_full _ _ _ _ _ Ad Hb Hp) as M. rewrite Ll in M. specialize (M (HP k y ltac:(lia) E)). rewrite Ll.
      assert (FR : nmax y - valid_count (i_fs y) = n_free (i_fs y)) by (rewrite valid_count_live; pose proof (n_live_free (i_fs y)) as Q; unfold capacity in Q; unfold nmax; lia).
      unfold quota in M. rewrite <- FR, (gr_nmax _ _ Gr), (gr_cnt _ _ Gr), Nat.sub_add_distr in M. exact M.
    + rewrite nth_snoc_lt by lia. rewrite firstn_app. replace (c - length ls) with 0 by lia. cbn [firstn]. rewrite app_nil_r. apply Fu; auto; lia.
Qed.
End A.

Section B.
Context {Patch World : Type}.
Variables (cf : config) (G : geom Patch World) (t : Z).
Hypothesis Hsane : sane (c_add cf).
Lemma add_features_ok (x : ist Patch World) : exists y ls, add_features cf G t x = Ok y /\ grown cf t x ls y /\ length ls <= c_ncam cf /\
  ((inject_Z (Z.of_nat (valid_count (i_fs x))) < c_detect cf * inject_Z (Z.of_nat (nmax x)))%Q -> length ls = c_ncam cf) /\
  ((c_detect cf * inject_Z (Z.of_nat (nmax x)) <= inject_Z (Z.of_nat (valid_count (i_fs x))))%Q -> y = x /\ ls = []) /\
  ((2 <= p_nb (c_add cf))%Z -> (forall r, (0 < r <= 1)%Q -> (0 < p_pow (c_add cf) r)%Q) ->
   (forall c z, c < c_ncam cf -> turn cf G t x c = Ok z -> plenty cf G z c) ->
   forall c, c < length ls -> length (nth c ls []) = Nat.min ((nmax x - valid_count (i_fs x) - length (concat (firstn c ls))) / (c_ncam cf - c)) (nmax x - valid_count (i_fs x) - length (concat (firstn c ls)))).
Proof.
  unfold add_features. unfold Qltb. destruct (Qlt_le_dec _ _) as [L|L].
  - destruct (add_fold cf G t Hsane x (c_ncam cf)) as (ls & z & E & Gr & Le & Fu). exists z, ls. split; [exact E|]. split; [exact Gr|]. split; [lia|]. split; [intros _; exact Le|]. split; [intros H; exfalso; exact (Qlt_not_le _ _ L H)|]. rewrite Le. exact Fu.
  - exists x, []. split; [reflexivity|]. split; [apply grown_nil|]. split; [cbn; lia|]. split; [intros H; exfalso; exact (Qlt_not_le _ _ H L)|]. split; [auto|]. cbn. intros; lia.
Qed.
End B.

(** arithmetic of the quotas *)
Lemma div_step r m a : 1 <= m -> a <= r / (S m) -> r / S m <= (r - a) / m.
Proof.
  intros Hm Ha. apply Nat.div_le_lower_bound; [lia|].
  pose proof (Nat.mul_div_le r (S m) ltac:(lia)). nia.
Qed.
Lemma quota_mono free ncam (ls : list (list nat)) : length ls <= ncam ->
  (forall c, c < length ls -> length (nth c ls []) <= (free - length (concat (firstn c ls))) / (ncam - c)) ->
  forall c, c < length ls -> free / ncam <= (free - length (concat (firstn c ls))) / (ncam - c).
Proof.
  intros Hl Hq. induction c as [|c IH]; intros Hc; [cbn; now rewrite !Nat.sub_0_r|].
  specialize (IH ltac:(lia)). etransitivity; [exact IH|].
  assert (F : length (concat (firstn (S c) ls)) = length (concat (firstn c ls)) + length (nth c ls [])).
  { clear - Hc. revert c Hc. induction ls as [|l ls IHl]; intros c Hc; [cbn in Hc; lia|]. destruct c as [|c]; cbn [firstn concat nth]; rewrite ?app_length; [cbn; lia|].
    cbn in Hc. specialize (IHl c ltac:(lia)). cbn [firstn] in IHl. rewrite IHl. lia. }
  rewrite F, Nat.sub_add_distr. replace (ncam - c) with (S (ncam - S c)) by lia. apply div_step; [lia|].
  replace (S (ncam - S c)) with (ncam - c) by lia. apply Hq. lia.
Qed.
