(** Proofs about the replay loop (C52). *)
From Coq Require Import List ZArith Bool Arith Lia.
From Verif Require Import NodeModel NodeSpec NodeProofs NodePub LoadModel LoadSpec.
Import ListNotations.
Local Open Scope Z_scope.

Section Proofs.
Context {V Qt Cov Img F : Type}.
Notation event := (event V Qt Cov Img).
Notation action := (action V Qt Cov Img).
Notation ops_t := (filter_ops V Qt Cov Img F).
Notation node := (node V Qt Cov Img F).
Variables (cfg : node_config Qt) (ops : ops_t) (lc : load_config F).

(** gotFirstMessages_ is never taken back *)
Lemma uap_first : forall n : node, n_first n = true -> n_first (fst (update_and_publish ops n)) = true.
Proof.
  intros n H. unfold update_and_publish. destruct (initialized n); [|exact H].
  destruct (f_last_image ops (n_filter n)); cbn [n_filter with_filter];
    match goal with |- context [if ?b then _ else _] => destruct b end; cbn; auto.
Qed.

Lemma add_first : forall f a (n : node), n_first n = true -> n_first (fst (after_add ops f a n)) = true.
Proof. intros f a n H. unfold after_add. cbn [fst]. now apply uap_first. Qed.

Lemma step_first : forall (n : node) e, n_first n = true -> n_first (fst (step cfg ops n e)) = true.
Proof.
  intros n e H.
  assert (K : forall cam img t, n_first (fst (img_callback ops cam img t n)) = true).
  { intros cam img t. unfold img_callback. destruct img as [im|]; [|exact H].
    destruct (initialized n); [|exact H]. cbn zeta.
    match goal with |- context [if ?b then after_add _ _ _ _ else _] => destruct b end; [|exact H].
    now apply add_first. }
  destruct e as [acc gyr t|cam img t|p q t|p q c t|v t| |p q]; cbn [step].
  - unfold imu_callback. destruct (n_state n); [exact H|exact H|now apply add_first].
  - unfold img_entry. destruct cam as [|[|cam]]; [apply K| |exact H].
    destruct (1 <? c_cams cfg)%nat; [apply K|exact H].
  - unfold pose_callback. destruct (initialized n); [now apply add_first|exact H].
  - unfold odometry_callback. destruct (initialized n); [now apply add_first|exact H].
  - unfold velocity_callback. destruct (initialized n); [now apply add_first|exact H].
  - unfold request_reset. destruct (initialized n); exact H.
  - unfold request_reset_to_pose. destruct (initialized n); exact H.
Qed.

Lemma run_first : forall es (n : node), n_first n = true -> n_first (fst (run cfg ops n es)) = true.
Proof.
  induction es as [|e es IH]; intros n H; cbn [run fst]; [exact H|]. now apply IH, step_first.
Qed.

Lemma load_snoc : forall (n : node) log es,
  load cfg ops lc n (log ++ [es]) = load_step cfg ops lc (load cfg ops lc n log) es.
Proof. intros. unfold load. now rewrite fold_left_app. Qed.

Hypothesis carry : carry_law ops lc.

(** what one iteration does to the bookkeeping *)
Lemma request_reset_frame : forall n : node,
  n_filter (request_reset n) = n_filter n /\ n_first (request_reset n) = n_first n /\
  n_stamp (request_reset n) = n_stamp n.
Proof. intros n. unfold request_reset. destruct (initialized n); auto. Qed.

Lemma load_step_spec : forall (l : loader V Qt Cov Img F) es,
  let l' := load_step cfg ops lc l es in
  let safe := f_safe ops (n_filter (ld_node l')) in
  (n_first (ld_node l) = true -> n_first (ld_node l') = true) /\
  (n_first (ld_node l') = false -> ld_last l' = ld_last l /\ ld_records l' = ld_records l) /\
  (n_first (ld_node l') = true ->
   let last0 := match ld_last l with Some t => t | None => safe end in
   ld_last l' = Some (Z.max last0 safe) /\
   ld_records l' = if last0 <? safe then ld_records l ++ [(safe, n_stamp (ld_node l'))]
                   else ld_records l).
Proof.
  intros l es. cbn zeta. unfold load_step.
  pose proof (fun H => run_first es (ld_node l) H) as RF.
  set (n := fst (run cfg ops (ld_node l) es)) in *.
  destruct (n_first n) eqn:E.
  2:{ cbn [ld_node ld_last ld_records]. split; [intros H; specialize (RF H); congruence|].
      split; [auto|congruence]. }
  cbn zeta. destruct (request_reset_frame n) as (RA & RB & RC).
  match goal with |- context [if ?b then {| ld_node := with_filter _ _; ld_last := _; ld_trigger := _;
    ld_records := _ |} else _] => destruct b end; cbn [ld_node ld_last ld_records with_filter n_filter n_first n_stamp].
  - rewrite (carry (n_filter (request_reset n))), RA, RB, RC.
    split; [auto|]. split; [congruence|]. intros _. split; [|reflexivity]. f_equal.
    destruct (Z.ltb_spec (match ld_last l with Some t => t | None => f_safe ops (n_filter n) end)
      (f_safe ops (n_filter n))); lia.
  - split; [auto|]. split; [congruence|]. intros _. split; [|reflexivity]. f_equal.
    destruct (Z.ltb_spec (match ld_last l with Some t => t | None => f_safe ops (n_filter n) end)
      (f_safe ops (n_filter n))); lia.
Qed.

Variables (f0 : F) (p0 : V) (q0 : Qt) (pm0 : pose_meas V Qt Cov).
Let n0 : node := node_init cfg f0 p0 q0 pm0.

Lemma not_published : forall log, published_after cfg ops lc n0 log = false ->
  ld_last (load cfg ops lc n0 log) = None /\ ld_records (load cfg ops lc n0 log) = [].
Proof.
  unfold published_after. induction log as [|es log IH] using rev_ind; [split; reflexivity|].
  rewrite load_snoc. intros H.
  destruct (load_step_spec (load cfg ops lc n0 log) es) as (A & B & _).
  destruct (B H) as (-> & ->). apply IH.
  destruct (n_first (ld_node (load cfg ops lc n0 log))); [|reflexivity].
  specialize (A eq_refl). congruence.
Qed.

(** safe times after the messages of [log2], which follow [log1] *)
Definition safe_times (log1 log2 : list (list event)) : list Z :=
  map (fun k => safe_after cfg ops lc n0 (log1 ++ firstn (S k) log2)) (seq 0 (length log2)).

Lemma safe_times_snoc : forall log1 log2 es,
  safe_times log1 (log2 ++ [es]) = safe_times log1 log2 ++ [safe_after cfg ops lc n0 (log1 ++ log2 ++ [es])].
Proof.
  intros. unfold safe_times. rewrite app_length. cbn [length]. rewrite seq_app, map_app. f_equal.
  - apply map_ext_in. intros k K. apply in_seq in K. do 2 f_equal.
    rewrite firstn_app. replace (S k - length log2)%nat with O by lia. cbn [firstn].
    now rewrite app_nil_r.
  - cbn [seq map]. do 3 f_equal. apply firstn_all2. rewrite app_length. cbn. lia.
Qed.

Lemma new_maxima_snoc : forall l s x,
  new_maxima s (l ++ [x]) = new_maxima s l ++ (if fold_left Z.max l s <? x then [x] else []).
Proof.
  induction l as [|y l IH]; intros s x; [reflexivity|]. cbn [app new_maxima fold_left].
  destruct (Z.ltb_spec s y) as [L|L].
  - rewrite IH. replace (Z.max s y) with y by lia. reflexivity.
  - rewrite IH. replace (Z.max s y) with s by lia. reflexivity.
Qed.

Lemma new_maxima_increasing : forall l s, increasing s (new_maxima s l).
Proof.
  induction l as [|x l IH]; intros s; cbn [new_maxima]; [exact I|].
  destruct (Z.ltb_spec s x) as [L|L]; [split; [exact L|apply IH]|apply IH].
Qed.

Lemma load_records : forall log1 es log2,
  published_after cfg ops lc n0 log1 = false -> published_after cfg ops lc n0 (log1 ++ [es]) = true ->
  let first := safe_after cfg ops lc n0 (log1 ++ [es]) in
  published_after cfg ops lc n0 ((log1 ++ [es]) ++ log2) = true /\
  ld_last (load cfg ops lc n0 ((log1 ++ [es]) ++ log2)) =
    Some (fold_left Z.max (safe_times (log1 ++ [es]) log2) first) /\
  map fst (ld_records (load cfg ops lc n0 ((log1 ++ [es]) ++ log2))) =
    new_maxima first (safe_times (log1 ++ [es]) log2).
Proof.
  intros log1 es log2 H0 H1 first.
  destruct (not_published log1 H0) as (L0 & R0).
  induction log2 as [|es2 log2 IH] using rev_ind.
  - rewrite !app_nil_r. split; [exact H1|]. revert H1. unfold first, published_after, safe_after.
    rewrite load_snoc. intros H1.
    destruct (load_step_spec (load cfg ops lc n0 log1) es) as (_ & _ & C).
    destruct (C H1) as (C1 & C2). rewrite L0 in C1, C2. rewrite Z.ltb_irrefl in C2.
    rewrite C1, C2, R0. cbn [safe_times length seq map fold_left new_maxima]. rewrite Z.max_id. auto.
  - destruct IH as (P & L & R). rewrite safe_times_snoc, fold_left_app, new_maxima_snoc.
    set (l := load cfg ops lc n0 ((log1 ++ [es]) ++ log2)) in *.
    assert (E : load cfg ops lc n0 ((log1 ++ [es]) ++ log2 ++ [es2]) = load_step cfg ops lc l es2)
      by (rewrite app_assoc; apply load_snoc).
    change (published_after cfg ops lc n0 ((log1 ++ [es]) ++ log2)) with (n_first (ld_node l)) in P.
    assert (E2 : safe_after cfg ops lc n0 ((log1 ++ [es]) ++ log2 ++ [es2]) =
      f_safe ops (n_filter (ld_node (load_step cfg ops lc l es2)))) by (unfold safe_after; now rewrite E).
    rewrite E2. unfold published_after. rewrite E.
    destruct (load_step_spec l es2) as (A & _ & C). specialize (A P). split; [exact A|].
    destruct (C A) as (C1 & C2). rewrite L in C1, C2. rewrite C1, C2. cbn [fold_left].
    split; [reflexivity|].
    match goal with |- context [if ?b then ld_records l ++ _ else _] => destruct b end.
    + rewrite map_app, R. reflexivity.
    + rewrite R, app_nil_r. reflexivity.
Qed.

(** Without resets the messages written are those of the safe state. *)
Hypothesis laws : filter_laws ops f0.
Hypothesis no_trigger : lc_reset lc <= 0.

Definition fresh (n : node) : Prop :=
  n_first n = true -> phase_of n = Running /\ n_stamp n = Some (f_safe ops (n_filter n)).

Lemma uap_fresh : forall n : node, phase_of n = Running -> fresh n ->
  fresh (fst (update_and_publish ops n)).
Proof.
  intros n P H. unfold update_and_publish.
  rewrite (proj2 (phase_initialized n) P).
  destruct (f_last_image ops (n_filter n)) as [t|]; cbn [n_filter with_filter].
  - pose proof (fl_update_safe ops f0 laws t (n_filter n)) as U.
    destruct (Z.ltb_spec (f_safe ops (n_filter n)) (f_safe ops (f_update ops t (n_filter n)))) as [L|L].
    + intros _. cbn [fst published n_stamp n_filter with_filter]. split; [exact P|reflexivity].
    + intros K. cbn [fst with_filter n_first n_stamp n_filter] in K |- *. destruct (H K) as (_ & S).
      split; [exact P|]. rewrite S. f_equal. lia.
  - rewrite Z.ltb_irrefl. exact H.
Qed.

Lemma add_fresh : forall (n m : node) a, is_measurement a = true -> phase_of n = Running -> fresh n ->
  phase_of m = phase_of n -> n_filter m = n_filter n -> n_first m = n_first n -> n_stamp m = n_stamp n ->
  fresh (fst (after_add ops (effect ops (n_filter n) a) a m)).
Proof.
  intros n m a Ha P H Pm Fm Gm Sm. unfold after_add. cbn [fst]. apply uap_fresh.
  - change (phase_of m = Running). congruence.
  - intros K. change (n_first m = true) in K. rewrite Gm in K. destruct (H K) as (_ & S).
    split; [change (phase_of m = Running); congruence|].
    change (n_stamp (with_filter (effect ops (n_filter n) a) m)) with (n_stamp m).
    change (n_filter (with_filter (effect ops (n_filter n) a) m)) with (effect ops (n_filter n) a).
    now rewrite Sm, S, (fl_measurement_safe ops f0 laws a _ Ha).
Qed.

Lemma step_fresh : forall (n : node) e, is_reset_request e = false -> fresh n ->
  fresh (fst (step cfg ops n e)).
Proof.
  intros n e NR H.
  assert (K : forall cam img t, fresh (fst (img_callback ops cam img t n))).
  { intros cam img t. unfold img_callback. destruct img as [im|]; [|exact H].
    destruct (initialized n) eqn:I; [|exact H]. apply phase_initialized in I. cbn zeta.
    match goal with |- context [if ?b then after_add _ _ _ _ else _] => destruct b end; [|exact H].
    now apply (add_fresh n (with_imgs _ n) (AddImages _ t)). }
  destruct e as [acc gyr t|cam img t|p q t|p q c t|v t| |p q]; cbn [step]; try discriminate.
  - unfold imu_callback. destruct (n_state n) eqn:E.
    + intros G. destruct (H G) as (P & _). unfold phase_of in P. rewrite E in P. discriminate.
    + intros G. destruct (H G) as (P & _). unfold phase_of in P. rewrite E in P. discriminate.
    + apply (add_fresh n n (AddPrediction acc gyr t)); auto. unfold phase_of. now rewrite E.
  - unfold img_entry. destruct cam as [|[|cam]]; [apply K| |exact H].
    destruct (1 <? c_cams cfg)%nat; [apply K|exact H].
  - unfold pose_callback. destruct (initialized n) eqn:I; [|exact H]. apply phase_initialized in I.
    now apply (add_fresh n (with_pose _ n) (AddPose _ (t + c_offset cfg))).
  - unfold odometry_callback. destruct (initialized n) eqn:I; [|exact H]. apply phase_initialized in I.
    now apply (add_fresh n (with_pose _ n) (AddPose _ (t + c_offset cfg))).
  - unfold velocity_callback. destruct (initialized n) eqn:I; [|exact H]. apply phase_initialized in I.
    now apply (add_fresh n n (AddVelocity v t)).
Qed.

Lemma run_fresh : forall es (n : node), (forall e, In e es -> is_reset_request e = false) -> fresh n ->
  fresh (fst (run cfg ops n es)).
Proof.
  induction es as [|e es IH]; intros n H G; cbn [run fst]; [exact G|].
  apply IH; [intros; apply H; now right|]. apply step_fresh; [apply H; now left|exact G].
Qed.

Lemma load_fresh : forall log, (forall es e, In es log -> In e es -> is_reset_request e = false) ->
  fresh (ld_node (load cfg ops lc n0 log)) /\
  forall s st, In (s, st) (ld_records (load cfg ops lc n0 log)) -> st = Some s.
Proof.
  induction log as [|es log IH] using rev_ind; intros H.
  - split; [intros K; discriminate|intros s st []].
  - destruct IH as (I1 & I2).
    { intros es' e A B. apply (H es' e); [apply in_or_app; now left|exact B]. }
    rewrite load_snoc. set (l := load cfg ops lc n0 log) in *.
    assert (G : fresh (fst (run cfg ops (ld_node l) es))).
    { apply run_fresh; [|exact I1]. intros e B. apply (H es e); [|exact B].
      apply in_or_app. right. now left. }
    assert (EN : ld_node (load_step cfg ops lc l es) = fst (run cfg ops (ld_node l) es)).
    { unfold load_step. destruct (n_first (fst (run cfg ops (ld_node l) es))); [|reflexivity].
      cbn zeta. replace (0 <? lc_reset lc) with false by (symmetry; apply Z.ltb_ge; exact no_trigger).
      reflexivity. }
    split; [now rewrite EN|]. intros s st.
    destruct (load_step_spec l es) as (_ & B & C).
    destruct (n_first (ld_node (load_step cfg ops lc l es))) eqn:E.
    + destruct (C eq_refl) as (_ & ->). rewrite EN in E |- *.
      destruct (G E) as (_ & S).
      match goal with |- context [if ?b then _ else _] => destruct b end; [|apply I2].
      rewrite in_app_iff. intros [K|[K|[]]]; [now apply I2|]. injection K as <- <-. exact S.
    + destruct (B eq_refl) as (_ & ->). apply I2.
Qed.

End Proofs.
