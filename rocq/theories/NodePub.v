(** Proofs about the publication of states (C47). *)
From Coq Require Import List ZArith Bool Arith Lia.
From Verif Require Import NodeModel NodeSpec NodeProofs.
Import ListNotations.
Local Open Scope Z_scope.

Section Pub.
Context {V Qt Cov Img F : Type}.
Notation event := (event V Qt Cov Img).
Notation action := (action V Qt Cov Img).
Notation ops_t := (filter_ops V Qt Cov Img F).
Notation node := (node V Qt Cov Img F).

(** the last stamp published or initialised at *)
Fixpoint bound (b : option Z) (l : list action) : option Z :=
  match l with
  | [] => b
  | Publish t :: l' | InitPose _ _ t :: l' | InitAccel _ t :: l' => bound (Some t) l'
  | _ :: l' => bound b l'
  end.
Fixpoint rising (b : option Z) (l : list action) : Prop :=
  match l with
  | [] => True
  | Publish t :: l' => (exists b0, b = Some b0 /\ b0 < t) /\ rising (Some t) l'
  | InitPose _ _ t :: l' | InitAccel _ t :: l' => rising (Some t) l'
  | _ :: l' => rising b l'
  end.
(** an image update has been handed over *)
Fixpoint seen (s : bool) (l : list action) : bool :=
  match l with
  | [] => s
  | AddImages _ _ :: l' => seen true l'
  | _ :: l' => seen s l'
  end.
Fixpoint images_first (s : bool) (l : list action) : Prop :=
  match l with
  | [] => True
  | AddImages _ _ :: l' => images_first true l'
  | Publish _ :: l' => s = true /\ images_first s l'
  | _ :: l' => images_first s l'
  end.

Lemma bound_app : forall l1 l2 b, bound b (l1 ++ l2) = bound (bound b l1) l2.
Proof. induction l1 as [|a l1 IH]; intros l2 b; [reflexivity|]. destruct a; cbn; apply IH. Qed.
Lemma rising_app : forall l1 l2 b, rising b (l1 ++ l2) <-> rising b l1 /\ rising (bound b l1) l2.
Proof.
  induction l1 as [|a l1 IH]; intros l2 b; [cbn; tauto|].
  destruct a; cbn; rewrite IH; tauto.
Qed.
Lemma seen_app : forall l1 l2 s, seen s (l1 ++ l2) = seen (seen s l1) l2.
Proof. induction l1 as [|a l1 IH]; intros l2 b; [reflexivity|]. destruct a; cbn; apply IH. Qed.
Lemma images_first_app : forall l1 l2 s,
  images_first s (l1 ++ l2) <-> images_first s l1 /\ images_first (seen s l1) l2.
Proof.
  induction l1 as [|a l1 IH]; intros l2 s; [cbn; tauto|].
  destruct a; cbn; rewrite IH; tauto.
Qed.

Lemma bound_no_init : forall l b c, (forall a, In a l -> is_init a = false) -> rising b l ->
  b = Some c -> exists d, bound b l = Some d /\ c <= d.
Proof.
  induction l as [|a l IH]; intros b c H R ->; [exists c; cbn; split; [reflexivity|lia]|].
  assert (H' : forall a, In a l -> is_init a = false) by (intros; apply H; now right).
  assert (Ha : is_init a = false) by (apply H; now left).
  destruct a; try discriminate; cbn in R |- *; try (now apply IH).
  destruct R as ((b0 & E & L) & R). injection E as <-.
  destruct (IH (Some t) t H' R eq_refl) as (d & D & K). exists d. split; [exact D|lia].
Qed.

Lemma seen_spec : forall l, seen false l = true -> exists m t, In (AddImages m t) l.
Proof.
  induction l as [|a l IH]; [discriminate|]. destruct a; cbn; intros H;
    try (destruct (IH H) as (m' & t' & K); exists m', t'; now right).
  exists m, t. now left.
Qed.

Variables (cfg : node_config Qt) (ops : ops_t) (f0 : F).
Hypothesis laws : filter_laws ops f0.

(** the invariant of a run *)
Definition good (n : node) (l : list action) : Prop :=
  rising None l /\ images_first false l /\
  match bound None l with
  | Some b => b <= f_safe ops (n_filter n)
  | None => phase_of n <> Running
  end /\
  (seen false l = false -> f_last_image ops (n_filter n) = None).

(** the same with the prefix [a :: _] of a callback that adds a measurement *)
Lemma uap_good : forall (n : node) l, good n l -> good (fst (update_and_publish ops n))
  (l ++ snd (update_and_publish ops n)).
Proof.
  intros n l (R & I & B & S). unfold update_and_publish.
  destruct (initialized n) eqn:E.
  2:{ cbn [fst snd]. rewrite app_nil_r. exact (conj R (conj I (conj B S))). }
  assert (PR : phase_of n = Running) by now apply phase_initialized.
  destruct (bound None l) as [b|] eqn:EB; [|congruence].
  destruct (f_last_image ops (n_filter n)) as [t|] eqn:EL; cbn [n_filter with_filter].
  - assert (S1 : seen false l = true).
    { destruct (seen false l); [reflexivity|]. specialize (S eq_refl). discriminate. }
    pose proof (fl_update_safe ops f0 laws t (n_filter n)) as U.
    destruct (Z.ltb_spec (f_safe ops (n_filter n)) (f_safe ops (f_update ops t (n_filter n)))) as [L|L];
      cbn [fst snd]; unfold good; rewrite rising_app, images_first_app, bound_app, seen_app, EB, S1;
      cbn [rising images_first bound seen published with_filter n_filter].
    + split; [split; [exact R|split; [exists b; split; [reflexivity|lia]|exact Logic.I]]|].
      split; [split; [exact I|split; [reflexivity|exact Logic.I]]|].
      split; [lia|discriminate].
    + split; [split; [exact R|exact Logic.I]|].
      split; [split; [exact I|exact Logic.I]|].
      split; [lia|discriminate].
  - rewrite Z.ltb_irrefl. cbn [fst snd]. rewrite app_nil_r. unfold good. rewrite EB.
    split; [exact R|]. split; [exact I|]. split; [exact B|auto].
Qed.

Lemma add_good : forall (n m : node) l a, good n l -> is_measurement a = true ->
  phase_of n = Running -> phase_of m = phase_of n -> n_filter m = n_filter n ->
  good (fst (after_add ops (effect ops (n_filter n) a) a m))
       (l ++ snd (after_add ops (effect ops (n_filter n) a) a m)).
Proof.
  intros n m l a (R & I & B & S) Ha PR Pm Fm. unfold after_add. cbn [fst snd].
  change (a :: ?x) with ([a] ++ x). rewrite app_assoc. apply uap_good.
  destruct (bound None l) as [b|] eqn:EB; [|congruence].
  pose proof (fl_measurement_safe ops f0 laws a (n_filter n) Ha) as FS.
  assert (NB : bound None (l ++ [a]) = Some b).
  { rewrite bound_app, EB. destruct a; try discriminate; reflexivity. }
  assert (NR : rising None (l ++ [a])).
  { apply rising_app. split; [exact R|]. destruct a; try discriminate; exact Logic.I. }
  assert (NI : images_first false (l ++ [a])).
  { apply images_first_app. split; [exact I|]. destruct a; try discriminate; exact Logic.I. }
  split; [exact NR|]. split; [exact NI|]. rewrite NB. cbn [n_filter with_filter].
  split; [rewrite FS; exact B|].
  rewrite seen_app. intros K.
  assert (S0 : seen false l = false).
  { destruct (seen false l); [|reflexivity]. destruct a; try discriminate. }
  apply (fl_images_only ops f0 laws).
  - intros m' t' ->. cbn in K. discriminate.
  - now apply S.
Qed.

Lemma same_good : forall (n m : node) l, good n l -> n_filter m = n_filter n ->
  (phase_of m = Running -> phase_of n = Running) -> good m (l ++ []).
Proof.
  intros n m l (R & I & B & S) Fm Pm. rewrite app_nil_r. split; [exact R|]. split; [exact I|].
  rewrite Fm. split; [|exact S]. destruct (bound None l); [exact B|]. intros K. now apply B, Pm.
Qed.

Lemma reset_good : forall (n m : node) l a t, good n l -> init_time a = Some t ->
  n_filter m = effect ops (n_filter n) a -> good m (l ++ [a]).
Proof.
  intros n m l a t (R & I & B & S) Ha Fm.
  assert (K : f_safe ops (n_filter m) = t /\ bound None (l ++ [a]) = Some t).
  { rewrite bound_app, Fm. destruct a; try discriminate; injection Ha as <-; cbn [effect bound].
    - split; [apply (fl_reset_pose_safe ops f0 laws)|reflexivity].
    - split; [apply (fl_reset_accel_safe ops f0 laws)|reflexivity]. }
  destruct K as (K1 & K2). split; [|split; [|split]].
  - apply rising_app. split; [exact R|]. destruct a; try discriminate; exact Logic.I.
  - apply images_first_app. split; [exact I|]. destruct a; try discriminate; exact Logic.I.
  - rewrite K2, K1. lia.
  - rewrite seen_app. intros S1.
    assert (S0 : seen false l = false).
    { destruct (seen false l); [|reflexivity]. destruct a; discriminate. }
    rewrite Fm. apply (fl_images_only ops f0 laws); [intros m' t' ->; discriminate|now apply S].
Qed.

Lemma step_good : forall (n : node) l e, good n l ->
  good (fst (step cfg ops n e)) (l ++ snd (step cfg ops n e)).
Proof.
  intros n l e G.
  assert (K : forall cam img t, good (fst (img_callback ops cam img t n))
    (l ++ snd (img_callback ops cam img t n))).
  { intros cam img t. unfold img_callback. destruct img as [im|]; [|now apply (same_good n)].
    destruct (initialized n) eqn:I; [|now apply (same_good n)].
    apply phase_initialized in I. cbn zeta.
    match goal with |- context [if ?b then after_add _ _ _ _ else _] => destruct b end;
      [|now apply (same_good n)].
    now apply (add_good n (with_imgs _ n) l (AddImages _ t)). }
  destruct e as [acc gyr t|cam img t|p q t|p q c t|v t| |p q]; cbn [step].
  - unfold imu_callback. destruct (n_state n) eqn:E.
    + now apply (reset_good n _ l (InitAccel acc t) t).
    + now apply (reset_good n _ l (InitPose (n_pos n) (n_att n) t) t).
    + apply (add_good n n l (AddPrediction acc gyr t)); auto. unfold phase_of. now rewrite E.
  - unfold img_entry. destruct cam as [|[|cam]]; [apply K| |now apply (same_good n)].
    destruct (1 <? c_cams cfg)%nat; [apply K|now apply (same_good n)].
  - unfold pose_callback. destruct (initialized n) eqn:I; [|now apply (same_good n)].
    apply phase_initialized in I. now apply (add_good n (with_pose _ n) l (AddPose _ (t + c_offset cfg))).
  - unfold odometry_callback. destruct (initialized n) eqn:I; [|now apply (same_good n)].
    apply phase_initialized in I. now apply (add_good n (with_pose _ n) l (AddPose _ (t + c_offset cfg))).
  - unfold velocity_callback. destruct (initialized n) eqn:I; [|now apply (same_good n)].
    apply phase_initialized in I. now apply (add_good n n l (AddVelocity v t)).
  - cbn [fst snd]. unfold request_reset. destruct (initialized n) eqn:I; [|now apply (same_good n)].
    apply phase_initialized in I. now apply (same_good n).
  - cbn [fst snd]. unfold request_reset_to_pose. destruct (initialized n) eqn:I; [|now apply (same_good n)].
    apply phase_initialized in I. now apply (same_good n).
Qed.

Lemma run_good : forall es p q pm,
  good (fst (run cfg ops (node_init cfg f0 p q pm) es)) (snd (run cfg ops (node_init cfg f0 p q pm) es)).
Proof.
  intros es p q pm. induction es as [|e es IH] using rev_ind.
  - cbn [run fst snd]. split; [exact I|]. split; [exact I|]. split; [discriminate|].
    intros _. exact (fl_start ops f0 laws).
  - rewrite run_snoc. cbn [fst snd]. now apply step_good.
Qed.

(** a callback publishes exactly when it makes the safe time advance without initialising *)
Lemma uap_publish : forall (n : node) s, phase_of n = Running ->
  In (Publish s) (snd (update_and_publish ops n)) <->
  f_safe ops (n_filter n) < f_safe ops (n_filter (fst (update_and_publish ops n))) /\
  s = f_safe ops (n_filter (fst (update_and_publish ops n))).
Proof.
  intros n s P. apply phase_initialized in P. unfold update_and_publish. rewrite P.
  destruct (f_last_image ops (n_filter n)) as [t|]; cbn [n_filter with_filter].
  - destruct (Z.ltb_spec (f_safe ops (n_filter n)) (f_safe ops (f_update ops t (n_filter n)))) as [L|L];
      cbn [fst snd published with_filter n_filter In].
    + split; [intros [H|[H|[]]]; [discriminate|injection H as <-; auto]|intros [_ ->]; auto].
    + split; [intros [H|[]]; discriminate|intros [H _]; lia].
  - rewrite Z.ltb_irrefl. cbn [fst snd In]. split; [intros []|intros [H _]; lia].
Qed.

Lemma add_publish : forall (n m : node) a s, is_measurement a = true ->
  phase_of n = Running -> phase_of m = phase_of n -> n_filter m = n_filter n ->
  In (Publish s) (snd (after_add ops (effect ops (n_filter n) a) a m)) <->
  f_safe ops (n_filter n) < f_safe ops (n_filter (fst (after_add ops (effect ops (n_filter n) a) a m))) /\
  s = f_safe ops (n_filter (fst (after_add ops (effect ops (n_filter n) a) a m))).
Proof.
  intros n m a s Ha Pn Pm Fm. unfold after_add. cbn [fst snd In].
  rewrite (uap_publish (with_filter (effect ops (n_filter n) a) m))
    by (change (phase_of m = Running); congruence).
  cbn [n_filter with_filter]. rewrite (fl_measurement_safe ops f0 laws a _ Ha).
  split; [intros [->|H]; [discriminate|exact H]|now right].
Qed.

Lemma step_publish : forall (n : node) e s, phase_of n = Running ->
  In (Publish s) (snd (step cfg ops n e)) <->
  f_safe ops (n_filter n) < f_safe ops (n_filter (fst (step cfg ops n e))) /\
  s = f_safe ops (n_filter (fst (step cfg ops n e))).
Proof.
  intros n e s P.
  assert (I : initialized n = true) by now apply phase_initialized.
  assert (N : forall m : node, n_filter m = n_filter n -> In (Publish s) (@nil action) <->
    f_safe ops (n_filter n) < f_safe ops (n_filter m) /\ s = f_safe ops (n_filter m)).
  { intros m ->. split; [intros []|intros [H _]; lia]. }
  assert (K : forall cam img t, In (Publish s) (snd (img_callback ops cam img t n)) <->
    f_safe ops (n_filter n) < f_safe ops (n_filter (fst (img_callback ops cam img t n))) /\
    s = f_safe ops (n_filter (fst (img_callback ops cam img t n)))).
  { intros cam img t. unfold img_callback. destruct img as [im|]; [|now apply N].
    rewrite I. cbn zeta.
    match goal with |- context [if ?b then after_add _ _ _ _ else _] => destruct b end; [|now apply N].
    now apply (add_publish n (with_imgs _ n) (AddImages _ t)). }
  destruct e as [acc gyr t|cam img t|p q t|p q c t|v t| |p q]; cbn [step].
  - unfold imu_callback. unfold initialized in I. destruct (n_state n); try discriminate.
    now apply (add_publish n n (AddPrediction acc gyr t)).
  - unfold img_entry. destruct cam as [|[|cam]]; [apply K| |now apply N].
    destruct (1 <? c_cams cfg)%nat; [apply K|now apply N].
  - unfold pose_callback. rewrite I. now apply (add_publish n (with_pose _ n) (AddPose _ (t + c_offset cfg))).
  - unfold odometry_callback. rewrite I.
    now apply (add_publish n (with_pose _ n) (AddPose _ (t + c_offset cfg))).
  - unfold velocity_callback. rewrite I. now apply (add_publish n n (AddVelocity v t)).
  - unfold request_reset. rewrite I. now apply N.
  - unfold request_reset_to_pose. rewrite I. now apply N.
Qed.

(** one callback publishes at most once *)
Definition publications (l : list action) : list Z :=
  flat_map (fun a => match a with Publish t => [t] | _ => [] end) l.

End Pub.
