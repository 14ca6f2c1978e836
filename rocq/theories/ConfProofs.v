From Coq Require Import List Bool Arith ZArith String Lia.
Import ListNotations.
From Verif Require Import ConfModel ConfSpec.
Local Open Scope string_scope.
Local Open Scope list_scope.

(** ** equality tests *)
Lemma ax_eqb_eq x y : ax_eqb x y = true <-> x = y.
Proof. destruct x, y; cbn; split; congruence. Qed.
Lemma qc_eqb_eq x y : qc_eqb x y = true <-> x = y.
Proof. destruct x, y; cbn; split; congruence. Qed.
Lemma handler_eqb_eq x y : handler_eqb x y = true <-> x = y.
Proof. destruct x, y; cbn; split; congruence. Qed.
Lemma block_eqb_eq x y : block_eqb x y = true <-> x = y.
Proof. destruct x, y; cbn; rewrite ?Nat.eqb_eq; split; congruence. Qed.
Lemma var_eqb_eq x y : var_eqb x y = true <-> x = y.
Proof.
  destruct x, y; cbn; rewrite ?andb_true_iff, ?block_eqb_eq, ?ax_eqb_eq, ?qc_eqb_eq, ?handler_eqb_eq, ?Nat.eqb_eq, ?String.eqb_eq;
    (split; [intros; repeat match goal with H : _ /\ _ |- _ => destruct H end; congruence|intros Q; try discriminate; injection Q; intros; subst; auto]).
Qed.
Lemma seg_eqb_eq x y : seg_eqb x y = true <-> x = y.
Proof.
  destruct x, y; cbn; rewrite ?andb_true_iff, ?Nat.eqb_eq, ?String.eqb_eq;
    (split; [intros; repeat match goal with H : _ /\ _ |- _ => destruct H end; congruence|intros Q; try discriminate; injection Q; intros; subst; auto]).
Qed.
Lemma key_eqb_eq x y : key_eqb x y = true <-> x = y.
Proof.
  revert y. induction x as [|a x IH]; destruct y as [|b y]; cbn; try (split; congruence).
  rewrite andb_true_iff, seg_eqb_eq, IH. split; [intros [-> ->]; reflexivity|intros Q; injection Q; auto].
Qed.

(** ** registrations act on each variable separately *)
Definition eff (h : handler) (v : var) (o : op) (x : option key) : option key :=
  match o with
  | Reg h' v' k => if handler_eqb h' h && var_eqb v' v then Some k else x
  | DelVar h' v' => if handler_eqb h' h && var_eqb v' v then None else x
  | DelKey h' k => match x with Some k' => if handler_eqb h' h && key_eqb k' k then None else x | None => None end
  end.
Definition at_ (h : handler) (v : var) (os : list op) (x : option key) : option key := fold_left (fun x o => eff h v o x) os x.
Lemma at_app h v l l' x : at_ h v (l ++ l') x = at_ h v l' (at_ h v l x).
Proof. apply fold_left_app. Qed.

Definition look (h : handler) (v : var) (r : list entry) : option key := option_map e_k (find (at_var h v) r).
Definition unique (r : list entry) : Prop := NoDup (map fst r).

Lemma at_var_eq h v e : at_var h v e = true <-> fst e = (h, v).
Proof.
  destruct e as [[h' v'] k]. unfold at_var; cbn. rewrite andb_true_iff, handler_eqb_eq, var_eqb_eq.
  split; [intros [-> ->]; reflexivity|intros Q; injection Q; auto].
Qed.
Lemma look_in h v k r : unique r -> (look h v r = Some k <-> In (h, v, k) r).
Proof.
  unfold unique, look. induction r as [|e r IH]; cbn [find map option_map]; intros U.
  - split; [discriminate|intros []].
  - inversion U as [|? ? N U']; subst. destruct (at_var h v e) eqn:E.
    + apply at_var_eq in E. destruct e as [[h' v'] k']. cbn in E, N |- *. injection E as -> ->.
      split.
      * intros Q; injection Q as ->. left; reflexivity.
      * intros [Q|Q]; [injection Q as ->; reflexivity|]. exfalso. apply N. apply in_map_iff. exists (h, v, k). auto.
    + rewrite (IH U'). cbn. split; [auto|intros [Q|Q]; [|exact Q]].
      subst e. exfalso. assert (F : at_var h v (h, v, k) = true) by (apply at_var_eq; reflexivity). congruence.
Qed.

Lemma unique_filter f r : unique r -> unique (filter f r).
Proof.
  unfold unique. induction r as [|e r IH]; cbn; intros U; [exact U|]. inversion U as [|? ? N U']; subst.
  destruct (f e); [|auto]. cbn. constructor; [|auto]. intros Q. apply N.
  apply in_map_iff in Q. destruct Q as [e' [Q1 Q2]]. apply filter_In in Q2. apply in_map_iff. exists e'. tauto.
Qed.
Lemma unique_op r o : unique r -> unique (apply_op r o).
Proof.
  intros U. destruct o as [h v k|h v|h k]; cbn; [|apply unique_filter; exact U|apply unique_filter; exact U].
  unfold unique. rewrite map_app. cbn.
  assert (G : forall l, NoDup l -> ~ In (h, v) l -> NoDup (l ++ [(h, v)])).
  { clear. induction l as [|x l IH]; cbn; intros N I; [constructor; [intros []|constructor]|].
    inversion N; subst. constructor; [|apply IH; auto]. rewrite in_app_iff. cbn. intros [Q|[Q|[]]]; [auto|subst; apply I; auto]. }
  apply G; [apply unique_filter; exact U|]. intros Q. apply in_map_iff in Q. destruct Q as [e [E I]]. apply filter_In in I.
  destruct I as [_ I]. apply negb_true_iff in I. apply at_var_eq in E. congruence.
Qed.
Lemma unique_register os : unique (register os).
Proof.
  unfold register. assert (G : forall r, unique r -> unique (fold_left apply_op os r)).
  { induction os as [|o os IH]; cbn; intros r U; [exact U|]. apply IH, unique_op, U. }
  apply G. constructor.
Qed.

Lemma look_filter_var h v h' v' r :
  look h v (filter (fun e => negb (at_var h' v' e)) r) = if handler_eqb h' h && var_eqb v' v then None else look h v r.
Proof.
  unfold look. induction r as [|e r IH]; cbn [filter find].
  - destruct (_ && _); reflexivity.
  - destruct (at_var h' v' e) eqn:A; cbn [negb].
    + rewrite IH. destruct (handler_eqb h' h && var_eqb v' v) eqn:Q; [reflexivity|].
      destruct (at_var h v e) eqn:B; [|reflexivity]. exfalso.
      apply at_var_eq in A. apply at_var_eq in B. rewrite A in B. injection B as -> ->.
      assert (handler_eqb h h && var_eqb v v = true) by (rewrite andb_true_iff, handler_eqb_eq, var_eqb_eq; auto). congruence.
    + cbn [find]. destruct (at_var h v e) eqn:B.
      * destruct (handler_eqb h' h && var_eqb v' v) eqn:Q; [|reflexivity]. exfalso.
        apply andb_true_iff in Q. destruct Q as [Q1 Q2]. apply handler_eqb_eq in Q1. apply var_eqb_eq in Q2. subst. congruence.
      * exact IH.
Qed.
Lemma look_none_filter h v f r : look h v r = None -> look h v (filter f r) = None.
Proof.
  unfold look. induction r as [|e r IH]; cbn [filter find]; [auto|]. destruct (at_var h v e) eqn:A; [discriminate|].
  intros N. destruct (f e); cbn [find]; rewrite ?A; auto.
Qed.
Lemma look_filter_key h v h' k r : unique r ->
  look h v (filter (fun e => negb (at_key h' k e)) r) = eff h v (DelKey h' k) (look h v r).
Proof.
  intros U. destruct (look h v r) as [k'|] eqn:L; [|cbn; apply look_none_filter; exact L].
  cbn. apply (look_in h v k' r U) in L.
  assert (F : at_key h' k (h, v, k') = (handler_eqb h' h && key_eqb k' k)).
  { unfold at_key; cbn. f_equal. destruct h, h'; reflexivity. }
  destruct (handler_eqb h' h && key_eqb k' k) eqn:Q.
  - destruct (look h v _) as [k2|] eqn:L2; [|reflexivity]. exfalso.
    apply look_in in L2; [|apply unique_filter; exact U]. apply filter_In in L2. destruct L2 as [L2 L3].
    assert (k2 = k'). { apply look_in in L2; [|exact U]. apply look_in in L; [|exact U]. congruence. }
    subst. rewrite F in L3. discriminate.
  - apply look_in; [apply unique_filter; exact U|]. apply filter_In. split; [exact L|]. rewrite F. reflexivity.
Qed.
Lemma look_op h v r o : unique r -> look h v (apply_op r o) = eff h v o (look h v r).
Proof.
  intros U. destruct o as [h' v' k|h' v'|h' k]; cbn [apply_op].
  - assert (S : forall l, look h v (l ++ [(h', v', k)]) = match look h v l with Some x => Some x | None => if handler_eqb h' h && var_eqb v' v then Some k else None end).
    { intros l. unfold look. induction l as [|e l IH]; cbn [find app option_map].
      - unfold at_var; cbn. destruct (_ && _); reflexivity.
      - destruct (at_var h v e); [reflexivity|exact IH]. }
    rewrite S, look_filter_var. cbn. destruct (handler_eqb h' h && var_eqb v' v); [reflexivity|]. destruct (look h v r); reflexivity.
  - apply look_filter_var.
  - apply look_filter_key. exact U.
Qed.
Lemma look_register h v os : look h v (register os) = at_ h v os None.
Proof.
  unfold register, at_. change (@None key) with (look h v []). assert (U : unique []) by constructor.
  revert U. generalize (@nil entry). induction os as [|o os IH]; cbn; intros r U; [reflexivity|].
  rewrite IH by (apply unique_op; exact U). rewrite look_op by exact U. reflexivity.
Qed.
Lemma registered h v k os : In (h, v, k) (register os) <-> at_ h v os None = Some k.
Proof. rewrite <- look_register. symmetry. apply look_in, unique_register. Qed.

(** ** loops *)
Lemma loop_skip h v n f x : (forall i y, at_ h v (f i) y = y) -> at_ h v (loop n f) x = x.
Proof.
  intros F. unfold loop. generalize (seq 0 n). intros l. revert x. induction l as [|i l IH]; cbn [flat_map]; intros x; [reflexivity|].
  rewrite at_app, F. apply IH.
Qed.
Lemma loop_hit h v n f j x : (forall i y, i <> j -> at_ h v (f i) y = y) -> at_ h v (loop n f) x = if Nat.ltb j n then at_ h v (f j) x else x.
Proof.
  intros F. unfold loop.
  assert (G : forall m a y, at_ h v (flat_map f (seq a m)) y = if Nat.leb a j && Nat.ltb j (a + m) then at_ h v (f j) y else y).
  { induction m as [|m IH]; intros a y; cbn [seq flat_map].
    - replace (a + 0) with a by lia. destruct (Nat.leb_spec a j), (Nat.ltb_spec j a); cbn; try reflexivity; lia.
    - rewrite at_app, IH. destruct (Nat.eq_dec a j) as [->|N].
      + destruct (Nat.leb_spec (S j) j); [lia|]. cbn [andb]. destruct (Nat.leb_spec j j); [|lia].
        destruct (Nat.ltb_spec j (j + S m)); [reflexivity|lia].
      + rewrite (F a y N). replace (S a + m) with (a + S m) by lia.
        destruct (Nat.leb_spec (S a) j), (Nat.leb_spec a j); try lia; reflexivity. }
  rewrite G. reflexivity.
Qed.

(** ** each loop only touches the variables with its index *)
Inductive kind := Kcam | Kmax | Kpose.
Definition size (n : sizes) (k : kind) : nat := match k with Kcam => z_cam n | Kmax => z_max n | Kpose => z_pose n end.
Definition block_idx (b : block) : option (kind * nat) :=
  match b with Bvep c | Bvea c => Some (Kcam, c) | Bfea i => Some (Kmax, i) | Bpop i | Bpoa i => Some (Kpose, i) | _ => None end.
Definition idx (v : var) : option (kind * nat) :=
  match v with
  | StVec b _ | StQuat b _ | InitCov b _ | PreNoise b _ => block_idx b
  | StNor i _ | StDep i | StDepType i | StTrack i | Stat i _ => Some (Kmax, i)
  | AuxVec c _ | AuxQuat c _ | Calib c => Some (Kcam, c)
  | _ => None
  end.
Definition target (o : op) : option var := match o with Reg _ v _ | DelVar _ v => Some v | DelKey _ _ => None end.
Definition confined (k : kind) (f : nat -> list op) : Prop := forall i, Forall (fun o => option_map idx (target o) = Some (Some (k, i))) (f i).
Lemma at_untouched h v os x : Forall (fun o => exists w, target o = Some w /\ w <> v) os -> at_ h v os x = x.
Proof.
  intros F. revert x. induction F as [|o os [w [T N]] F IH]; intros x; [reflexivity|].
  cbn. unfold at_ in IH. rewrite IH. assert (Q : var_eqb w v = false) by (destruct (var_eqb w v) eqn:Q; [apply var_eqb_eq in Q; contradiction|reflexivity]).
  destruct o as [h' v' k|h' v'|h' k]; cbn in *; try discriminate; injection T as ->; rewrite Q, andb_false_r; reflexivity.
Qed.
Definition pick (n : sizes) (v : var) (k : kind) (f : nat -> list op) : list op :=
  match idx v with
  | Some (k', j) => match k, k' with Kcam, Kcam | Kmax, Kmax | Kpose, Kpose => if Nat.ltb j (size n k') then f j else [] | _, _ => [] end
  | None => []
  end.
Lemma at_loop n k f h v x : confined k f -> at_ h v (loop (size n k) f) x = at_ h v (pick n v k f) x.
Proof.
  intros C. unfold pick.
  assert (U : forall i y, idx v <> Some (k, i) -> at_ h v (f i) y = y).
  { intros i y N. apply at_untouched. eapply Forall_impl; [|apply (C i)]. intros o T. cbv beta in T. destruct (target o) as [w|]; [|discriminate]. cbn in T. injection T as T.
    exists w. split; [reflexivity|]. intros ->. contradiction. }
  destruct (idx v) as [[k' j]|] eqn:I.
  - destruct k, k'; try (apply loop_skip; intros; apply U; congruence); (rewrite (loop_hit h v _ f j x) by (intros; apply U; congruence); cbn [size]; destruct (Nat.ltb _ _); reflexivity).
  - apply loop_skip. intros. apply U. congruence.
Qed.

Definition elements (L : kind -> (nat -> list op) -> list op) (h : handler) (v : block -> ax -> var) (p : list seg) : list op :=
  imu_elements h v p ++ L Kcam (camera_elements h v p) ++ L Kmax (feature_elements h v p) ++ L Kpose (pose_elements h v p).
Definition before (L : kind -> (nat -> list op) -> list op) : list op :=
  (elements L Pred PreNoise [Nm "PredictionNoise"] ++ iteration Pred ++ lwf_updates ++
   (state_imu ++ L Kcam state_camera ++ L Kmax state_feature ++ L Kpose state_pose) ++ elements L Root InitCov [Nm "Init"; Nm "Covariance"]) ++
  (prediction_thresholds ++ L Kmax prediction_feature ++ L Kcam prediction_camera ++ L Kpose prediction_pose) ++
  not_iterated Zero ++ img_ctor ++ pose_ctor ++ velocity_ctor ++
  filter_common ++ L Kcam filter_camera ++ L Kpose filter_pose.
Definition after (L : kind -> (nat -> list op) -> list op) : list op := L Kmax filter_feature ++ filter_last.
Definition flat (L : kind -> (nat -> list op) -> list op) (al : list op) : list op := before L ++ al ++ after L.
Lemma construction_flat n : construction n = flat (fun k => loop (size n k)) (filter_alignments n).
Proof.
  unfold construction, lwf_defaults, prediction_ctor, filter_ctor, flat, before, after, elements, by_element, state_elements, size.
  rewrite <- !app_assoc. reflexivity.
Qed.
Ltac confine := intros i; repeat (apply Forall_cons; [reflexivity|]); apply Forall_nil.
Lemma at_before h v n x : at_ h v (before (fun k => loop (size n k))) x = at_ h v (before (pick n v)) x.
Proof.
  unfold before, elements. rewrite !at_app.
  repeat match goal with |- context [at_ h v (loop (size n ?k) ?f) ?x] => rewrite (at_loop n k f h v x) by confine end.
  reflexivity.
Qed.
Lemma at_after h v n x : at_ h v (after (fun k => loop (size n k))) x = at_ h v (after (pick n v)) x.
Proof.
  unfold after. rewrite !at_app.
  repeat match goal with |- context [at_ h v (loop (size n ?k) ?f) ?x] => rewrite (at_loop n k f h v x) by confine end.
  reflexivity.
Qed.
Lemma at_flat h v n al : at_ h v (flat (fun k => loop (size n k)) al) None = at_ h v (flat (pick n v) al) None.
Proof. unfold flat. rewrite !at_app, at_before, at_after. reflexivity. Qed.
Definition alignments (p : nat) : list op :=
  match p with
  | 0 => []
  | 1 => filter_alignment 0 "IrIW" "qWI"
  | _ => filter_alignment 0 "IrIW" "qWI" ++ filter_alignment 1 "MrMV" "qVM"
  end.
Lemma filter_alignments_cases n : filter_alignments n = alignments (z_pose n).
Proof. unfold filter_alignments, inertial_index, body_index. destruct (z_pose n) as [|[|p]]; reflexivity. Qed.

(** only registrations with the right handler and the right kind of variable matter *)
Definition tag (v : var) : nat :=
  match v with
  | StVec _ _ => 0 | StQuat _ _ => 1 | StNor _ _ => 2 | StDep _ => 3 | StDepType _ => 4 | StTrack _ => 5 | AuxVec _ _ => 6 | AuxQuat _ _ => 7
  | InitCov _ _ => 8 | PreNoise _ _ => 9 | UpdNoise _ _ => 10 | UpdNoiseAtt _ _ => 11 | DefNoise _ => 12 | DefNoiseAtt _ => 13 | Stat _ _ => 14 | Calib _ => 15
  | MemV _ _ _ => 16 | MemQ _ _ _ => 17 | Mem _ _ => 18
  end.
Definition relevant (h : handler) (t : nat) (o : op) : bool :=
  match o with Reg h' v _ | DelVar h' v => handler_eqb h' h && Nat.eqb (tag v) t | DelKey h' _ => handler_eqb h' h end.
Lemma at_relevant h v os x : at_ h v os x = at_ h v (filter (relevant h (tag v)) os) x.
Proof.
  revert x. induction os as [|o os IH]; intros x; [reflexivity|]. cbn [filter].
  destruct (relevant h (tag v) o) eqn:Q; [cbn; apply IH|].
  replace (at_ h v (o :: os) x) with (at_ h v os x); [apply IH|]. cbn. unfold at_. f_equal.
  assert (T : forall w, Nat.eqb (tag w) (tag v) = false -> var_eqb w v = false).
  { intros w N. destruct (var_eqb w v) eqn:E; [|reflexivity]. apply var_eqb_eq in E. subst. rewrite Nat.eqb_refl in N. discriminate. }
  destruct o as [h' w k|h' w|h' k]; cbn in Q |- *.
  - destruct (handler_eqb h' h); cbn in *; [rewrite (T w Q)|]; reflexivity.
  - destruct (handler_eqb h' h); cbn in *; [rewrite (T w Q)|]; reflexivity.
  - destruct x as [k'|]; [|reflexivity]. rewrite Q. reflexivity.
Qed.

Definition home (v : var) : handler :=
  match v with
  | StVec (Bpop _) _ | StQuat (Bpoa _) _ | InitCov (Bpop _) _ | InitCov (Bpoa _) _ | PreNoise (Bpop _) _ | PreNoise (Bpoa _) _ => PoseU
  | StVec _ _ | StQuat _ _ | StNor _ _ | StDep _ | StDepType _ | AuxVec _ _ | AuxQuat _ _ | InitCov _ _ | Calib _ => Root
  | StTrack _ | Stat _ _ => ImgU
  | PreNoise _ _ => Pred
  | UpdNoise h _ | UpdNoiseAtt h _ => h
  | DefNoise _ | DefNoiseAtt _ => PoseU
  | MemV h _ _ | MemQ h _ _ => h
  | Mem ImgU m => if String.eqb m "verbose_" then Root else if String.eqb m "minTimeForZeroVelocityUpdate_" || String.eqb m "isZeroVelocityUpdateEnabled_" then Zero else ImgU
  | Mem h _ => h
  end.
Definition expected (n : sizes) (h : handler) (v : var) : option key :=
  if handler_eqb h (home v) then option_map (skipn (List.length (path h))) (key_of n v) else None.

Lemma at_no_pose h v n p : (forall j, idx v <> Some (Kpose, j)) -> at_ h v (flat (pick n v) (alignments p)) None = at_ h v (flat (pick n v) []) None.
Proof.
  intros N. unfold flat. rewrite !at_app. generalize (at_ h v (before (pick n v)) None). intros x.
  change (at_ h v [] x) with x. f_equal. apply at_untouched.
  assert (T : forall i lin rot, Forall (fun o => exists w, target o = Some w /\ w <> v) (filter_alignment (Z.of_nat i) lin rot)).
  { intros i lin rot. unfold filter_alignment. destruct (Z.leb 0 (Z.of_nat i)); [|constructor]. cbv zeta.
    repeat (apply Forall_cons; [eexists; split; [reflexivity|intros E; subst v; eapply N; reflexivity]|]). apply Forall_nil. }
  destruct p as [|[|p]]; cbn [alignments]; [constructor|apply (T 0)|apply Forall_app; split; [apply (T 0)|apply (T 1)]].
Qed.

Ltac filt := rewrite at_relevant;
  match goal with |- at_ _ _ ?l None = _ => let l' := eval vm_compute in l in replace l with l' by (vm_cast_no_check (eq_refl l')) end.
Ltac fin := cbn; rewrite ?Nat.eqb_refl; cbn; reflexivity.
Ltac start := rewrite construction_flat, at_flat, filter_alignments_cases; try (rewrite at_no_pose by (cbn; congruence));
  unfold pick, expected; cbn [idx block_idx size key_of].
Ltac bound := unfold within; try match goal with |- context [Nat.ltb ?i ?n] => destruct (Nat.ltb i n) end.
Ltac pose_bound n i :=
  unfold pose_part, within; destruct (z_pose n) as [|[|p]], i as [|[|i]]; cbn [Nat.ltb Nat.leb alignments];
  try match goal with |- context [match ?p with 0 => false | S m' => Nat.leb ?j m' end] => destruct (match p with 0 => false | S m' => Nat.leb j m' end) end.
Lemma at_StVec n h b a : at_ h (StVec b a) (construction n) None = expected n h (StVec b a).
Proof.
  destruct b as [| | | | |c|c|i|i|i]; start; [bound|bound|bound|bound|bound|bound|bound|bound|pose_bound n i|pose_bound n i]; destruct h; filt; destruct a; fin.
Qed.
Lemma at_StQuat n h b a : at_ h (StQuat b a) (construction n) None = expected n h (StQuat b a).
Proof.
  destruct b as [| | | | |c|c|i|i|i]; start; [bound|bound|bound|bound|bound|bound|bound|bound|pose_bound n i|pose_bound n i]; destruct h; filt; destruct a; fin.
Qed.
Lemma at_InitCov n h b a : at_ h (InitCov b a) (construction n) None = expected n h (InitCov b a).
Proof.
  destruct b as [| | | | |c|c|i|i|i]; start; [bound|bound|bound|bound|bound|bound|bound|bound|pose_bound n i|pose_bound n i]; destruct h; filt; destruct a; fin.
Qed.
Lemma at_PreNoise n h b a : at_ h (PreNoise b a) (construction n) None = expected n h (PreNoise b a).
Proof.
  destruct b as [| | | | |c|c|i|i|i]; start; [bound|bound|bound|bound|bound|bound|bound|bound|pose_bound n i|pose_bound n i]; destruct h; filt; destruct a; fin.
Qed.
Lemma at_StNor n h i q : at_ h (StNor i q) (construction n) None = expected n h (StNor i q).
Proof. start. bound; destruct h; filt; destruct q; fin. Qed.
Lemma at_StDep n h i : at_ h (StDep i) (construction n) None = expected n h (StDep i).
Proof. start. bound; destruct h; filt; fin. Qed.
Lemma at_StDepType n h i : at_ h (StDepType i) (construction n) None = expected n h (StDepType i).
Proof. start. bound; destruct h; filt; fin. Qed.
Lemma at_StTrack n h i : at_ h (StTrack i) (construction n) None = expected n h (StTrack i).
Proof. start. bound; destruct h; filt; fin. Qed.
Lemma at_AuxVec n h i q : at_ h (AuxVec i q) (construction n) None = expected n h (AuxVec i q).
Proof. start. bound; destruct h; filt; destruct q; fin. Qed.
Lemma at_AuxQuat n h i q : at_ h (AuxQuat i q) (construction n) None = expected n h (AuxQuat i q).
Proof. start. bound; destruct h; filt; destruct q; fin. Qed.
Lemma at_Calib n h i : at_ h (Calib i) (construction n) None = expected n h (Calib i).
Proof. start. bound; destruct h; filt; fin. Qed.
Lemma at_UpdNoise n h h' a : at_ h (UpdNoise h' a) (construction n) None = expected n h (UpdNoise h' a).
Proof. start. destruct h; filt; destruct h', a; fin. Qed.
Lemma at_UpdNoiseAtt n h h' a : at_ h (UpdNoiseAtt h' a) (construction n) None = expected n h (UpdNoiseAtt h' a).
Proof. start. destruct h; filt; destruct h', a; fin. Qed.
Lemma at_DefNoise n h a : at_ h (DefNoise a) (construction n) None = expected n h (DefNoise a).
Proof. start. destruct h; filt; destruct a; fin. Qed.
Lemma at_DefNoiseAtt n h a : at_ h (DefNoiseAtt a) (construction n) None = expected n h (DefNoiseAtt a).
Proof. start. destruct h; filt; destruct a; fin. Qed.
(** variables with a name *)
Ltac str m := cbn [at_ fold_left eff handler_eqb var_eqb andb ax_eqb qc_eqb]; rewrite ?Nat.eqb_refl; cbn [andb];
  rewrite ?andb_true_r, ?andb_false_r, ?(String.eqb_sym m);
  repeat match goal with |- context [String.eqb ?s m] => destruct (String.eqb_spec s m); [subst m; vm_compute; reflexivity|] end;
  cbn; reflexivity.
Lemma at_Stat n h i m : at_ h (Stat i m) (construction n) None = expected n h (Stat i m).
Proof. start. bound; destruct h; filt; unfold stat_key; str m. Qed.
Lemma at_MemV n h h' m a : at_ h (MemV h' m a) (construction n) None = expected n h (MemV h' m a).
Proof. start. destruct h; filt; destruct h', a; str m. Qed.
Lemma at_MemQ n h h' m q : at_ h (MemQ h' m q) (construction n) None = expected n h (MemQ h' m q).
Proof. start. destruct h; filt; destruct h', q; str m. Qed.

Definition all_handlers : list handler := [Root; Pred; ImgU; Zero; PoseU; VelU].
Lemma all_handlers_all h : In h all_handlers.
Proof. destruct h; cbn; tauto. Qed.
Definition plain_ops : list op := flat (fun _ _ => []) [].
Definition member_names : list string :=
  flat_map (fun o => match target o with Some (Mem _ m) => [m] | _ => [] end) plain_ops.
Lemma at_none h v os : Forall (fun o => match target o with Some w => w <> v | None => True end) os -> at_ h v os None = None.
Proof.
  induction 1 as [|o os T F IH]; [reflexivity|]. cbn. replace (eff h v o None) with (@None key); [exact IH|].
  assert (Q : forall w, w <> v -> var_eqb w v = false) by (intros w N; destruct (var_eqb w v) eqn:E; [apply var_eqb_eq in E; contradiction|reflexivity]).
  destruct o as [h' w k|h' w|h' k]; cbn in *; rewrite ?(Q w T), ?andb_false_r; reflexivity.
Qed.
Definition okey_eqb (x y : option key) : bool := match x, y with Some a, Some b => key_eqb a b | None, None => true | _, _ => false end.
Lemma okey_eqb_eq x y : okey_eqb x y = true -> x = y.
Proof. destruct x, y; cbn; try discriminate; [|reflexivity]. intros Q. apply key_eqb_eq in Q. congruence. Qed.
Definition some_sizes : sizes := {| z_max := 0; z_cam := 0; z_pose := 0 |}.
Lemma members_checked :
  forallb (fun m => forallb (fun h' => forallb (fun h => okey_eqb (at_ h (Mem h' m) plain_ops None) (expected some_sizes h (Mem h' m))) all_handlers) all_handlers) member_names = true.
Proof. vm_compute. reflexivity. Qed.
Lemma members_named : forallb (fun e => if in_dec string_dec (snd (fst e)) member_names then true else false) members = true.
Proof. vm_compute. reflexivity. Qed.
Lemma member_key_in h m l k : member_key h m l = Some k -> In (h, m, k) l.
Proof.
  induction l as [|[[h' m'] k'] l IH]; cbn; [discriminate|].
  destruct (handler_eqb h h' && String.eqb m m') eqn:Q.
  - apply andb_true_iff in Q. destruct Q as [Q1 Q2]. apply handler_eqb_eq in Q1. apply String.eqb_eq in Q2. intros E. injection E as ->. subst. left. reflexivity.
  - intros E. right. auto.
Qed.
Lemma at_Mem n h h' m : at_ h (Mem h' m) (construction n) None = expected n h (Mem h' m).
Proof.
  rewrite construction_flat, at_flat, filter_alignments_cases, at_no_pose by (cbn; congruence).
  change (flat (pick n (Mem h' m)) []) with plain_ops.
  change (expected n h (Mem h' m)) with (expected some_sizes h (Mem h' m)).
  destruct (in_dec string_dec m member_names) as [I|N].
  - apply okey_eqb_eq. pose proof members_checked as C. rewrite forallb_forall in C. specialize (C m I). rewrite forallb_forall in C.
    specialize (C h' (all_handlers_all h')). rewrite forallb_forall in C. exact (C h (all_handlers_all h)).
  - rewrite at_none.
    + unfold expected. cbn [key_of]. destruct (member_key h' m members) as [k|] eqn:K; [|destruct (handler_eqb _ _); reflexivity].
      exfalso. apply member_key_in in K. pose proof members_named as C. rewrite forallb_forall in C. specialize (C _ K). cbn [fst snd] in C.
      destruct (in_dec string_dec m member_names); [contradiction|discriminate].
    + apply Forall_forall. intros o O. destruct (target o) as [w|] eqn:T; [|exact I]. intros ->. apply N. unfold member_names.
      apply in_flat_map. exists o. rewrite T. split; [exact O|left; reflexivity].
Qed.

Theorem at_expected n h v : at_ h v (construction n) None = expected n h v.
Proof.
  destruct v;
    [apply at_StVec|apply at_StQuat|apply at_StNor|apply at_StDep|apply at_StDepType|apply at_StTrack|apply at_AuxVec|apply at_AuxQuat|apply at_InitCov|apply at_PreNoise
    |apply at_UpdNoise|apply at_UpdNoiseAtt|apply at_DefNoise|apply at_DefNoiseAtt|apply at_Stat|apply at_Calib|apply at_MemV|apply at_MemQ|apply at_Mem].
Qed.

(** ** keys *)
Lemma key_of_path n v K : key_of n v = Some K -> path (home v) ++ skipn (List.length (path (home v))) K = K.
Proof.
  assert (W : forall i m k K, within i m k = Some K -> k = K) by (unfold within; intros i m k K'; destruct (Nat.ltb i m); congruence).
  assert (P : forall i a b K, pose_part n i a b = Some K -> [Nm "PoseUpdate"] ++ skipn 1 K = K).
  { intros [|[|i]] a b K'; cbn [pose_part]; [intros Q; apply W in Q; subst; reflexivity|intros Q; apply W in Q; subst; reflexivity|discriminate]. }
  destruct v as [b a|b q|i q|i|i|i|c a|c q|b a|b a|h a|h a|a|a|i m|c|h m a|h m q|h m]; cbn [key_of].
  1,2,9: destruct b; cbn [imu_name option_map home]; intros Q; try discriminate; try (apply W in Q; subst; reflexivity); try (apply (P _ _ _ _ Q)); injection Q as <-; reflexivity.
  1,2,3: discriminate.
  1,2,3: intros Q; apply W in Q; subst; reflexivity.
  - destruct b; try destruct a; cbn [imu_name option_map home]; intros Q; try discriminate; try (apply W in Q; subst; reflexivity); try (apply (P _ _ _ _ Q)); injection Q as <-; reflexivity.
  - destruct h; intros Q; try discriminate; injection Q as <-; reflexivity.
  - discriminate.
  - intros Q; injection Q as <-; reflexivity.
  - intros Q; injection Q as <-; reflexivity.
  - destruct (stat_key m); [|discriminate]. intros Q; apply W in Q; subst; reflexivity.
  - intros Q; apply W in Q; subst; reflexivity.
  - destruct h; try discriminate; repeat match goal with |- context [String.eqb m ?s] => destruct (String.eqb m s) end; intros Q; try discriminate; injection Q as <-; reflexivity.
  - destruct h; try discriminate; repeat match goal with |- context [String.eqb m ?s] => destruct (String.eqb m s) end; intros Q; try discriminate; injection Q as <-; reflexivity.
  - intros Q. apply member_key_in in Q.
    assert (C : forallb (fun e => let v := Mem (fst (fst e)) (snd (fst e)) in key_eqb (path (home v) ++ skipn (List.length (path (home v))) (snd e)) (snd e)) members = true) by (vm_compute; reflexivity).
    rewrite forallb_forall in C. specialize (C _ Q). cbv zeta in C. cbn [fst snd] in C. apply key_eqb_eq. exact C.
Qed.
Lemma registers_keys n h v k : In (h, v, k) (filter_registers n) <-> h = home v /\ key_of n v = Some (path h ++ k).
Proof.
  unfold filter_registers. rewrite registered, at_expected. unfold expected. split.
  - destruct (handler_eqb h (home v)) eqn:H; [|discriminate]. apply handler_eqb_eq in H. subst h.
    destruct (key_of n v) as [K|] eqn:E; [|discriminate]. cbn. intros Q. injection Q as <-. split; [reflexivity|]. rewrite (key_of_path n v K E). reflexivity.
  - intros [-> E]. rewrite E. destruct (handler_eqb (home v) (home v)) eqn:H; [|assert (handler_eqb (home v) (home v) = true) by (apply handler_eqb_eq; reflexivity); congruence].
    cbn. rewrite skipn_app, skipn_all, Nat.sub_diag. reflexivity.
Qed.
Lemma keys n v K : (exists e, In e (filter_registers n) /\ e_v e = v /\ full_key e = K) <-> key_of n v = Some K.
Proof.
  split.
  - intros [[[h w] k] [I [<- <-]]]. apply registers_keys in I. destruct I as [_ I]. exact I.
  - intros E. exists (home v, v, skipn (List.length (path (home v))) K). split; [|split; [reflexivity|]].
    + apply registers_keys. split; [reflexivity|]. rewrite (key_of_path n v K E). exact E.
    + apply (key_of_path n v K E).
Qed.
Lemma one_entry n e e' : In e (filter_registers n) -> In e' (filter_registers n) -> e_v e = e_v e' -> e = e'.
Proof.
  destruct e as [[h v] k], e' as [[h' v'] k']. cbn. intros I I' <-. apply registers_keys in I. apply registers_keys in I'.
  destruct I as [-> E], I' as [-> E']. rewrite E in E'. injection E' as E'. apply app_inv_head in E'. subst. reflexivity.
Qed.

(** ** reading *)
Section Reading.
Context {V : Type}.
Implicit Types (f : @file V) (s : @store V).
Lemma set_same s v x : set s v x v = x.
Proof. unfold set. destruct (var_eqb v v) eqn:Q; [reflexivity|]. assert (var_eqb v v = true) by (apply var_eqb_eq; reflexivity). congruence. Qed.
Lemma set_other s v x w : w <> v -> set s v x w = s w.
Proof. unfold set. intros N. destruct (var_eqb w v) eqn:Q; [apply var_eqb_eq in Q; contradiction|reflexivity]. Qed.
Lemma read_succeeds r f s : (exists s', read r f s = Some s') <-> forall e, In e r -> f (full_key e) <> None.
Proof.
  revert s. induction r as [|e r IH]; intros s; cbn [read].
  - split; [intros _ e []|intros _; eauto].
  - destruct (f (full_key e)) as [x|] eqn:E.
    + rewrite IH. split; [intros A e' [<-|I]; [congruence|auto]|intros A e' I; apply A; right; exact I].
    + split; [intros [s' Q]; discriminate|intros A; exfalso; exact (A e (or_introl eq_refl) E)].
Qed.
Lemma read_other r f s s' v : read r f s = Some s' -> ~ In v (map e_v r) -> s' v = s v.
Proof.
  revert s. induction r as [|e r IH]; intros s; cbn [read map].
  - intros Q _. congruence.
  - destruct (f (full_key e)) as [x|]; [|discriminate]. intros Q N. cbn in N. rewrite (IH _ Q) by tauto. apply set_other. intros ->. tauto.
Qed.
Lemma read_value r f s s' e : NoDup (map e_v r) -> read r f s = Some s' -> In e r -> f (full_key e) = Some (s' (e_v e)).
Proof.
  revert s. induction r as [|e' r IH]; intros s; cbn [read map]; intros U Q I; [destruct I|].
  inversion U as [|? ? N U']; subst. destruct (f (full_key e')) as [x|] eqn:E; [|discriminate].
  destruct I as [<-|I]; [|exact (IH _ U' Q I)]. rewrite (read_other _ _ _ _ _ Q N), set_same. exact E.
Qed.
Lemma read_agrees r f f' s : (forall e, In e r -> f (full_key e) = f' (full_key e)) -> read r f s = read r f' s.
Proof.
  revert s. induction r as [|e r IH]; intros s A; [reflexivity|]. cbn [read]. rewrite (A e (or_introl eq_refl)).
  destruct (f' (full_key e)); [|reflexivity]. apply IH. intros e' I. apply A. right. exact I.
Qed.
Lemma registers_nodup n : NoDup (map e_v (filter_registers n)).
Proof.
  assert (G : forall r, NoDup r -> (forall e e', In e r -> In e' r -> e_v e = e_v e' -> e = e') -> NoDup (map e_v r)).
  { induction r as [|e r IH]; cbn; intros U A; [constructor|]. inversion U as [|? ? N U']; subst. constructor.
    - intros Q. apply in_map_iff in Q. destruct Q as [e' [Q I]]. apply N. rewrite <- (A e' e); auto.
    - apply IH; [exact U'|]. intros; apply A; auto. }
  apply G; [|apply one_entry]. assert (U := unique_register (construction n)). unfold unique in U. apply NoDup_map_inv in U. exact U.
Qed.
End Reading.
(** ** the keys asked for *)
Definition base_vars : list var :=
  map (fun e => Mem (fst (fst e)) (snd (fst e))) members ++
  flat_map (fun b => map (StVec b) axes) [Bpos; Bvel; Bacb; Bgyb] ++ map (StQuat Batt) [Qx; Qy; Qz; Qw] ++
  flat_map (fun b => map (InitCov b) axes) [Bpos; Bvel; Bacb; Bgyb; Batt] ++
  map (MemV ImgU "initCovFeature_") axes ++ map (UpdNoise Zero) axes ++
  flat_map (fun b => map (PreNoise b) axes) [Bpos; Bvel; Bacb; Bgyb; Batt] ++
  map DefNoise axes ++ map DefNoiseAtt axes ++
  map (MemQ PoseU "qVM_") [Qx; Qy; Qz; Qw] ++ map (MemV PoseU "MrMV_") axes ++ map (MemQ PoseU "qWI_") [Qx; Qy; Qz; Qw] ++ map (MemV PoseU "IrIW_") axes ++
  map (UpdNoise VelU) axes ++ map (MemQ VelU "qAM_") [Qx; Qy; Qz; Qw].
Definition camera_vars (c : nat) : list var := Calib c :: map (AuxQuat c) [Qx; Qy; Qz; Qw] ++ map (AuxVec c) axes.
Definition extrinsics_vars (c : nat) : list var := [InitCov (Bvep c) A0; InitCov (Bvea c) A0; PreNoise (Bvep c) A0; PreNoise (Bvea c) A0].
Definition feature_vars (i : nat) : list var :=
  [StTrack i; Stat i "localQualityRange_"; Stat i "localVisibilityRange_"; Stat i "minGlobalQualityRange_"; PreNoise (Bfea i) A2; PreNoise (Bfea i) A0].
Definition pose_vars (i : nat) : list var := [InitCov (Bpop i) A0; InitCov (Bpoa i) A0; PreNoise (Bpop i) A0; PreNoise (Bpoa i) A0].

Lemma from_vars n vs ks K : map (key_of n) vs = map Some ks -> In K ks -> exists v, key_of n v = Some K.
Proof.
  intros M I. assert (J : In (Some K) (map (key_of n) vs)) by (rewrite M; apply in_map; exact I).
  apply in_map_iff in J. destruct J as [v [E _]]. exists v. exact E.
Qed.
Lemma base_vars_keys n : map (key_of n) base_vars = map Some base_keys.
Proof. vm_compute. reflexivity. Qed.
Lemma in_checked (K : key) l : existsb (key_eqb K) l = true -> In K l.
Proof. intros E. apply existsb_exists in E. destruct E as [x [I Q]]. apply key_eqb_eq in Q. subst. exact I. Qed.

Lemma needed_keys n K : needed n K <-> exists v, key_of n v = Some K.
Proof.
  split.
  - intros [I|[[c [L [I|I]]]|[[L I]|[[L I]|[L I]]]]].
    + exact (from_vars n _ _ K (base_vars_keys n) I).
    + apply (from_vars n (camera_vars c) _ K) in I; [exact I|]. apply Nat.ltb_lt in L. cbn [camera_vars map app key_of axes]. unfold within. rewrite L. reflexivity.
    + apply (from_vars n (extrinsics_vars c) _ K) in I; [exact I|]. apply Nat.ltb_lt in L. cbn [extrinsics_vars map app key_of axes]. unfold within. rewrite L. reflexivity.
    + apply (from_vars n (feature_vars 0) _ K) in I; [exact I|]. apply Nat.ltb_lt in L. cbn [feature_vars map app key_of axes stat_key]. unfold within. rewrite L. reflexivity.
    + apply (from_vars n (pose_vars 0) _ K) in I; [exact I|]. apply Nat.ltb_lt in L. cbn [pose_vars map app key_of axes pose_part]. unfold within. rewrite L. reflexivity.
    + apply (from_vars n (pose_vars 1) _ K) in I; [exact I|]. apply Nat.ltb_lt in L. cbn [pose_vars map app key_of axes pose_part]. unfold within. rewrite L. reflexivity.
  - intros [v E]. unfold needed.
    assert (W : forall i m k K, within i m k = Some K -> i < m /\ K = k).
    { unfold within; intros i m k K'; destruct (Nat.ltb_spec i m); intros Q; [injection Q as <-; auto|discriminate]. }
    assert (B : forall k, existsb (key_eqb k) base_keys = true -> Some k = Some K -> In K base_keys) by (intros k C Q; injection Q as <-; apply in_checked; exact C).
    assert (P : forall i a b, existsb (key_eqb [Nm "PoseUpdate"; Nm a]) (base_keys ++ first_pose_keys) = true -> existsb (key_eqb [Nm "PoseUpdate"; Nm b]) (base_keys ++ second_pose_keys) = true ->
      pose_part n i a b = Some K -> In K base_keys \/ (0 < z_pose n /\ In K first_pose_keys) \/ (1 < z_pose n /\ In K second_pose_keys)).
    { intros i a b C1 C2 Q. apply in_checked in C1. apply in_checked in C2. apply in_app_iff in C1. apply in_app_iff in C2.
      destruct i as [|[|i]]; cbn [pose_part] in Q; [| |discriminate]; apply W in Q; destruct Q as [Q ->]; tauto. }
    destruct v as [b a|b q|i q|i|i|i|c a|c q|b a|b a|h a|h a|a|a|i m|c|h m a|h m q|h m]; cbn [key_of] in E.
    + destruct b; cbn [imu_name option_map] in E; try discriminate; try (left; destruct a; (eapply B; [|exact E]; vm_compute; reflexivity)).
      * apply W in E. destruct E as [L ->]. right; left. exists c. split; [exact L|]. left. unfold camera_keys. destruct a; cbn; tauto.
      * destruct a; (apply P in E; [tauto|vm_compute; reflexivity|vm_compute; reflexivity]).
    + destruct b; try discriminate; try (left; destruct q; (eapply B; [|exact E]; vm_compute; reflexivity)).
      * apply W in E. destruct E as [L ->]. right; left. exists c. split; [exact L|]. left. unfold camera_keys. destruct q; cbn; tauto.
      * destruct q; (apply P in E; [tauto|vm_compute; reflexivity|vm_compute; reflexivity]).
    + discriminate.
    + discriminate.
    + discriminate.
    + apply W in E. destruct E as [L ->]. right; right; left. split; [lia|]. apply in_checked. vm_compute. reflexivity.
    + apply W in E. destruct E as [L ->]. right; left. exists c. split; [exact L|]. left. unfold camera_keys. destruct a; cbn; tauto.
    + apply W in E. destruct E as [L ->]. right; left. exists c. split; [exact L|]. left. unfold camera_keys. destruct q; cbn; tauto.
    + destruct b; cbn [imu_name option_map] in E; try discriminate; try (left; destruct a; (eapply B; [|exact E]; vm_compute; reflexivity)).
      * apply W in E. destruct E as [L ->]. right; left. exists c. split; [exact L|]. right. apply in_checked. vm_compute. reflexivity.
      * apply W in E. destruct E as [L ->]. right; left. exists c. split; [exact L|]. right. apply in_checked. vm_compute. reflexivity.
      * apply P in E; [tauto|vm_compute; reflexivity|vm_compute; reflexivity].
      * apply P in E; [tauto|vm_compute; reflexivity|vm_compute; reflexivity].
    + destruct b; cbn [imu_name option_map] in E; try discriminate; try (left; destruct a; (eapply B; [|exact E]; vm_compute; reflexivity)).
      * apply W in E. destruct E as [L ->]. right; left. exists c. split; [exact L|]. right. apply in_checked. vm_compute. reflexivity.
      * apply W in E. destruct E as [L ->]. right; left. exists c. split; [exact L|]. right. apply in_checked. vm_compute. reflexivity.
      * destruct a; apply W in E; destruct E as [L ->]; right; right; left; (split; [lia|]); apply in_checked; vm_compute; reflexivity.
      * apply P in E; [tauto|vm_compute; reflexivity|vm_compute; reflexivity].
      * apply P in E; [tauto|vm_compute; reflexivity|vm_compute; reflexivity].
    + destruct h; try discriminate; left; destruct a; (eapply B; [|exact E]; vm_compute; reflexivity).
    + discriminate.
    + left; destruct a; (eapply B; [|exact E]; vm_compute; reflexivity).
    + left; destruct a; (eapply B; [|exact E]; vm_compute; reflexivity).
    + unfold stat_key in E. right; right; left.
      repeat match type of E with context [String.eqb m ?s] => destruct (String.eqb m s) end; try discriminate; apply W in E; destruct E as [L ->]; (split; [lia|]); apply in_checked; vm_compute; reflexivity.
    + apply W in E. destruct E as [L ->]. right; left. exists c. split; [exact L|]. left. unfold camera_keys. cbn; tauto.
    + left. destruct h; try discriminate; repeat match type of E with context [String.eqb m ?s] => destruct (String.eqb m s) end; try discriminate; destruct a; (eapply B; [|exact E]; vm_compute; reflexivity).
    + left. destruct h; try discriminate; repeat match type of E with context [String.eqb m ?s] => destruct (String.eqb m s) end; try discriminate; destruct q; (eapply B; [|exact E]; vm_compute; reflexivity).
    + left. apply member_key_in in E. unfold base_keys. apply in_app_iff. left. apply in_map_iff. exists (h, m, K). auto.
Qed.

(** ** the shipped file *)
Lemma shipped_suffices n : (forall K, needed n K -> In K shipped_keys) <-> z_cam n <= 2.
Proof.
  unfold shipped_keys. split.
  - intros A. destruct (le_lt_dec (z_cam n) 2) as [L|L]; [exact L|]. exfalso.
    specialize (A [Cam 2; Nm "CalibrationFile"]). assert (N : needed n [Cam 2; Nm "CalibrationFile"]) by (right; left; exists 2; split; [exact L|left; left; reflexivity]).
    specialize (A N). assert (C : existsb (key_eqb [Cam 2; Nm "CalibrationFile"]) shipped_keys = false) by (vm_compute; reflexivity).
    assert (T : existsb (key_eqb [Cam 2; Nm "CalibrationFile"]) shipped_keys = true) by (apply existsb_exists; exists [Cam 2; Nm "CalibrationFile"]; split; [exact A|apply key_eqb_eq; reflexivity]).
    congruence.
  - intros L K N. rewrite !in_app_iff. destruct N as [I|[[c [C [I|I]]]|[[_ I]|[[_ I]|[_ I]]]]]; try tauto.
    assert (c = 0 \/ c = 1) as [->| ->] by lia; tauto.
Qed.
Lemma shipped_used n : 2 <= z_cam n -> 1 <= z_max n -> 2 <= z_pose n -> forall K, In K shipped_keys -> needed n K.
Proof.
  intros C M P K I. unfold shipped_keys in I. rewrite !in_app_iff in I. unfold needed.
  destruct I as [I|[I|[I|[I|[I|[I|I]]]]]]; [tauto| | | | | |].
  - right; left. exists 0. split; [lia|tauto].
  - right; left. exists 1. split; [lia|tauto].
  - right; left. exists 0. split; [lia|tauto].
  - right; right; left. split; [lia|tauto].
  - right; right; right; left. split; [lia|tauto].
  - right; right; right; right. split; [lia|tauto].
Qed.
Lemma not_in_checked (K : key) l : existsb (key_eqb K) l = false -> ~ In K l.
Proof.
  intros E I. assert (T : existsb (key_eqb K) l = true) by (apply existsb_exists; exists K; split; [exact I|apply key_eqb_eq; reflexivity]). congruence.
Qed.
Lemma pose_keys_unused n K : z_pose n = 0 -> In K (first_pose_keys ++ second_pose_keys) -> ~ needed n K.
Proof.
  intros Z I.
  assert (C : forallb (fun K => negb (existsb (key_eqb K) (base_keys ++ extrinsics_keys ++ feature_keys)) && match K with Nm _ :: _ => true | _ => false end) (first_pose_keys ++ second_pose_keys) = true) by (vm_compute; reflexivity).
  rewrite forallb_forall in C. specialize (C K I). apply andb_true_iff in C. destruct C as [C1 C2]. apply negb_true_iff in C1. apply not_in_checked in C1. rewrite !in_app_iff in C1.
  intros [N|[[c [_ [N|N]]]|[[_ N]|[[N _]|[N _]]]]]; try tauto; try lia.
  unfold camera_keys, section in N. apply in_map_iff in N. destruct N as [x [N _]]. subst K. discriminate.
Qed.

(** ** loading *)
Section Loading.
Context {V : Type} (truth : V -> bool) (ekf iekf : V).
Implicit Types (f : @file V) (s : @store V).
Local Notation load := (load truth ekf iekf).
Lemma load_read n f s s' : load n f s = Some s' -> exists s0, read (filter_registers n) f s = Some s0 /\ s' = refresh_filter truth ekf iekf n (refresh_img truth s0).
Proof. unfold ConfModel.load. destruct (read _ f s) as [s0|]; [|discriminate]. cbn. intros Q. injection Q as <-. exists s0. auto. Qed.
Lemma load_succeeds n f s : (exists s', load n f s = Some s') <-> forall K, needed n K -> f K <> None.
Proof.
  assert (R : (exists s', load n f s = Some s') <-> exists s', read (filter_registers n) f s = Some s').
  { unfold ConfModel.load. destruct (read _ f s) as [s0|]; cbn; split; intros [s' Q]; try discriminate; eauto. }
  rewrite R, read_succeeds. split.
  - intros A K N. apply needed_keys in N. destruct N as [v E]. apply keys in E. destruct E as [e [I [_ <-]]]. exact (A e I).
  - intros A e I. apply A, needed_keys. exists (e_v e). apply keys. exists e. auto.
Qed.
Lemma load_agrees n f f' s : (forall K, needed n K -> f K = f' K) -> load n f s = load n f' s.
Proof.
  intros A. unfold ConfModel.load. f_equal. apply read_agrees. intros e I. apply A, needed_keys. exists (e_v e). apply keys. exists e. auto.
Qed.

Lemma refresh_depth n (s : @store V) v :
  fold_left (fun s i => set s (StDepType i) (s (Mem Root "depthTypeInt_"))) (seq 0 n) s v =
  match v with StDepType i => if Nat.ltb i n then s (Mem Root "depthTypeInt_") else s v | _ => s v end.
Proof.
  induction n as [|n IH] in v |- *.
  - cbn. destruct v; reflexivity.
  - rewrite seq_S, fold_left_app. cbn [fold_left plus]. rewrite (IH (Mem Root "depthTypeInt_")).
    destruct v; try (rewrite set_other by discriminate; apply IH).
    destruct (Nat.eq_dec i n) as [->|N].
    + rewrite set_same. destruct (Nat.ltb_spec n (S n)); [reflexivity|lia].
    + rewrite set_other by congruence. rewrite IH. destruct (Nat.ltb_spec i n), (Nat.ltb_spec i (S n)); try reflexivity; lia.
Qed.
Lemma refresh_other n s v : ~ derived n v -> refresh_filter truth ekf iekf n (refresh_img truth s) v = s v.
Proof.
  intros D. unfold refresh_filter. rewrite refresh_depth.
  assert (G : set (refresh_img truth s) (Mem Root "mode_") (if truth (refresh_img truth s (Mem ImgU "useDirectMethod_")) then iekf else ekf) v = s v).
  { unfold derived in D. rewrite set_other by (intros ->; tauto). unfold refresh_img. rewrite !set_other by (intros ->; tauto). reflexivity. }
  destruct v; try exact G. destruct (Nat.ltb_spec i (z_max n)) as [L|L]; [|exact G].
  exfalso. apply D. unfold derived. do 5 right. eauto.
Qed.
Lemma derived_unkeyed n v : derived n v -> key_of n v = None.
Proof. intros [->|[->|[->|[->|[->|[i [_ ->]]]]]]]; reflexivity. Qed.

Lemma load_value n f s s' v K : load n f s = Some s' -> key_of n v = Some K -> f K = Some (s' v).
Proof.
  intros Q E. apply load_read in Q. destruct Q as [s0 [R ->]].
  rewrite refresh_other by (intros D; apply derived_unkeyed in D; congruence).
  apply keys in E. destruct E as [e [I [<- <-]]]. exact (read_value _ _ _ _ e (registers_nodup n) R I).
Qed.
Lemma load_other n f s s' v : load n f s = Some s' -> key_of n v = None -> ~ derived n v -> s' v = s v.
Proof.
  intros Q E D. apply load_read in Q. destruct Q as [s0 [R ->]]. rewrite refresh_other by exact D.
  apply (read_other _ _ _ _ _ R). intros I. apply in_map_iff in I. destruct I as [e [<- I]].
  assert (K : key_of n (e_v e) = Some (full_key e)) by (apply keys; exists e; auto). congruence.
Qed.
Lemma load_derived n f s s' : load n f s = Some s' ->
  let x := if truth (s' (Mem ImgU "useDirectMethod_")) then s' (Mem ImgU "updateNoiseInt_") else s' (Mem ImgU "updateNoisePix_") in
  s' (UpdNoise ImgU A0) = x /\ s' (UpdNoise ImgU A1) = x /\
  s' (Mem ImgU "alignment_.huberNormThreshold_") = s' (Mem ImgU "alignmentHuberNormThreshold_") /\
  s' (Mem ImgU "alignment_.gradientExponent_") = s' (Mem ImgU "alignmentGradientExponent_") /\
  s' (Mem Root "mode_") = (if truth (s' (Mem ImgU "useDirectMethod_")) then iekf else ekf) /\
  forall i, i < z_max n -> s' (StDepType i) = s' (Mem Root "depthTypeInt_").
Proof.
  intros Q. apply load_read in Q. destruct Q as [s0 [_ ->]].
  assert (R : forall v, refresh_filter truth ekf iekf n (refresh_img truth s0) v =
    match v with StDepType i => if Nat.ltb i (z_max n) then s0 (Mem Root "depthTypeInt_") else s0 v | Mem Root _ => set s0 (Mem Root "mode_") (if truth (s0 (Mem ImgU "useDirectMethod_")) then iekf else ekf) v
    | _ => refresh_img truth s0 v end).
  { intros v. unfold refresh_filter. rewrite refresh_depth.
    destruct v; try (rewrite set_other by discriminate; reflexivity).
    destruct h; try (rewrite set_other by discriminate; reflexivity). cbn. unfold set. destruct (var_eqb _ (Mem Root "mode_")) eqn:Q; [reflexivity|]. reflexivity. }
  cbv zeta. rewrite !R.
  split; [|split; [|split; [|split; [|split]]]]; try reflexivity.
  intros i L. rewrite !R. apply Nat.ltb_lt in L. rewrite L. reflexivity.
Qed.
Lemma load_extrinsics n f s s' c : load n f s = Some s' -> c < z_cam n ->
  (forall a, f [Cam c; Nm ("MrMC" ++ coordinate a)%string] = Some (get_MrMC truth s' c a)) /\
  (forall q, f [Cam c; Nm ("qCM" ++ entry_of q)%string] = Some (get_qCM truth s' c q)).
Proof.
  intros Q L. apply Nat.ltb_lt in L. split; [intros a|intros q].
  - unfold get_MrMC. destruct (truth _); apply (load_value n f s s' _ _ Q); cbn [key_of]; unfold within; rewrite L; reflexivity.
  - unfold get_qCM. destruct (truth _); apply (load_value n f s s' _ _ Q); cbn [key_of]; unfold within; rewrite L; reflexivity.
Qed.
End Loading.

(** ** settings *)
Definition key_of_setting (v : var) : key :=
  match v with
  | StVec (Bvep c) a => [Cam c; Nm ("MrMC" ++ coordinate a)%string]
  | StQuat (Bvea c) q => [Cam c; Nm ("qCM" ++ entry_of q)%string]
  | Calib c => [Cam c; Nm "CalibrationFile"]
  | _ => match key_of {| z_max := 1; z_cam := 1; z_pose := 2 |} v with Some k => k | None => [] end
  end.
Lemma setting_key n v K : key_of n v = Some K -> key_of_setting (setting v) = K.
Proof.
  intros E.
  assert (W : forall i m k K, within i m k = Some K -> i < m /\ K = k).
  { unfold within; intros i m k K'; destruct (Nat.ltb_spec i m); intros Q; [injection Q as <-; auto|discriminate]. }
  destruct v as [b a|b q|i q|i|i|i|c a|c q|b a|b a|h a|h a|a|a|i m|c|h m a|h m q|h m]; try discriminate.
  - destruct b; cbn [key_of] in E; try discriminate; try (injection E as <-; reflexivity); [apply W in E; destruct E as [_ ->]; reflexivity|].
    destruct i as [|[|i]]; cbn [pose_part] in E; try discriminate; apply W in E; destruct E as [_ ->]; reflexivity.
  - destruct b; cbn [key_of] in E; try discriminate; try (injection E as <-; reflexivity); [apply W in E; destruct E as [_ ->]; reflexivity|].
    destruct i as [|[|i]]; cbn [pose_part] in E; try discriminate; apply W in E; destruct E as [_ ->]; reflexivity.
  - cbn [key_of] in E. apply W in E; destruct E as [_ ->]; reflexivity.
  - cbn [key_of] in E. apply W in E; destruct E as [_ ->]; reflexivity.
  - cbn [key_of] in E. apply W in E; destruct E as [_ ->]; reflexivity.
  - destruct b; cbn [key_of] in E; try discriminate; try (injection E as <-; reflexivity); try (apply W in E; destruct E as [_ ->]; reflexivity);
      destruct i as [|[|i]]; cbn [pose_part] in E; try discriminate; apply W in E; destruct E as [_ ->]; reflexivity.
  - destruct b; try destruct a; cbn [key_of] in E; try discriminate; try (injection E as <-; reflexivity); try (apply W in E; destruct E as [_ ->]; reflexivity);
      destruct i as [|[|i]]; cbn [pose_part] in E; try discriminate; apply W in E; destruct E as [_ ->]; reflexivity.
  - destruct h; try discriminate; injection E as <-; reflexivity.
  - injection E as <-; reflexivity.
  - injection E as <-; reflexivity.
  - cbn [key_of setting key_of_setting] in *. destruct (stat_key m); [|discriminate]. apply W in E; destruct E as [_ ->]; reflexivity.
  - cbn [key_of] in E. apply W in E; destruct E as [_ ->]; reflexivity.
  - cbn [setting key_of_setting]. change (key_of {| z_max := 1; z_cam := 1; z_pose := 2 |} (MemV h m a)) with (key_of n (MemV h m a)). rewrite E. reflexivity.
  - cbn [setting key_of_setting]. change (key_of {| z_max := 1; z_cam := 1; z_pose := 2 |} (MemQ h m q)) with (key_of n (MemQ h m q)). rewrite E. reflexivity.
  - cbn [setting key_of_setting]. change (key_of {| z_max := 1; z_cam := 1; z_pose := 2 |} (Mem h m)) with (key_of n (Mem h m)). rewrite E. reflexivity.
Qed.

Definition setting_table : list (key * var) :=
  combine base_keys base_vars ++ combine extrinsics_keys (extrinsics_vars 0) ++ combine feature_keys (feature_vars 0) ++
  combine first_pose_keys (pose_vars 0) ++ combine second_pose_keys (pose_vars 1).
Definition camera_table (c : nat) : list (string * var) :=
  ("CalibrationFile", Calib c) :: map (fun q => (("qCM" ++ entry_of q)%string, StQuat (Bvea c) q)) qcs ++ map (fun a => (("MrMC" ++ coordinate a)%string, StVec (Bvep c) a)) axes.
Definition decode (K : key) : option var :=
  match K with
  | [Cam c; Nm s] => option_map snd (find (fun p => String.eqb (fst p) s) (camera_table c))
  | _ => option_map snd (find (fun p => key_eqb (fst p) K) setting_table)
  end.
Lemma decode_setting n v K : key_of n v = Some K -> decode K = Some (setting v).
Proof.
  intros E.
  assert (W : forall i m k K, within i m k = Some K -> i < m /\ K = k).
  { unfold within; intros i m k K'; destruct (Nat.ltb_spec i m); intros Q; [injection Q as <-; auto|discriminate]. }
  destruct v as [b a|b q|i q|i|i|i|c a|c q|b a|b a|h a|h a|a|a|i m|c|h m a|h m q|h m]; try discriminate.
  - destruct b; cbn [key_of] in E; try discriminate; try (injection E as <-; destruct a; vm_compute; reflexivity); [apply W in E; destruct E as [_ ->]; destruct a; reflexivity|].
    destruct i as [|[|i]]; cbn [pose_part] in E; try discriminate; apply W in E; destruct E as [_ ->]; destruct a; vm_compute; reflexivity.
  - destruct b; cbn [key_of] in E; try discriminate; try (injection E as <-; destruct q; vm_compute; reflexivity); [apply W in E; destruct E as [_ ->]; destruct q; reflexivity|].
    destruct i as [|[|i]]; cbn [pose_part] in E; try discriminate; apply W in E; destruct E as [_ ->]; destruct q; vm_compute; reflexivity.
  - cbn [key_of] in E. apply W in E; destruct E as [_ ->]; vm_compute; reflexivity.
  - cbn [key_of] in E. apply W in E; destruct E as [_ ->]; destruct a; reflexivity.
  - cbn [key_of] in E. apply W in E; destruct E as [_ ->]; destruct q; reflexivity.
  - destruct b; cbn [key_of] in E; try discriminate; try (injection E as <-; destruct a; vm_compute; reflexivity); try (apply W in E; destruct E as [_ ->]; vm_compute; reflexivity);
      destruct i as [|[|i]]; cbn [pose_part] in E; try discriminate; apply W in E; destruct E as [_ ->]; vm_compute; reflexivity.
  - destruct b; try destruct a; cbn [key_of] in E; try discriminate; try (injection E as <-; vm_compute; reflexivity); try (apply W in E; destruct E as [_ ->]; vm_compute; reflexivity);
      destruct i as [|[|i]]; cbn [pose_part] in E; try discriminate; apply W in E; destruct E as [_ ->]; vm_compute; reflexivity.
  - destruct h; try discriminate; injection E as <-; destruct a; vm_compute; reflexivity.
  - injection E as <-; destruct a; vm_compute; reflexivity.
  - injection E as <-; destruct a; vm_compute; reflexivity.
  - cbn [key_of setting] in *. unfold stat_key in E.
    repeat match type of E with context [String.eqb m ?s] => destruct (String.eqb_spec m s); [subst m; apply W in E; destruct E as [_ ->]; vm_compute; reflexivity|] end. discriminate.
  - cbn [key_of] in E. apply W in E; destruct E as [_ ->]; reflexivity.
  - cbn [key_of] in E. destruct h; try discriminate;
      repeat match type of E with context [String.eqb m ?s] => destruct (String.eqb_spec m s); [subst m; injection E as <-; destruct a; vm_compute; reflexivity|] end; discriminate.
  - cbn [key_of] in E. destruct h; try discriminate;
      repeat match type of E with context [String.eqb m ?s] => destruct (String.eqb_spec m s); [subst m; injection E as <-; destruct q; vm_compute; reflexivity|] end; discriminate.
  - cbn [key_of setting] in *. apply member_key_in in E.
    assert (C : forallb (fun e => match decode (snd e) with Some w => var_eqb w (Mem (fst (fst e)) (snd (fst e))) | None => false end) members = true) by (vm_compute; reflexivity).
    rewrite forallb_forall in C. specialize (C _ E). cbn [fst snd] in C. destruct (decode K) as [w|]; [|discriminate]. apply var_eqb_eq in C. congruence.
Qed.
Lemma sharing n v w K L : key_of n v = Some K -> key_of n w = Some L -> (K = L <-> setting v = setting w).
Proof.
  intros A B. split.
  - intros <-. apply decode_setting in A. apply decode_setting in B. congruence.
  - intros S. apply setting_key in A. apply setting_key in B. congruence.
Qed.
