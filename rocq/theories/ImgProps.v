(** Properties C38-C40 and C71: one image update and sequences of them. *)
From Coq Require Import List ZArith QArith Qround Bool Arith Lia Lqa.
From Verif Require Import Util StatModel StatSpec FsetModel FsetSpec FsetSep ImgModel ImgSpec ImgProofs ImgForce ImgAdd ImgHist ImgFinal.
Import ListNotations.
Local Open Scope nat_scope.

(** ** A concrete system for the examples: two cameras, three slots. Camera 1 loses feature 0; every camera sees two corners
    per frame, in different places. The world counts the filter updates. *)
Definition ex_params : params :=
  {| p_nb := 100; p_pow := fun r => r; p_dist := 20; p_pen := 100; p_max := 0; p_req := false; p_min := 0; p_cam := 0 |}.
Definition ex_config (cross : bool) : config :=
  {| c_ncam := 2; c_cross := cross; c_rmneg := true; c_ub := 9 # 10; c_lb := 8 # 10; c_share := 1 # 2; c_factor := 11 # 10;
     c_detect := 9 # 10; c_add := ex_params |}.
Definition ex_cands (cam : nat) : list (cand nat) :=
  map (fun k => {| cd_c := (inject_Z (Z.of_nat (100 * k)), inject_Z (Z.of_nat (50 * cam)))%Q; cd_in := true; cd_s := inject_Z (Z.of_nat (S k)); cd_p := k |}) (seq 0 4).
Definition ex_geom : geom nat nat :=
  {| g_begin := fun w => w;
     g_pre := fun w i c => if (i =? 0) && (c =? 1) then PNotInFrame else if (i =? 1) && (3 <=? w) then PFailed else PFound;
     g_update := fun w _ _ => S w;
     g_negative := fun w i => (w =? 5) && (i =? 2);
     g_tracked := fun w i c => true;
     g_drop := fun w _ => w;
     g_repatch := fun w i => if i =? 0 then Some w else None;
     g_patched := fun w _ => w;
     g_cands := fun _ cam => ex_cands cam;
     g_proj := fun _ cam f => if (f_cam f =? Z.of_nat cam)%Z then Some (f_c f) else None;
     g_choose := fun _ _ _ _ => 0;
     g_new := fun w _ _ => w;
     g_end := fun w => w |}.
Definition ex_start : ist nat nat :=
  {| i_fs := {| fs_slots := repeat {| sl_valid := false; sl_feat := {| f_idx := -1; f_cam := -1; f_c := (0, 0)%Q; f_warpid := true; f_patch := 0 |} |} 3; fs_maxIdx := 0 |};
     i_st := repeat (init exactQ 2 0) 3; i_id := 0; i_cc := 0; i_w := 0; i_log := [] |}.

Lemma ex_config_ok cross : config_ok (ex_config cross).
Proof.
  constructor; cbn; try lra; try lia. constructor; cbn; [unfold int_max; lia| |split; vm_compute; discriminate].
  intros r [A B]. split; [lra|]. apply Qle_trans with (inject_Z 99 * 1)%Q; [apply Qmult_le_l; [reflexivity|exact B]|discriminate].
Qed.

(** a state with only free slots and untouched statistics is well formed *)
Lemma start_wf {Patch World} (ncam : nat) (x : ist Patch World) t0 :
  i_st x = repeat (init exactQ ncam t0) (capacity (i_fs x)) -> (forall i, ~ alive x i) -> (0 <= fs_maxIdx (i_fs x))%Z -> img_wf ncam x.
Proof.
  intros E N M. constructor.
  - rewrite E. apply repeat_length.
  - intros i s H. unfold has_stat in H. rewrite E in H. apply nth_error_In, repeat_spec in H. subst s.
    exists t0, []. repeat split; constructor.
  - intros i f L. exfalso. apply (N i). now exists f.
  - exact M.
  - split; [intros i f L|intros i j f g L]; exfalso; apply (N i); now exists f.
Qed.
Example ex_start_wf : img_wf 2 ex_start.
Proof.
  apply (start_wf 2 ex_start 0); [reflexivity| |cbn; lia].
  intros i [f L]. unfold live in L. cbn in L. destruct i as [|[|[|[|i]]]]; discriminate.
Qed.

(** ** C38: every feature is processed once per camera and frame *)
Theorem C38_every_feature_visited_in_every_camera_once : forall Patch World cf (G : geom Patch World) t x,
  config_ok cf -> img_wf (c_ncam cf) x ->
  exists y, (forall fuel, capacity (i_fs x) * c_ncam cf <= fuel -> drive cf G fuel t (begin_update G x) = Ok y) /\
  (forall i f, live (i_fs y) i f -> live (i_fs x) i f) /\
  (forall i, ~ alive x i -> visits i (i_log y) = [] /\ increases i (i_log y) = 0) /\
  (forall i f, live (i_fs x) i f -> exists p, visits i (i_log y) = firstn p (cams_of cf f) /\ p <= length (cams_of cf f) /\ increases i (i_log y) = Nat.min 1 p /\
      (alive y i -> p = length (cams_of cf f)) /\ (~ alive y i -> removed i (i_log y))) /\
  (forall i f, live (i_fs y) i f -> exists s0 s, has_stat x i s0 /\ has_stat y i s /\ one_frame cf G t (i_log y) i f s0 s).
Proof. intros. apply iteration_spec; assumption. Qed.
Print Assumptions C38_every_feature_visited_in_every_camera_once.

(** the cameras of the schedule: all of them exactly once, own camera first; or the own camera only *)
Theorem C38_schedule_covers_all_cameras : forall ncam cam, cam < ncam ->
  NoDup (schedule true ncam cam) /\ (forall c, In c (schedule true ncam cam) <-> c < ncam) /\
  hd_error (schedule true ncam cam) = Some cam /\ schedule false ncam cam = [cam].
Proof.
  intros ncam cam H. unfold schedule. split; [|split; [|split]].
  - apply nodup_app; [apply seq_NoDup|apply seq_NoDup|]. intros a A B. apply in_seq in A, B. lia.
  - intros c. rewrite in_app_iff, !in_seq. lia.
  - destruct (ncam - cam) as [|k] eqn:E; [lia|reflexivity].
  - reflexivity.
Qed.
Print Assumptions C38_schedule_covers_all_cameras.

(** with cross-camera measurements a feature that survives was measured once in each camera; without, only in its own *)
Theorem C38_survivor_measured_everywhere : forall Patch World cf (G : geom Patch World) t x y fuel i f,
  config_ok cf -> img_wf (c_ncam cf) x -> capacity (i_fs x) * c_ncam cf <= fuel ->
  drive cf G fuel t (begin_update G x) = Ok y -> live (i_fs y) i f ->
  (c_cross cf = true -> NoDup (visits i (i_log y)) /\ forall c, In c (visits i (i_log y)) <-> c < c_ncam cf) /\
  (c_cross cf = false -> visits i (i_log y) = [Z.to_nat (f_cam f)]) /\ increases i (i_log y) = 1.
Proof.
  intros Patch World cf G t x y fuel i f Hok W Hf D L.
  destruct (iteration_spec cf G t x Hok W) as (y' & E & A & _ & B & _). rewrite E in D by exact Hf. injection D as ->.
  pose proof (A i f L) as Lx. destruct (B i f Lx) as (p & V & Hp & I & K & _). specialize (K ltac:(now exists f)).
  pose proof (wf_cam _ _ W i f Lx) as C. destruct (C38_schedule_covers_all_cameras (c_ncam cf) (Z.to_nat (f_cam f)) ltac:(lia)) as (S1 & S2 & S3 & _).
  rewrite K, firstn_all in V. unfold cams_of in *. split; [|split].
  - intros Hc. rewrite V, Hc. auto.
  - intros Hc. rewrite V, Hc. reflexivity.
  - rewrite I, K. destruct (c_cross cf); [|reflexivity]. destruct (schedule true (c_ncam cf) (Z.to_nat (f_cam f))); [discriminate|reflexivity].
Qed.
Print Assumptions C38_survivor_measured_everywhere.

(** three frames of the example; slots 0-2 hold features 0-2 after the first one *)
Definition ex_run (cross : bool) (n : nat) : res (ist nat nat) :=
  fold_left (fun r t => rbind r (image_update (ex_config cross) ex_geom 100 (Z.of_nat t))) (seq 1 n) (Ok ex_start).
Definition summary (x : ist nat nat) :=
  (map (fun s => (sl_valid s, f_idx (sl_feat s), f_cam (sl_feat s), f_patch (sl_feat s))) (fs_slots (i_fs x)), rev (i_log x)).
Definition summarise (r : res (ist nat nat)) := match r with Ok x => Some (summary x) | _ => None end.
Example C38_ex_first_frame : summarise (ex_run true 1) = Some
  ([(true, 0%Z, 0%Z, 3); (true, 1%Z, 1%Z, 3); (true, 2%Z, 1%Z, 2)], [EvNew 0 0; EvNew 1 1; EvNew 2 1]).
Proof. vm_compute. reflexivity. Qed.
Example C38_ex_second_frame : summarise (ex_run true 2) = Some
  ([(true, 0%Z, 0%Z, 5); (true, 1%Z, 1%Z, 3); (true, 3%Z, 1%Z, 2)],
   [EvIncrease 0; EvVisit 0 0; EvUpdate 0 0; EvVisit 0 1; EvIncrease 1; EvVisit 1 1; EvUpdate 1 1; EvVisit 1 0; EvUpdate 1 0;
    EvIncrease 2; EvVisit 2 1; EvUpdate 2 1; EvVisit 2 0; EvUpdate 2 0; EvRemove 2; EvNew 2 1]).
Proof. vm_compute. reflexivity. Qed.
Example C38_ex_second_frame_own_camera_only : summarise (ex_run false 2) = Some
  ([(true, 0%Z, 0%Z, 3); (true, 1%Z, 1%Z, 3); (true, 2%Z, 1%Z, 2)],
   [EvIncrease 0; EvVisit 0 0; EvUpdate 0 0; EvIncrease 1; EvVisit 1 1; EvUpdate 1 1; EvIncrease 2; EvVisit 2 1; EvUpdate 2 1]).
Proof. vm_compute. reflexivity. Qed.

(** ** C39: removal of features *)
Theorem C39_removal_terminates_and_reaches_share : forall Patch World cf (G : geom Patch World) (m : nat),
  config_ok cf -> (Z.of_nat m <= int_max)%Z ->
  exists fuel0, forall (x : ist Patch World) fuel tracked, img_wf (c_ncam cf) x -> capacity (i_fs x) = m -> is_tracked_count x tracked -> fuel0 <= fuel ->
  exists y k, prune cf G fuel tracked x = Ok y /\
    i_st y = i_st x /\ capacity (i_fs y) = m /\
    (forall i f, live (i_fs y) i f -> live (i_fs x) i f) /\
    (forall i, alive x i -> ~ alive y i -> ~ good_at x (c_ub cf) (c_lb cf) i \/
        (~ tracked_now x i /\ ~ good_at x (c_ub cf * Qpow (c_factor cf) (S k)) (c_lb cf * Qpow (c_factor cf) (S k)) i)) /\
    (forall i, alive y i -> good_at x (c_ub cf) (c_lb cf) i /\
        (tracked_now x i \/ good_at x (c_ub cf * Qpow (c_factor cf) k) (c_lb cf * Qpow (c_factor cf) k) i)) /\
    (inject_Z (Z.of_nat m) * c_share cf - 1 < inject_Z (Z.of_nat (tracked + n_free (i_fs y))))%Q /\
    ((exists i, alive x i /\ good_at x (c_ub cf) (c_lb cf) i /\ ~ alive y i) -> inject_Z (Z.of_nat (tracked + n_free (i_fs y))) <= inject_Z (Z.of_nat m) * c_share cf)%Q.
Proof. intros. apply removal_spec; assumption. Qed.
Print Assumptions C39_removal_terminates_and_reaches_share.

(** a good feature tracked in the current frame survives *)
Theorem C39_tracked_good_feature_survives : forall Patch World cf (G : geom Patch World) (x y : ist Patch World) fuel tracked i,
  config_ok cf -> img_wf (c_ncam cf) x -> (Z.of_nat (capacity (i_fs x)) <= int_max)%Z -> is_tracked_count x tracked ->
  prune cf G fuel tracked x = Ok y -> alive x i -> good_at x (c_ub cf) (c_lb cf) i -> tracked_now x i -> alive y i.
Proof.
  intros Patch World cf G x y fuel tracked i Hok W Hm Ht E A Gi T.
  destruct (removal_spec cf G _ Hok Hm) as (f0 & H). destruct (H x (fuel + f0) tracked W eq_refl Ht ltac:(lia)) as (y' & k & P & _ & _ & _ & R & _).
  assert (y' = y).
  { unfold prune in *. destruct (required_free _ _ _) as [req|]; [|discriminate]. rewrite (force_fuel cf G _ _ _ _ _ _ E (fuel + f0) ltac:(lia)) in P. congruence. }
  subst y'. assert (D : {slot_valid y i = true} + {slot_valid y i = false}) by (destruct (slot_valid y i); auto).
  destruct D as [D|D]; [now apply alive_valid|]. exfalso.
  destruct (R i A) as [B|[B _]]; [|contradiction|contradiction]. intros B. apply alive_valid in B. congruence.
Qed.
Print Assumptions C39_tracked_good_feature_survives.

(** a removal factor of at most one: the loop runs forever in a reachable state *)
Definition stuck_config (q : Q) : config :=
  {| c_ncam := 1; c_cross := false; c_rmneg := true; c_ub := 9 # 10; c_lb := 8 # 10; c_share := 1; c_factor := q; c_detect := 9 # 10; c_add := ex_params |}.
Definition stuck_stat : stat (option Q) :=
  match run exactQ (init exactQ 1 0) [OpReset 1; OpStatus 0 TRACKED; OpIncrease 2; OpStatus 0 NOT_IN_FRAME] with Some s => s | None => init exactQ 1 0 end.
Definition stuck_state : ist nat nat :=
  {| i_fs := {| fs_slots := [{| sl_valid := true; sl_feat := {| f_idx := 0; f_cam := 0; f_c := (0, 0)%Q; f_warpid := true; f_patch := 0 |} |}]; fs_maxIdx := 1 |};
     i_st := [stuck_stat]; i_id := 0; i_cc := 0; i_w := 0; i_log := [] |}.
Lemma stuck_recorded : recorded 1 stuck_stat.
Proof.
  exists 0%Z, [OpReset 1; OpStatus 0 TRACKED; OpIncrease 2; OpStatus 0 NOT_IN_FRAME]. split; [|split].
  - repeat constructor.
  - repeat constructor.
  - vm_compute. reflexivity.
Qed.
Example stuck_wf : img_wf 1 stuck_state.
Proof.
  constructor.
  - reflexivity.
  - intros [|[|i]] s H; cbn in H; try discriminate. injection H as <-. exact stuck_recorded.
  - intros [|[|i]] f H; cbn in H; try discriminate. injection H as <-. cbn. lia.
  - cbn. lia.
  - split; [intros [|[|i]] f H; cbn in H; try discriminate; injection H as <-; cbn; lia|].
    intros [|[|i]] [|[|j]] f g H1 H2; cbn in *; try discriminate. reflexivity.
Qed.
Lemma stuck_tracked : is_tracked_count stuck_state 0.
Proof.
  exists []. split; [constructor|]. split; [reflexivity|]. intros i. split; [intros []|]. intros [[f L] (s & k & c & H & Hk & E)].
  destruct i as [|[|i]]; cbn in H; try discriminate. injection H as <-. destruct k as [|[|k]]; vm_compute in Hk; try discriminate.
  injection Hk as <-. discriminate.
Qed.
Lemma stuck_good f : (f <= 1)%Q -> is_good_feature stuck_stat ((9 # 10) * f)%Q ((8 # 10) * f)%Q = true.
Proof.
  intros H. apply (good_mono 1 stuck_stat (9 # 10) (8 # 10) _ _ stuck_recorded); [lra|lra|vm_compute; reflexivity].
Qed.
Lemma stuck_force q fuel f : (0 <= q <= 1)%Q -> (0 <= f <= 1)%Q -> force (stuck_config q) ex_geom fuel 1 f 0 stuck_state = OutOfFuel.
Proof.
  intros Hq. revert f. induction fuel as [|k IH]; intros f Hf; [reflexivity|].
  cbn [force]. replace (enough 1 stuck_state) with false by reflexivity.
  assert (E : force_one (stuck_config q) ex_geom f 0 stuck_state = stuck_state).
  { unfold force_one. change (stat_of stuck_state 0) with stuck_stat. change (c_ub (stuck_config q)) with (9 # 10)%Q. change (c_lb (stuck_config q)) with (8 # 10)%Q. rewrite stuck_good by lra. cbn [negb]. now rewrite andb_false_r. }
  rewrite E. replace (1 =? nmax stuck_state) with true by reflexivity. apply IH. cbn [c_factor stuck_config]. nra.
Qed.
Theorem C39_small_factor_runs_forever_refuted : forall q, (0 <= q <= 1)%Q ->
  exists (cf : config) (x : ist nat nat), c_factor cf = q /\ (0 < c_ub cf)%Q /\ (0 < c_lb cf)%Q /\ (0 <= c_share cf <= 1)%Q /\ c_ncam cf = 1 /\
    img_wf 1 x /\ is_tracked_count x 0 /\ forall fuel, prune cf ex_geom fuel 0 x = OutOfFuel.
Proof.
  intros q Hq. exists (stuck_config q), stuck_state. cbn [stuck_config c_factor c_ub c_lb c_share c_ncam].
  split; [reflexivity|]. split; [reflexivity|]. split; [reflexivity|]. split; [lra|]. split; [reflexivity|].
  split; [exact stuck_wf|]. split; [exact stuck_tracked|]. intros fuel. unfold prune.
  assert (E : remove_bad (stuck_config q) ex_geom stuck_state = stuck_state) by (vm_compute; reflexivity). rewrite E.
  assert (R : required_free (stuck_config q) stuck_state 0 = Some 1%Z) by (vm_compute; reflexivity). rewrite R.
  apply stuck_force; exact Hq.
Qed.
Print Assumptions C39_small_factor_runs_forever_refuted.

(** a required share that asks for more slots than there are: runs forever in every state *)
Theorem C39_excessive_share_runs_forever_refuted : forall Patch World cf (G : geom Patch World) (x : ist Patch World) tracked fuel,
  (inject_Z (Z.of_nat (capacity (i_fs x)) + 1 + Z.of_nat tracked) <= inject_Z (Z.of_nat (capacity (i_fs x))) * c_share cf <= inject_Z int_max)%Q ->
  prune cf G fuel tracked x = OutOfFuel.
Proof.
  intros Patch World cf G x tracked fuel [H1 H2]. unfold prune. destruct (remove_bad_spec cf G x) as [SB _].
  unfold required_free. rewrite (sh_nmax _ _ SB). change (nmax x) with (capacity (i_fs x)).
  set (m := capacity (i_fs x)) in *. set (q := (inject_Z (Z.of_nat m) * c_share cf - inject_Z (Z.of_nat tracked))%Q).
  assert (Q1 : (inject_Z (Z.of_nat m + 1) <= q)%Q) by (unfold q; rewrite !inject_Z_plus in *; lra).
  assert (Q0 : (0 <= inject_Z (Z.of_nat tracked))%Q) by (change 0%Q with (inject_Z 0); rewrite <- Zle_Qle; lia).
  assert (Qm : (0 <= inject_Z (Z.of_nat m))%Q) by (change 0%Q with (inject_Z 0); rewrite <- Zle_Qle; lia).
  destruct (Qtrunc_bounds q) as (_ & B1 & _).
  assert (T : (Z.of_nat m + 1 <= Qtrunc q <= int_max)%Z).
  { rewrite inject_Z_plus in Q1. change (inject_Z 1) with 1%Q in Q1. assert (Q2 : (0 <= q)%Q) by lra. unfold Qtrunc. destruct (Qlt_le_dec q 0) as [K|K]; [exfalso; lra|]. split.
    - rewrite <- (Qfloor_Z (Z.of_nat m + 1)). apply Qfloor_resp_le. rewrite inject_Z_plus. change (inject_Z 1) with 1%Q. exact Q1.
    - rewrite <- (Qfloor_Z int_max). apply Qfloor_resp_le. unfold q. lra. }
  unfold to_int. cbv zeta. replace ((int_min <=? Qtrunc q)%Z && (Qtrunc q <=? int_max)%Z) with true by (symmetry; apply andb_true_intro; split; apply Z.leb_le; unfold int_min in *; lia).
  generalize (c_factor cf) at 1 as f. generalize 0 as i.
  assert (NM : nmax (remove_bad cf G x) = m) by apply (sh_nmax _ _ SB). clear SB. revert NM. generalize (remove_bad cf G x) as z.
  induction fuel as [|k IH]; intros z NM i f; cbn [force]; (replace (enough (Qtrunc q) z) with false by (symmetry; apply Z.leb_gt; rewrite NM; lia)); [reflexivity|].
  assert (N1 : nmax (force_one cf G f i z) = m).
  { unfold force_one. destruct (_ && _ && _); [|exact NM]. unfold nmax, remove, emit, with_w, with_fs, invalidate. cbn. rewrite upd_nth_length. exact NM. }
  destruct (S i =? nmax z); apply IH; exact N1.
Qed.
Print Assumptions C39_excessive_share_runs_forever_refuted.

(** ** C40: sharing of the free slots among the cameras *)
Theorem C40_free_slots_are_shared_fairly : forall Patch World cf (G : geom Patch World) t (x : ist Patch World),
  sane (c_add cf) -> 1 <= c_ncam cf ->
  exists y ls, add_features cf G t x = Ok y /\
    ((inject_Z (Z.of_nat (n_live (i_fs x))) < c_detect cf * inject_Z (Z.of_nat (capacity (i_fs x))))%Q -> length ls = c_ncam cf) /\
    ((c_detect cf * inject_Z (Z.of_nat (capacity (i_fs x))) <= inject_Z (Z.of_nat (n_live (i_fs x))))%Q -> y = x /\ ls = []) /\
    NoDup (concat ls) /\
    (forall c i, In i (nth c ls []) <-> free (i_fs x) i /\ exists f, live (i_fs y) i f /\ f_cam f = Z.of_nat c) /\
    (forall i f, live (i_fs x) i f -> live (i_fs y) i f /\ nth_error (i_st y) i = nth_error (i_st x) i) /\
    capacity (i_fs y) = capacity (i_fs x) /\ n_live (i_fs y) = n_live (i_fs x) + length (concat ls) /\
    (forall c, c < length ls -> length (nth c ls []) <= (n_free (i_fs x) - length (concat (firstn c ls))) / (c_ncam cf - c)) /\
    (forall c, c < length ls -> n_free (i_fs x) / c_ncam cf <= (n_free (i_fs x) - length (concat (firstn c ls))) / (c_ncam cf - c)) /\
    ((2 <= p_nb (c_add cf))%Z -> (forall r, (0 < r <= 1)%Q -> (0 < p_pow (c_add cf) r)%Q) ->
     (inject_Z (Z.of_nat (n_live (i_fs x))) < c_detect cf * inject_Z (Z.of_nat (capacity (i_fs x))))%Q ->
     (forall c z, c < c_ncam cf -> turn cf G t x c = Ok z -> plenty cf G z c) ->
     (forall c, c < c_ncam cf -> length (nth c ls []) = (n_free (i_fs x) - length (concat (firstn c ls))) / (c_ncam cf - c)) /\ n_free (i_fs y) = 0).
Proof. intros. apply addition_spec; assumption. Qed.
Print Assumptions C40_free_slots_are_shared_fairly.

(** the hypotheses of the last clause hold for the start state of the example *)
Lemma ex_apart : forall cam i j c d, i <> j -> nth_error (ex_cands cam) i = Some c -> nth_error (ex_cands cam) j = Some d -> apart ex_params (cd_c c) (cd_c d).
Proof.
  intros cam i j c d H A B. unfold apart. cbn [p_dist ex_params].
  destruct i as [|[|[|[|i]]]], j as [|[|[|[|j]]]]; cbn in A, B; try congruence; try (destruct i; discriminate); try (destruct j; discriminate);
    injection A as <-; injection B as <-; cbn [cd_c fst snd]; ring_simplify (inject_Z (Z.of_nat (50 * cam)) - inject_Z (Z.of_nat (50 * cam)))%Q; vm_compute; discriminate.
Qed.
Example C40_ex_plenty : forall c z, c < 2 -> turn (ex_config true) ex_geom 1 ex_start c = Ok z -> plenty (ex_config true) ex_geom z c.
Proof.
  intros c z Hc E. destruct c as [|[|c]]; [| |lia].
  - cbn in E. injection E as <-. split; [split|].
    + intros i j a b H A B _ _. exact (ex_apart 0 i j a b H A B).
    + intros pos a [].
    + vm_compute. lia.
  - assert (X : (match turn (ex_config true) ex_geom 1 ex_start 1 with Ok z => (in_view (g_proj ex_geom (i_w z) 1) (i_fs z), n_free (i_fs z)) | _ => ([], 9) end) = ([], 2)) by (vm_compute; reflexivity).
    rewrite E in X. injection X as X1 X2. split; [split|].
    + intros i j a b H A B _ _. exact (ex_apart 1 i j a b H A B).
    + intros pos a Hp. assert (Y : In pos []) by (rewrite <- X1; exact Hp). destruct Y.
    + rewrite X2. vm_compute. lia.
Qed.

(** ** C71: a whole image update, and sequences of them *)
Theorem C71_image_update_total : forall Patch World cf (G : geom Patch World) t (m : nat),
  config_ok cf -> (Z.of_nat m <= int_max)%Z ->
  exists fuel0, forall (x : ist Patch World) fuel, capacity (i_fs x) = m -> img_wf (c_ncam cf) x -> fuel0 <= fuel ->
    exists y, image_update cf G fuel t x = Ok y /\ updated cf G t x y.
Proof. intros Patch World cf G t m Hok. exact (update_total cf G t Hok m). Qed.
Print Assumptions C71_image_update_total.

(** what any sequence of image updates leaves behind *)
Theorem C71_statistics_are_the_frames_since_creation : forall Patch World cf (G : geom Patch World) ts (x y : ist Patch World),
  config_ok cf -> updates cf G ts x y -> img_wf (c_ncam cf) x -> (Z.of_nat (capacity (i_fs x)) <= int_max)%Z ->
  img_wf (c_ncam cf) y /\ capacity (i_fs y) = capacity (i_fs x) /\ (fs_maxIdx (i_fs x) <= fs_maxIdx (i_fs y))%Z /\
  forall i f, live (i_fs y) i f ->
    (exists f0 s0 s, live (i_fs x) i f0 /\ f_idx f = f_idx f0 /\ f_cam f = f_cam f0 /\ has_stat x i s0 /\ has_stat y i s /\ frames_of cf f ts s0 s) \/
    (exists ts1 t ts2 s0 s1 s, ts = ts1 ++ t :: ts2 /\ (fs_maxIdx (i_fs x) <= f_idx f)%Z /\ newborn t (Z.to_nat (f_cam f)) s0 s1 /\ has_stat y i s /\ frames_of cf f ts2 s1 s).
Proof. intros Patch World cf G ts x y Hok. exact (history cf G Hok ts x y). Qed.
Print Assumptions C71_statistics_are_the_frames_since_creation.

(** starting with an empty map, the frame counter of a live feature is the number of frames since its creation, inclusive *)
Theorem C71_age_is_number_of_frames_since_creation : forall Patch World cf (G : geom Patch World) ts (x y : ist Patch World) i f,
  config_ok cf -> updates cf G ts x y -> img_wf (c_ncam cf) x -> (Z.of_nat (capacity (i_fs x)) <= int_max)%Z ->
  (forall j, ~ alive x j) -> live (i_fs y) i f ->
  exists ts1 t ts2 s, ts = ts1 ++ t :: ts2 /\ has_stat y i s /\ count_tot s = Z.of_nat (length (t :: ts2)).
Proof.
  intros Patch World cf G ts x y i f Hok U W Hm N L. destruct (history cf G Hok ts x y U W Hm) as (_ & _ & _ & H).
  destruct (H i f L) as [(f0 & s0 & s & L0 & _)|(ts1 & t & ts2 & s0 & s1 & s & A & _ & B & C & D)]; [exfalso; apply (N i); now exists f0|].
  exists ts1, t, ts2, s. split; [exact A|]. split; [exact C|]. rewrite (frames_tot cf f _ _ _ D), (newborn_tot _ _ _ _ B). cbn [length]. lia.
Qed.
Print Assumptions C71_age_is_number_of_frames_since_creation.

(** an id names the same feature, in the same slot and camera, as long as it lives; once gone it never comes back *)
Theorem C71_ids_are_stable : forall Patch World cf (G : geom Patch World) ts ts' (x y z : ist Patch World),
  config_ok cf -> img_wf (c_ncam cf) x -> (Z.of_nat (capacity (i_fs x)) <= int_max)%Z ->
  updates cf G ts x y -> updates cf G ts' y z ->
  (forall i j f g, live (i_fs x) i f -> live (i_fs y) j g -> f_idx f = f_idx g -> i = j /\ f_cam f = f_cam g) /\
  (forall i f, live (i_fs x) i f -> (forall j g, live (i_fs y) j g -> f_idx g <> f_idx f) -> forall k h, live (i_fs z) k h -> f_idx h <> f_idx f).
Proof.
  intros Patch World cf G ts ts' x y z Hok W Hm U1 U2.
  destruct (history cf G Hok ts x y U1 W Hm) as (Wy & Cy & My & Hy).
  assert (Hm2 : (Z.of_nat (capacity (i_fs y)) <= int_max)%Z) by lia.
  destruct (history cf G Hok ts' y z U2 Wy Hm2) as (Wz & Cz & Mz & Hz). destruct (wf_ids _ _ W) as [W1 W2]. split.
  - intros i j f g L1 L2 E. pose proof (W1 i f L1) as B. destruct (Hy j g L2) as [(f0 & _ & _ & L0 & E0 & C0 & _)|(_ & _ & _ & _ & _ & _ & _ & Ge & _)]; [|lia].
    assert (i = j) by (apply (W2 i j f f0 L1 L0); congruence). subst j. unfold live in *. rewrite L1 in L0. injection L0 as <-. split; [reflexivity|congruence].
  - intros i f L1 N k h L2 E. pose proof (W1 i f L1) as B. destruct (Hz k h L2) as [(f0 & _ & _ & L0 & E0 & _)|(_ & _ & _ & _ & _ & _ & _ & Ge & _)]; [|lia].
    apply (N k f0 L0). congruence.
Qed.
Print Assumptions C71_ids_are_stable.

Definition ages (r : res (ist nat nat)) : option (list (option Z)) :=
  match r with
  | Ok y => Some (map (fun p => if sl_valid (fst p) then Some (count_tot (snd p)) else None) (combine (fs_slots (i_fs y)) (i_st y)))
  | _ => None
  end.
Lemma ex_run_updates cross k : forall y, ex_run cross k = Ok y -> updates (ex_config cross) ex_geom (map Z.of_nat (seq 1 k)) ex_start y.
Proof.
  unfold ex_run. generalize ex_start as x. generalize (seq 1 k) as l. induction l as [|t l IH]; intros x y E; cbn [fold_left map rbind] in *.
  - injection E as <-. constructor.
  - destruct (image_update (ex_config cross) ex_geom 100 (Z.of_nat t) x) as [z| |] eqn:Ez.
    + eapply up_step; [exact Ez|]. now apply IH.
    + exfalso. clear - E. induction l; cbn in E; [discriminate|auto].
    + exfalso. clear - E. induction l; cbn in E; [discriminate|auto].
Qed.
(** after three frames features 0 and 1 are three frames old, the one in slot 2 has been replaced and is two frames old *)
Example C71_ex_ages : ages (ex_run true 3) = Some [Some 3%Z; Some 3%Z; Some 2%Z].
Proof. vm_compute. reflexivity. Qed.
Example C71_ex_three_frames : exists y, updates (ex_config true) ex_geom [1; 2; 3]%Z ex_start y /\ ages (Ok y) = Some [Some 3%Z; Some 3%Z; Some 2%Z].
Proof.
  pose proof C71_ex_ages as A. pose proof (ex_run_updates true 3) as U. destruct (ex_run true 3) as [y| |]; try discriminate.
  exists y. split; [exact (U y eq_refl)|exact A].
Qed.
