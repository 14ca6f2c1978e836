(** C99: images as steps of the filter. *)
From Coq Require Import Reals List ZArith QArith Bool Arith Lia Lra.
From Verif Require Import Util Geo Lie DistModel FiltModel OutModel CamModel InnoModel UpdModel CovModel BornModel SlotModel SlotSpec SlotProps KalSpec KalProofs KalProps GaugeSpec GaugeProps.
From Verif Require Import StatModel StatSpec FsetModel FsetSpec ImgModel ImgSpec ImgHist ImgProps LinkModel LinkSpec LinkProofs.
Import ListNotations.
Local Open Scope R_scope.

(** ** C99 *)
(** An image update is a sequence of steps of the filter, in this order: motion noted, Kalman updates and
    removals, patches replaced, removals, additions, zero velocity. Each step is about features that are there
    (or slots that are free), the steps are those of the protocol, and the slots stay those of the feature set. *)
Theorem C99_image_is_filter_steps : forall Patch H n P cams frame logm inv front nth_elt ign track ic zc cf
  (s : sight Patch H) fuel t (x y : ist Patch (world H)) F,
  w_F (i_w x) = Some F -> in_step x F ->
  image_update cf (link n P cams frame logm inv front nth_elt ign track ic zc s) fuel t x = Ok y ->
  exists updates warps frees news zero,
    let run := krun n P cams frame logm inv front nth_elt ign track ic F in
    let l := (if z_detect zc && s_moving s F (w_h (i_w x)) then [KMotion] else []) ++ updates ++ map KWarp warps ++ map KFree frees ++ [KUse news] in
    w_F (i_w y) = run (l ++ zero) /\
    Forall (update_or_free s) updates /\
    (zero = [] \/ zero = [KMeas MZero (z_noise zc) 0]) /\
    (forall K, run l = Some K -> at_rest zc K <-> zero <> []) /\
    sound run (l ++ zero) /\ played (rev (i_log y)) (l ++ zero) /\
    (forall K, w_F (i_w y) = Some K -> in_step y K).
Proof.
  intros Patch H n P cams frame logm inv front nth_elt ign track ic zc cf s fuel t x y F HF S E.
  destruct (update_steps n P cams frame logm inv front nth_elt ign track ic zc cf s fuel t x y F HF S E) as (updates & warps & frees & news & K).
  exists updates, warps, frees, news. cbv zeta in *. unfold motion_steps in K. set (l := _ ++ _ ++ _) in *. destruct K as (K1 & K2 & K3 & K4 & K5).
  eexists. split; [exact K1|]. split; [exact K2|]. destruct (krun n P cams frame logm inv front nth_elt ign track ic F l) as [K|] eqn:EK.
  - unfold zero_steps in *. split; [destruct (still zc K); auto|]. split; [|auto].
    intros K' EK'. injection EK' as <-. unfold at_rest, still. destruct (z_on zc), (z_detect zc), (Rlt_dec (z_time zc) (a_timerV (x_aux (k_x K)))), (Rlt_dec (z_time zc) (a_timerI (x_aux (k_x K)))); cbn [andb]; split; intros; try discriminate; try tauto; try (intuition discriminate); congruence.
  - split; [auto|]. split; [discriminate|auto].
Qed.
Print Assumptions C99_image_is_filter_steps.

Lemma step_updates {Patch H} n (s : sight Patch H) o : (forall F h i c m Rn k, s_meas s F h i c = Some (m, Rn, k) -> good_noise 2 Rn) -> update_or_free s o -> step_ok n o /\ no_pose o.
Proof.
  intros G. destruct o; cbn [update_or_free]; try contradiction; [|split; exact I]. intros (F & h & i & c & d & m & E & ->). pose proof (G _ _ _ _ _ _ _ E). destruct m; split; try exact I; assumption.
Qed.
Lemma updates_no_pose {Patch H} (s : sight Patch H) o : update_or_free s o -> no_pose o.
Proof. destruct o; cbn [update_or_free]; try contradiction; [|exact (fun _ => I)]. intros (F & h & i & c & d & m & E & ->). destruct m; exact I. Qed.

Lemma update_of_image {Patch H} zc (s : sight Patch H) o : update_or_free s o -> of_image zc s o.
Proof. destruct o; cbn [update_or_free]; try contradiction; [|exact (fun _ => I)]. intros (F & h & i & c & d & m & E & ->). destruct m; exists F, h, i, c, d; eexists; (split; [exact E|reflexivity]). Qed.
(** Any history of IMU samples, images, external poses and velocities is a run of the filter with the steps due
    to the events, in their order. *)
Theorem C99_history_is_a_run : forall Patch H n P cams frame logm inv front nth_elt ign track ic zc cf
  fuel (es : list (event Patch H)) (x y : ist Patch (world H)) F,
  w_F (i_w x) = Some F -> in_step x F ->
  history n P cams frame logm inv front nth_elt ign track ic zc cf fuel x es = Ok y ->
  exists l, w_F (i_w y) = krun n P cams frame logm inv front nth_elt ign track ic F l /\ due zc es l /\
    (forall K, w_F (i_w y) = Some K -> in_step y K) /\
    (Forall (event_ok n) es -> good_noise 3 (z_noise zc) -> Forall (step_ok n) l) /\
    (Forall event_no_pose es -> Forall no_pose l).
Proof.
  intros Patch H n P cams frame logm inv front nth_elt ign track ic zc cf fuel es.
  set (run := krun n P cams frame logm inv front nth_elt ign track ic).
  assert (NN : forall es (x y : ist Patch (world H)), w_F (i_w x) = None -> history n P cams frame logm inv front nth_elt ign track ic zc cf fuel x es = Ok y -> w_F (i_w y) = None).
  { clear es. induction es as [|e es IH]; intros x y N E; [now injection E as <-|]. unfold history in E. cbn [fold_left] in E.
    assert (K : exists z, happen n P cams frame logm inv front nth_elt ign track ic zc cf fuel x e = Ok z).
    { destruct (happen n P cams frame logm inv front nth_elt ign track ic zc cf fuel x e) as [z| |] eqn:Z; [eauto| |]; exfalso; cbn [rbind] in E; rewrite Z in E; clear -E; induction es; [discriminate|auto|discriminate|auto]. }
    destruct K as [z Z]. cbn [rbind] in E. rewrite Z in E. apply (IH z y); [|exact E]. destruct e; cbn [happen] in Z; try (injection Z as <-; cbn [with_w i_w filt w_F]; now rewrite N). exact (none_stays n P cams frame logm inv front nth_elt ign track ic zc cf s fuel t x z N Z). }
  assert (DU : forall fs : list (event Patch H), exists l, due zc fs l /\ (Forall (event_ok n) fs -> good_noise 3 (z_noise zc) -> Forall (step_ok n) l) /\ (Forall event_no_pose fs -> Forall no_pose l)).
  { induction fs as [|e fs (l & D1 & D2 & D3)]; [exists []; split; [constructor|split; intros; constructor]|]. destruct e as [m dt Q|c m Rn k|q v Rn k|t s].
    1-3: eexists; split; [constructor; exact D1|]; split; intros A; inversion A; subst; intros; constructor; auto; try exact I; contradiction.
    exists ([] ++ l). split; [constructor; [constructor|exact D1]|]. split; intros A; inversion A; subst; auto. }
  induction es as [|e es IH]; intros x y F HF S E.
  - injection E as <-. exists []. split; [exact HF|]. split; [constructor|]. split; [intros K EK; rewrite HF in EK; injection EK as <-; exact S|]. split; intros; constructor.
  - unfold history in E. cbn [fold_left] in E.
    assert (K : exists z, happen n P cams frame logm inv front nth_elt ign track ic zc cf fuel x e = Ok z).
    { destruct (happen n P cams frame logm inv front nth_elt ign track ic zc cf fuel x e) as [z| |] eqn:Z; [eauto| |]; exfalso; cbn [rbind] in E; rewrite Z in E; clear -E; induction es; [discriminate|auto|discriminate|auto]. }
    destruct K as [z Z]. cbn [rbind] in E. rewrite Z in E.
    assert (ST : exists l1, w_F (i_w z) = run F l1 /\ (forall l, due zc es l -> due zc (e :: es) (l1 ++ l)) /\ (forall K, w_F (i_w z) = Some K -> in_step z K) /\ (event_ok n e -> good_noise 3 (z_noise zc) -> Forall (step_ok n) l1) /\ (event_no_pose e -> Forall no_pose l1)).
    { destruct e as [m dt Q|c m Rn k|q v Rn k|t s]; cbn [happen] in Z.
      1-3: injection Z as <-; cbn [with_w i_w filt w_F]; rewrite HF.
      - exists [KPredict m dt Q]. split; [reflexivity|]. split; [intros; now constructor|]. split; [|split; intros; constructor; auto; exact I]. intros K EK. destruct (predict_slots n P cams frame logm inv front nth_elt ign track ic _ _ _ _ _ EK) as [U X]. revert S. apply in_step_eq; auto.
      - exists [KMeas (MPose c m) Rn k]. split; [reflexivity|]. split; [intros; now constructor|]. split; [|split; [intros; constructor; auto|intros []]]. intros K EK. destruct (meas_slots n P cams frame logm inv front nth_elt ign track ic _ _ _ _ _ EK) as [U X]. revert S. apply in_step_eq; auto.
      - exists [KMeas (MVel q v) Rn k]. split; [reflexivity|]. split; [intros; now constructor|]. split; [|split; intros; constructor; auto; exact I]. intros K EK. destruct (meas_slots n P cams frame logm inv front nth_elt ign track ic _ _ _ _ _ EK) as [U X]. revert S. apply in_step_eq; auto.
      - destruct (C99_image_is_filter_steps Patch H n P cams frame logm inv front nth_elt ign track ic zc cf s fuel t x z F HF S Z) as (updates & warps & frees & news & zero & K1 & K2 & K3 & _ & _ & _ & K4). cbv zeta in *.
        eexists. split; [exact K1|]. split.
        { intros l D. constructor; [|exact D]. repeat (apply Forall_app; split).
          * destruct (_ && _); repeat constructor.
          * eapply Forall_impl; [|exact K2]. intros o Ho. exact (update_of_image zc s o Ho).
          * apply Forall_forall. intros o J. apply in_map_iff in J as (i & <- & _). exact I.
          * apply Forall_forall. intros o J. apply in_map_iff in J as (i & <- & _). exact I.
          * repeat constructor.
          * destruct K3 as [->| ->]; repeat constructor. }
        split; [exact K4|]. split.
        + intros OK GZ. cbn [event_ok] in OK. repeat (apply Forall_app; split).
          * destruct (_ && _); repeat constructor.
          * eapply Forall_impl; [|exact K2]. intros o Ho. exact (proj1 (step_updates n s o OK Ho)).
          * apply Forall_forall. intros o J. apply in_map_iff in J as (i & <- & _). exact I.
          * apply Forall_forall. intros o J. apply in_map_iff in J as (i & <- & _). exact I.
          * repeat constructor.
          * destruct K3 as [->| ->]; [constructor|]. constructor; [exact GZ|constructor].
        + intros _. repeat (apply Forall_app; split).
          * destruct (_ && _); repeat constructor.
          * eapply Forall_impl; [|exact K2]. intros o Ho. exact (updates_no_pose s o Ho).
          * apply Forall_forall. intros o J. apply in_map_iff in J as (i & <- & _). exact I.
          * apply Forall_forall. intros o J. apply in_map_iff in J as (i & <- & _). exact I.
          * repeat constructor.
          * destruct K3 as [->| ->]; repeat constructor. }
    destruct ST as (l1 & A1 & AD & A2 & A3 & A4). destruct (run F l1) as [K|] eqn:EK.
    + destruct (IH z y K A1 (A2 K A1) E) as (l2 & B1 & BD & B2 & B3 & B4). exists (l1 ++ l2). split; [|split; [now apply AD|split; [exact B2|split]]].
      * unfold run in *. rewrite krun_app, EK. exact B1.
      * intros OK GZ. inversion OK; subst. apply Forall_app; auto.
      * intros OK. inversion OK; subst. apply Forall_app; auto.
    + destruct (DU es) as (l2 & D1 & D2 & D3). exists (l1 ++ l2). pose proof (NN es z y A1 E) as N. rewrite N. split; [unfold run in *; now rewrite krun_app, EK|]. split; [now apply AD|]. split; [discriminate|]. split; intros OK; inversion OK; subst; [intros GZ|]; apply Forall_app; auto.
Qed.
Print Assumptions C99_history_is_a_run.

(** The covariance stays a covariance, whatever happens and whatever the images show. *)
Theorem C99_covariance_stays_valid : forall Patch H n P cams frame logm inv front nth_elt ign track ic zc cf
  fuel (es : list (event Patch H)) (x y : ist Patch (world H)) F K,
  inverts inv -> good_init (b_cov (c_b ic)) -> Forall (event_ok n) es -> good_noise 3 (z_noise zc) ->
  w_F (i_w x) = Some F -> in_step x F -> valid_cov n (k_P F) ->
  history n P cams frame logm inv front nth_elt ign track ic zc cf fuel x es = Ok y ->
  w_F (i_w y) = Some K -> valid_cov n (k_P K).
Proof.
  intros Patch H n P cams frame logm inv front nth_elt ign track ic zc cf fuel es x y F K HI HB OK GZ HF S V E EK.
  destruct (C99_history_is_a_run Patch H n P cams frame logm inv front nth_elt ign track ic zc cf fuel es x y F HF S E) as (l & R & _ & _ & A & _). rewrite R in EK.
  exact (C92_stays_covariance n P cams frame logm inv front nth_elt ign track ic HI HB l F K (A OK GZ) V EK).
Qed.
Print Assumptions C99_covariance_stays_valid.

(** Without external poses, what was uncertain about the heading and the position in the world stays so. *)
Theorem C99_frame_never_learned : forall Patch H n P cams frame logm inv front nth_elt ign track ic zc cf
  fuel (es : list (event Patch H)) (x y : ist Patch (world H)) F K A b,
  inverts inv -> good_init (b_cov (c_b ic)) -> Forall (event_ok n) es -> good_noise 3 (z_noise zc) -> Forall event_no_pose es ->
  w_F (i_w x) = Some F -> in_step x F ->
  history n P cams frame logm inv front nth_elt ign track ic zc cf fuel x es = Ok y -> w_F (i_w y) = Some K ->
  (forall F0, valid_cov n (k_P F0) -> F = with_cov F0 (padd (k_P F0) (about_frame (p_g P) mzero v0 v0 b)) ->
     forall v, v Pos = v0 -> b * (dot (p_g P) (v Att) * dot (p_g P) (v Att)) <= variance n (k_P K) v) /\
  (forall F0, valid_cov n (k_P F0) -> F = with_cov F0 (padd (k_P F0) (about_frame (p_g P) A v0 v0 0)) ->
     forall v, dot (v Pos) (mv A (v Pos)) <= variance n (k_P K) v).
Proof.
  intros Patch H n P cams frame logm inv front nth_elt ign track ic zc cf fuel es x y F K A b HI HB OK GZ NP HF S E EK.
  destruct (C99_history_is_a_run Patch H n P cams frame logm inv front nth_elt ign track ic zc cf fuel es x y F HF S E) as (l & R & _ & _ & A1 & A2). rewrite R in EK.
  split; intros F0 V -> v.
  - exact (C93_heading_never_learned n P cams frame logm inv front nth_elt ign track ic l F0 K b HI HB (A1 OK GZ) (A2 NP) V EK v).
  - exact (C93_position_never_learned n P cams frame logm inv front nth_elt ign track ic l F0 K A HI HB (A1 OK GZ) (A2 NP) V EK v).
Qed.
Print Assumptions C99_frame_never_learned.

(** No history gets stuck, whatever the images show. *)
Theorem C99_no_history_gets_stuck : forall Patch H n P cams frame logm inv front nth_elt ign track ic zc cf (m : nat) (es : list (event Patch H)),
  config_ok cf -> (Z.of_nat m <= int_max)%Z ->
  exists fuel0, forall (x : ist Patch (world H)) fuel, capacity (i_fs x) = m -> img_wf (c_ncam cf) x -> (fuel0 <= fuel)%nat ->
    exists y, history n P cams frame logm inv front nth_elt ign track ic zc cf fuel x es = Ok y /\ img_wf (c_ncam cf) y /\ capacity (i_fs y) = m.
Proof.
  intros Patch H n P cams frame logm inv front nth_elt ign track ic zc cf m es Hok Hm. induction es as [|e es (f0 & IH)]; [exists 0%nat; intros x fuel C W _; now exists x|].
  assert (ST : exists f1, forall (x : ist Patch (world H)) fuel, capacity (i_fs x) = m -> img_wf (c_ncam cf) x -> (f1 <= fuel)%nat ->
    exists y, happen n P cams frame logm inv front nth_elt ign track ic zc cf fuel x e = Ok y /\ img_wf (c_ncam cf) y /\ capacity (i_fs y) = m).
  { destruct e as [? ? ?|? ? ? ?|? ? ? ?|t s]; try (exists 0%nat; intros x fuel C W _; eexists; split; [reflexivity|]; split; [destruct W; constructor; assumption|exact C]).
    destruct (C71_image_update_total Patch (world H) cf (link n P cams frame logm inv front nth_elt ign track ic zc s) t m Hok Hm) as (f1 & U).
    exists f1. intros x fuel C W L. destruct (U x fuel C W L) as (y & E & D). exists y. split; [exact E|]. split; [apply (ud_wf _ _ _ _ _ D)|]. rewrite (ud_cap _ _ _ _ _ D). exact C. }
  destruct ST as (f1 & ST). exists (f0 + f1)%nat. intros x fuel C W L. destruct (ST x fuel C W ltac:(lia)) as (z & Z & Wz & Cz). destruct (IH z fuel Cz Wz ltac:(lia)) as (y & E & R).
  exists y. split; [|exact R]. unfold history. cbn [fold_left rbind]. rewrite Z. exact E.
Qed.
Print Assumptions C99_no_history_gets_stuck.

(** ** Example *)
(** one camera, two slots; a feature in slot 0 is found but its update is rejected; a corner fills slot 1 *)
Definition exl_config : config :=
  {| c_ncam := 1; c_cross := true; c_rmneg := false; c_ub := 9 # 10; c_lb := 1 # 10; c_share := 1 # 2; c_factor := 11 # 10; c_detect := 9 # 10; c_add := ex_params |}.
Definition exl_sight : sight nat unit := {|
  s_moving _ _ := true; s_pre _ _ _ _ := PFound; s_meas _ _ _ _ := None; s_tracked _ _ _ _ := true; s_patch _ _ i := if (i =? 0)%nat then Some 7%nat else None;
  s_cands _ _ c := ex_cands c; s_proj _ _ _ f := Some (f_c f); s_choose _ _ _ _ _ := 0%nat; s_new _ _ _ _ := (m1, REGULAR, None); s_hidden _ _ h := h |}.
Definition exl_slot (v : bool) : slot nat := {| sl_valid := v; sl_feat := {| f_idx := 0; f_cam := 0; f_c := (50, 50)%Q; f_warpid := true; f_patch := 0%nat |} |}.
Definition exl_start : ist nat (world unit) :=
  {| i_fs := {| fs_slots := [exl_slot true; exl_slot false]; fs_maxIdx := 1 |}; i_st := repeat (init exactQ 1 0) 2; i_id := 0; i_cc := 0;
     i_w := {| w_F := Some ex_F; w_med := None; w_h := tt |}; i_log := [] |}.
Definition exl_zero : zcfg := {| z_on := false; z_detect := true; z_time := 1; z_noise := unit_noise |}.
Example C99_ex_start : w_F (i_w exl_start) = Some ex_F /\ in_step exl_start ex_F /\ img_wf 1 exl_start /\ config_ok exl_config.
Proof.
  assert (L : forall i f, live (i_fs exl_start) i f -> i = 0%nat /\ f = sl_feat (exl_slot true)).
  { intros i f E. unfold live in E. destruct i as [|[|[|i]]]; cbn in E; try discriminate. injection E as <-. auto. }
  split; [reflexivity|]. split; [intros [|[|[|i]]]; split; reflexivity || discriminate|]. split.
  - constructor; [reflexivity| | | |].
    + intros i s E. unfold has_stat in E. cbn [exl_start i_st] in E. apply nth_error_In, repeat_spec in E. subst s. exists 0%Z, []. repeat split; constructor.
    + intros i f E. destruct (L i f E) as [_ ->]. cbn. lia.
    + cbn. lia.
    + split; [intros i f E; destruct (L i f E) as [_ ->]; cbn; lia|]. intros i j f g E1 E2 _. destruct (L i f E1), (L j g E2). congruence.
  - destruct (ex_config_ok true) as [_ _ _ _ _ A]. constructor; cbn; try exact A; try lia; try (split; discriminate); reflexivity.
Qed.
Example C99_ex_image : forall n P cams frame logm inv front nth_elt ign track ic,
  match image_update exl_config (link n P cams frame logm inv front nth_elt ign track ic exl_zero exl_sight) 20 1 exl_start with
  | Ok y => Some (rev (i_log y), map (slot_valid y) [0; 1]%nat)
  | _ => None
  end = Some ([EvIncrease 0; EvVisit 0 0; EvUpdate 0 0; EvNew 1 0]%nat, [true; true]).
Proof. intros. lazy. reflexivity. Qed.
