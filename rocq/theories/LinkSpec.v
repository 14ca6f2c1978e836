(** What an image update amounts to as a sequence of steps of the filter. *)
From Coq Require Import Reals List ZArith QArith Bool Arith.
From Verif Require Import Util Geo Lie DistModel FiltModel OutModel CamModel InnoModel UpdModel CovModel BornModel SlotModel KalSpec GaugeSpec IsoSpec.
From Verif Require Import StatModel FsetModel ImgModel LinkModel.
Import ListNotations.
Local Open Scope R_scope.

(** the slots the filter estimates are those of the feature set, with the same cameras *)
Definition in_step {Patch H} (x : ist Patch (world H)) (F : kf) : Prop :=
  forall i, k_used F i = slot_valid x i /\ (slot_valid x i = true -> Z.to_nat (ft_cam (x_fea (k_x F) i)) = slot_cam x i).

(** a measurement of feature [i] in camera [c] *)
Definition about (i c : nat) (ms : meas) : Prop :=
  match ms with MPix j k _ _ | MDirect j k _ _ => j = i /\ k = c | _ => False end.
(** The protocol of the image update (oldest entry first) and the steps of the filter. A Kalman update may be
    rejected as an outlier; the search for a feature and its statistics do not touch the filter. *)
Inductive played : list ev -> list kop -> Prop :=
| pl_nil : played [] []
| pl_increase i es l : played es l -> played (EvIncrease i :: es) l
| pl_visit i c es l : played es l -> played (EvVisit i c :: es) l
| pl_update i c ms Rn k es l : about i c ms -> played es l -> played (EvUpdate i c :: es) (KMeas ms Rn k :: l)
| pl_rejected i c es l : played es l -> played (EvUpdate i c :: es) l
| pl_remove i es l : played es l -> played (EvRemove i :: es) (KFree i :: l)
| pl_new ws es l : played es l -> played (map (fun w => EvNew (w_slot w) (w_cam w)) ws ++ es) (KUse ws :: l)
(* not recorded in the protocol *)
| pl_warp i es l : played es l -> played es (KWarp i :: l)
| pl_motion es l : played es l -> played es (KMotion :: l)
| pl_zero Rn k es l : played es l -> played es (KMeas MZero Rn k :: l).

(** a step that is not void: it concerns a feature that is there, or free slots *)
Definition meaningful (F : kf) (o : kop) : Prop :=
  match o with
  | KMeas ms _ _ => concerns F ms = true
  | KFree i | KWarp i => k_used F i = true
  | KUse ws => NoDup (map w_slot ws) /\ Forall (fun w => k_used F (w_slot w) = false) ws
  | _ => True
  end.
(** [run]: the filter before each step *)
Definition sound (run : list kop -> option kf) (l : list kop) : Prop :=
  forall a o b G, l = a ++ o :: b -> run a = Some G -> meaningful G o.
(** Kalman updates with what the image shows, and removals *)
Definition update_or_free {Patch H} (s : sight Patch H) (o : kop) : Prop :=
  match o with
  | KMeas ms Rn k => exists F h i c d m, s_meas s F h i c = Some (d, m, Rn, k) /\ ms = match m with inl p => MPix i c d p | inr e => MDirect i c d e end
  | KFree _ => True
  | _ => False
  end.

(** neither camera nor IMU have noticed motion for long enough *)
Definition at_rest (zc : zcfg) (F : kf) : Prop :=
  z_on zc = true /\ z_detect zc = true /\ z_time zc < a_timerV (x_aux (k_x F)) /\ z_time zc < a_timerI (x_aux (k_x F)).

(** a step of the filter due to an image *)
Definition of_image {Patch H} (zc : zcfg) (s : sight Patch H) (o : kop) : Prop :=
  match o with
  | KPredict _ _ _ => False
  | KMeas MZero Rn k => Rn = z_noise zc /\ k = 0%nat
  | KMeas _ _ _ => update_or_free s o
  | _ => True
  end.
(** the steps due to a history, in order *)
Inductive due {Patch H} (zc : zcfg) : list (event Patch H) -> list kop -> Prop :=
| du_nil : due zc [] []
| du_imu m dt Q es l : due zc es l -> due zc (VImu m dt Q :: es) (KPredict m dt Q :: l)
| du_pose c m Rn k es l : due zc es l -> due zc (VPose c m Rn k :: es) (KMeas (MPose c m) Rn k :: l)
| du_vel q v Rn k es l : due zc es l -> due zc (VVel q v Rn k :: es) (KMeas (MVel q v) Rn k :: l)
| du_image t s es a l : Forall (of_image zc s) a -> due zc es l -> due zc (VImage t s :: es) (a ++ l).

(** noise handed to the filter by an event: covariances *)
Definition event_ok {Patch H} (n : dims) (e : event Patch H) : Prop :=
  match e with
  | VImu _ _ Q => valid_cov n Q
  | VPose _ _ Rn _ => good_noise 6 Rn
  | VVel _ _ Rn _ => good_noise 3 Rn
  | VImage _ s => forall F h i c m Rn k, s_meas s F h i c = Some (m, Rn, k) -> good_noise 2 Rn
  end.
Definition event_no_pose {Patch H} (e : event Patch H) : Prop := match e with VPose _ _ _ _ => False | _ => True end.

(** An image looks the same to two filters related by [E]: what it shows depends only on what they have in
    common, as far as features in use are concerned. *)
Record sees_alike {Patch H} (E : kf -> kf -> Prop) (s : sight Patch H) : Prop := {
  al_moving : forall F G h, E F G -> s_moving s F h = s_moving s G h;
  al_search : forall F G h i c, E F G -> k_used F i = true -> s_pre s F h i c = s_pre s G h i c;
  al_meas : forall F G h i c, E F G -> k_used F i = true -> s_meas s F h i c = s_meas s G h i c;
  al_track : forall F G h i c, E F G -> k_used F i = true -> s_tracked s F h i c = s_tracked s G h i c;
  al_patch : forall F G h i, E F G -> k_used F i = true -> s_patch s F h i = s_patch s G h i;
  al_corners : forall F G h c, E F G -> s_cands s F h c = s_cands s G h c;
  al_places : forall F G h c, E F G -> s_proj s F h c = s_proj s G h c;
  al_order : forall F G h c, E F G -> s_choose s F h c = s_choose s G h c;
  al_found : forall F G h i c, E F G -> s_new s F h i c = s_new s G h i c;
  al_hidden : forall F G h o, E F G -> s_hidden s o F h = s_hidden s o G h }.

Definition event_alike {Patch H} (E : kf -> kf -> Prop) (e : event Patch H) : Prop := match e with VImage _ s => sees_alike E s | _ => True end.
(** the filter [G] in place of the one that is there *)
Definition with_filter {Patch H} (G : kf) (x : ist Patch (world H)) : ist Patch (world H) :=
  {| i_fs := i_fs x; i_st := i_st x; i_id := i_id x; i_cc := i_cc x; i_w := {| w_F := Some G; w_med := w_med (i_w x); w_h := w_h (i_w x) |}; i_log := i_log x |}.
(** Two histories take the same course: the same features with the same statistics, the same protocol, all else
    alike, and filters related by [E]. *)
Definition same_course {Patch H} (E : kf -> kf -> Prop) (a b : res (ist Patch (world H))) : Prop :=
  match a, b with
  | Ok x, Ok y => i_fs x = i_fs y /\ i_st x = i_st y /\ i_log x = i_log y /\ w_h (i_w x) = w_h (i_w y) /\
      match w_F (i_w x), w_F (i_w y) with Some F, Some G => E F G | None, None => True | _, _ => False end
  | UB, UB | OutOfFuel, OutOfFuel => True
  | _, _ => False
  end.
(** events seen from another world frame *)
Definition moved_event {Patch H} (Y : M3) (iw : nat -> bool) (e : event Patch H) : event Patch H :=
  match e with VImu m dt Q => VImu m dt (turned (noise_turn Y iw) Q) | _ => e end.
Definition event_fits {Patch H} (t : V3) (iw : nat -> bool) (e : event Patch H) : Prop :=
  match e with
  | VPose c _ _ _ =>
      match inertial c with Some i => iw i = true /\ t = v0 | None => True end /\
      match body c with Some j => iw j = false | None => True end
  | _ => True
  end.
(** external poses without feedback, their noise in the prediction independent of the rest *)
Definition event_no_feedback {Patch H} (e : event Patch H) : Prop :=
  match e with VPose c _ _ _ => noFb c = true | VImu _ _ Q => separated Q | _ => True end.
Definition event_not_pose {Patch H} (e : event Patch H) : bool := match e with VPose _ _ _ _ => false | _ => true end.
