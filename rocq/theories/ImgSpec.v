(** Specification vocabulary for the image update (C37-C40, C71). *)
From Coq Require Import List ZArith QArith Bool Arith.
From Verif Require Import Util StatModel StatSpec FsetModel FsetSpec ImgModel.
Import ListNotations.

Section S.
Context {Patch World : Type}.
Notation ist := (ist Patch World).

(** slot [i] holds a live feature [f] *)
Definition alive (x : ist) (i : nat) : Prop := exists f, live (i_fs x) i f.
(** the statistics of slot [i] *)
Definition has_stat (x : ist) (i : nat) (s : stat (option Q)) : Prop := nth_error (i_st x) i = Some s.

(** a statistics object for [ncam] cameras after any sequence of operations with ranges of at least one frame *)
Definition recorded (ncam : nat) (s : stat (option Q)) : Prop :=
  exists t0 os, Forall ranges_ok os /\ Forall (cam_in_range ncam) os /\ run exactQ (init exactQ ncam t0) os = Some s.

(** one statistics object per slot, for [ncam] cameras; live features belong to an existing camera and have
    pairwise different ids *)
Record img_wf (ncam : nat) (x : ist) : Prop := {
  wf_len : length (i_st x) = capacity (i_fs x);
  wf_stat : forall i s, has_stat x i s -> recorded ncam s;
  wf_cam : forall i f, live (i_fs x) i f -> (0 <= f_cam f < Z.of_nat ncam)%Z;
  wf_max : (0 <= fs_maxIdx (i_fs x))%Z;
  wf_ids : ids_ok (i_fs x) }.

(** the statistics of the feature in slot [i] are good enough at thresholds [upper], [lower] *)
Definition good_at (x : ist) (upper lower : Q) (i : nat) : Prop :=
  exists s, has_stat x i s /\ is_good_feature s upper lower = true.
(** the feature in slot [i] was tracked in some camera in the current frame *)
Definition tracked_now (x : ist) (i : nat) : Prop :=
  exists s k c, has_stat x i s /\ nth_error (s_cams s) k = Some c /\ c_status c = TRACKED.
(** number of live features tracked in the current frame *)
Definition is_tracked_count (x : ist) (m : nat) : Prop :=
  exists l, NoDup l /\ length l = m /\ forall i, In i l <-> alive x i /\ tracked_now x i.
(** [f] raised to a power *)
Fixpoint Qpow (f : Q) (k : nat) : Q := match k with O => 1%Q | S k' => (f * Qpow f k')%Q end.

(** The cameras a feature of camera [cam] is to be measured in, in order: its own first, then (if
    cross-camera measurements are wanted) all others cyclically. *)
Definition schedule (cross : bool) (ncam cam : nat) : list nat :=
  if cross then seq cam (ncam - cam) ++ seq 0 cam else [cam].

(** visits of feature [i] recorded in a log, oldest first; the log lists the most recent event first *)
Fixpoint visits (i : nat) (l : list ev) : list nat :=
  match l with
  | [] => []
  | EvVisit j c :: l' => if (j =? i)%nat then visits i l' ++ [c] else visits i l'
  | _ :: l' => visits i l'
  end.
Definition increases (i : nat) (l : list ev) : nat := length (filter (fun e => match e with EvIncrease j => (j =? i)%nat | _ => false end) l).
Definition removed (i : nat) (l : list ev) : Prop := In (EvRemove i) l.

(** an outcome is recorded for every visit *)
Definition definite (s : tstatus) : Prop := s <> UNKNOWN.
(** outcomes that come with a filter update *)
Definition by_update (s : tstatus) : bool := match s with TRACKED | FAILED_TRACKING => true | _ => false end.
(** what happens to the statistics of a feature in one image update: a new frame begins, then one outcome per camera *)
Definition frame_ops (t : Z) (cams : list nat) (outs : list tstatus) : list op :=
  OpIncrease t :: map (fun p => OpStatus (fst p) (snd p)) (combine cams outs).
End S.

(** ** One image update and sequences of them *)
Section H.
Context {Patch World : Type}.
Variables (cf : config) (G : geom Patch World).
Notation ist := (ist Patch World).

(** configurations the update is meant to be used with *)
Record config_ok : Prop := {
  ok_ncam : (1 <= c_ncam cf)%nat;
  ok_ub : (0 < c_ub cf)%Q;
  ok_lb : (0 < c_lb cf)%Q;
  ok_factor : (1 < c_factor cf)%Q;
  ok_share : (0 <= c_share cf <= 1)%Q;
  ok_add : sane (c_add cf) }.

(** camera [cam] sees enough good candidates in state [x]: as many as there are free slots, further apart from
    each other and from the features of the map than the penalty distance *)
Definition plenty (x : ist) (cam : nat) : Prop :=
  separated (c_add cf) (g_cands G (i_w x) cam) (in_view (g_proj G (i_w x) cam) (i_fs x)) /\
  (n_free (i_fs x) <= n_eligible (c_add cf) (g_cands G (i_w x) cam))%nat.

(** state when it is the turn of camera [k] to add features, starting from [x] at time [t] *)
Definition turn (t : Z) (x : ist) (k : nat) : res ist := fold_left (add_camera cf G t) (seq 0 k) (Ok x).

(** cameras the feature [f] is measured in *)
Definition cams_of (f : feature Patch) : list nat := schedule (c_cross cf) (c_ncam cf) (Z.to_nat (f_cam f)).

(** the outcome recorded for feature slot [i] in camera [c] is the one that was observed: not in frame, no
    match found, or (after the filter update) accepted and in frame or not *)
Definition observed (i c : nat) (o : tstatus) : Prop :=
  match o with
  | UNKNOWN => False
  | NOT_IN_FRAME => exists w, g_pre G w i c = PNotInFrame
  | FAILED_ALIGNEMENT => exists w, g_pre G w i c = PFailed
  | TRACKED => exists w, g_tracked G w i c = true
  | FAILED_TRACKING => exists w, g_tracked G w i c = false
  end.
(** the statistics of the feature [f] in slot [i] went from [s0] to [s] in one frame at time [t]: the frame was
    counted once and one definite outcome was recorded for every camera of its schedule; outcomes that require a
    filter update were recorded only where the update log [l] has one, and wherever it has one *)
Definition one_frame (t : Z) (l : list ev) (i : nat) (f : feature Patch) (s0 s : stat (option Q)) : Prop :=
  exists outs, length outs = length (cams_of f) /\ Forall definite outs /\
    run exactQ s0 (frame_ops t (cams_of f) outs) = Some s /\
    forall k c o, nth_error (cams_of f) k = Some c -> nth_error outs k = Some o -> (by_update o = true <-> In (EvUpdate i c) l) /\ observed i c o.

(** statistics of a feature just created in camera [cam] at time [t] (on top of any earlier contents [s0]) *)
Definition newborn (t : Z) (cam : nat) (s0 s : stat (option Q)) : Prop :=
  run exactQ s0 [OpReset t; OpStatus cam TRACKED] = Some s.

(** effect of one image update at time [t]: the state stays well formed, and every live feature afterwards is an old one
    in its old slot, with the same id and camera and one more frame of statistics, or a new one with an id never used
    before and fresh statistics *)
Record updated (t : Z) (x y : ist) : Prop := {
  ud_wf : img_wf (c_ncam cf) y;
  ud_cap : capacity (i_fs y) = capacity (i_fs x);
  ud_idx : (fs_maxIdx (i_fs x) <= fs_maxIdx (i_fs y))%Z;
  ud_live : forall i f, live (i_fs y) i f ->
     (exists f0 s0 s, live (i_fs x) i f0 /\ f_idx f = f_idx f0 /\ f_cam f = f_cam f0 /\ has_stat x i s0 /\ has_stat y i s /\ one_frame t (i_log y) i f0 s0 s) \/
     (exists s0 s, (fs_maxIdx (i_fs x) <= f_idx f)%Z /\ has_stat y i s /\ newborn t (Z.to_nat (f_cam f)) s0 s /\ In (EvNew i (Z.to_nat (f_cam f))) (i_log y)) }.

(** image updates at times [ts], one after the other *)
Inductive updates : list Z -> ist -> ist -> Prop :=
| up_nil x : updates [] x x
| up_step t ts x y z fuel : image_update cf G fuel t x = Ok y -> updates ts y z -> updates (t :: ts) x z.

(** statistics of a feature that lives through the frames at times [ts] *)
Inductive frames_of (f : feature Patch) : list Z -> stat (option Q) -> stat (option Q) -> Prop :=
| fr_nil s : frames_of f [] s s
| fr_step t ts outs s0 s s' : length outs = length (cams_of f) -> Forall definite outs ->
    run exactQ s0 (frame_ops t (cams_of f) outs) = Some s -> frames_of f ts s s' -> frames_of f (t :: ts) s0 s'.
End H.
