(** Model of one image update: the pre-/post-processing iteration over features and cameras, removal of
    features, forced removal and addition of new ones. include/rovio/ImgUpdate.hpp 586-1045.

    Everything numeric (filter state, covariance, images) is a value of an arbitrary type [World]; its
    effect on the control flow enters through the functions of [geom], which are arbitrary. Feature slots
    are those of FsetModel.v, per-feature statistics those of StatModel.v. Drawing and printing are left out.
    Camera ids of live features are assumed to be in range where the theorems say so. *)
From Coq Require Import List ZArith QArith Bool Arith.
From Verif Require Import Util StatModel FsetModel.
Import ListNotations.

(** outcome of preProcess for one feature in one camera, lines 690-755 *)
Inductive pre_result := PNotInFrame | PFailed | PFound.

(** Ghost log of what was done: visit of a feature in a camera, increaseStatistics, Kalman update, removal,
    creation. *)
Inductive ev := EvIncrease (i : nat) | EvVisit (i c : nat) | EvUpdate (i c : nat) | EvRemove (i : nat) | EvNew (i c : nat).

Record config := {
  c_ncam : nat;          (* mtState::nCam_ *)
  c_cross : bool;        (* useCrossCameraMeasurements_ *)
  c_rmneg : bool;        (* removeNegativeFeatureAfterUpdate_ *)
  c_ub : Q; c_lb : Q;    (* trackingUpperBound_, trackingLowerBound_ *)
  c_share : Q;           (* minTrackedAndFreeFeatures_ *)
  c_factor : Q;          (* removalFactor_ *)
  c_detect : Q;          (* startDetectionTh_ *)
  c_add : params }.      (* nDetectionBuckets_, scoreDetectionExponent_, penaltyDistance_, zeroDistancePenalty_, minAbsoluteSTScore_ *)

Section Img.
Context {Patch World : Type}.

Record geom := {
  g_begin : World -> World;                        (* lines 586-629 *)
  g_pre : World -> nat -> nat -> pre_result;       (* lines 690-755: slot, camera *)
  g_update : World -> nat -> nat -> World;         (* the Kalman update done by the filtering library *)
  g_negative : World -> nat -> bool;               (* dep(i).getDistance() < 1e-8, line 796 *)
  g_tracked : World -> nat -> nat -> bool;         (* update accepted and patch in frame, lines 826-827 *)
  g_drop : World -> nat -> World;                  (* resetFeatureCovariance *)
  g_repatch : World -> nat -> option Patch;        (* lines 908-914: new patch old enough, in frame and good enough *)
  g_patched : World -> nat -> World;               (* lines 916-917 *)
  g_cands : World -> nat -> list (cand Patch);     (* detectFastCorners on the camera's image *)
  g_proj : World -> nat -> feature Patch -> option (Q * Q);
  g_choose : World -> nat -> nat -> nat -> nat;    (* iteration order of unordered_set *)
  g_new : World -> nat -> nat -> World;            (* lines 996-1033: slot, camera *)
  g_end : World -> World }.                        (* lines 1038-1070 *)
Variables (cf : config) (G : geom).

Record ist := {
  i_fs : fset Patch;                 (* filterState.fsm_ *)
  i_st : list (stat (option Q));     (* *features_[i].mpStatistics_ *)
  i_id : nat;                        (* aux().activeFeature_ *)
  i_cc : nat;                        (* aux().activeCameraCounter_ *)
  i_w : World;
  i_log : list ev }.                 (* most recent first *)

Definition nmax (x : ist) : nat := length (fs_slots (i_fs x)).
Definition with_fs (f : fset Patch) (x : ist) : ist :=
  {| i_fs := f; i_st := i_st x; i_id := i_id x; i_cc := i_cc x; i_w := i_w x; i_log := i_log x |}.
Definition with_st (l : list (stat (option Q))) (x : ist) : ist :=
  {| i_fs := i_fs x; i_st := l; i_id := i_id x; i_cc := i_cc x; i_w := i_w x; i_log := i_log x |}.
Definition with_pos (i c : nat) (x : ist) : ist :=
  {| i_fs := i_fs x; i_st := i_st x; i_id := i; i_cc := c; i_w := i_w x; i_log := i_log x |}.
Definition with_w (w : World) (x : ist) : ist :=
  {| i_fs := i_fs x; i_st := i_st x; i_id := i_id x; i_cc := i_cc x; i_w := w; i_log := i_log x |}.
Definition emit (e : ev) (x : ist) : ist :=
  {| i_fs := i_fs x; i_st := i_st x; i_id := i_id x; i_cc := i_cc x; i_w := i_w x; i_log := e :: i_log x |}.

Definition slot_valid (x : ist) (i : nat) : bool :=
  match nth_error (fs_slots (i_fs x)) i with Some s => sl_valid s | None => false end.
(** camID_ of the feature in slot i *)
Definition slot_cam (x : ist) (i : nat) : nat :=
  match nth_error (fs_slots (i_fs x)) i with Some s => Z.to_nat (f_cam (sl_feat s)) | None => 0%nat end.
(** activeCamID = (activeCamCounter + camID) % nCam, line 666 *)
Definition active (x : ist) : nat := ((i_cc x + slot_cam x (i_id x)) mod c_ncam cf)%nat.
(** status_[c] = st of feature i; an invalid camera id would be an out-of-range write and leaves the model
    state unchanged (excluded by the theorems' hypotheses) *)
Definition put_status (i c : nat) (s : tstatus) (x : ist) : ist :=
  with_st (upd_nth i (fun t => match set_status c s t with Some t' => t' | None => t end) (i_st x)) x.
(** isValid_[i] = false; resetFeatureCovariance(i,Identity), lines 799-800, 949-950, 963-964 *)
Definition remove (i : nat) (x : ist) : ist :=
  emit (EvRemove i) (with_w (g_drop G (i_w x) i) (with_fs (invalidate i (i_fs x)) x)).
(** activeCamCounter++ with wrap-around, lines 759-763 and 877-881 *)
Definition advance (x : ist) : ist :=
  if ((i_cc x + 1 =? c_ncam cf)%nat || negb (c_cross cf)) then with_pos (S (i_id x)) 0 x else with_pos (i_id x) (i_cc x + 1) x.

(** one round of the while loop of preProcess for the current slot, lines 661-758; true: measurement found *)
Definition pre_round (t : Z) (x : ist) : bool * ist :=
  if slot_valid x (i_id x) then
    let c := active x in
    let x1 := if (i_cc x =? 0)%nat then emit (EvIncrease (i_id x)) (with_st (upd_nth (i_id x) (increase exactQ t) (i_st x)) x) else x in
    let x2 := emit (EvVisit (i_id x) c) x1 in
    match g_pre G (i_w x) (i_id x) c with
    | PNotInFrame => (false, put_status (i_id x) c NOT_IN_FRAME x2)
    | PFailed => (false, put_status (i_id x) c FAILED_ALIGNEMENT x2)
    | PFound => (true, x2)
    end
  else (false, x).
(** preProcess, lines 660-768; true: a measurement was found, false: isFinished *)
Fixpoint pre_process (fuel : nat) (t : Z) (x : ist) : res (bool * ist) :=
  if (i_id x <? nmax x)%nat then
    match fuel with
    | O => OutOfFuel
    | S k => let (found, y) := pre_round t x in if found then Ok (true, y) else pre_process k t (advance y)
    end
  else Ok (false, x).

(** lines 794-803: loop over all slots *)
Definition remove_negative (x : ist) : ist :=
  if c_rmneg cf then
    fold_left (fun y i => if slot_valid y i && g_negative G (i_w y) i then remove i y else y) (seq 0 (nmax x)) x
  else x.
(** postProcess after an update, lines 781-881 *)
Definition post_process (x : ist) : ist :=
  let y := remove_negative x in
  let z := if slot_valid y (i_id y)
           then put_status (i_id y) (active x) (if g_tracked G (i_w y) (i_id y) (active x) then TRACKED else FAILED_TRACKING) y
           else y in
  advance z.

(** The update loop of the filtering library (LWF::Update::performUpdate, not in /repo):
    do { preProcess; if not finished, Kalman update; postProcess } while not finished. *)
Fixpoint drive (fuel : nat) (t : Z) (x : ist) : res ist :=
  rbind (pre_process fuel t x) (fun r =>
    if fst r : bool then
      match fuel with
      | O => OutOfFuel
      | S k => let y := snd r in
               drive k t (post_process (emit (EvUpdate (i_id y) (active y)) (with_w (g_update G (i_w y) (i_id y) (active y)) y)))
      end
    else Ok (snd r)).

(** ** commonPostProcess, lines 892-1070 *)
Definition stat_of (x : ist) (i : nat) : stat (option Q) := nth i (i_st x) (init exactQ 0 0).
(** lines 900-906 *)
Definition count_now_tracked (x : ist) : nat :=
  length (filter (fun i => slot_valid x i && tracked_in_some_frame (stat_of x i)) (seq 0 (nmax x))).
(** lines 907-921 *)
Definition status_of (x : ist) (i c : nat) : tstatus :=
  match nth_error (s_cams (stat_of x i)) c with Some k => c_status k | None => UNKNOWN end.
Definition set_patch (p : Patch) (s : slot Patch) : slot Patch :=
  {| sl_valid := sl_valid s; sl_feat := {| f_idx := f_idx (sl_feat s); f_cam := f_cam (sl_feat s); f_c := f_c (sl_feat s); f_warpid := true; f_patch := p |} |}.
Definition repatch (x : ist) (i : nat) : ist :=
  if slot_valid x i && tstatus_eqb (status_of x i (slot_cam x i)) TRACKED then
    match g_repatch G (i_w x) i with
    | Some p => with_w (g_patched G (i_w x) i) (with_fs {| fs_slots := upd_nth i (set_patch p) (fs_slots (i_fs x)); fs_maxIdx := fs_maxIdx (i_fs x) |} x)
    | None => x
    end
  else x.
(** lines 943-953 *)
Definition remove_bad (x : ist) : ist :=
  fold_left (fun y i => if slot_valid y i && negb (is_good_feature (stat_of y i) (c_ub cf) (c_lb cf)) then remove i y else y) (seq 0 (nmax x)) x.
(** requiredFreeFeature, line 956: conversion of a double to int *)
Definition required_free (x : ist) (tracked : nat) : option Z :=
  to_int (inject_Z (Z.of_nat (nmax x)) * c_share cf - inject_Z (Z.of_nat tracked))%Q.
(** lines 957-974 *)
Definition enough (required : Z) (x : ist) : bool := (required <=? Z.of_nat (nmax x) - Z.of_nat (valid_count (i_fs x)))%Z.
Definition force_one (factor : Q) (i : nat) (x : ist) : ist :=
  if slot_valid x i && negb (tracked_in_some_frame (stat_of x i)) && negb (is_good_feature (stat_of x i) (c_ub cf * factor)%Q (c_lb cf * factor)%Q)
  then remove i x else x.
Fixpoint force (fuel : nat) (required : Z) (factor : Q) (i : nat) (x : ist) : res ist :=
  if enough required x then Ok x
  else match fuel with
       | O => OutOfFuel
       | S k => let y := force_one factor i x in
                if (S i =? nmax x)%nat then force k required (factor * c_factor cf)%Q 0 y else force k required factor (S i) y
       end.

(** lines 943-974: removal of bad features, then forced removal; [tracked] is countTracked *)
Definition prune (fuel tracked : nat) (x : ist) : res ist :=
  let y := remove_bad x in
  match required_free y tracked with
  | None => UB
  | Some req => force fuel req (c_factor cf) 0 y
  end.

(** lines 986-1034 for one camera: quota, addBestCandidates, initialisation of the new features *)
Definition quota (x : ist) (cam : nat) : nat := ((nmax x - valid_count (i_fs x)) / (c_ncam cf - cam))%nat.
Definition add_params (x : ist) (cam : nat) : params :=
  {| p_nb := p_nb (c_add cf); p_pow := p_pow (c_add cf); p_dist := p_dist (c_add cf); p_pen := p_pen (c_add cf);
     p_max := Z.of_nat (quota x cam); p_req := false; p_min := p_min (c_add cf); p_cam := Z.of_nat cam |}.
Definition init_new (t : Z) (cam : nat) (x : ist) (i : nat) : ist :=
  emit (EvNew i cam) (with_w (g_new G (i_w x) i cam) (put_status i cam TRACKED (with_st (upd_nth i (reset exactQ t) (i_st x)) x))).
Definition add_camera (t : Z) (r : res ist) (cam : nat) : res ist :=
  rbind r (fun x =>
  rbind (add_best (add_params x cam) (g_cands G (i_w x) cam) (g_proj G (i_w x) cam) (g_choose G (i_w x) cam) (i_fs x)) (fun a =>
  Ok (fold_left (init_new t cam) (map fst (snd a)) (with_fs (fst a) x)))).
Definition add_features (t : Z) (x : ist) : res ist :=
  if Qltb (inject_Z (Z.of_nat (valid_count (i_fs x)))) (c_detect cf * inject_Z (Z.of_nat (nmax x)))
  then fold_left (add_camera t) (seq 0 (c_ncam cf)) (Ok x)
  else Ok x.

Definition common_post (fuel : nat) (t : Z) (x : ist) : res ist :=
  let tracked := count_now_tracked x in
  let x1 := fold_left repatch (seq 0 (nmax x)) x in
  rbind (prune fuel tracked x1) (fun x3 =>
  rbind (add_features t x3) (fun x4 => Ok (with_w (g_end G (i_w x4)) x4))).

(** lines 586-629, with an empty log *)
Definition begin_update (x : ist) : ist :=
  {| i_fs := i_fs x; i_st := i_st x; i_id := 0; i_cc := 0; i_w := g_begin G (i_w x); i_log := [] |}.
(** one image update at time [t] *)
Definition image_update (fuel : nat) (t : Z) (x : ist) : res ist :=
  rbind (drive fuel t (begin_update x)) (common_post fuel t).

End Img.
Arguments geom Patch World : clear implicits.
Arguments ist Patch World : clear implicits.
