(** Model of the feature tracker node: FeatureTrackerNode::imgCallback
    (/repo/include/rovio/featureTracker.hpp 109-259), on top of the feature set of FsetModel. The image
    operations are parameters of a frame. Drawing, timing printouts and the feature statistics other than
    the status are left out. *)
From Coq Require Import List ZArith QArith Bool.
From Verif Require Import Util StatModel FsetModel.
Import ListNotations.
Local Open Scope Q_scope.

Section Track.
Context {Patch : Type}.
(** what the tracker keeps with a feature: its multilevel patch, log_previous_ and status_[0] *)
Record memo := { k_patch : Patch; k_prev : Q * Q; k_status : tstatus }.
(** one image: isMultilevelPatchInFrame at level nLevels_-1 with/without border, align2DComposed on
    levels l1..l2 from a start coordinate, extractMultilevelPatchFromImage, the detected candidates, the
    contents of the memory of newly used slots, the order of the hash sets *)
Record frame := {
  fr_in : bool -> Q * Q -> bool;
  fr_align : Patch -> Q * Q -> option (Q * Q);
  fr_extract : Q * Q -> Patch;
  fr_cands : list (cand memo);
  fr_choose : nat -> nat -> nat }.
(** min_feature_count_ and the parameters of addBestCandidates (lines 55-77, 83-84) *)
Record tconf := { t_min : nat; t_add : params }.
Definition tset := fset memo.
Definition with_memo (f : feature memo) (c : Q * Q) (m : memo) : feature memo :=
  {| f_idx := f_idx f; f_cam := f_cam f; f_c := c; f_warpid := f_warpid f; f_patch := m |}.
(** lines 136-141: predicted location from the last two *)
Definition predict_c (fr : frame) (f : feature memo) : Q * Q :=
  let c := f_c f in let v := k_prev (f_patch f) in
  let p := (fst c + (3 # 4) * (fst c - fst v), snd c + (3 # 4) * (snd c - snd v)) in
  if fr_in fr false p then p else c.
(** lines 133-148 for one feature *)
Definition predict (fr : frame) (f : feature memo) : feature memo :=
  with_memo f (predict_c fr f) {| k_patch := k_patch (f_patch f); k_prev := f_c f; k_status := UNKNOWN |}.
(** lines 153-178 for one feature *)
Definition align (fr : frame) (f : feature memo) : feature memo :=
  match fr_align fr (k_patch (f_patch f)) (f_c f) with
  | Some c => with_memo f c {| k_patch := k_patch (f_patch f); k_prev := c; k_status := TRACKED |}
  | None => with_memo f (f_c f) {| k_patch := k_patch (f_patch f); k_prev := k_prev (f_patch f); k_status := FAILED_ALIGNEMENT |}
  end.
(** each loop treats the valid slots one by one *)
Definition each (g : feature memo -> feature memo) (s : slot memo) : slot memo :=
  if sl_valid s then {| sl_valid := true; sl_feat := g (sl_feat s) |} else s.
(** lines 211-219 *)
Definition prune (s : slot memo) : slot memo :=
  if sl_valid s && tstatus_eqb (k_status (f_patch (sl_feat s))) FAILED_ALIGNEMENT then {| sl_valid := false; sl_feat := sl_feat s |} else s.
(** lines 225-232 for one feature *)
Definition renew (fr : frame) (f : feature memo) : feature memo :=
  if tstatus_eqb (k_status (f_patch f)) TRACKED && fr_in fr true (f_c f)
  then with_memo f (f_c f) {| k_patch := fr_extract fr (f_c f); k_prev := k_prev (f_patch f); k_status := k_status (f_patch f) |} else f.
Definition over (g : slot memo -> slot memo) (fs : tset) : tset := {| fs_slots := map g (fs_slots fs); fs_maxIdx := fs_maxIdx fs |}.
(** lines 248-253 for one new feature *)
Definition mark (f : feature memo) : feature memo :=
  with_memo f (f_c f) {| k_patch := k_patch (f_patch f); k_prev := f_c f; k_status := TRACKED |}.
Definition mark_all (news : list (nat * nat)) (fs : tset) : tset :=
  fold_left (fun fs n => {| fs_slots := upd_nth (fst n) (fun s => {| sl_valid := sl_valid s; sl_feat := mark (sl_feat s) |}) (fs_slots fs); fs_maxIdx := fs_maxIdx fs |}) news fs.
(** the set after the loops up to line 232 *)
Definition followed (fr : frame) (fs : tset) : tset :=
  over (each (renew fr)) (over prune (over (each (align fr)) (over (each (predict fr)) fs))).
(** imgCallback; with one camera the coordinates of the existing features are their pixels *)
Definition callback (cf : tconf) (fr : frame) (fs : tset) : res tset :=
  let fs1 := followed fr fs in
  if (valid_count fs1 <? t_min cf)%nat then
    rbind (add_best (t_add cf) (fr_cands fr) (fun f => Some (f_c f)) (fr_choose fr) fs1) (fun r => Ok (mark_all (snd r) (fst r)))
  else Ok fs1.
Fixpoint track (cf : tconf) (frs : list frame) (fs : tset) : res tset :=
  match frs with [] => Ok fs | fr :: r => rbind (callback cf fr fs) (track cf r) end.
End Track.
Arguments memo Patch : clear implicits.
Arguments frame Patch : clear implicits.
Arguments tset Patch : clear implicits.
