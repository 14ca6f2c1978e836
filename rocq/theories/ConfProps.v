(** C89: configuration. Which key of the info file sets which parameter, when loading succeeds, and what it changes. *)
From Coq Require Import List Bool Arith ZArith String Lia.
Import ListNotations.
From Verif Require Import ConfModel ConfSpec ConfProofs.
Local Open Scope string_scope.
Local Open Scope list_scope.

(** The key a parameter is read from is the documented one, for every number of features, cameras and additional poses. *)
Theorem C89_keys n v K : (exists e, In e (filter_registers n) /\ e_v e = v /\ full_key e = K) <-> key_of n v = Some K.
Proof. exact (keys n v K). Qed.
Print Assumptions C89_keys.
(** No parameter is registered twice. *)
Theorem C89_one_key n e e' : In e (filter_registers n) -> In e' (filter_registers n) -> e_v e = e_v e' -> e = e'.
Proof. exact (one_entry n e e'). Qed.
Print Assumptions C89_one_key.
(** Two parameters are set by the same key exactly if they are documented as one setting. *)
Theorem C89_sharing n v w K L : key_of n v = Some K -> key_of n w = Some L -> (K = L <-> setting v = setting w).
Proof. exact (sharing n v w K L). Qed.
Print Assumptions C89_sharing.

Section Values.
Context {V : Type} (truth : V -> bool) (ekf iekf : V).
Local Notation load := (load truth ekf iekf).
(** Loading succeeds exactly if the file has all keys of a filter of this size. *)
Theorem C89_load_succeeds n f s : (exists s', load n f s = Some s') <-> forall K, needed n K -> f K <> None.
Proof. exact (load_succeeds truth ekf iekf n f s). Qed.
(** After loading every parameter with a key has the value in the file, *)
Theorem C89_values n f s s' v K : load n f s = Some s' -> key_of n v = Some K -> f K = Some (s' v).
Proof. exact (load_value truth ekf iekf n f s s' v K). Qed.
(** every parameter without a key keeps its value unless it is derived from others, *)
Theorem C89_untouched n f s s' v : load n f s = Some s' -> key_of n v = None -> ~ derived n v -> s' v = s v.
Proof. exact (load_other truth ekf iekf n f s s' v). Qed.
(** and the derived ones are consistent with the others. *)
Theorem C89_derived n f s s' : load n f s = Some s' ->
  let x := if truth (s' (Mem ImgU "useDirectMethod_")) then s' (Mem ImgU "updateNoiseInt_") else s' (Mem ImgU "updateNoisePix_") in
  s' (UpdNoise ImgU A0) = x /\ s' (UpdNoise ImgU A1) = x /\
  s' (Mem ImgU "alignment_.huberNormThreshold_") = s' (Mem ImgU "alignmentHuberNormThreshold_") /\
  s' (Mem ImgU "alignment_.gradientExponent_") = s' (Mem ImgU "alignmentGradientExponent_") /\
  s' (Mem Root "mode_") = (if truth (s' (Mem ImgU "useDirectMethod_")) then iekf else ekf) /\
  forall i, i < z_max n -> s' (StDepType i) = s' (Mem Root "depthTypeInt_").
Proof. exact (load_derived truth ekf iekf n f s s'). Qed.
(** The extrinsics in use are those of the camera's section, whether or not they are estimated. *)
Theorem C89_extrinsics n f s s' c : load n f s = Some s' -> c < z_cam n ->
  (forall a, f [Cam c; Nm ("MrMC" ++ coordinate a)%string] = Some (get_MrMC truth s' c a)) /\
  (forall q, f [Cam c; Nm ("qCM" ++ entry_of q)%string] = Some (get_qCM truth s' c q)).
Proof. exact (load_extrinsics truth ekf iekf n f s s' c). Qed.
(** Keys the filter does not ask for have no effect. *)
Theorem C89_other_keys_ignored n f f' s : (forall K, needed n K -> f K = f' K) -> load n f s = load n f' s.
Proof. exact (load_agrees truth ekf iekf n f f' s). Qed.
(** The feature slots of the initial state, and additional poses beyond the second, cannot be configured. *)
Theorem C89_slots_untouched n f s s' : load n f s = Some s' ->
  (forall i q, s' (StNor i q) = s (StNor i q)) /\ (forall i, s' (StDep i) = s (StDep i)) /\ (forall i a, s' (InitCov (Bfea i) a) = s (InitCov (Bfea i) a)) /\
  forall i, 2 <= i -> (forall a, s' (StVec (Bpop i) a) = s (StVec (Bpop i) a) /\ s' (InitCov (Bpop i) a) = s (InitCov (Bpop i) a) /\ s' (InitCov (Bpoa i) a) = s (InitCov (Bpoa i) a) /\
                               s' (PreNoise (Bpop i) a) = s (PreNoise (Bpop i) a) /\ s' (PreNoise (Bpoa i) a) = s (PreNoise (Bpoa i) a)) /\
                      (forall q, s' (StQuat (Bpoa i) q) = s (StQuat (Bpoa i) q)).
Proof.
  intros Q.
  assert (D : forall v, match v with StNor _ _ | StDep _ | InitCov _ _ | StVec _ _ | PreNoise _ _ | StQuat _ _ => True | _ => False end -> key_of n v = None -> s' v = s v).
  { intros v M E. apply (load_other truth ekf iekf n f s s' v Q E). intros [->|[->|[->|[->|[->|[i [_ ->]]]]]]]; exact M. }
  split; [|split; [|split]]; [intros; apply D; [exact I|reflexivity]..|].
  intros [|[|i]] L; [lia|lia|]. split; [intros a; repeat split|intros q]; apply D; try exact I; reflexivity.
Qed.

(** The shipped file cfg/rovio.info is complete for filters with at most two cameras, and for no others. *)
Theorem C89_shipped_file n (f : @file V) s : (forall K, f K <> None <-> In K shipped_keys) -> ((exists s', load n f s = Some s') <-> z_cam n <= 2).
Proof.
  intros A. rewrite load_succeeds, <- shipped_suffices. split; intros B K N; apply A, B, N.
Qed.
(** With two cameras and both additional poses, every key of it matters, *)
Theorem C89_every_key_matters n (f f' : @file V) s s1 s2 K : 2 <= z_cam n -> 1 <= z_max n -> 2 <= z_pose n -> In K shipped_keys ->
  f K <> f' K -> load n f s = Some s1 -> load n f' s = Some s2 -> exists v, s1 v <> s2 v.
Proof.
  intros C M P I N L1 L2. apply (shipped_used n C M P) in I. apply needed_keys in I. destruct I as [v E]. exists v.
  intros Q. apply N. rewrite (load_value truth ekf iekf n f s s1 v K L1 E), (load_value truth ekf iekf n f' s s2 v K L2 E), Q. reflexivity.
Qed.
(** but without additional poses, as built by default, eight of its keys have no effect. *)
Theorem C89_pose_keys_without_poses n (f f' : @file V) s : z_pose n = 0 ->
  (forall K, ~ In K (first_pose_keys ++ second_pose_keys) -> f K = f' K) -> load n f s = load n f' s.
Proof.
  intros Z A. apply load_agrees. intros K N. apply A. intros I. exact (pose_keys_unused n K Z I N).
Qed.
End Values.
Print Assumptions C89_load_succeeds.
Print Assumptions C89_values.
Print Assumptions C89_untouched.
Print Assumptions C89_derived.
Print Assumptions C89_extrinsics.
Print Assumptions C89_other_keys_ignored.
Print Assumptions C89_slots_untouched.
Print Assumptions C89_shipped_file.
Print Assumptions C89_every_key_matters.
Print Assumptions C89_pose_keys_without_poses.

(** A filter with 25 features, one camera and no additional pose, given a file that stores under every shipped key the length of the key:
    loading succeeds; the direct method is on, so the noise of the image update is the intensity noise. *)
Definition demo_size : sizes := {| z_max := 25; z_cam := 1; z_pose := 0 |}.
Definition demo_file : @file nat := fun K => if existsb (key_eqb K) shipped_keys then Some (if key_eqb K [Nm "ImgUpdate"; Nm "UpdateNoise"; Nm "int"] then 400 else List.length K) else None.
Definition positive (x : nat) : bool := Nat.ltb 0 x.
Definition demo_loaded := load positive 0 1 demo_size demo_file (fun _ => 99).
Example C89_ex_loaded :
  option_map (fun s => (s (UpdNoise ImgU A1), s (Mem Root "mode_"), s (PreNoise (Bfea 7) A2), get_MrMC positive s 0 A2, s (StDep 3), s (StDepType 24), s (StDepType 25), s (MemQ PoseU "qWI_" Qw))) demo_loaded
  = Some (400, 1, 3, 2, 99, 2, 99, 2).
Proof. vm_compute. reflexivity. Qed.
(** three cameras: it fails *)
Example C89_ex_three_cameras : load positive 0 1 {| z_max := 25; z_cam := 3; z_pose := 0 |} demo_file (fun _ => 99) = None.
Proof. vm_compute. reflexivity. Qed.
(** the eight keys without effect, and the first of them does have one if there is an additional pose *)
Example C89_ex_eight : List.length (first_pose_keys ++ second_pose_keys) = 8.
Proof. reflexivity. Qed.
Example C89_ex_with_pose : key_of {| z_max := 25; z_cam := 1; z_pose := 1 |} (InitCov (Bpop 0) A1) = Some [Nm "PoseUpdate"; Nm "init_cov_IrIW"].
Proof. reflexivity. Qed.
(** settings: the noise of the bearing is shared by all features, that of the distance is another setting *)
Example C89_ex_sharing : setting (PreNoise (Bfea 3) A0) = setting (PreNoise (Bfea 8) A1) /\ setting (PreNoise (Bfea 3) A0) <> setting (PreNoise (Bfea 3) A2).
Proof. split; [reflexivity|discriminate]. Qed.
