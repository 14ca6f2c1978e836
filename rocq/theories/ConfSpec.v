(** What the info file documents: the keys of the shipped cfg/rovio.info, and which parameter each key sets. *)
From Coq Require Import List Bool Arith String.
Import ListNotations.
From Verif Require Import ConfModel.
Local Open Scope string_scope.
Local Open Scope list_scope.
Local Notation "a +++ b" := (String.append a b) (at level 60, right associativity).

(** a section of the file: its path, and the names in it *)
Definition section (p : list seg) (names : list string) : list key := map (fun s => p ++ [Nm s]) names.
Definition vec012 (s : string) : list string := [s +++ "_0"; s +++ "_1"; s +++ "_2"].
Definition vecxyz (s : string) : list string := [s +++ "_x"; s +++ "_y"; s +++ "_z"].
Definition quat (s : string) : list string := [s +++ "_x"; s +++ "_y"; s +++ "_z"; s +++ "_w"].

(** the members of the pose update that only concern additional poses in the state, per additional pose *)
Definition first_pose_keys : list key := section [Nm "PoseUpdate"] ["init_cov_IrIW"; "init_cov_qWI"; "pre_cov_IrIW"; "pre_cov_qWI"].
Definition second_pose_keys : list key := section [Nm "PoseUpdate"] ["init_cov_MrMV"; "init_cov_qVM"; "pre_cov_MrMV"; "pre_cov_qVM"].
Definition camera_keys (c : nat) : list key := section [Cam c] ("CalibrationFile" :: quat "qCM" ++ vecxyz "MrMC").
(** keys that configure parameters of features, of cameras in general *)
Definition feature_keys : list key :=
  section [Nm "ImgUpdate"] ["doPatchWarping"; "statLocalQualityRange"; "statLocalVisibilityRange"; "statMinGlobalQualityRange"] ++
  section [Nm "Prediction"; Nm "PredictionNoise"] ["dep"; "nor"].
Definition extrinsics_keys : list key := section [Nm "Init"; Nm "Covariance"] ["vep"; "vea"] ++ section [Nm "Prediction"; Nm "PredictionNoise"] ["vep"; "vea"].

(** members that are read from a key of their own, in the order of the file *)
Definition own (h : handler) (p : list seg) (names : list string) : list (handler * string * key) :=
  map (fun s => (h, s +++ "_", p ++ [Nm s])) names.
Definition members : list (handler * string * key) :=
  own Root [Nm "Common"] ["doVECalibration"] ++ [(Root, "depthTypeInt_", [Nm "Common"; Nm "depthType"])] ++ own ImgU [Nm "Common"] ["verbose"] ++
  own ImgU [Nm "ImgUpdate"] ["updateVecNormTermination"; "maxNumIteration"; "doFrameVisualisation"; "visualizePatches"; "useDirectMethod"; "startLevel"; "endLevel";
    "nDetectionBuckets"] ++
  [(ImgU, "mahalTh0", [Nm "ImgUpdate"; Nm "MahalanobisTh"]); (ImgU, "updateNoisePix_", [Nm "ImgUpdate"; Nm "UpdateNoise"; Nm "pix"]);
   (ImgU, "updateNoiseInt_", [Nm "ImgUpdate"; Nm "UpdateNoise"; Nm "int"])] ++
  own ImgU [Nm "ImgUpdate"] ["initDepth"; "startDetectionTh"; "scoreDetectionExponent"; "penaltyDistance"; "zeroDistancePenalty"; "trackingUpperBound"; "trackingLowerBound";
    "minTrackedAndFreeFeatures"; "removalFactor"; "minRelativeSTScore"; "minAbsoluteSTScore"; "minTimeBetweenPatchUpdate"; "fastDetectionThreshold";
    "alignConvergencePixelRange"; "alignCoverageRatio"; "alignMaxUniSample"; "patchRejectionTh"; "alignmentHuberNormThreshold"; "alignmentGaussianWeightingSigma";
    "alignmentGradientExponent"] ++
  [(ImgU, "alignment_.useIntensityOffset_", [Nm "ImgUpdate"; Nm "useIntensityOffsetForAlignment"]);
   (ImgU, "alignment_.useIntensitySqew_", [Nm "ImgUpdate"; Nm "useIntensitySqewForAlignment"])] ++
  own ImgU [Nm "ImgUpdate"] ["removeNegativeFeatureAfterUpdate"; "maxUncertaintyToDepthRatioForDepthInitialization"; "useCrossCameraMeasurements"; "doStereoInitialization";
    "noiseGainForOffCamera"; "discriminativeSamplingDistance"; "discriminativeSamplingGain"] ++
  [(ImgU, "doVisualMotionDetection_", [Nm "ImgUpdate"; Nm "MotionDetection"; Nm "isEnabled"])] ++
  own ImgU [Nm "ImgUpdate"; Nm "MotionDetection"] ["rateOfMovingFeaturesTh"; "pixelCoordinateMotionTh"; "minFeatureCountForNoMotionDetection"] ++
  [(Zero, "mahalTh0", [Nm "ImgUpdate"; Nm "ZeroVelocityUpdate"; Nm "MahalanobisTh0"]);
   (ImgU, "minTimeForZeroVelocityUpdate_", [Nm "ImgUpdate"; Nm "ZeroVelocityUpdate"; Nm "minNoMotionTime"]);
   (ImgU, "isZeroVelocityUpdateEnabled_", [Nm "ImgUpdate"; Nm "ZeroVelocityUpdate"; Nm "isEnabled"])] ++
  own Pred [Nm "Prediction"; Nm "MotionDetection"] ["inertialMotionRorTh"; "inertialMotionAccTh"] ++
  [(PoseU, "mahalTh0", [Nm "PoseUpdate"; Nm "MahalanobisTh0"]); (Root, "plotPoseMeas_", [Nm "PoseUpdate"; Nm "doVisualization"])] ++
  own PoseU [Nm "PoseUpdate"] ["enablePosition"; "enableAttitude"; "noFeedbackToRovio"; "doInertialAlignmentAtStart"; "timeOffset"; "useOdometryCov"] ++
  [(VelU, "mahalTh0", [Nm "VelocityUpdate"; Nm "MahalanobisTh0"])].

(** the keys common to every build *)
Definition base_keys : list key :=
  map snd members ++
  section [Nm "Init"; Nm "State"] (vec012 "pos" ++ vec012 "vel" ++ vec012 "acb" ++ vec012 "gyb" ++ quat "att") ++
  section [Nm "Init"; Nm "Covariance"] (vec012 "pos" ++ vec012 "vel" ++ vec012 "acb" ++ vec012 "gyb" ++ vec012 "att") ++
  section [Nm "ImgUpdate"] (vec012 "initCovFeature") ++
  section [Nm "ImgUpdate"; Nm "ZeroVelocityUpdate"; Nm "UpdateNoise"] (vec012 "vel") ++
  section [Nm "Prediction"; Nm "PredictionNoise"] (vec012 "pos" ++ vec012 "vel" ++ vec012 "acb" ++ vec012 "gyb" ++ vec012 "att") ++
  section [Nm "PoseUpdate"; Nm "UpdateNoise"] (vec012 "pos" ++ vec012 "att") ++
  section [Nm "PoseUpdate"] (quat "qVM" ++ vecxyz "MrMV" ++ quat "qWI" ++ vecxyz "IrIW") ++
  section [Nm "VelocityUpdate"; Nm "UpdateNoise"] (vec012 "vel") ++
  section [Nm "VelocityUpdate"] (quat "qAM").

(** the keys of the shipped file cfg/rovio.info: two cameras, both additional poses *)
Definition shipped_keys : list key :=
  base_keys ++ camera_keys 0 ++ camera_keys 1 ++ extrinsics_keys ++ feature_keys ++ first_pose_keys ++ second_pose_keys.

(** the keys a filter of the given sizes asks for *)
Definition needed (n : sizes) (k : key) : Prop :=
  In k base_keys \/
  (exists c, c < z_cam n /\ (In k (camera_keys c) \/ In k extrinsics_keys)) \/
  (0 < z_max n /\ In k feature_keys) \/
  (0 < z_pose n /\ In k first_pose_keys) \/
  (1 < z_pose n /\ In k second_pose_keys).

(** ** the parameter a key sets: the documented key of every parameter *)
Definition component (a : ax) : string := match a with A0 => "_0" | A1 => "_1" | A2 => "_2" end.
Definition coordinate (a : ax) : string := match a with A0 => "_x" | A1 => "_y" | A2 => "_z" end.
Definition entry_of (q : qc) : string := match q with Qw => "_w" | Qx => "_x" | Qy => "_y" | Qz => "_z" end.
Definition imu_name (b : block) : option string :=
  match b with Bpos => Some "pos" | Bvel => Some "vel" | Bacb => Some "acb" | Bgyb => Some "gyb" | Batt => Some "att" | _ => None end.
Definition within (i n : nat) (k : key) : option key := if Nat.ltb i n then Some k else None.
(** additional pose 0 is the pose between the inertial frames, 1 the one between the bodies, further ones have no key *)
Definition pose_part (n : sizes) (i : nat) (first second : string) : option key :=
  match i with
  | 0 => within 0 (z_pose n) [Nm "PoseUpdate"; Nm first]
  | 1 => within 1 (z_pose n) [Nm "PoseUpdate"; Nm second]
  | _ => None
  end.
Fixpoint member_key (h : handler) (m : string) (l : list (handler * string * key)) : option key :=
  match l with
  | [] => None
  | (h', m', k) :: l => if handler_eqb h h' && String.eqb m m' then Some k else member_key h m l
  end.
Definition stat_key (m : string) : option string :=
  if String.eqb m "localQualityRange_" then Some "statLocalQualityRange"
  else if String.eqb m "localVisibilityRange_" then Some "statLocalVisibilityRange"
  else if String.eqb m "minGlobalQualityRange_" then Some "statMinGlobalQualityRange" else None.
Definition key_of (n : sizes) (v : var) : option key :=
  match v with
  | StVec (Bvep c) a => within c (z_cam n) [Cam c; Nm ("MrMC" +++ coordinate a)]
  | StVec (Bpop i) a => pose_part n i ("IrIW" +++ coordinate a) ("MrMV" +++ coordinate a)
  | StVec Batt _ => None
  | StVec b a => option_map (fun s => [Nm "Init"; Nm "State"; Nm (s +++ component a)]) (imu_name b)
  | StQuat Batt q => Some [Nm "Init"; Nm "State"; Nm ("att" +++ entry_of q)]
  | StQuat (Bvea c) q => within c (z_cam n) [Cam c; Nm ("qCM" +++ entry_of q)]
  | StQuat (Bpoa i) q => pose_part n i ("qWI" +++ entry_of q) ("qVM" +++ entry_of q)
  | StQuat _ _ => None
  | StNor _ _ | StDep _ | StDepType _ => None
  | StTrack i => within i (z_max n) [Nm "ImgUpdate"; Nm "doPatchWarping"]
  | AuxVec c a => within c (z_cam n) [Cam c; Nm ("MrMC" +++ coordinate a)]
  | AuxQuat c q => within c (z_cam n) [Cam c; Nm ("qCM" +++ entry_of q)]
  | InitCov (Bvep c) _ => within c (z_cam n) [Nm "Init"; Nm "Covariance"; Nm "vep"]
  | InitCov (Bvea c) _ => within c (z_cam n) [Nm "Init"; Nm "Covariance"; Nm "vea"]
  | InitCov (Bpop i) _ => pose_part n i "init_cov_IrIW" "init_cov_MrMV"
  | InitCov (Bpoa i) _ => pose_part n i "init_cov_qWI" "init_cov_qVM"
  | InitCov (Bfea _) _ => None
  | InitCov b a => option_map (fun s => [Nm "Init"; Nm "Covariance"; Nm (s +++ component a)]) (imu_name b)
  | PreNoise (Bvep c) _ => within c (z_cam n) [Nm "Prediction"; Nm "PredictionNoise"; Nm "vep"]
  | PreNoise (Bvea c) _ => within c (z_cam n) [Nm "Prediction"; Nm "PredictionNoise"; Nm "vea"]
  | PreNoise (Bpop i) _ => pose_part n i "pre_cov_IrIW" "pre_cov_MrMV"
  | PreNoise (Bpoa i) _ => pose_part n i "pre_cov_qWI" "pre_cov_qVM"
  | PreNoise (Bfea i) A2 => within i (z_max n) [Nm "Prediction"; Nm "PredictionNoise"; Nm "dep"]
  | PreNoise (Bfea i) _ => within i (z_max n) [Nm "Prediction"; Nm "PredictionNoise"; Nm "nor"]
  | PreNoise b a => option_map (fun s => [Nm "Prediction"; Nm "PredictionNoise"; Nm (s +++ component a)]) (imu_name b)
  | UpdNoise Zero a => Some [Nm "ImgUpdate"; Nm "ZeroVelocityUpdate"; Nm "UpdateNoise"; Nm ("vel" +++ component a)]
  | UpdNoise VelU a => Some [Nm "VelocityUpdate"; Nm "UpdateNoise"; Nm ("vel" +++ component a)]
  | UpdNoise _ _ | UpdNoiseAtt _ _ => None
  | DefNoise a => Some [Nm "PoseUpdate"; Nm "UpdateNoise"; Nm ("pos" +++ component a)]
  | DefNoiseAtt a => Some [Nm "PoseUpdate"; Nm "UpdateNoise"; Nm ("att" +++ component a)]
  | Stat i m => match stat_key m with Some s => within i (z_max n) [Nm "ImgUpdate"; Nm s] | None => None end
  | Calib c => within c (z_cam n) [Cam c; Nm "CalibrationFile"]
  | MemV ImgU m a => if String.eqb m "initCovFeature_" then Some [Nm "ImgUpdate"; Nm ("initCovFeature" +++ component a)] else None
  | MemV PoseU m a => if String.eqb m "MrMV_" then Some [Nm "PoseUpdate"; Nm ("MrMV" +++ coordinate a)]
                      else if String.eqb m "IrIW_" then Some [Nm "PoseUpdate"; Nm ("IrIW" +++ coordinate a)] else None
  | MemV _ _ _ => None
  | MemQ PoseU m q => if String.eqb m "qVM_" then Some [Nm "PoseUpdate"; Nm ("qVM" +++ entry_of q)]
                      else if String.eqb m "qWI_" then Some [Nm "PoseUpdate"; Nm ("qWI" +++ entry_of q)] else None
  | MemQ VelU m q => if String.eqb m "qAM_" then Some [Nm "VelocityUpdate"; Nm ("qAM" +++ entry_of q)] else None
  | MemQ _ _ _ => None
  | Mem h m => member_key h m members
  end.

(** ** derived parameters, set after reading *)
Definition derived (n : sizes) (v : var) : Prop :=
  v = UpdNoise ImgU A0 \/ v = UpdNoise ImgU A1 \/ v = Mem ImgU "alignment_.huberNormThreshold_" \/
  v = Mem ImgU "alignment_.gradientExponent_" \/ v = Mem Root "mode_" \/ exists i, i < z_max n /\ v = StDepType i.

(** ** settings: parameters that are documented as one and the same setting, by a representative *)
Definition pose_setting (i : nat) (first second v : var) : var := match i with 0 => first | 1 => second | _ => v end.
Definition setting (v : var) : var :=
  match v with
  (* the extrinsics of a camera: estimated or fixed *)
  | AuxVec c a => StVec (Bvep c) a
  | AuxQuat c q => StQuat (Bvea c) q
  (* the two alignments of the pose update: estimated or fixed *)
  | StVec (Bpop i) a => pose_setting i (MemV PoseU "IrIW_" a) (MemV PoseU "MrMV_" a) v
  | StQuat (Bpoa i) q => pose_setting i (MemQ PoseU "qWI_" q) (MemQ PoseU "qVM_" q) v
  (* one variance for all axes, of all cameras *)
  | InitCov (Bvep _) _ => InitCov (Bvep 0) A0
  | InitCov (Bvea _) _ => InitCov (Bvea 0) A0
  | PreNoise (Bvep _) _ => PreNoise (Bvep 0) A0
  | PreNoise (Bvea _) _ => PreNoise (Bvea 0) A0
  (* one variance for all axes *)
  | InitCov (Bpop i) _ => InitCov (Bpop i) A0
  | InitCov (Bpoa i) _ => InitCov (Bpoa i) A0
  | PreNoise (Bpop i) _ => PreNoise (Bpop i) A0
  | PreNoise (Bpoa i) _ => PreNoise (Bpoa i) A0
  (* all features alike, both directions of the bearing alike *)
  | PreNoise (Bfea _) A2 => PreNoise (Bfea 0) A2
  | PreNoise (Bfea _) _ => PreNoise (Bfea 0) A0
  | Stat _ m => Stat 0 m
  | StTrack _ => StTrack 0
  | _ => v
  end.
