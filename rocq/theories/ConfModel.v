(** Configuration: which variable is read from which key of the info file.
    RovioFilter.hpp 79-173 (constructor) and 177-191 (refreshProperties), ImuPrediction.hpp 59-90, ImgUpdate.hpp 312-367 and
    375-387, ZeroVelocityUpdate.hpp 124-130, PoseUpdate.hpp 173-197, VelocityUpdate.hpp 144-152, FilterStates.hpp 279-317.

    LWF's property handler (not part of the repository) is taken to keep, per handler, a map from variables to keys;
    registering a variable again replaces its key; loading assigns to every registered variable the value stored under
    the handler's path followed by its key, and fails if there is none. What LWF's base classes register before the
    constructors below run is in [lwf_defaults].
    Simplifications: a key is a list of path segments, of which the segment "Camera<n>" (std::to_string) is kept as
    [Cam n]; the four registers of a handler (bool, int, double, string) are one, values are of an abstract type. *)
From Coq Require Import List Bool Arith ZArith String.
Import ListNotations.
Local Open Scope string_scope.
Local Open Scope list_scope.
Local Notation "a +++ b" := (String.append a b) (at level 60, right associativity).

(** numbers of features, cameras and additional poses (template parameters) *)
Record sizes := { z_max : nat; z_cam : nat; z_pose : nat }.

Inductive ax := A0 | A1 | A2.
Inductive qc := Qw | Qx | Qy | Qz.
Definition axes : list ax := [A0; A1; A2].
Definition qcs : list qc := [Qw; Qx; Qy; Qz].
(** suffixes of VectorElement and of registerDiagonalMatrix; of registerVector; of quaternions *)
Definition num (a : ax) : string := match a with A0 => "_0" | A1 => "_1" | A2 => "_2" end.
Definition xyz (a : ax) : string := match a with A0 => "_x" | A1 => "_y" | A2 => "_z" end.
Definition wxyz (q : qc) : string := match q with Qw => "_w" | Qx => "_x" | Qy => "_y" | Qz => "_z" end.

(** blocks of the state and of the prediction noise, FilterStates.hpp 136-146 *)
Inductive block := Bpos | Bvel | Bacb | Bgyb | Batt | Bvep (c : nat) | Bvea (c : nat) | Bfea (i : nat) | Bpop (i : nat) | Bpoa (i : nat).
Inductive handler := Root | Pred | ImgU | Zero | PoseU | VelU.

(** variables: components of the initial state and of its auxiliary part, diagonal entries of the initial covariance, of the
    prediction noise and of the update noise, statistics of feature i, other members by name *)
Inductive var :=
| StVec (b : block) (a : ax) | StQuat (b : block) (q : qc) | StNor (i : nat) (q : qc) | StDep (i : nat)
| StDepType (i : nat) | StTrack (i : nat) | AuxVec (c : nat) (a : ax) | AuxQuat (c : nat) (q : qc)
| InitCov (b : block) (a : ax) | PreNoise (b : block) (a : ax) | UpdNoise (h : handler) (a : ax) | UpdNoiseAtt (h : handler) (a : ax)
| DefNoise (a : ax) | DefNoiseAtt (a : ax)
| Stat (i : nat) (m : string) | Calib (c : nat) | MemV (h : handler) (m : string) (a : ax) | MemQ (h : handler) (m : string) (q : qc)
| Mem (h : handler) (m : string).

Inductive seg := Nm (s : string) | Cam (c : nat) | Dflt (s : string) (i : nat).
Definition key := list seg.

Definition ax_eqb (x y : ax) : bool := match x, y with A0, A0 | A1, A1 | A2, A2 => true | _, _ => false end.
Definition qc_eqb (x y : qc) : bool := match x, y with Qw, Qw | Qx, Qx | Qy, Qy | Qz, Qz => true | _, _ => false end.
Definition block_eqb (x y : block) : bool :=
  match x, y with
  | Bpos, Bpos | Bvel, Bvel | Bacb, Bacb | Bgyb, Bgyb | Batt, Batt => true
  | Bvep i, Bvep j | Bvea i, Bvea j | Bfea i, Bfea j | Bpop i, Bpop j | Bpoa i, Bpoa j => Nat.eqb i j
  | _, _ => false
  end.
Definition handler_eqb (x y : handler) : bool :=
  match x, y with Root, Root | Pred, Pred | ImgU, ImgU | Zero, Zero | PoseU, PoseU | VelU, VelU => true | _, _ => false end.
Definition var_eqb (x y : var) : bool :=
  match x, y with
  | StVec b a, StVec b' a' | InitCov b a, InitCov b' a' | PreNoise b a, PreNoise b' a' => block_eqb b b' && ax_eqb a a'
  | StQuat b q, StQuat b' q' => block_eqb b b' && qc_eqb q q'
  | StNor i q, StNor j q' | AuxQuat i q, AuxQuat j q' => Nat.eqb i j && qc_eqb q q'
  | StDep i, StDep j | StDepType i, StDepType j | StTrack i, StTrack j | Calib i, Calib j => Nat.eqb i j
  | AuxVec i a, AuxVec j a' => Nat.eqb i j && ax_eqb a a'
  | UpdNoise h a, UpdNoise h' a' | UpdNoiseAtt h a, UpdNoiseAtt h' a' => handler_eqb h h' && ax_eqb a a'
  | DefNoise a, DefNoise a' | DefNoiseAtt a, DefNoiseAtt a' => ax_eqb a a'
  | Stat i m, Stat j m' => Nat.eqb i j && String.eqb m m'
  | MemV h m a, MemV h' m' a' => handler_eqb h h' && String.eqb m m' && ax_eqb a a'
  | MemQ h m q, MemQ h' m' q' => handler_eqb h h' && String.eqb m m' && qc_eqb q q'
  | Mem h m, Mem h' m' => handler_eqb h h' && String.eqb m m'
  | _, _ => false
  end.
Definition seg_eqb (x y : seg) : bool :=
  match x, y with Nm s, Nm t => String.eqb s t | Cam i, Cam j => Nat.eqb i j | Dflt s i, Dflt t j => String.eqb s t && Nat.eqb i j | _, _ => false end.
Fixpoint key_eqb (x y : key) : bool :=
  match x, y with [], [] => true | a :: x, b :: y => seg_eqb a b && key_eqb x y | _, _ => false end.

(** ** the registers *)
Definition entry := (handler * var * key)%type.
Definition e_h (e : entry) := fst (fst e).
Definition e_v (e : entry) := snd (fst e).
Definition e_k (e : entry) := snd e.
Definition at_var (h : handler) (v : var) (e : entry) : bool :=
  handler_eqb (e_h e) h && var_eqb (e_v e) v.
Definition at_key (h : handler) (k : key) (e : entry) : bool :=
  handler_eqb (e_h e) h && key_eqb (e_k e) k.

(** registerScalar, removeScalarByVar, removeScalarByStr *)
Inductive op := Reg (h : handler) (v : var) (k : key) | DelVar (h : handler) (v : var) | DelKey (h : handler) (k : key).
Definition apply_op (r : list entry) (o : op) : list entry :=
  match o with
  | Reg h v k => filter (fun e => negb (at_var h v e)) r ++ [(h, v, k)]
  | DelVar h v => filter (fun e => negb (at_var h v e)) r
  | DelKey h k => filter (fun e => negb (at_key h k e)) r
  end.
Definition register (os : list op) : list entry := fold_left apply_op os [].

(** registerVector, registerQuaternion *)
Definition reg_vec (h : handler) (v : ax -> var) (p : list seg) (s : string) : list op := map (fun a => Reg h (v a) (p ++ [Nm (s +++ xyz a)])) axes.
Definition reg_quat (h : handler) (v : qc -> var) (p : list seg) (s : string) : list op := map (fun q => Reg h (v q) (p ++ [Nm (s +++ wxyz q)])) qcs.
Definition loop {A} (n : nat) (f : nat -> list A) : list A := flat_map f (seq 0 n).

(** ** LWF's own registrations (assumption): every state component under Init.State, every diagonal entry of the initial covariance
    under Init.Covariance, of the prediction noise under PredictionNoise, of the update noises under UpdateNoise; the iteration
    and sigma point parameters and the outlier thresholds. Arrays get one key per element. *)
Definition iteration (h : handler) : list op :=
  [Reg h (Mem h "alpha_") [Nm "alpha"]; Reg h (Mem h "beta_") [Nm "beta"]; Reg h (Mem h "kappa_") [Nm "kappa"]].
Definition iterated (h : handler) : list op :=
  iteration h ++ [Reg h (Mem h "updateVecNormTermination_") [Nm "updateVecNormTermination"]; Reg h (Mem h "maxNumIteration_") [Nm "maxNumIteration"];
                  Reg h (Mem h "mahalTh0") [Nm "MahalanobisTh0"]].
Definition named (b : block) : string := match b with Bpos => "pos" | Bvel => "vel" | Bacb => "acb" | Bgyb => "gyb" | Batt => "att" | _ => "" end.
Definition imu_elements (h : handler) (v : block -> ax -> var) (p : list seg) : list op :=
  flat_map (fun b => map (fun a => Reg h (v b a) (p ++ [Nm (named b +++ num a)])) axes) [Bpos; Bvel; Bacb; Bgyb; Batt].
Definition vectors (h : handler) (v : block -> ax -> var) (p : list seg) (bs : list (block * string)) (i : nat) : list op :=
  flat_map (fun b => map (fun a => Reg h (v (fst b) a) (p ++ [Dflt (snd b +++ num a) i])) axes) bs.
Definition camera_elements (h : handler) (v : block -> ax -> var) (p : list seg) (c : nat) : list op := vectors h v p [(Bvep c, "vep"); (Bvea c, "vea")] c.
Definition feature_elements (h : handler) (v : block -> ax -> var) (p : list seg) (i : nat) : list op := vectors h v p [(Bfea i, "fea")] i.
Definition pose_elements (h : handler) (v : block -> ax -> var) (p : list seg) (i : nat) : list op := vectors h v p [(Bpop i, "pop"); (Bpoa i, "poa")] i.
Definition by_element (h : handler) (v : block -> ax -> var) (p : list seg) (n : sizes) : list op :=
  imu_elements h v p ++ loop (z_cam n) (camera_elements h v p) ++ loop (z_max n) (feature_elements h v p) ++ loop (z_pose n) (pose_elements h v p).
Definition init_state : list seg := [Nm "Init"; Nm "State"].
Definition state_imu : list op :=
  flat_map (fun b => map (fun a => Reg Root (StVec b a) (init_state ++ [Nm (named b +++ num a)])) axes) [Bpos; Bvel; Bacb; Bgyb] ++
  map (fun q => Reg Root (StQuat Batt q) (init_state ++ [Nm ("att" +++ wxyz q)])) qcs.
Definition state_camera (c : nat) : list op :=
  map (fun a => Reg Root (StVec (Bvep c) a) (init_state ++ [Dflt ("vep" +++ num a) c])) axes ++
  map (fun q => Reg Root (StQuat (Bvea c) q) (init_state ++ [Dflt ("vea" +++ wxyz q) c])) qcs.
(** RobocentricFeatureElement.hpp 109-112 *)
Definition state_feature (i : nat) : list op :=
  map (fun q => Reg Root (StNor i q) (init_state ++ [Dflt ("fea" +++ wxyz q) i])) qcs ++ [Reg Root (StDep i) (init_state ++ [Dflt "fea_d" i])].
Definition state_pose (i : nat) : list op :=
  map (fun a => Reg Root (StVec (Bpop i) a) (init_state ++ [Dflt ("pop" +++ num a) i])) axes ++
  map (fun q => Reg Root (StQuat (Bpoa i) q) (init_state ++ [Dflt ("poa" +++ wxyz q) i])) qcs.
Definition state_elements (n : sizes) : list op :=
  state_imu ++ loop (z_cam n) state_camera ++ loop (z_max n) state_feature ++ loop (z_pose n) state_pose.
Definition lwf_updates : list op :=
  iterated ImgU ++ [Reg ImgU (UpdNoise ImgU A0) [Nm "UpdateNoise"; Nm "pix_0"]; Reg ImgU (UpdNoise ImgU A1) [Nm "UpdateNoise"; Nm "pix_1"]] ++
  flat_map (fun h => iterated h ++ map (fun a => Reg h (UpdNoise h a) [Nm "UpdateNoise"; Nm ("vel" +++ num a)]) axes) [Zero; VelU] ++
  iterated PoseU ++ map (fun a => Reg PoseU (UpdNoise PoseU a) [Nm "UpdateNoise"; Nm ("pos" +++ num a)]) axes
                 ++ map (fun a => Reg PoseU (UpdNoiseAtt PoseU a) [Nm "UpdateNoise"; Nm ("att" +++ num a)]) axes.
Definition lwf_defaults (n : sizes) : list op :=
  by_element Pred PreNoise [Nm "PredictionNoise"] n ++ iteration Pred ++ lwf_updates ++
  state_elements n ++ by_element Root InitCov [Nm "Init"; Nm "Covariance"] n.

(** ** ImuPrediction.hpp 59-90 *)
Definition prediction_thresholds : list op :=
  [Reg Pred (Mem Pred "inertialMotionRorTh_") [Nm "MotionDetection"; Nm "inertialMotionRorTh"];
   Reg Pred (Mem Pred "inertialMotionAccTh_") [Nm "MotionDetection"; Nm "inertialMotionAccTh"]].
Definition prediction_feature (i : nat) : list op :=
  [DelVar Pred (PreNoise (Bfea i) A0); DelVar Pred (PreNoise (Bfea i) A1);
   Reg Pred (PreNoise (Bfea i) A0) [Nm "PredictionNoise"; Nm "nor"]; Reg Pred (PreNoise (Bfea i) A1) [Nm "PredictionNoise"; Nm "nor"];
   DelVar Pred (PreNoise (Bfea i) A2); Reg Pred (PreNoise (Bfea i) A2) [Nm "PredictionNoise"; Nm "dep"]].
Definition prediction_camera (c : nat) : list op :=
  flat_map (fun j =>
    [DelVar Pred (PreNoise (Bvep c) j); DelVar Pred (PreNoise (Bvea c) j);
     Reg Pred (PreNoise (Bvep c) j) [Nm "PredictionNoise"; Nm "vep"]; Reg Pred (PreNoise (Bvea c) j) [Nm "PredictionNoise"; Nm "vea"]]) axes.
Definition prediction_pose (i : nat) : list op := flat_map (fun j => [DelVar Pred (PreNoise (Bpop i) j); DelVar Pred (PreNoise (Bpoa i) j)]) axes.
Definition prediction_ctor (n : sizes) : list op :=
  prediction_thresholds ++ loop (z_max n) prediction_feature ++ loop (z_cam n) prediction_camera ++ loop (z_pose n) prediction_pose.

(** ** ZeroVelocityUpdate.hpp 124-130, the same removals in PoseUpdate.hpp 177-181 and VelocityUpdate.hpp 146-150 *)
Definition not_iterated (h : handler) : list op :=
  [DelKey h [Nm "maxNumIteration"]; DelKey h [Nm "alpha"]; DelKey h [Nm "beta"]; DelKey h [Nm "kappa"]; DelKey h [Nm "updateVecNormTermination"]].

(** ** ImgUpdate.hpp 312-367: members with a key of their own, lines 313-347, 350-352 and 363-366 *)
Definition img_plain : list (string * key) :=
  [("initDepth_", [Nm "initDepth"]); ("startDetectionTh_", [Nm "startDetectionTh"]); ("scoreDetectionExponent_", [Nm "scoreDetectionExponent"]);
   ("penaltyDistance_", [Nm "penaltyDistance"]); ("zeroDistancePenalty_", [Nm "zeroDistancePenalty"]); ("trackingUpperBound_", [Nm "trackingUpperBound"]);
   ("trackingLowerBound_", [Nm "trackingLowerBound"]); ("minTrackedAndFreeFeatures_", [Nm "minTrackedAndFreeFeatures"]);
   ("minRelativeSTScore_", [Nm "minRelativeSTScore"]); ("minAbsoluteSTScore_", [Nm "minAbsoluteSTScore"]);
   ("minTimeBetweenPatchUpdate_", [Nm "minTimeBetweenPatchUpdate"]); ("patchRejectionTh_", [Nm "patchRejectionTh"]);
   ("rateOfMovingFeaturesTh_", [Nm "MotionDetection"; Nm "rateOfMovingFeaturesTh"]); ("pixelCoordinateMotionTh_", [Nm "MotionDetection"; Nm "pixelCoordinateMotionTh"]);
   ("maxUncertaintyToDepthRatioForDepthInitialization_", [Nm "maxUncertaintyToDepthRatioForDepthInitialization"]);
   ("alignConvergencePixelRange_", [Nm "alignConvergencePixelRange"]); ("alignCoverageRatio_", [Nm "alignCoverageRatio"]); ("removalFactor_", [Nm "removalFactor"]);
   ("discriminativeSamplingDistance_", [Nm "discriminativeSamplingDistance"]); ("discriminativeSamplingGain_", [Nm "discriminativeSamplingGain"]);
   ("fastDetectionThreshold_", [Nm "fastDetectionThreshold"]); ("startLevel_", [Nm "startLevel"]); ("endLevel_", [Nm "endLevel"]);
   ("nDetectionBuckets_", [Nm "nDetectionBuckets"]);
   ("minFeatureCountForNoMotionDetection_", [Nm "MotionDetection"; Nm "minFeatureCountForNoMotionDetection"]); ("alignMaxUniSample_", [Nm "alignMaxUniSample"]);
   ("doVisualMotionDetection_", [Nm "MotionDetection"; Nm "isEnabled"]); ("useDirectMethod_", [Nm "useDirectMethod"]);
   ("doFrameVisualisation_", [Nm "doFrameVisualisation"]); ("visualizePatches_", [Nm "visualizePatches"]);
   ("removeNegativeFeatureAfterUpdate_", [Nm "removeNegativeFeatureAfterUpdate"]); ("useCrossCameraMeasurements_", [Nm "useCrossCameraMeasurements"]);
   ("doStereoInitialization_", [Nm "doStereoInitialization"]);
   ("alignment_.useIntensityOffset_", [Nm "useIntensityOffsetForAlignment"]); ("alignment_.useIntensitySqew_", [Nm "useIntensitySqewForAlignment"]);
   ("updateNoisePix_", [Nm "UpdateNoise"; Nm "pix"]); ("updateNoiseInt_", [Nm "UpdateNoise"; Nm "int"]); ("noiseGainForOffCamera_", [Nm "noiseGainForOffCamera"]);
   ("alignmentHuberNormThreshold_", [Nm "alignmentHuberNormThreshold"]); ("alignmentGaussianWeightingSigma_", [Nm "alignmentGaussianWeightingSigma"]);
   ("alignmentGradientExponent_", [Nm "alignmentGradientExponent"])].
Definition img_ctor : list op :=
  (* 312, the members above (the order among different variables does not matter) *)
  map (fun a => Reg ImgU (MemV ImgU "initCovFeature_" a) [Nm ("initCovFeature" +++ num a)]) axes ++
  map (fun p => Reg ImgU (Mem ImgU (fst p)) (snd p)) img_plain ++
  (* 348-349, 356-358, 359-361 *)
  [DelVar ImgU (UpdNoise ImgU A0); DelVar ImgU (UpdNoise ImgU A1);
   Reg Zero (Mem Zero "mahalTh0") [Nm "MahalanobisTh0"];
   Reg Zero (Mem ImgU "minTimeForZeroVelocityUpdate_") [Nm "minNoMotionTime"]; Reg Zero (Mem ImgU "isZeroVelocityUpdateEnabled_") [Nm "isEnabled"];
   DelKey ImgU [Nm "alpha"]; DelKey ImgU [Nm "beta"]; DelKey ImgU [Nm "kappa"]].

(** ** PoseUpdate.hpp 173-197 *)
Definition pose_ctor : list op :=
  reg_vec PoseU (MemV PoseU "MrMV_") [] "MrMV" ++ reg_quat PoseU (MemQ PoseU "qVM_") [] "qVM" ++
  reg_vec PoseU (MemV PoseU "IrIW_") [] "IrIW" ++ reg_quat PoseU (MemQ PoseU "qWI_") [] "qWI" ++
  not_iterated PoseU ++
  map (fun s => Reg PoseU (Mem PoseU (s +++ "_")) [Nm s])
    ["timeOffset"; "enablePosition"; "enableAttitude"; "noFeedbackToRovio"; "doInertialAlignmentAtStart"; "useOdometryCov"] ++
  map (fun a => DelVar PoseU (UpdNoise PoseU a)) axes ++ map (fun a => DelVar PoseU (UpdNoiseAtt PoseU a)) axes ++
  map (fun a => Reg PoseU (DefNoise a) [Nm "UpdateNoise"; Nm ("pos" +++ num a)]) axes ++
  map (fun a => Reg PoseU (DefNoiseAtt a) [Nm "UpdateNoise"; Nm ("att" +++ num a)]) axes.

(** ** VelocityUpdate.hpp 144-152 *)
Definition velocity_ctor : list op := not_iterated VelU ++ reg_quat VelU (MemQ VelU "qAM_") [] "qAM".

(** ** RovioFilter.hpp 48: the pose indices of the pose update, -1 if there is no such pose *)
Definition inertial_index (n : sizes) : Z := ((if (0 <? z_pose n)%nat then 1 else 0) - 1)%Z.
Definition body_index (n : sizes) : Z := ((if (1 <? z_pose n)%nat then 1 else 0) * 2 - 1)%Z.

(** lines 92-112. [init_.state_.MrMC(camID)] is the state component: doVECalibration_ is still at its default, true *)
Definition filter_camera (c : nat) : list op :=
  Reg Root (Calib c) [Cam c; Nm "CalibrationFile"] ::
  reg_vec Root (AuxVec c) [Cam c] "MrMC" ++ reg_quat Root (AuxQuat c) [Cam c] "qCM" ++
  map (fun a => DelVar Root (StVec (Bvep c) a)) axes ++ map (fun q => DelVar Root (StQuat (Bvea c) q)) qcs ++
  flat_map (fun j => [DelVar Root (InitCov (Bvep c) j); DelVar Root (InitCov (Bvea c) j);
                      Reg Root (InitCov (Bvep c) j) [Nm "Init"; Nm "Covariance"; Nm "vep"]; Reg Root (InitCov (Bvea c) j) [Nm "Init"; Nm "Covariance"; Nm "vea"]]) axes ++
  reg_vec Root (StVec (Bvep c)) [Cam c] "MrMC" ++ reg_quat Root (StQuat (Bvea c)) [Cam c] "qCM".
(** lines 113-125 *)
Definition filter_pose (i : nat) : list op :=
  map (fun a => DelVar Root (StVec (Bpop i) a)) axes ++ map (fun q => DelVar Root (StQuat (Bpoa i) q)) qcs ++
  flat_map (fun j => [DelVar Root (InitCov (Bpop i) j); DelVar Root (InitCov (Bpoa i) j)]) axes.
(** lines 126-145, [ix] one of the two pose indices *)
Definition filter_alignment (ix : Z) (lin rot : string) : list op :=
  if (0 <=? ix)%Z then let i := Z.to_nat ix in
    reg_vec PoseU (StVec (Bpop i)) [] lin ++ reg_quat PoseU (StQuat (Bpoa i)) [] rot ++
    flat_map (fun j =>
      [Reg PoseU (InitCov (Bpop i) j) [Nm ("init_cov_" +++ lin)]; Reg PoseU (InitCov (Bpoa i) j) [Nm ("init_cov_" +++ rot)];
       Reg PoseU (PreNoise (Bpop i) j) [Nm ("pre_cov_" +++ lin)]; Reg PoseU (PreNoise (Bpoa i) j) [Nm ("pre_cov_" +++ rot)]]) axes
  else [].
(** lines 147-162 *)
Definition filter_feature (i : nat) : list op :=
  map (fun a => DelVar Root (InitCov (Bfea i) a)) axes ++ [DelVar Root (StDep i)] ++ map (fun q => DelVar Root (StNor i q)) qcs ++
  [Reg ImgU (Stat i "localQualityRange_") [Nm "statLocalQualityRange"]; Reg ImgU (Stat i "localVisibilityRange_") [Nm "statLocalVisibilityRange"];
   Reg ImgU (Stat i "minGlobalQualityRange_") [Nm "statMinGlobalQualityRange"]; Reg ImgU (StTrack i) [Nm "doPatchWarping"]].
(** lines 90-91, 163-171 *)
Definition filter_common : list op :=
  [Reg Root (Mem Root "doVECalibration_") [Nm "Common"; Nm "doVECalibration"]; Reg Root (Mem Root "depthTypeInt_") [Nm "Common"; Nm "depthType"]].
Definition filter_last : list op :=
  [DelVar ImgU (Mem ImgU "mahalTh0"); Reg ImgU (Mem ImgU "mahalTh0") [Nm "MahalanobisTh"];
   Reg Root (Mem ImgU "verbose_") [Nm "Common"; Nm "verbose"];
   DelKey Pred [Nm "alpha"]; DelKey Pred [Nm "beta"]; DelKey Pred [Nm "kappa"];
   Reg Root (Mem Root "plotPoseMeas_") [Nm "PoseUpdate"; Nm "doVisualization"]].
Definition filter_alignments (n : sizes) : list op :=
  filter_alignment (inertial_index n) "IrIW" "qWI" ++ filter_alignment (body_index n) "MrMV" "qVM".
Definition filter_ctor (n : sizes) : list op :=
  filter_common ++ loop (z_cam n) filter_camera ++ loop (z_pose n) filter_pose ++ filter_alignments n ++
  loop (z_max n) filter_feature ++ filter_last.
(** the whole construction *)
Definition construction (n : sizes) : list op :=
  lwf_defaults n ++ prediction_ctor n ++ not_iterated Zero ++ img_ctor ++ pose_ctor ++ velocity_ctor ++ filter_ctor n.
Definition filter_registers (n : sizes) : list entry := register (construction n).

(** ** where the handlers hang: RovioFilter.hpp 84-89, ImgUpdate.hpp 355 *)
Definition path (h : handler) : key :=
  match h with
  | Root => [] | Pred => [Nm "Prediction"] | ImgU => [Nm "ImgUpdate"] | Zero => [Nm "ImgUpdate"; Nm "ZeroVelocityUpdate"]
  | PoseU => [Nm "PoseUpdate"] | VelU => [Nm "VelocityUpdate"]
  end.
Definition full_key (e : entry) : key := path (e_h e) ++ e_k e.

(** ** reading a file *)
Section Load.
Context {V : Type}.
Definition file := key -> option V.
Definition store := var -> V.
Definition set (s : store) (v : var) (x : V) : store := fun w => if var_eqb w v then x else s w.
Fixpoint read (r : list entry) (f : file) (s : store) : option store :=
  match r with
  | [] => Some s
  | e :: r => match f (full_key e) with None => None | Some x => read r f (set s (e_v e) x) end
  end.

(** refreshProperties of ImgUpdate (375-387) and RovioFilter (177-191); [truth] reads a bool; camera calibrations: CalModel.v *)
Variables (truth : V -> bool) (ekf iekf : V).
Definition refresh_img (s : store) : store :=
  let x := if truth (s (Mem ImgU "useDirectMethod_")) then s (Mem ImgU "updateNoiseInt_") else s (Mem ImgU "updateNoisePix_") in
  let s := set (set s (UpdNoise ImgU A0) x) (UpdNoise ImgU A1) x in
  let s := set s (Mem ImgU "alignment_.huberNormThreshold_") (s (Mem ImgU "alignmentHuberNormThreshold_")) in
  set s (Mem ImgU "alignment_.gradientExponent_") (s (Mem ImgU "alignmentGradientExponent_")).
Definition refresh_filter (n : sizes) (s : store) : store :=
  let s := set s (Mem Root "mode_") (if truth (s (Mem ImgU "useDirectMethod_")) then iekf else ekf) in
  fold_left (fun s i => set s (StDepType i) (s (Mem Root "depthTypeInt_"))) (seq 0 (z_max n)) s.
Definition load (n : sizes) (f : file) (s : store) : option store :=
  option_map (fun s => refresh_filter n (refresh_img s)) (read (filter_registers n) f s).

(** State::MrMC, State::qCM, FilterStates.hpp 279-317 *)
Definition get_MrMC (s : store) (c : nat) (a : ax) : V := if truth (s (Mem Root "doVECalibration_")) then s (StVec (Bvep c) a) else s (AuxVec c a).
Definition get_qCM (s : store) (c : nat) (q : qc) : V := if truth (s (Mem Root "doVECalibration_")) then s (StQuat (Bvea c) q) else s (AuxQuat c q).
End Load.
