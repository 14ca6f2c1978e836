# Formal model of ethz-asl/rovio in Rocq (Coq 8.16.1)

Layout: `rocq/theories/<Area>Model.v` (executable or real-valued model, no proofs, every definition
cites `/repo` file:lines), `<Area>Spec.v` (small independent specification), `<Area>Proofs.v`
(lemmas), `<Area>Props.v` (only the property theorems, each closed by `exact lemma`, followed by
`Print Assumptions` and by `Example`s showing the hypotheses are satisfiable).

## Modelling conventions

* **Numbers.** Discrete state (indices, counters, statuses, message offsets) is `nat`/`Z`.
  Intensities, sub-pixel coordinates, qualities and scores are `Q` (every finite float is a rational),
  which keeps those models executable and axiom free. Where rounding could matter (C01, C22) the
  arithmetic of the model goes through an arbitrary *monotone* rounding function, so the theorem also
  covers IEEE rounding. The patch extraction, the pyramid levels and the corner score (C22, C23, C24, C28, C29) are in addition modelled
  in IEEE-754 single and double precision (Flocq), with NaN, infinities and the compiler's freedom to contract
  multiply-add. Elsewhere the arithmetic is exact and the theorem is about exact arithmetic.
  Geometry with square roots, exp/log/atan (camera models, distances, rotations) is over the standard
  library's real numbers `R`.
* **Undefined behaviour** (out-of-range index, uninitialised read, division by integer zero,
  infinite loop) is a separate outcome (`UB`, `OutOfFuel`), never a default value.
* **NaN** is an explicit value where a property is about it (C22).
* **Unordered containers** (hash-set iteration order) are modelled by an arbitrary choice oracle,
  universally quantified in the theorems.
* **External code** (OpenCV FAST / pyrDown / image IO, ROS transport, GL, the LWF filter engine,
  kindr, Eigen, yaml) is not in `/repo` (the `lightweight_filtering` submodule directory is empty).
  It appears as universally quantified parameters or as a small explicit algebraic model (3x3 matrices,
  unit quaternions, matrices as functions).

## Per-property plan

| id | what is modelled | how it is proved |
|----|------------------|------------------|
| C01 | the whole of FeatureStatistics as a state machine over Q with rounding oracle | invariant by induction over the operation list |
| C02 | same machine | refinement to an abstract frame log (list of per-camera statuses) |
| C03 | same machine, history map sorted by time | refinement to `firstn n` of the log; refuted with repeated time |
| C04 | isGoodFeature | closed form of the recursions, Archimedean argument |
| C05 | FeatureSetManager slots | invariant over op lists, refinement to a finite map |
| C06-C10 | addBestCandidates with buckets as list of lists, choice oracle; addBestCandidatesNew slots | bucket-partition invariant over the nested loops |
| C11-C13 | FeatureDistance over R | algebra, stdlib `derivable_pt_lim` |
| C14,C15 | FeatureCoordinates cache machine with abstract camera | invariant over operation list |
| C16 | getDepthFromTriangulation over R^3 | vector algebra (`nra`/`field`) |
| C17-C20 | Camera.cpp over R | algebra + derivatives |
| C21 | MultiCamera::transformFeature over R^3 and orthogonal matrices | linear algebra |
| C22,C23 | Patch in-frame check and extraction over Q with rounding oracle, images as size + pixel function with out-of-range = UB | coordinatewise monotonicity, convexity |
| C24,C25 | gradient parameters (R for the square root), cache machine | discriminant is a sum of squares; invariant |
| C26-C29 | pyramid, centres, level transforms (Q) | algebra, induction on levels |
| C30 | computeAverageDifference | sum algebra over R |
| C31,C32 | alignment equations (R) | case analysis, weighted-sum algebra |
| C33 | align2DAdaptive loop with oracle for align2D | induction over seeds |
| C34,C48,C44 | matrices as functions nat -> nat -> R | quadratic form argument |
| C35 | getMedianDepthParameters (sorting network abstracted by stdlib mergesort) | permutation + sortedness counting |
| C36 | quaternion from two vectors | algebra |
| C37 | CandModel: counter loop; CandLinModel: candidate algebra over an ordered field (MathComp matrices) | induction; matrix algebra |
| C38 | ImgModel: pre/post-process iteration machine, numeric parts arbitrary | loop invariant, measure |
| C39 | ImgModel.prune: removal loop with fuel | variant from powers of the factor; refuted instances |
| C40,C71 | ImgModel: quota loop on top of FsetModel.add_best; whole update and sequences of updates | induction over cameras and over histories |
| C41-C43 | ImuPrediction, PoseUpdate over R^3 / rotation matrices | algebra, derivatives |
| C45-C47 | NodeModel: RovioNode callback machine with oracle filter; LockModel: callbacks of several threads under the mutex | invariants over traces, serialisation |
| C49, C75 | MsgModel: message layout, byte buffers, slot loops; markers | memory lemmas, induction over slots; real arithmetic |
| C76 | InnoModel: innovation and Jacobians of the pixel and direct image update on top of Out/Cam/Align | chain rule with directional derivatives |
| C77 | MotionModel: patch comparison, counting loop, timers, trigger | mean square algebra and eigenvalues; induction over slots and over histories |
| C78 | AccModel.v: extraOutlierCheck, acceptance of the aligned patch, in-frame gates before and after the update, over PyrModel/AvgModel | AccProps.v: acceptance iff the documented tests, from the best-offset theorem (C30) and sufficiency of the top level (C29); counting two of four distinct samples by NoDup; refutations with a negative threshold and with cameras of different size |
| C79 | EllModel.v: setPixelCov and drawEllipse over R, eigenvalue solver as any independent unit eigenpairs | EllProps.v: diagonal form of the matrix from the eigenpairs, polar form of atan2, Mahalanobis identity |
| C80 | EllModel.v: getDepthUncertaintyTau over R | EllProps.v: law of sines for the triangle of the two centres and the point, addition theorems |
| C81 | TrackModel: the loops of the tracker's image callback over the feature set, candidates by the FsetModel selection | slot-wise composition of the loops; C05-C10 for the added candidates; induction over the images |
| C82 | HorModel: roll, pitch, chord of the attitude indicator | polar form of atan2, cosine monotone on the arc, Lipschitz bound for the truncation to degrees |
| C83 | BornModel: distance, covariance and stereo initialisation of a new feature (alignment outcome as input) over CovModel/DistModel/MultiModel | reciprocal derivatives (C12), covariance reset (C34), meeting rays (C16); two-camera witness for the refutation |
| C84 | CalModel: Camera::load as assignment statements that may throw, refreshProperties, start-up; YAML parsing as the parsed file | induction over statements and cameras; inversion of accepted files; concrete files for the refutations |
| C85 | ElemModel: boxPlus (both aliasing cases), boxMinus, setIdentity over the lazy coordinates; bearing increments of LWF::NormalVectorElement assumed | Rodrigues for perpendicular axes, Lagrange identity, acos/cos; concrete half turn for the refutation |
| C86 | YprModel: Jacobian of AttitudeToYprCT over the reals, kindr angles as any triple reproducing the attitude | derivative of the entries of the rotation, algebra; explicit smooth angle curves through atan; gimbal lock by contradiction |
| C87 | DragModel: mouse and key callbacks as an event machine | induction over events; one-parameter subgroups of rotations; witness square |
| C88 | AlignModel (grad_weight, final_row) | monotonicity of the real power on [0,1]; explicit family for the refutation |
| C89 | ConfModel: registrations of all handlers as a list of operations, reading and refreshing | table of documented keys in ConfSpec (equal to cfg/rovio.info); each operation acts on one variable, each loop on one index, the rest by computation |
| C90 | keypoint filter and level transform (PyrModel) | filter/map reasoning, circle geometry over Q, centre-table bounds |
| C91 | SlotModel: whole filter with covariance by blocks; Kalman formulas of the absent library as stated assumptions; slots in use, removal, addition with median depth | Relational invariant (same estimate on everything but free slots) by induction on the history; zero columns of F and H at free slots; freed slots shown to become correlated again (refuted); link to the matrix entries of C34; carried over to histories with images by a simulation of the image update (ImgSim, LinkSim), for all image routines that see the filter through what the code hands them (EyesModel) |
| C92 | the whole filter of C91 with its covariance; noise covariances and matrix inversion as assumptions | invariant by induction over histories: congruence for predictions, Joseph form for updates, block reset for feature slots; inversion of positive definite matrices is constructed by elimination to show that the assumption is met |
| C93 | The filter of SlotModel.v; GaugeSpec.v describes the covariances that concern only position and heading | Every step maps such an addition to another one and leaves the gain untouched because all measurement Jacobians and the velocity row vanish on it (gravity is fixed by rotations about it); induction over the history; the lower bounds follow with C92 |
| C94 | The filter of SlotModel.v; GaugeSpec.v describes what filter, history and covariance look like from another world frame | Equivariance of every step: prediction, its Jacobians, the measurements and theirs, relinearised iteration, slot changes; induction over the history; carried over to histories with images by a simulation of the image update (ImgSim, LinkSim), for all image routines that see the filter through what the code hands them (EyesModel) |
| C95 | The filter of SlotModel.v; IsoSpec.v says when two filters are the same but for the external poses | Separation is an invariant (no Jacobian mixes the two parts), so the gain of a pose without feedback vanishes outside the poses; simulation between the runs with and without poses; carried over to histories with images by a simulation of the image update (ImgSim, LinkSim), for all image routines that see the filter through what the code hands them (EyesModel) |
| C96 | The filter of SlotModel.v with the calibration switch off | Simulation: no Jacobian has a column for the extrinsics when the switch is off; the extrinsics in use are an invariant; carried over to histories with images by a simulation of the image update (ImgSim, LinkSim), for all image routines that see the filter through what the code hands them (EyesModel) |
| C97 | The measurement step of SlotModel.v; IsoSpec.v says what a measurement is about and when it agrees with the state | The rows vanish outside what the measurement is about, hence the gain on uncorrelated parts; zero innovation gives a zero correction in every relinearisation |
| C98 | PermSpec: a renumbering of the slots and what it does to filter and events (over SlotModel's whole filter) | equivariance of sums over segments (Permutation), Jacobians, iteration, median (rank argument), reset and addition; induction over the history; C91 for the choice of a free slot |
| C99 | LinkModel: the image update of ImgModel carried out on the filter of SlotModel, image contents as arbitrary functions of filter and rest (`sight`), histories of IMU samples, images, poses and velocities | image update decomposed into filter steps with the slots of filter and feature set in step; protocol matched by induction; C92, C93 and the progress theorem of the image update carried over to histories |
| C22,C23 (IEEE) | the same check and extraction in IEEE-754 single/double precision as the C++ evaluates them (Flocq): infinities and NaN, overflow, int conversions that are undefined out of range, optional fused multiply-add | corners bound every position by monotonicity of rounding; overflow excluded by monotonicity; absolute rounding errors |
| C100 | The measurement step of the whole-filter model (SlotModel) against a separate definition of linear estimators, the variance of the error they leave and the best of them (BestSpec) | The error variance of any gain is the updated variance plus the quadratic form of the innovation covariance in the difference of the weights, which is positive definite; uniqueness from the same identity; induction over relinearisations and histories |
| C29 (IEEE) | IpyrModel.v: centre table and level coordinates in IEEE single/double precision, in-frame check and extraction on all levels over IeeeModel | IpyrProps.v: top level suffices in floating point given a minimal extent of the patch; counterexamples without |
| C24 (IEEE) | IscoreModel.v: gradients, Hessian, eigenvalues and score in IEEE single precision, single and several levels, all contractions | relative error bounds through the sums (fold induction), perturbation of the discriminant and of the square root; concrete 8-bit image with score NaN |
| C101 | NanModel.v: maximum, relative score and acceptance of addBestCandidates, patch refresh, average score, motion check and the list of addBestCandidatesNew over single-precision scores including NaN | maximum by induction over the list with NaN skipped; rounding of the relative score; invariant over all histories; witnesses from C24 for the two false promises |
| C102 | StampModel.v: toSec() and ros::Time(t) in double precision, with any rounding of the nanoseconds | half-ulp bounds of the sum and of the product with 1e9, exactness of the fractional part, spacing of doubles from 2^23 on; induction over histories; witnesses for the two false promises |
| C10 (rounding) | bucket indices of addBestCandidates in float/double arithmetic, pow as a parameter, conversions to integers undefined out of range | monotonicity of rounding; induction over the comparisons of a candidate |
| C103 | IdistModel.v: makeNonZero and the inverse parametrisation with its derivatives in IEEE-754 double precision (Flocq) | The clamp is a function of the real value; reciprocals by monotonicity of rounding between the clamp and its computed reciprocal, relative error 2^-53 per operation; two roundings combine to 2^-52; overflowing square handled as an infinity |
| C77 (rounding) | IavgModel: computeAverageDifference in floats | running sums stay between exact integers; a whole-number offset is reproduced exactly; accuracy by error recurrences for both sums and a triangle inequality for the root mean square |
| C01, C04 (rounding) | the same state machine and isGoodFeature in IEEE doubles, fused or separate multiply-adds | run invariant; quality 1 is a fixed point of the rounded filter; geometric bound with rounding floor |
| C104 | counters and queries of FeatureStatistics and identity counter as 32-bit ints, overflow undefined | agreement with the unbounded model along every history; converse for the bound |
| C19 (reprojection) | the same back-projection | Taylor bound along the last Newton step; Lipschitz bound of the radial-tangential Jacobian |
| C11, C14, C76, C79, C84 | the models named for each | TightProps.v: values before the first setting and after a reset, additive noise in direct mode, covariance of the predicted pixel |
| C49 (float precision) | ImsgModel.v: the cast to float of the point cloud values as rounding to binary32 and its bit pattern (Flocq) | ImsgProps.v: decoding inverts encoding, error and monotonicity of the rounding, perturbation bound of the quadratic form, witness for the indefinite covariance |
| C105 | IcamModel.v: bearingToPixel with the three distortions in doubles (Flocq), the pixel narrowed to float, contraction and atan as parameters | magnitudes carried through every operation give finiteness; error bounds carried through each of the three formulas (IcamAcc, IcamSph, IcamEqui) give the accuracy; concrete bearings refute the unrestricted claim |
| C106 | IbackModel.v: pixelToBearing in doubles: the Gauss-Newton loop over any distortion, Eigen's 2x2 inverse, the normalisation; IbjacModel.v: the three distortions with their Jacobians | non-finite residuals never pass the test, by induction on the iterations; without distortion, and at the principal point of any model, every operation is exact; error bounds for the normalisation; a camera whose Jacobian is singular at the solution refutes the rest |
| C107 | IbjacModel.v, IbackModel.v: the three distortions with their Jacobians in doubles | absolute error bounds for the radial-tangential and double-sphere formulas, error bounds relative to the radius for the equidistant one, against derivatives in the sense of the standard library; the centre of the double-sphere model as a counterexample |
| C108 | IpjacModel.v: bearingToPixel with Jacobian in doubles, products with the explicit zeros of the factors included | partial derivatives of the exact distortion (C107) identified with the real Jacobian (C18) off the short cut, then the error of the matrix products bounded entry by entry |
| C50 | drawing index ranges | arithmetic |
| C51 | SceneModel: scene object with its two graphics buffers, every builder as a total operation | invariant over call sequences; shapes through integer corner tables |
| C72-C74 | ViewModel: transforms, projection, key and upright moves, drawScene over R | linear algebra, trigonometry, induction over slots and cameras |
| C52 | LoadModel: rosbag replay loop | invariant over message list |
| C53,C54,C68-C70 | OutModel: camera/IMU/landmark/feature outputs, Jacobians, covariance post-processing, transfer between cameras with an arbitrary basis choice for setFromVector | directional derivatives, refuted instances |
| C55 | CopyModel: heap of objects, feature managers with linked and owned pointers, filter states; programs of constructions, assignments, writes, drawing, destruction | ownership invariant over all programs, frame lemmas; concrete witnesses for what is not copied |
| C56 | QR-reduced alignment equations over R, decomposition as oracle | orthogonality algebra, finite sums |
| C57 | weight mask over R | monotonicity of exp, truncation arithmetic |
| C58 | align2D loop with solver oracle; full equations over R | induction over iterations; least squares uniqueness |
| C59 | LWF layout as list of (count, dim) | induction over the layout |
| C60 | FeatureStatistics values | invariant: every stored value is the fold of the filter step over the frame log (StatFilter.v) |
| C61,C62 | FiltModel: whole state, evalPrediction, jacPreviousState, jacNoise block by block over R | directional derivatives on the manifold (Lie.v calculus of exp and its left Jacobian), all directions |
| C63 | warp update inside evalPrediction | consequence of C61's bearing block |
| C64,C67 | UpdModel: initWith*, setExtrinsics, reset operations as a state machine with arbitrary other state changes in between | induction over histories |
| C65,C66 | PoseUpdate, VelocityUpdate, ZeroVelocityUpdate innovations and Jacobians | directional derivatives |

## Trusted base

1. **Coq 8.16.1**: its kernel (and `vm_compute`, which the kernel uses to check some of the examples,
   refutation witnesses and the configuration table), the `coqc` that feeds it, and the OCaml runtime.
   No extraction, no plugins beyond those the standard library loads, no kernel check switched off.
2. **The reading of the C++**: every definition of a `*Model.v` file cites the lines it models; that it
   says the same as those lines is checked by reading only. Simplifications are named in the comments.
3. **The specifications** (`*Spec.v` and the statements in `*Props.v`), which are to be read.
4. **Axioms**: only those the standard library's real numbers and classical logic bring along:
   * `ClassicalDedekindReals.sig_forall_dec` and `ClassicalDedekindReals.sig_not_dec` (the two decidability
     axioms of the construction of `R`),
   * `FunctionalExtensionality.functional_extensionality_dep`,
   * `Classical_Prop.classic` (used by the library's analysis: derivatives, `Rolle`, `asin`/`acos`, ...).

   No file declares an axiom, a parameter, or a variable or hypothesis outside a section; there are no
   functors, module types or admitted proofs. The list of `Print Assumptions` results is below.

### Assumptions about code outside the repository

The repository does not contain its dependencies, so their behaviour enters the models as parameters the
theorems quantify over, or as definitions taken from their documentation:

* **lightweight_filtering (LWF)**: its source is not in the repository. C01-C90 do not depend on its Kalman
  filter engine. C91-C100 do: `SlotModel` states the textbook formulas LWF documents - prediction
  `F P F^T + G Q G^T`, innovation covariance `H P H^T + R`, gain, iterated linearisation with any number of
  further linearisations, box-plus correction, `P - K S K^T` - with any function in the place of the matrix
  inverse (C92 and C93 assume that it inverts). Which measurements are rejected as outliers, and how often an update is
  relinearised, is part of the history, hence arbitrary. The order of the safe and front states and the
  merging of IMU samples are LWF's and not modelled. Box-plus and
  box-minus of normal vectors and quaternions are defined as documented (`ElemModel`, `FiltModel`, `Lie`);
  the property handler as a map from variables to keys with LWF's own registrations as given in `ConfModel`;
  the order of the calls `preProcess`, `evalInnovation`, `jacState`, `postProcess` as given in `ImgModel`.
* **Images in C99 and in the `_with_images` and `_images_as_coded` theorems**: what the routines that look at
  images return is an arbitrary function (`LinkModel.sight`) of the filter and of a hidden rest that evolves
  arbitrarily. The `_images_as_coded` theorems rest on `EyesModel.outlook`: that the image update hands these
  routines only the features in use, their transfer to the cameras with its covariance, and the extrinsics.
  That is read off the code.
* **kindr**: rotations are 3x3 orthogonal matrices of determinant one instead of unit quaternions, with the
  exponential map on the left; the Euler angles are any triple that reproduces the attitude (`YprModel`).
* **Eigen**: matrices are functions of their indices; the QR decomposition, the singular value solution and
  the eigenvalue solver are any results with their defining equations (`AlignModel`, `EllModel`).
* **OpenCV**: images are functions of their pixels with a size; the FAST detector is any list of keypoints;
  `cv::pyrDown` any image of the halved size; `cv::ellipse2Poly`, line and text drawing are left out.
* **OpenGL/GLUT**: the scene is modelled up to the buffers and matrices handed over (`SceneModel`,
  `ViewModel`); events come in any order (`DragModel`). What the driver draws from them is by documentation.
* **ROS, rosbag, yaml-cpp, boost property trees**: messages, bags and parsed files are given as values;
  the conversions between stamps and seconds are those of roscpp (`StampModel`);
  subscribers deliver in any order; the node's mutex makes callbacks atomic (`NodeModel`), and `LockModel`
  models the locking itself.
* **C++**: out-of-range accesses, reads of uninitialised members, null dereferences, double deletes,
  divisions of integers by zero and conversions of NaN to `int` are separate outcomes where a model has
  them; iteration orders of hash sets are arbitrary. Memory is always available. Signed overflow
  is modelled for the counters of the feature statistics and the feature identities (`CntModel`, C104) and for
  the candidate grid (C37), not elsewhere.

### Numbers

Floating point is replaced by exact arithmetic: rationals where the model is executable, reals where roots
and transcendental functions occur. Exceptions: C01 and C22 hold for every monotone rounding; the
`_ieee` theorems of C01, C04, C10, C22, C23, C24, C28, C29, C49 and C77 and those of C101, C102, C103, C105, C106, C107 and C108 are about
IEEE-754 arithmetic (`IgoodModel`, `IbuckModel`, `IeeeModel`, `IpyrModel`, `IscoreModel`, `IavgModel`, `NanModel`,
`StampModel`, `IdistModel`, `ImsgModel`, `IcamModel`, `IbackModel`, `IbjacModel`, `IpjacModel`), assuming rounding to nearest even, no excess precision, `std::pow(x,2)` as the rounded
square (`IavgModel`), any `pow` with results in the unit interval (`IbuckModel`; conversions to `int` and `unsigned`
out of range are undefined), counters within `int` (`IgoodModel`), the inverse parametrisation only
(`IdistModel`), an exact `pow` of 0.5, and the same contraction of `a*x + b*y` in the in-frame
check and in the extraction (`C22_mixed_contraction_refuted` shows that this is needed); NaN is a value where a
property speaks of it. Overflow, underflow and rounding errors are otherwise not modelled.

### Not modelled

* `MultilevelPatchAlignment::align2D_old` (MultilevelPatchAlignment.hpp 363-510): it calls a four-argument
  `levelTranformCoordinates` that does not exist, so it cannot be instantiated.
* `RovioNode::makeTest` (341-383) and the programs `test_mlp.cpp`, `test_patch.cpp`: self tests.
* Console output, timing measurements, text and marker drawing into the debug images except for
  C50, C79 and C82; the GLSL shaders.
* The service and topic names of the node, and header fields of messages other than those in C45-C49,
  C52 and C75.

### Print Assumptions of every theorem


* **Closed under the global context** (178 theorems): C01: qualities_in_unit_interval, global_quality_in_unit_interval, max_quality_in_unit_interval, qualities_any_rounding, no_undefined_access, zero_range_refuted; C02: counts_match_history, counts_partition, tracked_count, all_cameras_is_sum, in_frame_count, times_recorded; C03: window_counts_last_frames, repeated_time_refuted; C04: always_tracked_is_good, failing_becomes_bad, unseen_becomes_bad, good_monotone_in_thresholds; C05: allocation_takes_lowest_free_slot, allocation_fails_iff_full, live_ids_distinct, ids_never_reused, candidates_keep_ids_distinct; C06: budget_and_capacity_respected, added_feature_is_the_candidate; C07: each_candidate_once_and_above_min_score, low_min_score_refuted; C08: adds_exactly_the_maximum, separated_candidates_are_all_added; C09: best_score, penalised_candidates_not_added, no_coinciding_features; C10: bucketing_never_out_of_range, grid_variant_defined_with_room, grid_variant_best_first, zero_buckets_refuted, negative_penalty_refuted, grid_variant_full_set_refuted; C104: smallest_window_refuted, identities; C14: no_assertion_failure, views_agree, views_agree_any_camera, pixel_read_back, pixel_read_back_inverse, bearing_read_back, jacobian_overwrites_pixel_refuted, jacobian_on_failed_backprojection_refuted, camera_change_refuted, reset_forgets; C15: warps_related, warp_available, warp_unavailable, identity_flag_sound, kept_warp_refuted, untracked_warp_refuted, stale_identity_flag_refuted; C22: in_frame_extraction_safe, in_frame_extraction_safe_exact, extraction_fills_patch, nan_accepted_refuted; C23: between_neighbours, integer_position, ramp, inner_patch, identity_warp_agrees; C26: transforms_compose, transform_round_trip, same_level, scale, warp_carried, warp_dropped_without_camera_refuted; C27: reads_in_range, level_sizes, block_mean, between_block_extremes, block_inside; C28: even_sizes_exact, even_sizes_exact_pyrdown, error_below_half_pixel, error_below_half_pixel_pyrdown, odd_sizes_refuted; C29: top_level_suffices, top_level_suffices_pyrdown, top_level_suffices_pyrdown_even, narrow_patch_odd_size_refuted; C33: single_seed; C34: feature_fits; C37: grid_is_a_square, samples_are_enumerated_once_then_exhausted, oversized_grid_overflows_refuted, candidate_moves_pixel_by_offset, sample_used_iff_within_uncertainty, candidate_is_closest, current_state_is_a_candidate; C38: every_feature_visited_in_every_camera_once, schedule_covers_all_cameras, survivor_measured_everywhere; C39: removal_terminates_and_reaches_share, tracked_good_feature_survives, small_factor_runs_forever_refuted, excessive_share_runs_forever_refuted; C40: free_slots_are_shared_fairly; C44: without_odometry_default; C45: initialisation_and_resets, reset_requests_while_waiting_are_ignored, measurements_while_running, effects_are_complete, callbacks_are_serialised; C46: updates_are_complete_and_consistent, another_time_stamp_drops_the_set, images_are_used_at_most_once, complete_sets_are_used, three_cameras_never_update; C47: published_stamps_strictly_increase, nothing_is_published_before_an_image_update, published_iff_the_safe_time_advances; C49: messages_well_formed, point_cloud, point_cloud_no_history, patches; C50: level_square, inside_top_square, level_drawn, concentric, concentric_stretch_refuted; C52: records_are_the_advances_of_the_safe_time, without_resets_the_recorded_messages_are_current, recorded_messages_are_current_refuted; C55: no_bad_access, construct, assign, later_changes, independent, write_reads_back, no_leak, patches_refuted, images_refuted, copy_constructor_refuted; C59: every_index_in_one_block, blocks_disjoint, state_offsets; C60: local_quality_is_low_pass, local_visibility_is_low_pass, joint_values_are_low_pass, ranges_recorded; C71: image_update_total, statistics_are_the_frames_since_creation, age_is_number_of_frames_since_creation, ids_are_stable; C76: every_camera_once; C78: gate_same_size; C81: image, history, at_most_69, velocity_prediction_refuted; C84: unknown_model_is_ignored, radius; C89: keys, one_key, sharing, load_succeeds, values, untouched, derived, extrinsics, other_keys_ignored, slots_untouched, shipped_file, every_key_matters, pose_keys_without_poses; C90: keypoints_in_circle, position_in_full_image, radius_monotone, no_restriction_iff, margin, candidates_in_image, border_keypoint_refuted.

* **`sig_forall_dec`** (18 theorems): C34: others_unchanged, decorrelated, initial_block; C43: later_measurement, alignment_off; C48: pose_order, twist_order, extrinsics_order, bias_order; C49: unused_slot_cleared_refuted; C64: other_cameras, no_effect_with_calibration; C65: no_feedback; C68: imu_rate_noise; C78: gate_tests_observing_camera_refuted; C84: accepts_only_complete_files, bad_file_stops_the_node; C91: entries.

* **`functional_extensionality_dep`** (5 theorems): C104: defined_iff_lives_are_short, queries_defined, long_life_refuted, two_cameras_refuted, history_grows_with_every_frame.

* **`sig_forall_dec`, `functional_extensionality_dep`** (73 theorems): C100: one_best_estimate; C11: no_division_by_zero; C32: defined_for_textured_templates, zero_mean_residual, best_brightness_fit, best_offset_fit, copy_has_zero_residual, image_gain_scales_rows, constant_template_undefined; C33: best_converged_seed, seed_count_bounded, seeds_cover_uncertainty, seeds_symmetric, negative_limit_always_fails, output_untouched_on_failure_refuted; C34: stays_covariance, reset_sequence; C35: default_for_few, confident_features, true_median, deterministic, three_features_suffice_refuted, negative_depth_rejected_refuted, middle_of_sorted; C43: displayed_pose; C44: product_symmetric_iff_commute, uniform_noise_is_covariance, position_only_is_covariance, always_symmetric_refuted; C48: output_is_covariance, gyro_noise_is_covariance, messages_are_covariances, extrinsics_message_is_covariance, output_variance, gyro_noise_variance, bias_message_is_covariance; C51: drawn_indices_name_vertices, failing_calls, shapes_are_whole, prolonging_appends, cube_surface, tetrahedron_surface, cube_mesh_edges, rectangle_area, ground_plane_area, ground_plane_mesh_lines, coordinate_frame_axes, textured_rectangle; C53: camera_pose, camera_motion, imu_motion; C56: reduced_system_equivalent; C58: iterations_bounded, success_means_converged, coarse_to_fine, finest_level_converged, inverse_warp; C64: extrinsics_meaning; C66: velocity_innovation, zero_velocity_innovation, noise; C68: camera_rate_noise, camera_rate_noise_refuted; C72: view_transforms_are_inverse; C73: keys_move_along_camera_axes; C76: noise_level, off_camera_gain_refuted; C79: drawn_axes, predicted_pixel_covariance; C84: settings_come_from_the_file_refuted, failed_load_keeps_camera_refuted; C85: identity; C92: blocks_and_matrix.

* **`sig_forall_dec`, `sig_not_dec`, `functional_extensionality_dep`** (119 theorems): C11: inverse_distance_bounded, new_distance; C12: distance_derivative, derivatives_reciprocal, clamped_zone_refuted; C13: set_type_changes_distance_refuted; C20: double_sphere_continuous_refuted, double_sphere_jump; C24: eigenvalues, score_is_smaller_eigenvalue_refuted, multilevel, single_level; C25: score_of_last_bordered, patch_of_last_extraction, score_of_last_extraction_refuted; C30: best_offset_rms, symmetric, offset_invariant, zero_iff_constant_offset, triangle; C31: within_threshold_unchanged, square_is_huber_loss, influence_limited, odd, strictly_monotone, continuous, lipschitz; C36: gravity_aligned, negligible_reading, rest_unchanged, startup_at_rest; C41: position, attitude, attitude_steps, acceleration, constants, no_measurement, standing_still, rotations_stay, motion_timer, speed_inflation; C43: first_measurement, kept_over_history, state_alignment_reset_refuted, innovation_meaning; C49: landmark_covariance, point_values; C53: rate_of_last_sample, jacobian_pose_rate, jacobian_velocity, jacobian_velocity_error, jacobian_velocity_refuted, jacobian_imu; C57: mask_symmetric, gaussian; C62: noise_jacobian, fixed_extrinsics_refuted; C63: rest_unchanged; C64: from_next_reset; C65: position_jacobian, attitude_jacobian, noise_jacobian; C66: velocity_jacobian, zero_velocity_jacobian; C67: reset_with_accelerometer, reset_with_pose, reset_attitude, position_remembered_refuted; C68: noise_of_the_last_step; C69: landmark_value, landmark_jacobian, landmark_jacobian_columns, landmark_jacobian_refuted, feature_copy_jacobian_refuted, readable; C70: turned_basis_reached; C72: rendered_point, view_volume, depth_order, winding, culled_faces, near_side_is_shown_refuted; C73: set_view_centres_target, set_y_down; C74: lines_show_the_features, patches_show_the_features, bar_is_one_standard_deviation_refuted, bar_stays_in_front_refuted, inverse_bar_stays_in_front; C75: one_segment_per_feature, segment_contains_feature_refuted, near_is_nearer_refuted, imu_frame_refuted; C77: feature_in_motion, small_shift_is_no_motion, shift_along_strongest_gradient, same_size_is_safe, size_change_refuted, large_shift_is_motion_refuted, decision, unchanged_image, prediction_timers, zero_velocity; C78: accepted_iff, repetitive_texture_rejected, accepted_is_distinctive, sampling_check_made_refuted, alignment_accepted_iff; C85: in_place, increment; C86: jacobian, no_direction_is_lost, always_smooth_refuted; C87: stays_a_rotation, only_dragging_turns, mouse_turns_keys_move, initial_mouse_position_is_irrelevant, straight_drag; C94: published.

* **`sig_forall_dec`, `sig_not_dec`, `classic`, `functional_extensionality_dep`** (235 theorems): C01: qualities_ieee_double, ieee_all_qualities; C04: ieee_always_tracked_is_good, ieee_failing_becomes_bad, ieee_unseen_becomes_bad, ieee_lower_monotone; C10: ieee_score_bucket, ieee_best_in_top_bucket, ieee_moves, ieee_never_out_of_range, ieee_infinite_distance_refuted, ieee_negative_exponent_refuted; C100: measurement_is_best_estimate, in_every_history; C101: scores_are_moderate, nan_is_ignored, best_score, selected, above_minimum_selected, stored_scores, average_score, motion_seen_refuted, sort_order_on_numbers, sorted_scores_are_numbers_refuted; C102: order_kept, distinct_times, intervals, published_stamp, published_stamp_simulated, exact_stamp_refuted, all_distinct_refuted, published_increasing, published_history, published_nondecreasing; C103: threshold, distance_defined, distance_accurate, order, round_trip, saturates, distance_derivative, derivatives_reciprocal, combined_derivative, param_derivative_overflow_refuted, infinite_distance_refuted; C105: pixel_is_number, projected_patch_safe, radtan_pixel_accuracy, grazing_bearing_refuted, equidistant_grazing_refuted, pixel_accuracy, exact_pinhole; C106: not_finite_fails, unit_length, pinhole_round_trip, success_is_number_refuted, same_distortion, principal_point, undistorted_round_trip; C107: jacobian_accuracy, radtan_jacobian, double_sphere_jacobian, centre_jacobian_refuted; C108: projection_jacobian, tangent_jacobian, same_pixel, pixel_accuracy; C11: distance_round_trip, parameter_round_trip, inverse_saturates_small, inverse_saturates_large, log_nonpositive_refuted, configured_type; C12: parameter_derivative, combined_derivative; C13: conversion_preserves_distance; C16: meeting_rays, nearly_parallel_fails, failure_keeps_distance, closest_point, in_front_of_second_camera_refuted; C17: fails_iff_behind, scale_invariant; C18: same_value, distort_jacobian, distort_coordinate_derivatives, projection_value, projection_jacobian, tangent_jacobian; C19: success_sound, undistorted_exact, success_with_undefined_bearing_refuted, reprojection_error, radtan_reprojection_error; C20: equidistant_limit, double_sphere_limit; C21: same_camera_identity, succeeds, point_preserved, forth_and_back, negative_distance_refuted; C22: in_frame_extraction_safe_ieee, nan_accepted_ieee_refuted, mixed_contraction_refuted; C23: extraction_accuracy_ieee, extracted_range_ieee; C24: eigenvalues_ieee, multilevel_ieee, extracted_patch_ieee, score_is_a_number_ieee_refuted; C28: level_coordinates_ieee; C29: top_level_suffices_ieee, flat_patch_ieee_refuted, smallest_patch_ieee_refuted; C31: rows; C32: image_offset_irrelevant, template_brightness_irrelevant; C42: static_point; C49: ieee_point_cloud, ieee_order, ieee_positive_distance_refuted, ieee_covariance, ieee_covariance_refuted; C54: same_point, bearing_rows, distance_row, all_directions, rotation_columns_refuted, inverse_parameter_refuted, own_camera; C57: mask_range, mask_decreases_outwards, full_weight_at_the_centre; C58: fails_iff_no_level, exact_first_order_step, fixed_point; C61: prediction_jacobian, unassigned_feature_refuted; C63: warp_transport; C70: warp_other_camera, warp_own_camera, warp_own_camera_refuted; C73: set_y_down_accuracy; C74: depth_bar_contains_the_feature; C75: segment_contains_feature, near_far, imu_frame; C76: pixel_jacobian, pixel_jacobian_all_directions, rotation_columns_refuted, zero_innovation, noise_jacobian, behind_camera, direct_gradient, direct_failure, direct_noise_is_added; C77: ieee_difference_defined, ieee_difference_accurate, ieee_uniform_brightness, ieee_unchanged_not_moving; C79: axes, angle, curve, defined_iff; C80: point_seen_with_error, monotone, error_beyond_parallax, forward_motion_refuted; C82: elevation, horizon, undefined_iff_steep, always_drawn_refuted; C83: only_this_feature, stays_covariance, relative_uncertainty, bearing_covariance, stereo_distance, stereo_uncertainty, stereo_relative_uncertainty_refuted; C84: loads_what_the_file_describes, start_up, camera_matrix, skew_refuted, unconfigured_camera; C85: add_then_subtract, add_then_subtract_small, subtract_then_add, self_difference, half_turn_refuted; C86: angles_exist, angles_are_smooth; C87: only_ends_matter_refuted; C88: strong_gradients_count_less, steepest_is_ignored, never_counts_more_refuted; C91: free_slots_do_not_matter, as_good_as_new, removal_keeps_the_rest, addition_keeps_the_rest, unassigned_slot, freed_slot_uncorrelated_refuted, with_images, images_as_coded; C92: stays_covariance, measurement_never_hurts, innovation_covariance, never_certain, prediction; C93: frame_uncertainty_is_inert, heading_never_learned, position_never_learned, the_rest_is_unaffected; C94: any_world_frame, same_history, with_images, images_as_coded; C95: no_feedback, initial_poses_irrelevant, stays_separated, with_images, images_as_coded; C96: extrinsics_stay, estimated_extrinsics_irrelevant, with_images, images_as_coded; C97: uncorrelated_parts_stay, agreeing_measurement; C98: any_numbering, motion, choice_of_the_slot; C99: image_is_filter_steps, history_is_a_run, covariance_stays_valid, frame_never_learned, no_history_gets_stuck.
