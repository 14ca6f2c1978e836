{"id": "C01", "title": "Feature quality measures stay between 0 and 1", "statement": "Whatever sequence of frame outcomes a feature goes through, every quality the statistics object reports (local quality and local visibility per camera, their averages/maxima, joint visibility, global quality) lies in [0,1], provided the three configured ranges are at least 1. This holds in exact arithmetic, when every arithmetic operation is rounded by any monotone rounding that fixes 0 and 1, and for all of these values in IEEE doubles whether or not the compiler fuses multiply-adds. The reported maximum is the local quality of some camera and no camera has a larger one. With a configured range of 0 the bound does not hold.", "quantifier": "every sequence of reset / status assignment / increaseStatistics calls of any length, any number of cameras, any ranges >= 1, any monotone rounding", "why_tests_cant": "histories are unbounded and the accumulated recursion could drift out of range after arbitrarily many frames; a test samples one history", "anchors": ["include/rovio/FeatureStatistics.hpp: increaseStatistics, resetStatistics, getLocalQuality, getLocalVisibility, getAverageLocalQuality, getJointLocalVisibility, getGlobalQuality"]}
{"id": "C02", "title": "Tracking counters partition the frames seen", "statement": "For every camera, adding up the reported number of frames over all five tracking outcomes always equals the reported total number of frames, the number of tracked frames never exceeds the total, and each single counter equals the number of frames of that outcome in the actual history since the last reset (including the frame in progress). The in-frame count is the number of frames in which the feature was visible, whatever the outcome of the alignment. The statistics also hold the time of creation or latest reset and the time of the frame in progress.", "quantifier": "every history of frames and resets, every camera and outcome", "why_tests_cant": "must hold after every possible history, not just the ones enumerated in a test", "anchors": ["include/rovio/FeatureStatistics.hpp: countTrackingStatistics, countTot, countTracked, increaseStatistics, resetStatistics"]}
{"id": "C03", "title": "Windowed counters look at exactly the last n frames", "statement": "Asking for the count of an outcome over the last n frames returns the count over the last n entries of the real frame history when frame times strictly increase. If two frames carry the same time stamp the window undercounts, and this is exhibited.", "quantifier": "every history with strictly increasing frame times, every window length n >= 1, every camera", "why_tests_cant": "correctness depends on the whole time-stamped history; the failing case needs a repeated time stamp that a test would not generate", "anchors": ["include/rovio/FeatureStatistics.hpp: countTrackingStatistics, increaseStatistics (statistics_ map keyed by time)"]}
{"id": "C04", "title": "Good-feature decision is monotone and eventually drops lost features", "statement": "A feature that has been tracked in every frame since creation is never classified as bad when the upper threshold is below 1; a feature that fails (or is out of view) in every camera in every frame is eventually classified as bad once enough frames have passed, for any positive lower threshold; lowering either threshold never turns a good feature into a bad one. In IEEE doubles, fused or not, the quality of an always-tracked feature stays exactly 1 and it is good, a lost feature still becomes bad for lower thresholds of at least 1e-9, and lowering the lower threshold never turns a good feature bad.", "quantifier": "every number of frames, all thresholds 0 < lower <= upper < 1, any ranges >= 1", "why_tests_cant": "an eventuality over unbounded histories and all threshold values cannot be sampled", "anchors": ["include/rovio/FeatureStatistics.hpp: isGoodFeature, increaseStatistics"]}
{"id": "C05", "title": "New features never overwrite live ones and get fresh ids", "statement": "Allocating a feature slot always returns a slot that was free (the lowest one), changes no other slot, assigns an id never used before by this manager since its last reset, and reports failure (-1) exactly when no slot is free. Live features therefore have pairwise distinct ids at all times and the number of live features never exceeds the capacity.", "quantifier": "every sequence of allocate / invalidate / reset operations on a set of any capacity", "why_tests_cant": "invariant over unbounded operation histories", "anchors": ["include/rovio/FeatureManager.hpp: makeNewFeature, getFreeIndex, getValidCount, reset"]}
{"id": "C06", "title": "Adding candidates respects budget and capacity and keeps existing features", "statement": "Adding best candidates makes valid at most the requested maximum number of features and at most the number of free slots, never changes a feature that was already valid, and returns exactly the set of newly valid slots.", "quantifier": "every candidate list, every set state, every parameter choice and every choice order of the unordered containers", "why_tests_cant": "iteration order of hash sets is unspecified, so tests see one order only; candidate counts are unbounded", "anchors": ["include/rovio/FeatureManager.hpp: addBestCandidates"]}
{"id": "C07", "title": "Each candidate becomes at most one feature and only if good enough", "statement": "No candidate is turned into a feature twice, every feature added comes from a candidate that was visible and whose corner score is strictly above the minimum score, and if no candidate beats the minimum score nothing is added.", "quantifier": "every candidate list, scores, penalties and iteration orders", "why_tests_cant": "bucket moves interleave with extraction for arbitrary inputs", "anchors": ["include/rovio/FeatureManager.hpp: addBestCandidates"]}
{"id": "C08", "title": "Requesting the maximum really adds the maximum", "statement": "When the caller asks to fill up to the maximum, the number of added features is exactly the minimum of the requested maximum, the free slots and the number of candidates above the minimum score, whatever the penalties are.", "quantifier": "every candidate list, set state, penalty configuration and iteration order", "why_tests_cant": "requires tracking every candidate through arbitrarily many bucket moves", "anchors": ["include/rovio/FeatureManager.hpp: addBestCandidates (requireMax)"]}
{"id": "C09", "title": "Minimum-distance penalty is enforced", "statement": "When filling up is not requested, a candidate is never added if, at the moment it is considered, its distance to an already valid feature of the same camera makes the penalty at least its score bucket; in particular with a zero-distance penalty of at least the number of buckets no candidate coinciding with a live feature of that camera is ever added.", "quantifier": "every candidate list, set state and iteration order", "why_tests_cant": "pairwise condition over arbitrary point sets, including features added within the same call", "anchors": ["include/rovio/FeatureManager.hpp: addBestCandidates"]}
{"id": "C10", "title": "Candidate bucketing never indexes outside the buckets", "statement": "With at least one bucket and a non-negative zero-distance penalty every bucket index computed while adding candidates is valid, for all scores and distances, also when the score exponent makes the scaled score exceed the top bucket. This also holds with the rounding of float and double arithmetic, whichever overload of pow is called and with or without contracted operations: the best candidate starts in the top bucket, later comparisons only ever move a candidate down, by exactly the penalty at distance zero, and infinite or NaN distances move nothing. Zero buckets, a negative penalty, an infinite penalty distance or a negative score exponent break this, and the alternative grid-based variant writes outside the feature array as soon as the set is full; with room it takes candidates best score first.", "quantifier": "every candidate list, score and distance; all bucket counts and penalties", "why_tests_cant": "out-of-range needs rare parameter/score combinations", "anchors": ["include/rovio/FeatureManager.hpp: addBestCandidates, addBestCandidatesNew"]}
{"id": "C11", "title": "Distance parametrisations are invertible", "statement": "Setting the distance and reading it back returns the same distance for the regular parametrisation (all reals), the inverse parametrisation (magnitude between 1e-6 and 1e6), the logarithmic parametrisation (positive) and the hyperbolic parametrisation (positive); outside the inverse range the result saturates at the documented limits and no division by zero ever happens. The configured number selects the parametrisation: for 0, 1, 2 and 3 the stored parameter of a distance is the distance, its reciprocal, its logarithm or its inverse hyperbolic sine, and any other number behaves like 0. A new distance starts with parameter one.", "quantifier": "every real distance and every parametrisation", "why_tests_cant": "continuum of inputs including the clamping boundaries", "anchors": ["src/FeatureDistance.cpp: setType, setParameter, getDistance, makeNonZero", "include/rovio/FeatureDistance.hpp"]}
{"id": "C12", "title": "Reported distance derivatives are the true derivatives", "statement": "For every parametrisation the reported derivative of distance with respect to the parameter, of the parameter with respect to distance, and the combined second-order term are the mathematical derivatives of the distance/parameter maps (outside the clamped zone of the inverse parametrisation), and the first two are reciprocal.", "quantifier": "every parameter value in the open domain of each parametrisation", "why_tests_cant": "derivative identity over a continuum", "anchors": ["src/FeatureDistance.cpp: getDistanceDerivative, getParameterDerivative, getParameterDerivativeCombined"]}
{"id": "C13", "title": "Changing parametrisation preserves the distance", "statement": "Converting a distance object to another parametrisation leaves the represented distance unchanged for every distance representable in both, whereas merely switching the type keeps the raw parameter and therefore changes the distance in general.", "quantifier": "every pair of parametrisations and every commonly representable distance", "why_tests_cant": "all 16 pairs times a continuum", "anchors": ["src/FeatureDistance.cpp: setParameter(FeatureDistance), setType"]}
{"id": "C14", "title": "Pixel and bearing views of a coordinate agree", "statement": "After any sequence of setting a pixel, setting a bearing, reading either, querying the Jacobian, copying and resetting, a successful read of the pixel and of the bearing refer to the same direction (the camera maps the bearing to the pixel), and the value last set explicitly is returned unchanged by the next read of the same kind; reading the Jacobian may overwrite the stored pixel by the reprojected one, and only then. After a reset no read succeeds until a coordinate is set again.", "quantifier": "every sequence of coordinate operations, for any camera whose two maps are mutually inverse on their domain", "why_tests_cant": "lazy caches fail only for particular operation orders", "anchors": ["src/FeatureCoordinates.cpp: set_c, set_nor, com_c, com_nor, get_c, get_nor, get_J"]}
{"id": "C15", "title": "Warp caches stay consistent with the coordinate", "statement": "As long as warping is enabled and every coordinate change discards the warp, the pixel warp and the bearing warp stored for a feature are related by the Jacobian of the projection at the current coordinate, and asking for either warp succeeds exactly when one of the two was provided since the last coordinate change. Keeping the warp across a coordinate change (reset not requested, or warping disabled) breaks the relation, and discarding it leaves the identity flag switched on although no warp is available.", "quantifier": "every sequence of coordinate and warp operations", "why_tests_cant": "needs particular operation orders", "anchors": ["src/FeatureCoordinates.cpp: set_warp_c, set_warp_nor, set_warp_identity, com_warp_c, com_warp_nor, isNearIdentityWarping"]}
{"id": "C16", "title": "Triangulation recovers the true distance or reports failure", "statement": "If two bearing rays from two cameras with known relative pose meet in a point at distance d1 from the first camera, the triangulation succeeds and returns exactly d1 whenever the rays are not nearly parallel and d1 is at least the minimum distance; otherwise it reports failure and leaves the output distance unchanged. For rays that do not meet, the returned distance is that of the point of the first ray closest to the line of the second. The point is not checked to lie in front of the second camera.", "quantifier": "every relative pose, every pair of unit bearings and all distances", "why_tests_cant": "continuum of geometric configurations including the near-degenerate ones", "anchors": ["src/FeatureCoordinates.cpp: getDepthFromTriangulation"]}
{"id": "C17", "title": "Projection depends only on direction and rejects points behind", "statement": "Projecting a 3D point to a pixel fails exactly when its depth is not positive, and otherwise the pixel depends only on the direction: scaling the point by any positive factor gives the same pixel, for every distortion model.", "quantifier": "every 3D vector, positive scale, camera model and coefficient set", "why_tests_cant": "continuum", "anchors": ["src/Camera.cpp: bearingToPixel"]}
{"id": "C18", "title": "Projection Jacobians are the true derivatives", "statement": "The Jacobian returned together with a distorted point or with a projected pixel is the matrix of partial derivatives of the returned value, for the radial-tangential, equidistant and double-sphere models (away from the small-radius shortcut) and for the complete bearing-to-pixel map.", "quantifier": "every point in the domain, every coefficient set", "why_tests_cant": "derivative identity over a continuum; numerical differentiation only samples it", "anchors": ["src/Camera.cpp: distortRadtan, distortEquidist, distortDoubleSphere, bearingToPixel"]}
{"id": "C19", "title": "Back-projection returns a unit bearing in front that projects to the pixel", "statement": "When back-projecting a pixel reports success and the bearing is defined, it has unit length, positive depth, the point before the last correction step reprojects to the normalised pixel within the tolerance, and the correction is the exact Newton step; without distortion back-projection always succeeds and projecting the result returns exactly the pixel. With distortion the returned bearing projects back to the pixel up to an error that is quadratic in the last correction, for every model in terms of how fast the Jacobian of the distortion changes, and for the radial-tangential model within a field of view of 90 degrees with an explicit bound in pixels from the coefficients. Success can however be reported with an undefined bearing when the distortion Jacobian is singular at the solution.", "quantifier": "every pixel, camera model and coefficient set; any number of iterations", "why_tests_cant": "iterative solver outcomes for a continuum of inputs", "anchors": ["src/Camera.cpp: pixelToBearing"]}
{"id": "C20", "title": "Small-radius shortcut is consistent with the distortion model", "statement": "The identity shortcut used near the optical axis agrees with the limit of the full model for the equidistant model; for the double-sphere model it does not: the distorted coordinate jumps by the factor 1/(1+k1) at the shortcut boundary, so the projection is discontinuous for k1 different from 0.", "quantifier": "every coefficient set, points arbitrarily close to the axis", "why_tests_cant": "limit behaviour", "anchors": ["src/Camera.cpp: distortEquidist, distortDoubleSphere"]}
{"id": "C21", "title": "Feature transfer between cameras preserves the 3D point", "statement": "Transferring a feature (bearing and distance) from one camera to another preserves its 3D position in the body frame, is the identity for the same camera, and transferring forth and back returns the original bearing and distance, for any extrinsics and any feature with positive distance that is not located at the target camera centre. For a negative distance (possible with the regular and inverse parametrisations) the 3D point is preserved but forth and back returns the opposite bearing with a positive distance.", "quantifier": "every pair of cameras, extrinsics, bearing and distance", "why_tests_cant": "continuum of geometries", "anchors": ["include/rovio/MultiCamera.hpp: transformFeature, setExtrinsics"]}
{"id": "C22", "title": "A patch reported inside the image is extracted without out-of-range reads", "statement": "If the in-frame check accepts a coordinate then every pixel read while extracting the patch lies inside the image, with or without border, with identity or arbitrary affine warp, although only the four corners are checked; this holds with exact arithmetic, with any monotone rounding of the intermediate results, and in IEEE-754 single and double precision as the code evaluates it, including overflows and NaN in the warp and any uniform contraction of multiply-add by the compiler. Coordinates that are not a number pass the identity-warp check, and a compiler that contracts the check and the extraction differently breaks the guarantee.", "quantifier": "every image size, patch size, sub-pixel coordinate, affine warp, border flag and monotone rounding", "why_tests_cant": "out-of-range reads appear only at particular sub-pixel borders and warps", "anchors": ["include/rovio/Patch.hpp: isPatchInFrame, extractPatchFromImage"]}
{"id": "C23", "title": "Extracted intensities are proper interpolations", "statement": "Every extracted patch value lies between the minimum and the maximum of the image pixels it was interpolated from (so between 0 and 255), equals the image pixel at integer coordinates, reproduces affine intensity ramps exactly, and the inner patch always equals the interior of the patch with border. In IEEE-754 arithmetic every value is finite, within a thousandth of a grey level of the exact interpolation at a position within 1/256 pixel of the exact one, for images of up to 4096 x 4096 pixels.", "quantifier": "every image, coordinate, warp and patch size", "why_tests_cant": "all images and sub-pixel positions", "anchors": ["include/rovio/Patch.hpp: extractPatchFromImage, extractPatchFromPatchWithBorder"]}
{"id": "C24", "title": "Corner score is well defined", "statement": "For every patch the two reported eigenvalues are real, non-negative, ordered and are the eigenvalues of the averaged gradient matrix; the reported score is their sum (the trace), so it is not, in general, the smaller eigenvalue as documented; an image that varies in only one direction has smaller eigenvalue 0 but may have an arbitrarily large score. In floating point, with any contraction of multiply-adds, the score is within 1/1024 and each eigenvalue within 1/128 of the exact sum whenever the score is a number, and it is a number whenever the eigenvalues differ by 1/64 of their sum; for some patches with nearly equal eigenvalues the score is NaN.", "quantifier": "every patch content and patch size", "why_tests_cant": "all patches; the discriminant could be negative for some", "anchors": ["include/rovio/Patch.hpp: computeGradientParameters, getScore", "include/rovio/MultilevelPatch.hpp: computeMultilevelShiTomasiScore"]}
{"id": "C25", "title": "Cached gradients always belong to the current patch", "statement": "After any sequence of extractions with border, score queries and Hessian queries the returned score and Hessian are those of the most recently extracted patch; an extraction without border leaves the bordered copy behind, so that a following score query describes the older patch.", "quantifier": "every sequence of patch operations", "why_tests_cant": "cache staleness depends on the operation order", "anchors": ["include/rovio/Patch.hpp: computeGradientParameters, getScore, getHessian, extractPatchFromImage"]}
{"id": "C26", "title": "Level coordinate transforms compose and invert", "statement": "Transforming a pixel from one pyramid level to another and back returns the same pixel, transforming via an intermediate level equals transforming directly, and the warp is carried along unchanged when a camera is attached.", "quantifier": "every pair/triple of levels, every centre table, every coordinate", "why_tests_cant": "continuum times all levels", "anchors": ["include/rovio/ImagePyramid.hpp: levelTranformCoordinates"]}
{"id": "C27", "title": "Half-sampling is in range and averages four pixels", "statement": "Half-sampling reads only pixels inside the source image, produces an image of half the width and height (rounded down) whose pixels are the truncated average of the corresponding 2x2 block, hence between the block minimum and maximum; repeated for any number of levels, sizes are the source size divided by the power of two.", "quantifier": "every image size and content, every number of levels", "why_tests_cant": "all sizes incl. odd ones", "anchors": ["include/rovio/ImagePyramid.hpp: halfSample, computeFromImage"]}
{"id": "C28", "title": "Pyramid level offsets match the sampling geometry", "statement": "A source position is mapped to the position on a pyramid level at which the level's pixels show the same scene point (exactly, when the lower levels have even width and height), both for half-sampled pyramids and for cv::pyrDown pyramids; for odd sizes the mapped position is never negative off and always less than half a level pixel off. Exactness for odd sizes does not hold: the column offset is taken from the number of rows and vice versa. Computed in IEEE single precision, the mapped position is within 1/128 of a pixel of these bounds for level coordinates up to 65535.", "quantifier": "every image size, level and position", "why_tests_cant": "needs an odd-by-even image at some level", "anchors": ["include/rovio/ImagePyramid.hpp: computeFromImage, levelTranformCoordinates"]}
{"id": "C29", "title": "Inside at the top level implies inside at all lower levels", "statement": "If the multilevel in-frame check accepts a coordinate by testing only the coarsest requested level, then the patch is inside the image on every finer level, so the multilevel extraction reads no pixel out of range and fills every level: for half-sampled pyramids with any warp, for cv::pyrDown pyramids with identity warp, even sizes, or a warped patch at least one pixel wide. For narrower patches on odd-sized pyrDown pyramids it fails. In IEEE single precision it holds for images of up to 65536 pixels per side, any number as coordinate and any compiler contraction of multiply-add if the warped patch extends over a quarter of a pixel (half-sampled) or five quarters (cv::pyrDown); with less extent, rounding of the level coordinates makes the check accept a patch whose extraction reads outside the image.", "quantifier": "every image size, level, coordinate, warp and even patch size", "why_tests_cant": "all sizes/offset combinations", "anchors": ["include/rovio/MultilevelPatch.hpp: isMultilevelPatchInFrame, extractMultilevelPatchFromImage"]}
{"id": "C30", "title": "Patch difference measure is a brightness-offset-invariant distance", "statement": "The average difference between two multilevel patches is symmetric, non-negative, zero for patches that differ by a constant brightness offset (and only for those), and unchanged when a constant is added to either patch.", "quantifier": "every pair of patches, every level range", "why_tests_cant": "all patch contents", "anchors": ["include/rovio/MultilevelPatch.hpp: computeAverageDifference"]}
{"id": "C31", "title": "Robust weighting bounds outlier influence", "statement": "In photometric alignment with the robust threshold enabled, residuals within the threshold are unchanged, larger residuals are replaced by a value with the same sign whose square is th(2|e|-th) and whose row is scaled so that the gradient contribution is bounded by the threshold; the map is continuous and odd and strictly monotone.", "quantifier": "every residual value and every positive threshold", "why_tests_cant": "continuum of residuals", "anchors": ["include/rovio/MultilevelPatchAlignment.hpp: getLinearAlignEquations"]}
{"id": "C32", "title": "Alignment ignores global brightness change", "statement": "With brightness offset (and skew) compensation on, the alignment residuals have zero weighted mean, vanish when the image patch is a brightness-affine copy of the reference patch with gain at least 1/2, and adding a constant brightness to the image does not change the residuals. For a constant reference patch the gain is undefined (0/0).", "quantifier": "every pair of patches, every weighting", "why_tests_cant": "all patch contents and weights", "anchors": ["include/rovio/MultilevelPatchAlignment.hpp: getLinearAlignEquations"]}
{"id": "C33", "title": "Adaptive alignment returns the best converged sample or fails", "statement": "Adaptive alignment tries at most 2*maxUniSample+1 seeds placed symmetrically along the uncertain direction, which cover the uncertain segment unless the limit applies. It succeeds exactly when at least one seed converges to a coordinate in the frame, and then returns a result with minimal alignment error among these. On failure the output holds the end of the last attempt. With a single seed the result is that of plain alignment, without in-frame check; a negative seed limit always fails.", "quantifier": "every alignment outcome per seed, all uncertainty sizes and configuration values", "why_tests_cant": "all outcome combinations", "anchors": ["include/rovio/MultilevelPatchAlignment.hpp: align2DAdaptive, align2D"]}
{"id": "C34", "title": "Resetting a feature's covariance keeps the covariance valid and decorrelates the feature", "statement": "Resetting the covariance of a feature leaves all entries not involving this feature unchanged, sets all correlations between this feature and the rest to zero, installs the given initial 3x3 covariance in the documented order, and preserves symmetry and positive semidefiniteness of the whole covariance whenever the initial block has them.", "quantifier": "every covariance matrix, feature index and state dimension", "why_tests_cant": "all matrices; PSD is a universally quantified statement", "anchors": ["include/rovio/FilterStates.hpp: resetFeatureCovariance"]}
{"id": "C35", "title": "Median depth is a true median of confident features", "statement": "The median depth parameter returned for a camera is the default when at most three confident features exist and otherwise the middle element of the sorted parameters of the confident features: it is one of them and at most half of them lie on either side; it does not depend on the selection algorithm. Three features are not enough although the code says so, and a feature with negative distance always counts as confident.", "quantifier": "every set of features, uncertainties and thresholds", "why_tests_cant": "all multisets", "anchors": ["include/rovio/FilterStates.hpp: getMedianDepthParameters"]}
{"id": "C36", "title": "Accelerometer initialisation aligns gravity", "statement": "After initialising from an accelerometer reading of non-negligible norm, rotating the measured specific force into the world frame gives a vector along the world vertical with the same norm; for a negligible reading the attitude is the identity; position and other states are not changed.", "quantifier": "every accelerometer vector", "why_tests_cant": "continuum incl. antiparallel vectors", "anchors": ["include/rovio/FilterStates.hpp: initWithAccelerometer", "include/rovio/RovioFilter.hpp: resetWithAccelerometer"]}
{"id": "C37", "title": "Innovation sampling visits every candidate of the search grid exactly once", "statement": "Generating linearisation candidates for a feature terminates. Successive calls return every sample of the configured square search grid that lies inside the coverage ellipse exactly once and then report exhaustion, again and again. Each candidate moves the predicted pixel, to first order, by exactly the sample's offset and is the state correction doing so that is closest in terms of the filter's uncertainty; a sample is used exactly if that distance is below the coverage ratio; the current state is always a candidate.", "quantifier": "every grid size whose sample count fits an int, every coverage test, every covariance, Jacobian and pair of eigenvectors", "why_tests_cant": "depends on counters across calls and on a continuum of covariances", "anchors": ["include/rovio/ImgUpdate.hpp: generateCandidates"]}
{"id": "C38", "title": "Every valid feature is processed exactly once per camera per frame", "statement": "Within one image update the pre/post-processing iteration visits every valid feature with every camera in turn (all cameras if cross-camera measurements are on, only its own camera otherwise), advances its frame statistics exactly once, and terminates, whatever subset of features is valid or gets removed in between.", "quantifier": "every validity pattern, number of features and cameras, and every outcome", "why_tests_cant": "all validity patterns and outcomes", "anchors": ["include/rovio/ImgUpdate.hpp: preProcess, postProcess"]}
{"id": "C39", "title": "Forced removal of bad features terminates and never removes good ones first", "statement": "The loop that enforces a minimum share of tracked-or-free features terminates for every feature state if the removal factor exceeds 1 and both thresholds are positive and the required share is at most 1, ends with the share reached, and never removes a feature that was tracked in the current frame. With removal factor at most 1 or a required share above 1 it can run forever.", "quantifier": "every feature set state and configuration", "why_tests_cant": "non-termination needs particular configurations", "anchors": ["include/rovio/ImgUpdate.hpp: commonPostProcess"]}
{"id": "C40", "title": "Feature addition quota covers all cameras without exceeding capacity", "statement": "New features are requested exactly when the map is filled below the detection threshold. Then each camera in turn gets an equal share of the still free slots; the total never exceeds the capacity, existing features are untouched and the last camera may use all remaining slots. If every camera sees enough good and well separated corners, each takes exactly its share and the map ends up full.", "quantifier": "every capacity, camera count and per-camera yield", "why_tests_cant": "all yields", "anchors": ["include/rovio/ImgUpdate.hpp: commonPostProcess"]}
{"id": "C41", "title": "Dead-reckoning prediction is consistent kinematics", "statement": "One prediction step moves the world position by the time step times the velocity expressed in the world frame, integrates attitude by the bias-corrected rate, keeps biases and extrinsics constant (without noise), and with the no-measurement input and zero biases noise the world-frame velocity and attitude stay constant.", "quantifier": "every state, time step and measurement", "why_tests_cant": "continuum", "anchors": ["include/rovio/ImuPrediction.hpp: evalPrediction, noMeasCase"]}
{"id": "C42", "title": "Predicted feature motion is the motion of a static 3D point", "statement": "For a landmark fixed in the world the first-order change of bearing and distance used by the prediction equals the derivative of the bearing and distance of the static point seen from the moving camera.", "quantifier": "every pose, velocity, rate and landmark", "why_tests_cant": "continuum", "anchors": ["include/rovio/ImuPrediction.hpp: evalPrediction"]}
{"id": "C43", "title": "External pose alignment makes the first innovation vanish", "statement": "When inertial alignment is enabled, the first external pose measurement sets the alignment so that the predicted pose equals the measurement exactly, later measurements do not change it again, and an alignment kept outside the filter state survives filter resets; an alignment kept as a filter state is lost at a filter reset and never recomputed.", "quantifier": "every state, extrinsics and measurement; every sequence of measurements and resets", "why_tests_cant": "continuum and histories", "anchors": ["include/rovio/PoseUpdate.hpp: preProcess, evalInnovation"]}
{"id": "C44", "title": "Measurement noise from odometry is a covariance only if it commutes", "statement": "Using the measured odometry covariance, the effective measurement noise is the matrix product of default noise and measured covariance; it is symmetric exactly when the two commute. It is a covariance for default noise that is a multiple of the identity, and, when only position or only attitude is used (cross terms cleared), for default noise uniform per block; in general it is not symmetric.", "quantifier": "every covariance pair", "why_tests_cant": "all matrices", "anchors": ["include/rovio/PoseUpdate.hpp: preProcess"]}
{"id": "C45", "title": "Node start-up: nothing enters or leaves the filter before initialisation", "statement": "Before the node is initialised no image, pose or velocity measurement enters the filter and nothing is published; initialisation happens exactly at the first IMU message after a start or an honoured reset request, from the externally provided pose if one was requested and from the accelerometer otherwise; reset requests while not initialised are ignored.", "quantifier": "every interleaving of callbacks and service calls", "why_tests_cant": "all interleavings", "anchors": ["include/rovio/RovioNode.hpp: imuCallback, imgCallback, groundtruthCallback, velocityCallback, requestReset, requestResetToPose"]}
{"id": "C46", "title": "Image updates are complete and time-consistent", "statement": "Every image update handed to the filter contains one image per camera, all with the same time stamp as the update; an incomplete set is dropped as soon as an image with another time stamp arrives; each received image is used at most once.", "quantifier": "every sequence of image arrivals over any number of cameras", "why_tests_cant": "all arrival orders", "anchors": ["include/rovio/RovioNode.hpp: imgCallback", "include/rovio/ImgUpdate.hpp: areAllValid, reset"]}
{"id": "C47", "title": "Published states have strictly increasing time stamps", "statement": "Between two resets the node publishes at most one state per safe filter time, time stamps strictly increase, and nothing is published unless at least one image update has been received.", "quantifier": "every interleaving of measurements", "why_tests_cant": "all interleavings", "anchors": ["include/rovio/RovioNode.hpp: updateAndPublish"]}
{"id": "C48", "title": "Published covariances are reorderings of the state covariance", "statement": "The 6x6 pose, twist and extrinsics covariances and the 3x3 IMU bias covariances in the published messages are the corresponding sub-matrices, in the documented ordering, of the transformed state covariance plus gyro noise (of the state covariance for extrinsics and biases), and are symmetric and positive semidefinite whenever the state and noise covariances are. The variance of any combination of the output is the propagated variance of the estimate plus that of the gyroscope in the rate.", "quantifier": "every covariance matrix, Jacobian, number of cameras and features", "why_tests_cant": "all matrices", "anchors": ["include/rovio/RovioNode.hpp: updateAndPublish", "include/rovio/CoordinateTransform/RovioOutput.hpp: postProcess"]}
{"id": "C49", "title": "Point cloud and patch messages can be read back", "statement": "In both messages every byte of a point record belongs to exactly one named field and the buffer holds exactly one record per feature slot. After every publication a subscriber reads, under the declared names, for a tracked feature its id, camera, status, landmark position, bearing, distance, landmark covariance (upper triangle) and distance variance, and in the patch message every pixel, gradient and error value; for an unused slot the id is -1 and all other point fields are NaN. No write leaves the buffer. The point message does not depend on earlier publications; the patch record of an unused slot keeps the pixels of the feature that used it last (refuted: cleared). The six covariance fields are those of a symmetric positive semidefinite matrix, before they are rounded to float. Rounded, every field is the nearest float and never NaN for a tracked feature, the order of distances is kept, and the covariance stays positive semidefinite if its smallest eigenvalue exceeds three times the rounding error (refuted in general: a singular covariance can be published as an indefinite one; a positive distance can be published as zero).", "quantifier": "every number of feature slots, levels and patch sizes, every validity pattern, every history of publications", "why_tests_cant": "all sizes, all histories of slot reuse", "anchors": ["include/rovio/RovioNode.hpp: constructor, updateAndPublish"]}
{"id": "C50", "title": "Drawing a multilevel patch stays inside its canvas", "statement": "Drawing a multilevel patch writes, for every valid level, exactly a square of side patchSize*stretch*2^level, all of it inside the square of side patchSize*stretch*2^(levels-1) anchored at the given corner; the level squares are concentric for stretch 1 (and not for larger stretch factors).", "quantifier": "every patch size, level count, stretch, position", "why_tests_cant": "all sizes", "anchors": ["include/rovio/Patch.hpp: drawPatch", "include/rovio/MultilevelPatch.hpp: drawMultilevelPatch"]}
{"id": "C51", "title": "Scene geometry never references missing vertices and draws the named shapes", "statement": "After any sequence of geometry construction calls on a scene object, every drawn index refers to an existing vertex in the buffers handed to the graphics library; the only calls that fail are computing normals of geometry that is not whole triangles and a ground-plane mesh of fewer than -1 cells. The full cube and tetrahedron are closed surfaces with outward normals covering exactly the named solid's surface, the cube mesh draws the twelve edges, rectangle and ground plane cover exactly the named area, the mesh draws the grid lines, and prolonging a line appends points.", "quantifier": "every sequence of building operations, sizes and points", "why_tests_cant": "all sequences and sizes", "anchors": ["src/Scene.cpp: makeCubeFull, makeTetrahedron, makeCubeMesh, makeLine, makePoints, prolonge, makeCoordinateFrame, makeRectangle, makeTexturedRectangle, makeGroundPlane, makeGroundPlaneMesh, setColorFull, CalcNormals, allocateBuffer, clear, RenderSceneCB"]}
{"id": "C52", "title": "Rosbag replay records exactly the advancing safe states", "statement": "While replaying a log, one record is written for each message after which the safe filter time has advanced, records carry strictly increasing times, and the very first safe state is never recorded.", "quantifier": "every message sequence and any filter behaviour", "why_tests_cant": "all message sequences", "anchors": ["src/rovio_rosbag_loader.cpp: main"]}
{"id": "C53", "title": "Camera and IMU outputs are the rigid-body motion", "statement": "The reported camera pose maps world points as the state says; on every motion compatible with the IMU state the reported camera velocity and rate are those of the camera; the reported rate after a prediction is the last gyroscope sample less the bias. The reported Jacobians of position, rate and attitude are the derivatives; the velocity Jacobian is the derivative for camera 0 and, for the other cameras, only in directions that leave the camera's rotation alone or when both cameras have the same lever arm (the code uses camera 0's lever arm there).", "quantifier": "every state, camera, extrinsics, motion and direction", "why_tests_cant": "continuum; only multi-camera set-ups reveal the error", "anchors": ["include/rovio/CoordinateTransform/RovioOutput.hpp: CameraOutputCT, ImuOutputCT"]}
{"id": "C54", "title": "Feature transfer output and its Jacobian", "statement": "A feature transferred to another camera describes the same point; the reported Jacobian is the derivative of the transferred bearing, and of the distance of a regularly parametrised output, in all directions that do not change a camera rotation. The columns of the camera rotations have the wrong sign, and the distance row of a non-regular output lacks the factor of the parametrisation. Transfer to the feature's own camera is the identity on bearing and distance.", "quantifier": "every state, pair of cameras, feature, parametrisation and direction", "why_tests_cant": "continuum", "anchors": ["include/rovio/MultiCamera.hpp: transformFeature", "include/rovio/CoordinateTransform/FeatureOutput.hpp: TransformFeatureOutputCT"]}
{"id": "C55", "title": "Assigning a filter state copies features by value and never shares or double-deletes their objects", "statement": "After one filter state is assigned to another (as done when the filter is reset, when the safe state advances and in the built-in test), the copy reads exactly as the source did: feature ids, validity, coordinate history, coordinates, distances, statistics, id counter, pyramids and plain members. Whatever is later done to the source or to other states (writing, assigning, destroying) does not change what the copy reads, every object stays readable, nothing is deleted twice and nothing leaks. Not copied: the multilevel patches (the copy keeps its own) and the drawing images (shared pixels); copy construction shares and double-deletes.", "quantifier": "every number of features and cameras, every program of constructions, assignments, writes, drawings and destructions of any number of filter states", "why_tests_cant": "aliasing and double deletion show only in later operations of particular histories", "anchors": ["include/rovio/FeatureManager.hpp: FeatureManager::operator=, allocateMissing, ~FeatureManager, FeatureSetManager", "include/rovio/FilterStates.hpp: FilterState, State::initFeatureManagers", "include/rovio/RovioNode.hpp: makeTest"]}
{"id": "C56", "title": "Reduced alignment equations keep the least squares problem", "statement": "The two-row system obtained from the full photometric equations by orthogonal decomposition with column pivoting has, for every candidate step, the same squared error up to a constant independent of the step.", "quantifier": "every number of pixels, every system, every orthogonal decomposition, either pivot order", "why_tests_cant": "all matrices of all sizes", "anchors": ["include/rovio/MultilevelPatchAlignment.hpp: getLinearAlignEquationsReduced"]}
{"id": "C57", "title": "Pixel weighting mask", "statement": "The alignment weight mask takes values in (0,1], is symmetric under reflection and transposition of the patch, is 1 at the centre and does not increase outwards.", "quantifier": "every patch size and every positive width parameter", "why_tests_cant": "all widths and sizes", "anchors": ["include/rovio/MultilevelPatchAlignment.hpp: computeWeightings"]}
{"id": "C58", "title": "Iterative alignment terminates and recovers displacements", "statement": "Alignment performs at most the configured number of steps, returns the start plus the performed steps, and reports success only if the last step is shorter than the convergence limit. The equations fail exactly when no pyramid level is usable. A least squares step recovers the displacement exactly when image and reference differ by a first-order displacement, on every level and under every invertible warp; a coordinate at which the image is a brightness-affine copy of the reference is a fixed point reported as success at once. Alignment over several levels goes from the coarse start level to the finest level, each level starting where the one above ended, and success means that the finest level converged.", "quantifier": "every patch, level set, warp, start and least squares solver", "why_tests_cant": "all images and warps; convergence logic over all step sequences", "anchors": ["include/rovio/MultilevelPatchAlignment.hpp: align2D, getLinearAlignEquations"]}
{"id": "C59", "title": "State elements partition the covariance", "statement": "For every number of cameras, features and extra poses, the start indices of the state elements are those documented, every covariance index belongs to exactly one sub-element, and the blocks of different sub-elements never overlap.", "quantifier": "every configuration and every index", "why_tests_cant": "all template parameters", "anchors": ["include/rovio/FilterStates.hpp: State"]}
{"id": "C60", "title": "Quality and visibility values are exactly the documented low-pass filters", "statement": "After any history of per-frame status reports, the local quality of a camera equals a first-order low-pass filter over the frames since the last reset: tracked frames pull it to one, failed frames to zero, frames in which the feature was not visible leave it alone. Local and joint visibility are the same filter driven by 'predicted visible' versus 'not visible'; the average local quality takes one filter step per camera and frame. The filter ranges are 10, 100 and 100 frames until they are configured; resets keep them.", "quantifier": "every sequence of reset / status / next-frame operations, every number of cameras, every filter range, any arithmetic (exact, rounded, IEEE)", "why_tests_cant": "unbounded histories; the values are updated incrementally while the pending frame is added on the fly by each query", "anchors": ["include/rovio/FeatureStatistics.hpp: increaseStatistics, getLocalQuality, getLocalVisibility, getAverageLocalQuality, getJointLocalVisibility, countInFrame"]}
{"id": "C61", "title": "Prediction Jacobian is the derivative of the prediction", "statement": "The state-transition Jacobian handed to the Kalman filter equals, in every direction of the error state, the directional derivative of the noise-free prediction (position, velocity, biases, attitude, camera extrinsics, every feature's bearing and distance parameter, pose states), for every distance parametrisation; the one exception is a feature slot without a camera, whose row is zero although its value is copied.", "quantifier": "every state, measurement, time step, number of cameras/features/poses and direction", "why_tests_cant": "continuum; the repository's own finite-difference check covers one random state", "anchors": ["include/rovio/ImuPrediction.hpp: jacPreviousState, evalPrediction"]}
{"id": "C62", "title": "Noise Jacobian is the derivative of the prediction with respect to its noise", "statement": "The noise Jacobian equals the directional derivative of the prediction with respect to the process noise in every direction and for every positive time step; with extrinsic calibration switched off the extrinsics rows claim noise that the prediction does not apply to the state.", "quantifier": "every state, measurement, positive time step and noise direction", "why_tests_cant": "continuum", "anchors": ["include/rovio/ImuPrediction.hpp: jacNoise, evalPrediction"]}
{"id": "C63", "title": "Tracked patch warps are transported by the predicted bearing map", "statement": "When warp tracking is on, one prediction step maps the patch warp by exactly the derivative of the predicted bearing with respect to the previous bearing; when it is off, and for the camera and distance parametrisation of a feature in any case, prediction changes nothing.", "quantifier": "every state, measurement, time step and warp", "why_tests_cant": "continuum", "anchors": ["include/rovio/ImuPrediction.hpp: evalPrediction (warping update)"]}
{"id": "C64", "title": "Setting camera extrinsics", "statement": "Setting the extrinsics of a camera (rotation R_CM, translation CrCM) makes that camera map an IMU-frame point p to R_CM p + CrCM after the next reset, leaves other cameras and the running state alone; when online extrinsics calibration is on (the default) the call has no effect on the estimate at all.", "quantifier": "every rotation, translation, camera, state and point", "why_tests_cant": "continuum; effect is deferred", "anchors": ["include/rovio/RovioFilter.hpp: setExtrinsics", "include/rovio/FilterStates.hpp: qCM, MrMC"]}
{"id": "C65", "title": "Pose update Jacobians are the derivatives of the pose innovation", "statement": "The state and noise Jacobians of the external pose update equal the directional derivatives of its innovation, for every combination of enabled parts and of estimated inertial/body alignments; with feedback disabled this holds for directions not moving the IMU pose, whose columns are zero.", "quantifier": "every state, measurement, configuration and direction", "why_tests_cant": "continuum and all configurations", "anchors": ["include/rovio/PoseUpdate.hpp: evalInnovation, jacState, jacNoise"]}
{"id": "C66", "title": "Velocity and zero-velocity updates", "statement": "The velocity innovation vanishes exactly when the measured velocity is the physical body velocity expressed in the measurement frame (the state stores its negative), the zero-velocity innovation exactly when the world velocity is zero; their Jacobians are the derivatives.", "quantifier": "every state, measurement, frame and direction", "why_tests_cant": "continuum", "anchors": ["include/rovio/VelocityUpdate.hpp", "include/rovio/ZeroVelocityUpdate.hpp"]}
{"id": "C67", "title": "Resets forget measurements", "statement": "After any history, resetting with a pose or an accelerometer reading restores velocity, biases, features, extrinsics states and pose states of the configured initial state; a pose reset sets exactly the given pose, an accelerometer reset aligns gravity and uses the position of the last pose reset (not the configured one).", "quantifier": "every history of measurements, extrinsics changes and resets", "why_tests_cant": "histories", "anchors": ["include/rovio/RovioFilter.hpp: resetWithAccelerometer, resetWithPose", "include/rovio/FilterStates.hpp: initWithAccelerometer, initWithImuPose"]}
{"id": "C68", "title": "Gyroscope noise in the published rate covariance", "statement": "The rate block of the published covariance is the propagated one plus the gyroscope noise and no other block changes; for a camera output this is the noise expressed in the camera frame only if the noise is isotropic (the code does not rotate it).", "quantifier": "every state, covariance and camera", "why_tests_cant": "continuum", "anchors": ["include/rovio/CoordinateTransform/RovioOutput.hpp: postProcess"]}
{"id": "C69", "title": "Landmark and feature outputs with their Jacobians", "statement": "A landmark in IMU coordinates, seen from the feature's camera, is the feature's ray; its Jacobian is the derivative for features of camera 0 or without online calibration, and for other cameras the extrinsics blocks stand in the columns of camera 0. The readable output is bearing and distance with the right derivative. The Jacobian of the plain feature copy stands in the columns of the position.", "quantifier": "every state, feature, camera and direction", "why_tests_cant": "continuum; multi-camera only", "anchors": ["include/rovio/CoordinateTransform/LandmarkOutput.hpp", "include/rovio/CoordinateTransform/FeatureOutput.hpp: FeatureOutputCT", "include/rovio/CoordinateTransform/FeatureOutputReadable.hpp"]}
{"id": "C70", "title": "Tracked patch warp under transfer", "statement": "When a warp-tracked feature is transferred to another camera, the new warp describes how the new bearing moves under the old patch displacement. Transferred to its own camera the feature is unchanged if its stored basis is the one the library chooses for its direction; otherwise the warp is expressed in another basis than the stored bearing's, and such bases are left behind by ordinary updates.", "quantifier": "every state, pair of cameras, feature and displacement, every choice of basis by the library", "why_tests_cant": "continuum; depends on the history of bearing updates", "anchors": ["include/rovio/CoordinateTransform/FeatureOutput.hpp: TransformFeatureOutputCT::evalTransform", "include/rovio/MultiCamera.hpp: transformFeature"]}
{"id": "C71", "title": "Statistics and ids over any sequence of image updates", "statement": "A whole image update terminates without undefined behaviour for every map and every outcome of the image processing, and leaves a well-formed map. Over any sequence of image updates a live feature keeps its id, slot and camera; its statistics are those of a new feature followed by exactly one frame, with one definite outcome per camera it has to be measured in, for each update since its creation, so its frame counter equals the number of updates since then; an id that disappeared never returns.", "quantifier": "every configuration meant for use, every map, every sequence of updates and every outcome of tracking, detection and filtering", "why_tests_cant": "all histories and outcomes", "anchors": ["include/rovio/ImgUpdate.hpp: commonPreProcess, preProcess, postProcess, commonPostProcess", "include/rovio/FeatureManager.hpp: addBestCandidates, makeNewFeature", "include/rovio/FeatureStatistics.hpp"]}
{"id": "C72", "title": "The viewer projects points correctly", "statement": "World-to-camera and camera-to-world transforms are inverse; a rendered vertex is its camera-frame position projected so that exactly the points between near and far plane and within the opening angles are kept, nearer points have smaller depth, and a triangle appears counter-clockwise exactly when its normal points to the camera. With culling on, sides facing the camera should be shown (they are not: the front-face setting is inverted).", "quantifier": "every camera and object pose, every projection setting with near and far plane in front, every point and triangle", "why_tests_cant": "all poses and points", "anchors": ["include/rovio/Scene.hpp: InitTransform, InitInverseTransform, InitPersProjTransform", "src/Scene.cpp: Scene::init, RenderSceneCB, loadOptions"]}
{"id": "C73", "title": "Moving the viewer", "statement": "Looking at a target puts it in the middle of the screen at its distance; turning the view upright keeps position and viewing direction and picks, up to half an angle step, the turn that puts the camera's down axis lowest; each cursor key shifts the view by one step along a camera axis and opposite keys cancel.", "quantifier": "every position, target, orientation, step size", "why_tests_cant": "all orientations and steps", "anchors": ["src/Scene.cpp: setView, setYDown, Scene (key callbacks)"]}
{"id": "C74", "title": "The scene shows exactly the tracked features", "statement": "After drawing a filter state, each camera's line objects show outlines and depth bars of exactly the valid features of that camera whose patch corners exist, and a patch is drawn exactly for these, covering the quadrilateral of its corners; the depth bar contains the feature's position. The bar should span one standard deviation and stay in front of the camera (neither holds in general).", "quantifier": "every filter state, number of cameras and slots, earlier drawing history", "why_tests_cant": "all states and histories", "anchors": ["include/rovio/RovioScene.hpp: drawScene"]}
{"id": "C75", "title": "Uncertainty markers show the depth interval of each feature", "statement": "The marker message has one segment per tracked feature, along its bearing, with both ends between 0 and 1000. The segment contains the estimated feature position when the distance lies in that range and, for inverse depth, three standard deviations do not reach zero (refuted otherwise). The point called near is the nearer one only for inverse depth. The points are camera coordinates while the message is stamped with the IMU frame, so they coincide with the landmarks only for a camera at the IMU origin (refuted in general).", "quantifier": "every filter state, covariance, validity pattern and depth parametrisation", "why_tests_cant": "all depths and variances", "anchors": ["include/rovio/RovioNode.hpp: updateAndPublish lines 867-974"]}
{"id": "C76", "title": "Image innovation and its Jacobian agree", "statement": "The Jacobian the image update hands to the filter is the derivative of the innovation along every direction of the state space when the feature is measured in its own camera, and in another camera along every direction that keeps the camera rotations (refuted for the rotation columns of estimated extrinsics, whose sign is wrong in another camera). Without noise the pixel innovation vanishes exactly when the feature is predicted where it was measured, and the noise enters additively with unit gain. In direct mode twice the product of innovation and Jacobian is the gradient of the photometric least squares cost. When the equations cannot be set up the measurement has zero Jacobian and the iteration is cancelled. The noise factor for secondary cameras acts in direct mode (refuted in pixel mode). Every camera is considered exactly once per feature, the feature's own camera first.", "quantifier": "every state, feature, camera model, camera pair, tangent basis choice, perturbation direction and noise", "why_tests_cant": "derivatives over a continuum of states and directions", "anchors": ["include/rovio/ImgUpdate.hpp: evalInnovation, jacState, jacNoise, noise levels in preProcess"]}
{"id": "C77", "title": "Motion detection and zero velocity updates", "statement": "A feature counts as moving between two images iff the difference of its patches (after the best change of brightness) exceeds the threshold times the root of the largest eigenvalue of the gradient matrix; hence a shift of at most the threshold, to first order and with any brightness change, never counts, and the bound is exact along the strongest gradient (refuted in general for larger shifts: uniform gradients hide them). An image shows motion iff the share of moving features exceeds the configured rate or too few features are in frame; an unchanged image only in the second case. A zero velocity update is made iff enabled and more than the minimal time passed since the start, since every image with motion and every prediction with inertial motion. Nothing is read outside the images as long as their size does not change (refuted otherwise). In single precision too the difference of two patches of grey values is a finite number between 0 and 1024 that differs from the exact root mean square deviation by at most (k+10)/32000 plus (k+2)/4000000 of it for k pixels; a uniform change by a whole number of grey values measures as exactly zero, so a patch changed only that way never counts as moved, whatever the stored eigenvalue is.", "quantifier": "every pair of images, feature location, threshold, shift and every history of predictions and images", "why_tests_cant": "continuum of images, unbounded histories", "anchors": ["include/rovio/ImgUpdate.hpp: commonPreProcess, end of commonPostProcess", "include/rovio/ImuPrediction.hpp: evalPrediction timers", "include/rovio/MultilevelPatch.hpp: computeAverageDifference, computeMultilevelShiTomasiScore"]}
{"id": "C78", "title": "Measurements are accepted exactly when they pass the documented tests", "statement": "A feature measurement is accepted by the outlier check iff the iterations converged and, when a rejection threshold is set (not negative), the whole predicted patch lies in the image of the observing camera, its intensity error against the stored patch (root mean square after the best brightness change) is within the threshold and, when a sampling distance is set, at least two of the four samples one distance away along the axes are in the image and differ by more than the threshold (or by more than the gain times the error). Repetitive texture is thus always rejected, no pixel outside an image is read, and pixel measurements are accepted iff the alignment succeeded, ended in the image, and its error is within the threshold. The in-frame gates before and after the update test the camera the feature is observed in.", "quantifier": "every image pyramid content, every configuration, every stored patch, every predicted coordinate, every camera pairing", "why_tests_cant": "the decision depends on whole images, patches and five coordinates at once; wrong decisions only show for particular textures, borders or camera sizes", "anchors": ["include/rovio/ImgUpdate.hpp: extraOutlierCheck, preProcess, postProcess", "include/rovio/MultilevelPatch.hpp: computeAverageDifference, isMultilevelPatchInFrame"]}
{"id": "C79", "title": "The uncertainty ellipse of a pixel", "statement": "From every symmetric positive semidefinite pixel covariance the stored standard deviations are the largest and the smallest over all image directions, the stored directions are those where they are attained, the stored angle is the direction of the larger one, and the drawn curve with scale factor k is exactly the set of pixel offsets of Mahalanobis distance k; the half axes handed to the drawing routine are the scaled deviations to the nearest pixel, at least one pixel. The deviations are numbers iff the matrix is positive semidefinite. The covariance of a predicted pixel is that of the bearing carried over by the projection Jacobian, hence symmetric and positive semidefinite when that is.", "quantifier": "every symmetric 2x2 matrix, every answer of the eigenvalue solver in any order and sign, every scale factor and offset", "why_tests_cant": "continuum of matrices; order and sign of the eigenvectors are left open by the solver", "anchors": ["src/FeatureCoordinates.cpp: setPixelCov, drawEllipse"]}
{"id": "C80", "title": "Depth uncertainty of a triangulated point", "statement": "For a ray not parallel to the baseline and a positive distance, the returned depth uncertainty leads to exactly the point of the ray that the second camera sees under an angle to the baseline larger by the given error, as long as the angles of the triangle stay below pi; it is zero without error and strictly increasing in the error. Beyond the parallax the resulting distance is negative, and for motion straight towards the point the result is negative whatever the error (refuted).", "quantifier": "every bearing, baseline, distance and error angle", "why_tests_cant": "continuum of triangles; degenerate geometry", "anchors": ["src/FeatureCoordinates.cpp: getDepthUncertaintyTau"]}
{"id": "C81", "title": "Feature tracker: what an image does to the tracked features", "statement": "Each image handed to the feature tracker is processed without undefined behaviour: features whose alignment succeeds keep their slot and id, move to the aligned place and get a fresh patch when it fits; all others are dropped; new features come from eligible candidates under new ids, only when fewer than the minimum were found, and then as many as allowed, free and eligible. Over every history from the start ids stay distinct, every live feature was found in the last image, and at most (minimum - 1 + number added) features are live (69 with the node's constants). The extrapolation from the last two places never moves the start of the search (velocity prediction refuted).", "quantifier": "every set of features, every sequence of images, alignment outcomes, candidates and hash orders", "why_tests_cant": "unbounded image histories and alignment outcomes", "anchors": ["include/rovio/featureTracker.hpp: FeatureTrackerNode::imgCallback", "include/rovio/MultilevelPatchFeature.hpp: MultilevelPatchSet::addBestCandidates"]}
{"id": "C82", "title": "The virtual horizon shows the attitude of the camera", "statement": "While the optical axis of a camera is at most 60 degrees above or below the horizontal plane, the shaded part of the attitude indicator drawn into its image is the part of the disc below a line perpendicular to the direction of gravity in the image, 5 pixels below the centre for every 10 degrees of elevation, up to one degree on the circle. Beyond 60 degrees the drawing is undefined (an angle that is not a number is converted to an integer), so the horizon is not drawn for every attitude (refuted).", "quantifier": "every attitude of the body and of the camera", "why_tests_cant": "continuum of attitudes; the failure needs steep views", "anchors": ["include/rovio/ImgUpdate.hpp: drawVirtualHorizon"]}
{"id": "C83", "title": "What a new feature knows about its depth", "statement": "A newly added feature gets the median depth parameter, and the standard deviation of its distance is the configured fraction of that distance in every depth parametrisation, whenever no depth can be had from another camera (single camera, stereo switched off, patch not found there, nearly parallel rays, point nearer than 1 cm). Otherwise it gets the distance at which the two rays meet. In every case only this feature's covariance entries change, it starts uncorrelated with the rest, its bearing has the configured covariance, and the covariance stays valid. After stereo initialisation the configured relative uncertainty is used as the variance of the parameter, so the relative uncertainty of the distance is not the configured one (refuted, except for logarithmic depth).", "quantifier": "every state, extrinsic calibration, camera, depth parametrisation, median depth, bearing and outcome of the alignment in the other camera", "why_tests_cant": "continuum of geometries times parametrisations; the wrong uncertainty after stereo only shows in consistency statistics", "anchors": ["include/rovio/ImgUpdate.hpp: commonPostProcess", "include/rovio/FilterStates.hpp: FilterState::resetFeatureCovariance", "src/FeatureCoordinates.cpp: getDepthFromTriangulation", "src/FeatureDistance.cpp: getParameterDerivative"]}
{"id": "C84", "title": "Calibration files are loaded as written", "statement": "Loading a complete calibration file (plumb_bob, equidistant or ds) gives exactly the camera it describes, whatever the camera was before: same pixels, Jacobians and bearings. A load succeeds only for complete files or for files that name no known model, which are ignored without a report. At start-up every camera gets the calibration of its effective file (ROS parameter before configuration file). With a file that is missing or incomplete the node does not start. Refuted: settings come from the effective file only (the radius limit of a replaced double sphere file survives); a failed load leaves the camera as it was (it leaves a mixture); the projection multiplies with the given camera matrix (a skew is ignored; it does for zero skew). A camera whose file names no known model keeps unit focal length without distortion.", "quantifier": "every calibration file content, every previous camera, every number of cameras and assignment of files", "why_tests_cant": "all file contents and all previous states; the stale radius needs a particular sequence of files", "anchors": ["src/Camera.cpp: Camera::load, loadRadtan, loadEquidist, loadDoubleSphere, loadCameraMatrix", "include/rovio/RovioFilter.hpp: refreshProperties", "src/rovio_node.cpp: main"]}
{"id": "C85", "title": "Adding and subtracting feature increments", "statement": "Adding an increment to a feature turns its bearing and adds to its distance parameter, keeps parametrisation, warp and camera, makes the next pixel query the projection of the new bearing, and gives the same result in place as into another object. Subtracting after adding returns the increment (exactly unless the sine of the turn is below 1e-6, then up to a relative error of turn^2/6), for turns below 180 degrees; a half turn loses its axis (refuted). Adding the difference of two features leads from one to the other: same parameter, same bearing (within 2e-6 for nearly equal or opposite bearings). The difference of a feature to itself is zero.", "quantifier": "every feature, bearing, cache state, camera, increment and pair of features", "why_tests_cant": "continuum of bearings and increments; aliasing and cache states", "anchors": ["include/rovio/RobocentricFeatureElement.hpp: boxPlus, boxMinus, setIdentity", "src/FeatureCoordinates.cpp: get_nor, set_nor, com_c"]}
{"id": "C86", "title": "Yaw, pitch and roll of an attitude with their covariance", "statement": "Every attitude has yaw, pitch and roll angles with the pitch between straight down and straight up. Unless the attitude points straight up or down, the angles follow every small turn of the attitude smoothly and their rate is exactly the Jacobian the transform reports times the turn, so covariances mapped with it are the first-order covariances of the angles, and no direction of uncertainty is lost. Straight up and straight down there is always a turn the angles cannot follow smoothly.", "quantifier": "all attitudes, all equivalent choices of angles, all directions of turning", "why_tests_cant": "The numerical Jacobian test of the node start-up samples one random attitude; the claim is about every attitude and every direction, and about the two attitudes a random draw never hits.", "anchors": ["include/rovio/CoordinateTransform/YprOutput.hpp: AttitudeToYprCT::evalTransform, AttitudeToYprCT::jacTransform"]}
{"id": "C87", "title": "Turning the viewer with the mouse", "statement": "The view only turns while the left button is held; the mouse never moves the viewer and the keys never turn it; its attitude stays a rotation. Dragging along a row (column) of pixels turns the view about the camera's vertical (horizontal) axis by one fiftieth of a radian per pixel between the pressed and the current position, however many motion events came in between. The uninitialised mouse position of a new scene never matters. A drag along a closed path that is not a line does not bring the old view back.", "quantifier": "all sequences of mouse and key events, all start views, all pixel positions", "why_tests_cant": "The windowing system delivers arbitrary event sequences with arbitrary intermediate positions; only a proof over event histories covers them.", "anchors": ["src/Scene.cpp: Scene::MouseCB, Scene::MotionCB, Scene::SpecialKeyboardCB, Scene::Scene"]}
{"id": "C88", "title": "Gradient weighting reduces the influence of steep pixels", "statement": "In photometric alignment with a positive gradient exponent, of two pixels with equal weights the one with the steeper gradient enters the equations with a smaller factor, between 0 and its weight, as long as gradients do not exceed the largest gradient an 8 bit image can have, at which a pixel is ignored; flat pixels keep their weight. It is not true for every gradient: gradients magnified beyond that limit by the warp or by the brightness gain count more the steeper they are, without bound.", "quantifier": "every pair of pixels, gradient, brightness model, robust threshold, weight and gradient exponent", "why_tests_cant": "a comparison over all pairs of real gradients and exponents; the sign change beyond the limit needs gradients no ordinary test image has", "anchors": ["include/rovio/MultilevelPatchAlignment.hpp: getLinearAlignEquations, gradientExponent_"]}
{"id": "C89", "title": "Configuration file: every documented key sets the parameter it is documented for, and nothing else", "statement": "For every number of features, cameras and additional poses the parameter set by a key of the info file is the documented one: each parameter has at most one key, two parameters share a key exactly if they are documented as one setting (extrinsics estimated or fixed, one variance for all axes or all features). Loading succeeds exactly if the file has the keys a filter of that size asks for; afterwards every such parameter has the value in the file, the derived ones (image noise, filter mode, depth types, alignment thresholds) agree with the flags, and all others - in particular the feature slots - are unchanged; the extrinsics in use are those of the camera section whether or not they are calibrated. The shipped file is complete for up to two cameras and for no more; with two cameras and two poses each of its keys matters, but without additional poses (the default build) its eight init_cov/pre_cov keys of the pose update have no effect.", "quantifier": "all numbers of features, cameras and poses, all files, all values, all previous parameter values", "why_tests_cant": "the registrations and removals depend on template parameters; a test builds one combination and reads one file", "anchors": ["include/rovio/RovioFilter.hpp: RovioFilter(), refreshProperties", "include/rovio/ImgUpdate.hpp: ImgUpdate(), refreshProperties", "include/rovio/ImuPrediction.hpp: ImuPrediction()", "include/rovio/PoseUpdate.hpp: PoseUpdate()", "include/rovio/VelocityUpdate.hpp: VelocityUpdate()", "include/rovio/FilterStates.hpp: MrMC, qCM", "cfg/rovio.info"]}
{"id": "C90", "title": "Corner detection within the valid radius", "statement": "Detecting corners on a pyramid level appends, in the order of the detector, exactly those keypoints that lie at most the camera's valid radius (a ratio of the shorter image side) from the middle of the level image, given by their position in the full-resolution image: transforming a candidate back to the level gives its keypoint. A larger radius only adds candidates; the radius has no effect exactly when it covers half the diagonal; a radius below one half keeps a margin to all borders. Keypoints at least one pixel inside their level become candidates inside the full image, whereas a keypoint on the level's very border would not.", "quantifier": "all pyramids built from images of any size, levels, radii and lists of keypoints", "why_tests_cant": "tests look at a few images and keypoints; the claim is about every keypoint position, image size (odd sizes included), level and radius", "anchors": ["include/rovio/ImagePyramid.hpp: ImagePyramid::detectFastCorners", "include/rovio/ImagePyramid.hpp: ImagePyramid::levelTranformCoordinates", "include/rovio/ImgUpdate.hpp: ImgUpdate::commonPostProcess", "src/Camera.cpp: Camera::Camera"]}
{"id": "C91", "title": "Unused feature slots do not influence the estimate", "statement": "The filter holds a fixed number of feature slots. Whatever a slot that is not in use contains (leftovers of a removed feature, its covariance, correlations that predictions build up in it), the estimate of motion, biases, extrinsics, poses and tracked features and their joint covariance are, after any history of IMU predictions, image, pose and velocity updates, removals and additions, the same as if the slot had never been used. Removing a feature only marginalises it out; filling a slot starts it without correlations. The same holds for whole histories with images: the same features are found, dropped and added.", "quantifier": "all states, covariances and free-slot contents; all sequences of predictions, measurements (pixel and direct, any camera; pose; velocity; zero velocity), relinearisations, removals and additions; all dimensions nCam, nMax, nPose", "why_tests_cant": "Tests cannot range over the contents of unused slots nor over histories; an influence would show as a tiny, history-dependent bias. Slots are predicted by camera number, not by validity, so free slots do change all the time.", "anchors": ["include/rovio/ImuPrediction.hpp: evalPrediction, jacPreviousState, jacNoise", "include/rovio/ImgUpdate.hpp: evalInnovation, jacState, commonPostProcess", "include/rovio/FilterStates.hpp: resetFeatureCovariance, getMedianDepthParameters", "include/rovio/PoseUpdate.hpp: evalInnovation, jacState"]}
{"id": "C92", "title": "The covariance of the estimate stays a covariance through every history", "statement": "Start the filter with a symmetric positive semidefinite covariance, and let the prediction noise, the measurement noise and the configured feature initialisation be covariances too. Then after any sequence of IMU predictions, camera measurements (reprojection or intensity), external pose and velocity measurements, zero-velocity updates, feature removals and feature additions the reported covariance is symmetric and positive semidefinite. Every innovation covariance on the way is positive definite, so the gain and the outlier test are well defined. A measurement never increases the variance of any combination of state components, and never makes a combination that was uncertain exactly known; a prediction yields the propagated variance plus that of the noise.", "quantifier": "all numbers of cameras, features and external poses, all states, all histories of any length with any mixture of events, any number of relinearisations per update, all combinations of state components", "why_tests_cant": "A negative variance arises only after particular long mixtures of updates and resets; a test sees finitely many histories and only checks finitely many directions of a matrix.", "anchors": ["include/rovio/ImuPrediction.hpp:jacPreviousState", "include/rovio/ImuPrediction.hpp:jacNoise", "include/rovio/ImgUpdate.hpp:preProcess", "include/rovio/ImgUpdate.hpp:postProcess", "include/rovio/PoseUpdate.hpp:jacState", "include/rovio/VelocityUpdate.hpp:jacState", "include/rovio/ZeroVelocityUpdate.hpp: jacState", "include/rovio/FilterStates.hpp:resetFeatureCovariance"]}
{"id": "C93", "title": "Images, IMU and velocities never tell the filter where in the world it is or which way it faces, and not knowing it does no harm", "statement": "Take any run of the filter (IMU predictions, feature and patch measurements, velocity and zero-velocity updates, removals and additions of features) without external poses. Adding to the initial covariance any uncertainty about the position in the world and the rotation about gravity, in any correlation, changes nothing in the estimated state, in the features in use, or in the variance of any quantity that depends neither on the position nor on the heading. The uncertainty itself never shrinks: at every later time the variance along any heading direction is at least the heading variance that was added, and the variance of any position direction is at least that of the added position covariance. In particular no sequence of images makes the filter spuriously certain of its heading.", "quantifier": "All histories of predictions, updates (with any number of relinearisations), removals and additions, all numbers of cameras, features and poses, all gravity vectors, states, covariances and noise covariances, all camera models and distance parametrisations.", "why_tests_cant": "Observability is a statement about all trajectories and all Jacobians along them; filters of this kind are known to lose it through inconsistent linearisation, and a run on a data set shows at most that the heading variance happened to grow.", "anchors": ["include/rovio/ImuPrediction.hpp: evalPrediction, jacPreviousState, jacNoise", "include/rovio/ImgUpdate.hpp: jacState", "include/rovio/VelocityUpdate.hpp: jacState", "include/rovio/ZeroVelocityUpdate.hpp: jacState", "include/rovio/CoordinateTransform/FeatureOutput.hpp: jacTransform"]}
{"id": "C94", "title": "The choice of the world origin and of the heading does not matter", "statement": "Run the filter twice on the same measurements, the second time from an initial state and covariance expressed in a world frame that is turned about gravity and shifted (with the fixed external frame of the pose update expressed accordingly, and the position noise turned along). Then after every history the second filter holds exactly the first one's estimate and covariance expressed in the second frame: published positions and attitudes are moved accordingly, while velocities, rates, biases, extrinsics, features, landmarks in body coordinates and the slots in use are identical. If the position noise is alike in all directions no change of the history is needed. With an estimated external frame the same holds for turns. The same holds for whole histories with images: the same features are found, dropped and added, and the statistics and the protocol of the image updates are the same.", "quantifier": "All histories including external poses, all rotations about gravity and all shifts, all states, covariances, noise covariances, cameras and parametrisations.", "why_tests_cant": "The statement is an equality between infinitely many pairs of runs; a test compares one pair up to numerical noise and cannot see a Jacobian that is evaluated in the wrong frame by a small amount.", "anchors": ["include/rovio/ImuPrediction.hpp: evalPrediction, jacPreviousState, jacNoise", "include/rovio/PoseUpdate.hpp: evalInnovation, jacState, preProcess", "include/rovio/ImgUpdate.hpp: evalInnovation, jacState", "include/rovio/VelocityUpdate.hpp", "include/rovio/ZeroVelocityUpdate.hpp", "include/rovio/CoordinateTransform/RovioOutput.hpp"]}
{"id": "C95", "title": "External poses with feedback switched off do not influence the odometry", "statement": "If the feedback of external poses is switched off and the external frames start uncorrelated with the rest of the state, then after any history the pose, velocity, biases, extrinsics and features, their covariance and the features in use are exactly those of the same history without any pose measurement, and they do not depend on the initial guess of the external frames. The external frames stay uncorrelated with the rest for ever. The same holds for whole histories with images: dropping all external pose measurements changes neither which features are found, dropped and added nor anything but the external poses.", "quantifier": "All histories of IMU predictions, image, pose, velocity and zero-velocity measurements with any number of relinearisations, removals and additions of features; all configurations of the pose update with the feedback switched off, all measured poses and noise covariances.", "why_tests_cant": "A comparison of two runs shows the absence of influence for one data set; a column of the Jacobian that is not cleared in one configuration, or a correlation that appears after a particular sequence of updates, would only show in others.", "anchors": ["include/rovio/PoseUpdate.hpp: noFeedbackToRovio_, jacState, preProcess", "include/rovio/ImuPrediction.hpp: jacPreviousState, jacNoise", "include/rovio/ImgUpdate.hpp: jacState"]}
{"id": "C96", "title": "Without extrinsics calibration the configured extrinsics are used and never change", "statement": "If the calibration of the camera extrinsics is switched off, the rotation and position of every camera that prediction, measurements and outputs use are the same at all times. The estimated extrinsics that the state vector still holds, their covariance and their correlations have no influence on anything else: two filters that differ only there give the same pose, velocity, biases, features, external frames, covariance of these, and features in use after every history. The same holds for whole histories with images.", "quantifier": "All histories, all numbers of cameras, all initial states and covariances that differ only in the estimated extrinsics.", "why_tests_cant": "The state vector keeps the extrinsics even when they are not calibrated, and every Jacobian has to leave them out; one forgotten column shows only when the extrinsics happen to be correlated with the rest.", "anchors": ["include/rovio/FilterStates.hpp: qCM, MrMC, doVECalibration_", "include/rovio/ImuPrediction.hpp: evalPrediction, jacPreviousState", "include/rovio/CoordinateTransform/FeatureOutput.hpp: jacTransform"]}
{"id": "C97", "title": "A measurement changes only what it is about or correlated with, and nothing if it agrees with the estimate", "statement": "A measurement update leaves every part of the state, and its covariance with everything, exactly as it was if that part is not correlated with what the measurement is about: the measured feature (and the calibrated extrinsics of the two cameras if it is observed by another camera), the velocity, or position, attitude and the estimated frames for an external pose as far as the options enable them. A measurement that equals its prediction (same pixel, vanishing photometric residual, same pose, same velocity) leaves the whole state unchanged, for any gain and any number of relinearisations.", "quantifier": "All states, covariances, measurements of each kind, noise covariances, numbers of relinearisations, and all gains.", "why_tests_cant": "Quantifies over all covariances and measurement configurations; a wrong column of one of the five measurement Jacobians changes estimates only slightly and only for some correlations.", "anchors": ["include/rovio/ImgUpdate.hpp: evalInnovation, jacState", "include/rovio/PoseUpdate.hpp: evalInnovation, jacState", "include/rovio/VelocityUpdate.hpp", "include/rovio/ZeroVelocityUpdate.hpp"]}
{"id": "C98", "title": "The numbering of the feature slots does not matter", "statement": "The filter keeps its features in numbered slots. The number is only a name: if the features are kept in other slots, with state, covariance and validity moved along, and every later event (IMU sample, pixel or intensity measurement, external pose, velocity, removal, addition) refers to the new slots in the same order, then every history ends in the same filter up to the numbering. Motion, biases, extrinsics, external poses, the features, all covariances and correlations, and the median distance given to new features, are the same. In particular it makes no difference which of the free slots a new feature is put into.", "quantifier": "for every renumbering of the slots, every filter with any covariance, every history of predictions, measurements with any noise and number of relinearisations, removals and additions, every camera, and every correct nth_element", "why_tests_cant": "A test compares a few runs with a few slot assignments. The slots enter all Jacobians, the covariance blocks, the median and the bookkeeping; that none of them treats a slot number specially, over any history, is a symmetry of the whole filter.", "anchors": ["include/rovio/FilterStates.hpp: resetFeatureCovariance, getMedianDepthParameters", "include/rovio/FeatureManager.hpp: makeNewFeature", "include/rovio/ImgUpdate.hpp: commonPostProcess, evalInnovation, jacState", "include/rovio/ImuPrediction.hpp: evalPrediction, jacPreviousState, jacNoise"]}
{"id": "C99", "title": "Whatever the images show, the filter only ever takes legal steps", "statement": "The filter as a whole is fed IMU samples, images, external poses and velocities in any order. Each image amounts to a sequence of elementary filter steps in a fixed order: detected motion is noted, then Kalman updates and removals, replaced patches, removals, additions, and last the zero velocity update exactly when neither camera nor IMU have noticed motion for long enough. Every Kalman update is about a feature that is there, every removal frees a slot in use, every new feature goes to a free slot, no slot twice; the steps are those of the recorded protocol. The slots the filter estimates always are those of the feature set, with the same cameras. Hence for every history: the covariance stays symmetric positive semi-definite, position and heading are never learned without external poses, and no history gets stuck or makes an illegal access.", "quantifier": "for every history of IMU samples, images, poses and velocities of any length; for every image content (search results, measurements, outliers, corners, stereo matches may depend on the whole filter and on anything else), every configuration of the image update and of the zero velocity update, any number of slots and cameras", "why_tests_cant": "Which features are updated, dropped or added depends on the images; tests see a few videos. That the bookkeeping of the feature set and the estimate never drift apart must hold for every sequence of images and every outcome of the search.", "anchors": ["include/rovio/ImgUpdate.hpp: commonPreProcess, preProcess, postProcess, commonPostProcess", "include/rovio/FilterStates.hpp: initFeatureCovariance, resetFeatureCovariance", "include/rovio/FeatureManager.hpp: FeatureSetManager", "include/rovio/RovioFilter.hpp: RovioFilter", "include/rovio/ZeroVelocityUpdate.hpp: ZeroVelocityUpdate"]}
{"id": "C100", "title": "Every measurement moves the estimate by the best linear estimate of its error", "statement": "Whenever the filter uses a measurement (a feature's pixel position or patch intensities, an external pose or velocity, zero velocity), it moves the estimate by a linear function of the residual such that no other linear function leaves a smaller error variance in any combination of the error state, given the covariance before and the noise of the measurement; the covariance it reports afterwards is exactly that of the error which remains. With k relinearisations this holds for each, at the estimate reached so far. There is only one such correction. It holds at every measurement of every history.", "quantifier": "all states, covariances, noise covariances, measurements of all kinds, numbers of relinearisations and histories; for optimality all linear estimators and all combinations of the error state", "why_tests_cant": "optimality compares with all other estimators and in all directions of a high-dimensional error state; a gain that is merely reasonable also converges in tests", "anchors": ["include/rovio/ImgUpdate.hpp: ImgUpdate", "include/rovio/PoseUpdate.hpp: PoseUpdate", "include/rovio/VelocityUpdate.hpp: VelocityUpdate", "include/rovio/ZeroVelocityUpdate.hpp: ZeroVelocityUpdate", "include/rovio/RovioFilter.hpp: RovioFilter"]}
{"id": "C101", "title": "Corner scores that are not numbers never enter the feature set", "statement": "The single-precision corner score of a candidate can be NaN. Adding the best candidates never selects such a candidate, and its presence does not change which others are selected. Selected candidates have finite scores above the minimum and a relative score in (0,1], exactly 1 for the best one, and every candidate clearly above the minimum is selected. Over every history of detections, removals and patch refreshes all stored scores are numbers not below the minimum, so the average score is a number too. Two neighbouring promises are false: an image difference on a patch whose eigenvalue is NaN never counts as motion, however large; and the second selection function keeps NaN candidates, for which its sorting comparison is not a strict weak order.", "quantifier": "all lists of candidate scores that are NaN or finite of magnitude at most 2^18 (which all computed scores are), all non-negative minimum scores, all compiler contractions of the arithmetic, all histories of any length of detections, removals and refreshes with arbitrary scores", "why_tests_cant": "NaN scores arise from rounding in rare patches that depend on the compiler's use of fused operations; whether one NaN can poison the maximum, the relative scores, the stored set or the average depends on the direction of every comparison and on all orders of events.", "anchors": ["include/rovio/FeatureManager.hpp: FeatureSetManager::addBestCandidates, getAverageScore, addBestCandidatesNew, isFirstMPBetter", "include/rovio/ImgUpdate.hpp: commonPreProcess motion check (620), commonPostProcess patch update (908-920)", "include/rovio/MultilevelPatch.hpp: computeMultilevelShiTomasiScore"]}
{"id": "C102", "title": "Time stamps through the filter", "statement": "The node turns the stamp of every message into a double-precision filter time and stamps what it publishes with the filter time. Later messages never get an earlier filter time; until 2038 messages at least 239 ns apart get different ones, and time differences within a second are off by at most 239 ns. What is published carries the stamp of the measurement up to 119 ns, exactly so while the clock shows less than 2^23 seconds. Increasing filter times give strictly increasing published stamps. That the published stamp equals the stamp of the image, and that different stamps always give different filter times, is false for wall-clock time.", "quantifier": "all message stamps, all finite filter times from 2^23 s on, all histories of increasing measurement times of any length, with and without fused multiply-add, and every rounding of the nanoseconds that is accurate to half a nanosecond plus 2^-20", "why_tests_cant": "Which stamps collide or are shifted depends on the spacing of double-precision numbers at the current clock value; tests with small simulated times see an exact round trip and tests with a few wall-clock stamps see arbitrary offsets.", "anchors": ["include/rovio/RovioNode.hpp: imuCallback, imgCallback, groundtruthCallback, groundtruthOdometryCallback, velocityCallback (toSec), updateAndPublish (ros::Time(safe_.t_))"]}
{"id": "C103", "title": "Inverse distances stay usable in double precision", "statement": "With IEEE-754 double arithmetic, the inverse distance parametrisation turns every finite parameter, zero included, into a nonzero finite distance of at most one million on the same side; distances from 10^-6 to 10^6 are read back to one unit in the last place, others as exactly the nearest bound; the order of depths is never reversed; the derivative of the distance is finite for every parameter and is the reciprocal of the derivative of the parameter up to one rounding. (Not so: the derivative of the parameter overflows for huge parameters, and the sign of an infinite negative distance is lost.)", "quantifier": "for every finite double value of the parameter or the distance", "why_tests_cant": "2^64 values, with zeros, denormals and overflowing squares; tests sample a few ordinary depths", "anchors": ["src/FeatureDistance.cpp: makeNonZero, setParameterInverse, getDistanceInverse, getDistanceDerivativeInverse, getParameterDerivativeInverse, getParameterDerivativeCombinedInverse"]}
{"id": "C104", "title": "Counters do not overflow within a feature's realistic life", "statement": "The int counters of the feature statistics and of the feature identities never overflow (which would be undefined behaviour) as long as no feature lives for more than 2147483647 completed frames between resets and no more than 2147483647 features are requested between resets of the set; this bound on a life is exact. While the number of frames times the number of cameras is an int, every count query is defined and returns the true count for every status, camera number and window, except for the smallest int as window, which always overflows. With two cameras a count over all cameras overflows after half as many frames. The stored history of a camera holds one entry per completed frame when the time stamps increase and is never thinned out.", "quantifier": "every sequence of statistics operations and queries, every number of cameras, every sequence of feature requests, removals and resets", "why_tests_cant": "The limits are reached only after years of running; a test cannot run that long nor try every interleaving of resets and queries.", "anchors": ["include/rovio/FeatureStatistics.hpp: increaseStatistics, countTrackingStatistics, countTot, countTracked, countInFrame", "include/rovio/FeatureManager.hpp: FeatureSetManager::makeNewFeature"]}
{"id": "C105", "title": "Projected pixels are numbers, and close to the exact projection", "statement": "bearingToPixel, computed in double precision and stored in float, returns a pixel whose coordinates are numbers for every bearing in front of the camera (z at least 2^-100), for each of the three distortion models, every calibration without absurd numbers, every library arc tangent and every contraction of multiply-adds; a patch accepted around such a pixel is therefore extracted without undefined behaviour. With a usual calibration of any of the three models, an arc tangent good to about an ulp and a bearing within about 63 degrees in each direction, the pixel is within 1/3000 of a pixel of the exact projection in each coordinate that lies within 4095 pixels (1/4000 for the radial-tangential model). What fails: a bearing with a positive but tiny z (1, 0, 2^-600) is reported as projected by a distortion-free pinhole camera although its pixel is not a number, such a pixel counts as inside the frame and extracting the patch there is undefined; the same bearing is projected to the principal point by the equidistant model although it is perpendicular to the optical axis.", "quantifier": "all bearings, calibrations, distortion models, arc tangents and contractions chosen by the compiler", "why_tests_cant": "overflow and not-a-number appear only for particular magnitudes, and the rounding depends on the compiler's choice of fused operations; a test sees one build and a few bearings", "anchors": ["src/Camera.cpp: Camera::bearingToPixel, distortRadtan, distortEquidist, distortDoubleSphere", "include/rovio/MultilevelPatch.hpp / Patch.hpp: isPatchInFrame, extractPatchFromImage"]}
{"id": "C106", "title": "Bearings of pixels in double precision", "statement": "Back-projecting a pixel never succeeds for a pixel that is not finite or a camera with a zero focal length, whatever the distortion. When the undistortion ends at a point with finite coordinates the bearing has unit length to about four units of the last bit, points forward and has the direction of that point. The distortion computed together with its Jacobian has the same value as the one computed without, in all three models. The principal point, when it is a pixel, has exactly the optical axis as its bearing in all three models, and projecting that gives exactly the principal point back. For a radial-tangential camera without distortion every pixel within 3/2 focal lengths of the principal point has a bearing, its direction is exact to 2^-39, and projecting it again gives the pixel back to a three-thousandth of a pixel; the same holds to a 2500th of a pixel for the double-sphere camera. A returned bearing is not always a number: where the distortion turns back the last Newton step divides by zero after the residual was accepted, and the function returns true with a bearing that is not a number (refuted).", "quantifier": "every pixel, every calibration within the stated ranges, every distortion function and every contraction of products into sums the compiler may choose", "why_tests_cant": "tests back-project a few pixels with one calibration and one compiler; the rounding of every operation, non-finite pixels and singular Jacobians are not covered", "anchors": ["src/Camera.cpp: Camera::pixelToBearing, Camera::distortRadtan, Camera::distortEquidist, Camera::distortDoubleSphere, Camera::distort", "include/rovio/Camera.hpp: Camera"]}
{"id": "C107", "title": "Jacobians of the distortion in double precision", "statement": "The Jacobian the camera computes together with a distorted point, in IEEE-754 doubles, is the matrix of partial derivatives of the exact distortion up to 2^-32 in each entry, for usual coefficients and points within two focal lengths of the centre (2^-36 for the radial-tangential, 2^-35 for the double-sphere model). For the double-sphere and equidistant models this holds outside the small disc where they leave points alone; at the centre of that disc the double-sphere camera reports the identity although its model scales by 1/(1+k1) there (refuted).", "quantifier": "every point, every calibration within the stated ranges, every library arc tangent accurate to an ulp and every contraction of products into sums the compiler may choose", "why_tests_cant": "cancellation near the centre and the rounding of every operation for every compiler cannot be sampled; numerical differentiation is far less accurate than the bound", "anchors": ["src/Camera.cpp: Camera::distortRadtan, Camera::distortEquidist, Camera::distortDoubleSphere, Camera::distort"]}
{"id": "C108", "title": "Accuracy of the projection Jacobian in double precision", "statement": "Projecting a bearing together with its Jacobian succeeds for every usual bearing in front of the camera (about unit length, within two focal lengths of the optical axis). The 2x3 matrix returned is, up to 2^-15 in each entry, the derivative of the real-number projection of the same calibration, taken at a bearing whose first two coordinates are within 2^-51 of the given ones. This holds for the three camera models, for the double-sphere and equidistant ones clear of the border of the small disc around the optical axis where they leave points alone (tangents beyond 2^-25 or below 2^-28), and whatever products the compiler fuses into sums. For a unit vector with a tangent basis of entries of at most one, the 2x2 matrix returned is, up to 2^-13, the rate at which the pixel moves when the bearing moves along the two basis directions. The pixel returned with the Jacobian (or the refusal to project) is one that the projection without Jacobian may return, and it is within a three-thousandth of a pixel of the exact projection as long as that lies within the first 4095 pixels.", "quantifier": "all usual calibrations of the three camera models, all doubles for the bearing and the tangent basis, all contraction choices of the compiler and all arc tangents good to about an ulp", "why_tests_cant": "The error bound must hold for every triple of doubles, every calibration and every compiler choice; a finite-difference test samples points and cannot tell truncation from rounding errors.", "anchors": ["src/Camera.cpp: Camera::bearingToPixel(const Eigen::Vector3d&, cv::Point2f&, Eigen::Matrix<double,2,3>&)", "src/Camera.cpp: Camera::distort", "src/Camera.cpp: Camera::bearingToPixel(const LWF::NormalVectorElement&, cv::Point2f&, Eigen::Matrix<double,2,2>&)"]}
