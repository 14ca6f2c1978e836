(** FeatureStatistics (/repo/include/rovio/FeatureStatistics.hpp) with its double precision numbers: the filters, the global
    quality and the decision whether a feature is good. The compiler may contract a product and a sum (the build uses
    -march=native, /repo/CMakeLists.txt line 3): [fuse]. Frame counters and ranges are C++ ints, here integers without overflow. *)
From Coq Require Import List ZArith Bool.
From Flocq Require Import Core BinarySingleNaN.
From Verif Require Import IeeeModel StampModel StatModel.
Import ListNotations.

(** 1.0/localQualityRange_ etc., lines 119-142 and 258-275 *)
Definition share64 (r : Z) : g64 := div64 one64 (g64_of_Z r).
(** q*(1-1.0/range) *)
Definition dec64 (r : Z) (q : g64) : g64 := mul64 q (sub64 one64 (share64 r)).
(** q*(1-1.0/range) + 1.0/range *)
Definition rai64 (fuse : bool) (r : Z) (q : g64) : g64 :=
  if fuse then fma64 q (sub64 one64 (share64 r)) (share64 r) else add64 (dec64 r q) (share64 r).
Definition ops64 (fuse : bool) : qops g64 := {| q_one := one64; q_rai := rai64 fuse; q_dec := dec64 |}.

(** std::min(a,b) *)
Definition min64 (a b : g64) : g64 := if Bltb b a then b else a.
(** getGlobalQuality, lines 246-249 *)
Definition global_quality64 (s : stat g64) : g64 :=
  mul64 (div64 (g64_of_Z (count_tracked s)) (g64_of_Z (count_tot s))) (min64 (div64 (g64_of_Z (count_tot s)) (g64_of_Z (s_rg s))) one64).
(** getMaxLocalQuality, lines 299-305 *)
Definition max_local_quality64 (fuse : bool) (s : stat g64) : g64 :=
  fold_left (fun q c => if Bltb q (cam_local_quality (ops64 fuse) s c) then cam_local_quality (ops64 fuse) s c else q) (s_cams s) (g64_of_Z 0).
(** upper-(upper-lower)*getGlobalQuality(), line 333 *)
Definition threshold64 (fuse : bool) (s : stat g64) (upper lower : g64) : g64 :=
  let d := sub64 upper lower in if fuse then fma64 (Bopp d) (global_quality64 s) upper else sub64 upper (mul64 d (global_quality64 s)).
(** one round of the loop of lines 332-334 *)
Definition good_cam64 (fuse : bool) (s : stat g64) (upper lower : g64) (c : camstat g64) : bool :=
  Bltb (threshold64 fuse s upper lower) (mul64 (cam_local_quality (ops64 fuse) s c) (cam_local_visibility (ops64 fuse) s c)).
(** isGoodFeature, lines 330-336 *)
Definition is_good_feature64 (fuse : bool) (s : stat g64) (upper lower : g64) : bool :=
  fold_left (fun g c => orb g (good_cam64 fuse s upper lower c)) (s_cams s) false.
