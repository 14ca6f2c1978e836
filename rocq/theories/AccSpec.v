(** Vocabulary for C78. *)
From Coq Require Import List ZArith QArith Qreals Reals Bool Arith.
From Verif Require Import PatchModel PatchSpec PyrModel PyrSpec AvgModel AvgSpec AccModel.
Import ListNotations.
Local Open Scope R_scope.

(** the whole patch (coarsest level) lies inside the image of the given pyramid *)
Definition visible (near : warp -> bool) (cf : acfg) (py : pyramid) (p : spot) : Prop := spot_in near cf py p = true.
(** root mean square difference between the image at a coordinate and the stored patch after the best
    change of brightness *)
Definition intensity_error (near : warp -> bool) (cf : acfg) (py : pyramid) (patch : patches) (p : spot) (r : R) : Prop :=
  exists Bs b, ml_extract near (k_n cf) py (snd p) (k_s cf) false = Some Bs /\ 0 <= r /\
    r ^ 2 = mse (k_n cf) (map (map Q2R) Bs) patch (k_e cf) (k_s cf) b /\
    forall b', r ^ 2 <= mse (k_n cf) (map (map Q2R) Bs) patch (k_e cf) (k_s cf) b'.
(** the four steps of length [d] along the axes *)
Definition steps (d : Q) : list (Q * Q) := [(- d, 0); (0, - d); (d, 0); (0, d)]%Q.
(** limit the error of a sample has to exceed: the rejection threshold, or a multiple of the error *)
Definition sample_limit (cf : acfg) (avg : R) : R := if Rlt_dec 1 (k_gain cf) then k_gain cf * avg else k_th cf.
(** the image at [p] is clearly different from the patch *)
Definition differs (near : warp -> bool) (cf : acfg) (py : pyramid) (patch : patches) (limit : R) (p : spot) : Prop :=
  visible near cf py p /\ exists e, intensity_error near cf py patch p e /\ limit < e.
(** coordinates for which the in-frame test is sufficient (C29): any with half-sampled pyramids; with
    pyrDown pyramids those with a warp near the identity or patches at least a pixel wide *)
Definition fair (near : warp -> bool) (cf : acfg) (py : pyramid) (p : spot) : Prop :=
  built false py \/ (built true py /\ (near_id near (level_transform (py_ct py) (snd p) 0 0) = true \/ wide (edge (k_n cf) false) (warp_of (level_transform (py_ct py) (snd p) 0 0)))).
(** images of the same size on all levels *)
Definition same_size (a b : pyramid) : Prop :=
  (forall l, cols (py_img a l) = cols (py_img b l) /\ rows (py_img a l) = rows (py_img b l)) /\ (forall l, py_ct a l = py_ct b l).
(** sensible configuration: even patch size, level range *)
Definition acc_ok (cf : acfg) : Prop := Nat.Even (k_n cf) /\ (0 < k_n cf)%nat /\ (k_e cf <= k_s cf)%nat.
