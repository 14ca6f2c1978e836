(** Covariance bookkeeping: state layout, feature covariance reset, median depth, odometry noise,
    output covariances and their copies in the published messages. Matrices are functions of two indices,
    entries exact reals. *)
From Coq Require Import List Reals Arith Bool Lia.
From Verif Require Import AlignModel.
Import ListNotations.
Local Open Scope R_scope.

Definition mat := nat -> nat -> R.

(** ** Layout.  An LWF state is a list of elements, each an array of [count] sub-elements of tangent dimension
    [dim] (FilterStates.hpp 107-116 and 449-490; LWF itself is not in /repo: getId<e>(i) is the start of
    sub-element i of element e in the stacked tangent vector, D_ the total dimension). *)
Definition layout := list (nat * nat).
Definition size_of (l : layout) : nat := fold_right (fun e s => (fst e * snd e + s)%nat) 0%nat l.
Definition get_id (l : layout) (e i : nat) : nat := (size_of (firstn e l) + snd (nth e l (0, 0)%nat) * i)%nat.

(** State: pos vel acb gyb | att | vep[nCam] | vea[nCam] | fea[nMax] | pop[nPose] | poa[nPose]; the auxiliary
    part has dimension 0.  FilterStates.hpp 107-116, 134-150. *)
Definition state_layout (ncam nmax npose : nat) : layout :=
  [(1, 3); (1, 3); (1, 3); (1, 3); (1, 3); (ncam, 3); (ncam, 3); (nmax, 3); (npose, 3); (npose, 3)]%nat.
Definition _pos := 0%nat. Definition _vel := 1%nat. Definition _acb := 2%nat. Definition _gyb := 3%nat.
Definition _att := 4%nat. Definition _vep := 5%nat. Definition _vea := 6%nat. Definition _fea := 7%nat.
Definition _pop := 8%nat. Definition _poa := 9%nat.

(** StandardOutput: pos vel ror att.  CoordinateTransform/RovioOutput.hpp 37-45. *)
Definition output_layout : layout := [(1, 3); (1, 3); (1, 3); (1, 3)]%nat.
Definition _opos := 0%nat. Definition _ovel := 1%nat. Definition _oror := 2%nat. Definition _oatt := 3%nat.

(** ** Block assignment (Eigen block<h,w>(r,c) = f). *)
Definition inb (r h i : nat) : bool := (r <=? i) && (i <? r + h).
Definition set_block (r c h w : nat) (f : mat) (m : mat) : mat :=
  fun i j => if inb r h i && inb c w j then f (i - r)%nat (j - c)%nat else m i j.
Definition zero : mat := fun _ _ => 0.
Definition sub (r c : nat) (m : mat) : mat := fun i j => m (r + i)%nat (c + j)%nat.

(** FilterStates.hpp 605-614 resetFeatureCovariance; [D] the state dimension, [id] = getId<_fea>(i), [init] the
    3x3 initial covariance (distance parameter first, then the two bearing components). *)
Definition reset_feature (D id : nat) (init cov : mat) : mat :=
  let c1 := set_block 0 (id + 2) D 1 zero cov in
  let c2 := set_block (id + 2) 0 1 D zero c1 in
  let c3 := set_block 0 id D 2 zero c2 in
  let c4 := set_block id 0 2 D zero c3 in
  let c5 := set_block (id + 2) (id + 2) 1 1 (sub 0 0 init) c4 in
  let c6 := set_block (id + 2) id 1 2 (sub 0 1 init) c5 in
  let c7 := set_block id (id + 2) 2 1 (sub 1 0 init) c6 in
  set_block id id 2 2 (sub 1 1 init) c7.

(** ** Median depth, FilterStates.hpp 624-656.  One record per feature slot and camera: validity, isInFront of
    the transferred feature, |sqrt(cov(2,2)) * distance derivative|, distance, distance parameter. *)
Record seen := { s_front : bool; s_unc : R; s_depth : R; s_par : R }.
Definition confident (max_ratio : R) (o : seen) : bool := if Rlt_dec (s_unc o / s_depth o) max_ratio then true else false.
(** 629-644: parameters of the valid, visible, confident features in slot order *)
Definition collect (max_ratio : R) (slots : list (bool * seen)) : list R :=
  map (fun s => s_par (snd s)) (filter (fun s => fst s && s_front (snd s) && confident max_ratio (snd s)) slots).
(** 646-653; [nth_elt l k] the list after std::nth_element with pivot k *)
Definition median (nth_elt : list R -> nat -> list R) (init max_ratio : R) (slots : list (bool * seen)) : R :=
  let l := collect max_ratio slots in
  if (3 <? length l)%nat then nth (length l / 2) (nth_elt l (length l / 2)%nat) 0 else init.

(** ** Odometry noise, PoseUpdate.hpp 288-301: updnoiP_ = defaultUpdnoiP_ * measuredCov, with the cross blocks
    cleared when only one of position and attitude is used. *)
Definition mmul (n : nat) (a b : mat) : mat := fun i j => fsum n (fun k => a i k * b k j).
Definition update_noise (use_cov en_pos en_att : bool) (default measured : mat) : mat :=
  if use_cov
  then let p := mmul 6 default measured in
       if Bool.eqb en_pos en_att then p else set_block 0 3 3 3 zero (set_block 3 0 3 3 zero p)
  else default.

(** ** Output covariance.  LWF transformCovMat (not in /repo): J cov J^T, then postProcess
    (RovioOutput.hpp 149-151, 178-180) adds the gyro measurement covariance to the rate block.
    ImuPrediction.hpp 142 wMeasCov_ = noise block / dt. *)
Definition transform_cov (n D : nat) (jac cov : mat) : mat :=
  fun i j => fsum D (fun k => fsum D (fun l => jac i k * cov k l * jac j l)).
Definition add_block (r h : nat) (f m : mat) : mat := fun i j => if inb r h i && inb r h j then m i j + f (i - r)%nat (j - r)%nat else m i j.
Definition output_cov (D : nat) (jac cov wcov : mat) : mat := add_block (get_id output_layout _oror 0) 3 wcov (transform_cov 12 D jac cov).
Definition rate_cov (noise : mat) (att : nat) (dt : R) : mat := fun i j => sub att att noise i j / dt.

(** ** Published 6x6 covariances, row-major arrays.  RovioNode.hpp 731-739 (pose, from _pos and _att), 746-754
    (twist, _vel and _ror), 772-780 (pose again), 830-838 (extrinsics, from the state covariance, _vep(cam) and
    _vea(cam)). [a], [b] start indices of the two 3-blocks. *)
Definition pick (a b i : nat) : nat := if (3 <=? i)%nat then (b + i - 3)%nat else (a + i)%nat.
Definition cov_message (a b : nat) (m : mat) : list R :=
  flat_map (fun i => map (fun j => m (pick a b i) (pick a b j)) (seq 0 6)) (seq 0 6).
Definition pose_message (m : mat) := cov_message (get_id output_layout _opos 0) (get_id output_layout _oatt 0) m.
Definition twist_message (m : mat) := cov_message (get_id output_layout _ovel 0) (get_id output_layout _oror 0) m.
Definition extrinsics_message (ncam nmax npose cam : nat) (m : mat) :=
  cov_message (get_id (state_layout ncam nmax npose) _vep cam) (get_id (state_layout ncam nmax npose) _vea cam) m.
(** 858-867: 3x3 bias covariances *)
Definition bias_message (a : nat) (m : mat) : list R := flat_map (fun i => map (fun j => m (a + i)%nat (a + j)%nat) (seq 0 3)) (seq 0 3).
Definition gyr_bias_message (ncam nmax npose : nat) (m : mat) := bias_message (get_id (state_layout ncam nmax npose) _gyb 0) m.
Definition acc_bias_message (ncam nmax npose : nat) (m : mat) := bias_message (get_id (state_layout ncam nmax npose) _acb 0) m.
