(** Model of the output transforms of the filter: include/rovio/CoordinateTransform/RovioOutput.hpp,
    LandmarkOutput.hpp, FeatureOutput.hpp, FeatureOutputReadable.hpp. Each has a value and a Jacobian
    whose blocks are 3x3 (segments of the input state are in FiltModel.v). Camera ids outside the
    arrays are undefined behaviour in the code; the theorems ask for a valid id. *)
From Coq Require Import Reals ZArith List Bool Arith.
From Verif Require Import Geo Lie DistModel FiltModel.
Local Open Scope R_scope.

(** StandardOutput, RovioOutput.hpp 36-97: WrWB, BvB, BwWB, qBW *)
Record out := { o_pos : V3; o_vel : V3; o_ror : V3; o_att : M3 }.
Inductive oseg := OPos | OVel | ORor | OAtt.

(** MwWMmeas - gyb *)
Definition rate (x : state) : V3 := vsub (a_wmeas (x_aux x)) (x_gyb x).

(** CameraOutputCT::evalTransform, lines 111-120 *)
Definition camera_out (c : nat) (x : state) : out :=
  {| o_pos := vadd (x_pos x) (mv (x_att x) (MrMC x c));
     o_ror := mv (qCM x c) (rate x);
     o_vel := mv (qCM x c) (vadd (vneg (x_vel x)) (mv (skew (rate x)) (MrMC x c)));
     o_att := mm (qCM x c) (mt (x_att x)) |}.
(** CameraOutputCT::jacTransform, lines 121-143. The velocity/vea block of line 139 calls MrMC() with
    its default argument 0. *)
Definition camera_jac (c : nat) (x : state) (o : oseg) : seg -> M3 := fun s =>
  let calib := a_calib (x_aux x) in
  match o, s with
  | OPos, Pos => m1
  | OPos, Att => mneg (skew (mv (x_att x) (MrMC x c)))
  | OAtt, Att => mneg (mm (qCM x c) (mt (x_att x)))
  | OVel, Vel => mneg (qCM x c)
  | OVel, Gyb => mm (qCM x c) (skew (MrMC x c))
  | ORor, Gyb => mneg (qCM x c)
  | OPos, Vep k => if calib && (k =? c)%nat then x_att x else mzero
  | OVel, Vep k => if calib && (k =? c)%nat then mm (qCM x c) (skew (rate x)) else mzero
  | ORor, Vea k => if calib && (k =? c)%nat then mneg (skew (mv (qCM x c) (rate x))) else mzero
  | OVel, Vea k => if calib && (k =? c)%nat
                   then mneg (skew (mv (qCM x c) (vadd (vneg (x_vel x)) (mv (skew (rate x)) (MrMC x 0))))) else mzero
  | OAtt, Vea k => if calib && (k =? c)%nat then m1 else mzero
  | _, _ => mzero
  end.
(** ImuOutputCT, lines 158-174 *)
Definition imu_out (x : state) : out :=
  {| o_pos := x_pos x; o_ror := rate x; o_vel := vneg (x_vel x); o_att := mt (x_att x) |}.
Definition imu_jac (x : state) (o : oseg) : seg -> M3 := fun s =>
  match o, s with
  | OPos, Pos => m1
  | OAtt, Att => mneg (mt (x_att x))
  | OVel, Vel => mneg m1
  | ORor, Gyb => mneg m1
  | _, _ => mzero
  end.
(** postProcess of both, lines 144-146 and 175-177: the gyroscope noise is added to the rate block *)
Definition post_cov (x : state) (cov : oseg -> oseg -> M3) : oseg -> oseg -> M3 := fun a b =>
  match a, b with ORor, ORor => madd (cov ORor ORor) (a_wcov (x_aux x)) | _, _ => cov a b end.

(** camera of feature [i] *)
Definition fcam (x : state) (i : nat) : nat := Z.to_nat (ft_cam (x_fea x i)).
(** CrCP *)
Definition ray (f : feat) : V3 := vscale (get_distance (ft_d f)) (nor (ft_Q f)).

(** LandmarkOutputImuCT, LandmarkOutput.hpp 77-98: MultiCamera's extrinsics are those of the state
    (updateMultiCameraExtrinsics, FilterStates.hpp 438-443). getId<_vep>() and getId<_vea>() use the
    default index 0. A 3x2 block followed by a 3x1 block is given by its three columns. *)
Definition landmark_out (x : state) (i : nat) : V3 :=
  vadd (MrMC x (fcam x i)) (mv (mt (qCM x (fcam x i))) (ray (x_fea x i))).
Definition cols (a b c : V3) : M3 := mt (a, b, c).
Definition landmark_jac (x : state) (i : nat) : seg -> M3 := fun s =>
  let f := x_fea x i in
  let mBC := mt (qCM x (fcam x i)) in
  match s with
  | Fea k => if (k =? i)%nat then
       cols (mv mBC (vscale (get_distance (ft_d f)) (M1 (ft_Q f)))) (mv mBC (vscale (get_distance (ft_d f)) (M2c (ft_Q f))))
            (mv mBC (vscale (distance_derivative (ft_d f)) (nor (ft_Q f)))) else mzero
  | Vep k => if a_calib (x_aux x) && (k =? 0)%nat then m1 else mzero
  | Vea k => if a_calib (x_aux x) && (k =? 0)%nat then mm mBC (skew (ray f)) else mzero
  | _ => mzero
  end.

(** FeatureOutputCT, FeatureOutput.hpp 89-94: setIdentity on the 3 x D matrix; the first segment of the
    state is the position. *)
Definition feature_out (x : state) (i : nat) : feat := x_fea x i.
Definition feature_jac : seg -> M3 := fun s => match s with Pos => m1 | _ => mzero end.

(** FeatureOutputReadableCT, FeatureOutputReadable.hpp 83-91; rows bearing (3) and distance (1) *)
Definition readable_bea (f : feat) : V3 := nor (ft_Q f).
Definition readable_dis (f : feat) : R := get_distance (ft_d f).
Definition readable_jac_bea (f : feat) : M3 := cols (M1 (ft_Q f)) (M2c (ft_Q f)) v0.
Definition readable_jac_dis (f : feat) : V3 := (0, 0, distance_derivative (ft_d f)).

(** TransformFeatureOutputCT, FeatureOutput.hpp 120-187. [frame] is NormalVectorElement::setFromVector
    of the absent filtering library: some rotation taking e_z to the direction of its argument. *)
Definition qDC (x : state) (k c : nat) : M3 := mm (qCM x k) (mt (qCM x c)).
Definition CrCD (x : state) (k c : nat) : V3 := mv (qCM x c) (vsub (MrMC x k) (MrMC x c)).
Definition DrDP (x : state) (k i : nat) : V3 :=
  mv (qDC x k (fcam x i)) (vsub (ray (x_fea x i)) (CrCD x k (fcam x i))).
(** evalTransform, lines 120-138; [dold] is the distance object of the output before the call, whose
    parametrisation is kept (MultiCamera.hpp 98). [None]: the new parameter is not finite. *)
Definition transfer (frame : V3 -> M3) (k : nat) (x : state) (i : nat) (dold : fdist) : option feat :=
  let f := x_fea x i in
  let D := DrDP x k i in
  let warp := if ft_track f
              then mm2 (MtXM (frame D) (mscale (get_distance (ft_d f) / norm D) (qDC x k (fcam x i))) (ft_Q f)) (ft_warp f)
              else ft_warp f in
  if (ft_cam f =? Z.of_nat k)%Z then
    Some {| ft_cam := ft_cam f; ft_Q := ft_Q f; ft_d := ft_d f; ft_track := ft_track f; ft_warp := warp |}
  else
    match set_parameter dold (norm D) with
    | Some d => Some {| ft_cam := Z.of_nat k; ft_Q := frame D; ft_d := d; ft_track := ft_track f; ft_warp := warp |}
    | None => None
    end.
(** jacTransform, lines 139-187; [ign] is ignoreDistanceOutput_ *)
Definition transfer_jac (frame : V3 -> M3) (ign : bool) (k : nat) (x : state) (i : nat) : seg -> M3 := fun s =>
  let f := x_fea x i in
  let c := fcam x i in
  if (ft_cam f =? Z.of_nat k)%Z then match s with Fea j => if (j =? i)%nat then m1 else mzero | _ => mzero end
  else
    let q := qDC x k c in
    let D := DrDP x k i in
    let Qo := frame D in
    let l := / norm D in
    let blk (X : M3) := rows Qo (mscale l X) (if ign then v0 else mv (mt X) (nor Qo)) in
    let J_DrDP_qDC := skew D in
    let J_CrCD_qCB := skew (CrCD x k c) in
    match s with
    | Fea j => if (j =? i)%nat then
        let X := mscale (get_distance (ft_d f)) q in
        let y := vscale (distance_derivative (ft_d f)) (mv q (nor (ft_Q f))) in
        fea_block Qo (ft_Q f) (MtXM Qo (mscale l X) (ft_Q f)) (vscale l y)
          (if ign then v0 else mv (mt X) (nor Qo)) (if ign then 0 else dot (nor Qo) y)
        else mzero
    | Vea j => if a_calib (x_aux x) then
        if (j =? k)%nat then blk J_DrDP_qDC
        else if (j =? c)%nat then blk (madd (mm J_DrDP_qDC (mneg q)) (mm (mneg q) J_CrCD_qCB))
        else mzero
        else mzero
    | Vep j => if a_calib (x_aux x) then
        if (j =? k)%nat then blk (mm (mneg q) (qCM x c))
        else if (j =? c)%nat then blk (mm (mneg q) (mneg (qCM x c)))
        else mzero
        else mzero
    | _ => mzero
    end.
