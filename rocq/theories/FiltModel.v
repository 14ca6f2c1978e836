(** Model of the filter state and of the IMU-driven prediction with its two Jacobians.
    include/rovio/FilterStates.hpp, include/rovio/ImuPrediction.hpp, RobocentricFeatureElement.hpp.
    Rotations are 3x3 matrices (a unit quaternion q is modelled by the matrix of q.rotate);
    exponentialMap is [expm] and Lmat is the left Jacobian [Lmat] of Lie.v (both from the absent
    lightweight_filtering/kindr submodule). Arithmetic is exact. *)
From Coq Require Import Reals ZArith List Bool Arith.
From Verif Require Import Geo Lie DistModel.
Import ListNotations.
Local Open Scope R_scope.

(** Segments of the error state, FilterStates.hpp lines 90-160: every one has dimension 3.
    A feature segment holds the two bearing coordinates and then the distance parameter.
    The prediction noise (lines 470-560) has the same segments. *)
Inductive seg := Pos | Vel | Acb | Gyb | Att | Vep (c : nat) | Vea (c : nat) | Fea (i : nat) | Pop (k : nat) | Poa (k : nat).
Definition seg_eq (a b : seg) : {a = b} + {a <> b}.
Proof. decide equality; apply Nat.eq_dec. Defined.

(** compile-time sizes nCam, nMax, nPose *)
Record dims := { d_cam : nat; d_max : nat; d_pose : nat }.
Definition segs (n : dims) : list seg :=
  [Pos; Vel; Acb; Gyb; Att] ++ map Vep (seq 0 (d_cam n)) ++ map Vea (seq 0 (d_cam n))
  ++ map Fea (seq 0 (d_max n)) ++ map Pop (seq 0 (d_pose n)) ++ map Poa (seq 0 (d_pose n)).
Definition seg_in (n : dims) (s : seg) : Prop :=
  match s with
  | Vep c | Vea c => (c < d_cam n)%nat
  | Fea i => (i < d_max n)%nat
  | Pop k | Poa k => (k < d_pose n)%nat
  | _ => True
  end.

Definition M2 := (R * R * (R * R))%type.
Definition mm2 (a b : M2) : M2 :=
  let '((a11, a12), (a21, a22)) := a in let '((b11, b12), (b21, b22)) := b in
  ((a11 * b11 + a12 * b21, a11 * b12 + a12 * b22), (a21 * b11 + a22 * b21, a21 * b12 + a22 * b22)).

(** Bearing element: the rotation [Q] taking e_z to the bearing. LWF::NormalVectorElement (absent
    submodule): getVec, getPerp1/2, getN = [perp1 perp2], getM = [-perp2 perp1]. *)
Definition nor (Q : M3) : V3 := mv Q (0, 0, 1).
Definition perp1 (Q : M3) : V3 := mv Q (1, 0, 0).
Definition perp2 (Q : M3) : V3 := mv Q (0, 1, 0).
(** N u, M u and M^T y *)
Definition Nmul (Q : M3) (a b : R) : V3 := vadd (vscale a (perp1 Q)) (vscale b (perp2 Q)).
Definition Mmul (Q : M3) (a b : R) : V3 := vadd (vscale a (vneg (perp2 Q))) (vscale b (perp1 Q)).

(** Feature segment, RobocentricFeatureElement.hpp 40-100: coordinates (camera id, bearing, tracked
    2x2 warp) and distance. *)
Record feat := { ft_cam : Z; ft_Q : M3; ft_d : fdist; ft_track : bool; ft_warp : M2 }.

(** StateAuxiliary, FilterStates.hpp 57-76 *)
Record aux := { a_wmeas : V3; a_west : V3; a_wcov : M3; a_calib : bool;
                a_qCM : nat -> M3; a_MrMC : nat -> V3; a_timerI : R; a_timerV : R }.

Record state := { x_pos : V3; x_vel : V3; x_acb : V3; x_gyb : V3; x_att : M3;
                  x_vep : nat -> V3; x_vea : nat -> M3; x_fea : nat -> feat;
                  x_pop : nat -> V3; x_poa : nat -> M3; x_aux : aux }.

(** qCM(camID), MrMC(camID): FilterStates.hpp 279-318 *)
Definition qCM (x : state) (c : nat) : M3 := if a_calib (x_aux x) then x_vea x c else a_qCM (x_aux x) c.
Definition MrMC (x : state) (c : nat) : V3 := if a_calib (x_aux x) then x_vep x c else a_MrMC (x_aux x) c.

(** boxPlus of the whole state; vectors add, rotations exp(v)*q, the bearing turns by exp(N u)
    (RobocentricFeatureElement.hpp 60-68, LWF elements) *)
Definition tangent := seg -> V3.
Definition box_fea (f : feat) (v : V3) : feat :=
  {| ft_cam := ft_cam f; ft_Q := mm (expm (Nmul (ft_Q f) (vx v) (vy v))) (ft_Q f);
     ft_d := {| fd_type := fd_type (ft_d f); fd_p := fd_p (ft_d f) + vz v |};
     ft_track := ft_track f; ft_warp := ft_warp f |}.
Definition boxplus (x : state) (v : tangent) : state :=
  {| x_pos := vadd (x_pos x) (v Pos); x_vel := vadd (x_vel x) (v Vel); x_acb := vadd (x_acb x) (v Acb);
     x_gyb := vadd (x_gyb x) (v Gyb); x_att := mm (expm (v Att)) (x_att x);
     x_vep := fun c => vadd (x_vep x c) (v (Vep c)); x_vea := fun c => mm (expm (v (Vea c))) (x_vea x c);
     x_fea := fun i => box_fea (x_fea x i) (v (Fea i));
     x_pop := fun k => vadd (x_pop x k) (v (Pop k)); x_poa := fun k => mm (expm (v (Poa k))) (x_poa x k);
     x_aux := x_aux x |}.

(** IMU sample and the filter parameters used here: g_ (ImuPrediction.hpp 57), inertialMotionRorTh_,
    inertialMotionAccTh_, block <att,att> of prenoiP_ *)
Record imu := { i_gyr : V3; i_acc : V3 }.
Record params := { p_g : V3; p_rorTh : R; p_accTh : R; p_attcov : M3 }.

(** camera of a feature: lines 107, 112 *)
Definition cam_of (n : dims) (f : feat) : option nat :=
  if ((0 <=? ft_cam f) && (ft_cam f <? Z.of_nat (d_cam n)))%Z then Some (Z.to_nat (ft_cam f)) else None.

(** camRor, camVel: lines 113-114 *)
Definition cam_ror (q : M3) (w : V3) : V3 := mv q w.
Definition cam_vel (q : M3) (r w v : V3) : V3 := mv q (vsub (cross w r) v).
(** I - n n^T *)
Definition proj (a : V3) : M3 := madd m1 (mneg (outer a a)).
(** dm without the noise term: lines 118-119, 185-186, 268-269 *)
Definition dm0 (dt : R) (a cv cr : V3) (d : R) : V3 :=
  vscale (- dt) (vadd (vscale (/ d) (mv (skew a) cv)) (mv (proj a) cr)).

(** The matrix inside the 2x2 bearing block: lines 125-128 and 199-202 *)
Definition bear_mid (dt : R) (a cv cr : V3) (d : R) (dm : V3) : M3 :=
  madd (mscale dt (mm (skew (mv (expm dm) a)) (mm (Lmat dm)
         (madd (mscale (- 1 / d) (skew cv)) (mneg (madd (mscale (dot a cr) m1) (outer a cr)))))))
       (expm dm).
(** Mout^T X M as a 2x2 matrix *)
Definition M1 (Q : M3) : V3 := vneg (perp2 Q).
Definition M2c (Q : M3) : V3 := perp1 Q.
Definition MtXM (Qo : M3) (X : M3) (Q : M3) : M2 :=
  ((dot (M1 Qo) (mv X (M1 Q)), dot (M1 Qo) (mv X (M2c Q))), (dot (M2c Qo) (mv X (M1 Q)), dot (M2c Qo) (mv X (M2c Q)))).

(** prediction of one feature: lines 107-131. [w] is imuRor (with noise), [u] the feature noise. *)
Definition predict_fea (n : dims) (dt : R) (x : state) (w : V3) (u : V3) (f : feat) : feat :=
  match cam_of n f with
  | None => f
  | Some c =>
      let q := qCM x c in
      let cr := cam_ror q w in
      let cv := cam_vel q (MrMC x c) w (x_vel x) in
      let a := nor (ft_Q f) in
      let d := get_distance (ft_d f) in
      let p := fd_p (ft_d f) - dt * parameter_derivative (ft_d f) * dot a cv + vz u * sqrt dt in
      let dm := vadd (dm0 dt a cv cr d) (vscale (sqrt dt) (Nmul (ft_Q f) (vx u) (vy u))) in
      let Q' := mm (expm dm) (ft_Q f) in
      {| ft_cam := ft_cam f; ft_Q := Q';
         ft_d := {| fd_type := fd_type (ft_d f); fd_p := p |}; ft_track := ft_track f;
         ft_warp := if ft_track f then mm2 (MtXM Q' (bear_mid dt a cv cr d dm) (ft_Q f)) (ft_warp f) else ft_warp f |}
  end.

(** detectInertialMotion, lines 285-289 *)
Definition imu_acc_err (P : params) (x : state) (m : imu) : V3 :=
  vadd (vsub (i_acc m) (x_acb x)) (mv (mt (x_att x)) (p_g P)).
Definition moving (P : params) (x : state) (m : imu) : bool :=
  (if Rlt_dec (p_rorTh P) (norm (vsub (i_gyr m) (x_gyb x))) then true else false)
  || (if Rlt_dec (p_accTh P) (norm (imu_acc_err P x m)) then true else false).

(** evalPrediction, lines 100-156. [inplace] says whether output and state are the same object: the
    motion test of line 150 then sees the predicted values. fix() only renormalises quaternions. *)
Definition predict (n : dims) (P : params) (m : imu) (inplace : bool) (nz : tangent) (dt : R) (x : state) : state :=
  let west := vsub (i_gyr m) (x_gyb x) in
  let w := vadd west (vscale (/ sqrt dt) (nz Att)) in
  let dO := vscale dt w in
  let calib := a_calib (x_aux x) in
  let vep' := fun c => if (c <? d_cam n)%nat then vadd (MrMC x c) (vscale (sqrt dt) (nz (Vep c))) else MrMC x c in
  let vea' := fun c => if (c <? d_cam n)%nat then mm (expm (vscale (sqrt dt) (nz (Vea c)))) (qCM x c) else qCM x c in
  let y := fun a =>
    {| x_pos := vsub (x_pos x) (vscale dt (vsub (mv (x_att x) (x_vel x)) (vscale (/ sqrt dt) (nz Pos))));
       x_vel := vsub (mv (madd m1 (mneg (skew dO))) (x_vel x))
                     (vscale dt (vsub (imu_acc_err P x m) (vscale (/ sqrt dt) (nz Vel))));
       x_acb := vadd (x_acb x) (vscale (sqrt dt) (nz Acb));
       x_gyb := vadd (x_gyb x) (vscale (sqrt dt) (nz Gyb));
       x_att := mm (x_att x) (expm dO);
       x_vep := if calib then vep' else x_vep x;
       x_vea := if calib then vea' else x_vea x;
       x_fea := fun i => if (i <? d_max n)%nat then predict_fea n dt x w (nz (Fea i)) (x_fea x i) else x_fea x i;
       x_pop := fun k => if (k <? d_pose n)%nat then vadd (x_pop x k) (vscale (sqrt dt) (nz (Pop k))) else x_pop x k;
       x_poa := fun k => if (k <? d_pose n)%nat then mm (expm (vscale (sqrt dt) (nz (Poa k)))) (x_poa x k) else x_poa x k;
       x_aux := a |} in
  let a1 tI tV := {| a_wmeas := i_gyr m; a_west := west; a_wcov := mscale (/ dt) (p_attcov P); a_calib := calib;
                     a_qCM := if calib then a_qCM (x_aux x) else vea';
                     a_MrMC := if calib then a_MrMC (x_aux x) else vep'; a_timerI := tI; a_timerV := tV |} in
  let seen := if inplace then y (a1 0 0) else x in
  y (a1 (if moving P seen m then 0 else a_timerI (x_aux x) + dt) (a_timerV (x_aux x) + dt)).

Definition no_noise : tangent := fun _ => v0.

(** noMeasCase, lines 157-160: the pseudo sample used when no IMU sample covers an interval *)
Definition no_meas (P : params) (x : state) : imu :=
  {| i_gyr := x_gyb x; i_acc := vsub (x_acb x) (mv (mt (x_att x)) (p_g P)) |}.

(** Jacobian matrices are indexed by segments; each entry is a 3x3 block *)
Definition jac := seg -> seg -> M3.
Definition mzero : M3 := (v0, v0, v0).
(** (M^T X), a 2x3 block, over a 1x3 row *)
Definition rows (Q : M3) (X : M3) (row : V3) : M3 := (mv (mt X) (M1 Q), mv (mt X) (M2c Q), row).
(** 2x2 block, 2x1 block (as the vector y with the block = M^T y), 1x2 block (as r with r^T M), 1x1 *)
Definition fea_block (Qo Q : M3) (b : M2) (y : V3) (r : V3) (e : R) : M3 :=
  let '((b11, b12), (b21, b22)) := b in
  ((b11, b12, dot (M1 Qo) y), (b21, b22, dot (M2c Qo) y), (dot r (M1 Q), dot r (M2c Q), e)).

(** jacPreviousState, lines 161-241 *)
Definition jac_state (n : dims) (P : params) (m : imu) (x : state) (dt : R) : jac := fun out inn =>
  let w := vsub (i_gyr m) (x_gyb x) in
  let dO := vscale dt w in
  let R_ := x_att x in
  match out with
  | Pos => match inn with Pos => m1 | Vel => mscale (- dt) R_ | Att => mscale dt (skew (mv R_ (x_vel x))) | _ => mzero end
  | Vel => match inn with
           | Vel => madd m1 (mneg (skew dO)) | Acb => mscale dt m1 | Gyb => mscale (- dt) (skew (x_vel x))
           | Att => mscale (- dt) (mm (mt R_) (skew (p_g P))) | _ => mzero end
  | Acb => match inn with Acb => m1 | _ => mzero end
  | Gyb => match inn with Gyb => m1 | _ => mzero end
  | Att => match inn with Gyb => mscale (- dt) (mm R_ (Lmat dO)) | Att => m1 | _ => mzero end
  | Vep c => match inn with Vep c' => if (c =? c')%nat then m1 else mzero | _ => mzero end
  | Vea c => match inn with Vea c' => if (c =? c')%nat then m1 else mzero | _ => mzero end
  | Pop k => match inn with Pop k' => if (k =? k')%nat then m1 else mzero | _ => mzero end
  | Poa k => match inn with Poa k' => if (k =? k')%nat then m1 else mzero | _ => mzero end
  | Fea i =>
      let f := x_fea x i in
      match cam_of n f with
      | None => mzero
      | Some c =>
          let q := qCM x c in
          let r := MrMC x c in
          let cr := cam_ror q w in
          let cv := cam_vel q r w (x_vel x) in
          let a := nor (ft_Q f) in
          let d := get_distance (ft_d f) in
          let pd := parameter_derivative (ft_d f) in
          let dm := dm0 dt a cv cr d in
          let Qo := mm (expm dm) (ft_Q f) in
          let nL := mm (skew (mv (expm dm) a)) (Lmat dm) in
          match inn with
          | Fea j => if (i =? j)%nat then
              fea_block Qo (ft_Q f) (MtXM Qo (bear_mid dt a cv cr d dm) (ft_Q f))
                (vneg (vscale (distance_derivative (ft_d f) / (d * d)) (vscale dt (mv (mm (skew (nor Qo)) (Lmat dm)) (mv (skew a) cv)))))
                (vscale (- dt * pd) cv)
                (1 - dt * parameter_derivative_combined (ft_d f) * dot a cv)
              else mzero
          | Vel => rows Qo (mneg (mscale (dt / d) (mm nL (mm (skew a) q)))) (vscale (dt * pd) (mv (mt q) a))
          | Gyb => rows Qo (mscale dt (mm nL (mm (madd (mneg (proj a)) (mscale (1 / d) (mm (skew a) (skew (mv q r))))) q)))
                     (vscale (- dt * pd) (mv (mt q) (mv (mt (skew (mv q r))) a)))
          | Vea c' => if a_calib (x_aux x) && (c =? c')%nat then
              rows Qo (madd (mneg (mscale dt (mm nL (mm (proj a) (skew cr))))) (mneg (mscale (dt / d) (mm nL (mm (skew a) (skew cv))))))
                (vscale (dt * pd) (mv (mt (skew cv)) a))
              else mzero
          | Vep c' => if a_calib (x_aux x) && (c =? c')%nat then
              rows Qo (mscale (dt / d) (mm nL (mm (skew a) (mm q (skew w)))))
                (vscale (- dt * pd) (mv (mt (skew w)) (mv (mt q) a)))
              else mzero
          | _ => mzero
          end
      end
  end.

(** jacNoise, lines 242-284 *)
Definition jac_noise (n : dims) (P : params) (m : imu) (x : state) (dt : R) : jac := fun out inn =>
  let w := vsub (i_gyr m) (x_gyb x) in
  let dO := vscale dt w in
  let sI := mscale (sqrt dt) m1 in
  match out with
  | Pos => match inn with Pos => sI | _ => mzero end
  | Vel => match inn with Vel => sI | Att => mscale (sqrt dt) (skew (x_vel x)) | _ => mzero end
  | Acb => match inn with Acb => sI | _ => mzero end
  | Gyb => match inn with Gyb => sI | _ => mzero end
  | Att => match inn with Att => mscale (sqrt dt) (mm (x_att x) (Lmat dO)) | _ => mzero end
  | Vep c => match inn with Vep c' => if (c =? c')%nat then sI else mzero | _ => mzero end
  | Vea c => match inn with Vea c' => if (c =? c')%nat then sI else mzero | _ => mzero end
  | Pop k => match inn with Pop k' => if (k =? k')%nat then sI else mzero | _ => mzero end
  | Poa k => match inn with Poa k' => if (k =? k')%nat then sI else mzero | _ => mzero end
  | Fea i =>
      let f := x_fea x i in
      match cam_of n f with
      | None => mzero
      | Some c =>
          let q := qCM x c in
          let r := MrMC x c in
          let cr := cam_ror q w in
          let cv := cam_vel q r w (x_vel x) in
          let a := nor (ft_Q f) in
          let d := get_distance (ft_d f) in
          let pd := parameter_derivative (ft_d f) in
          let dm := dm0 dt a cv cr d in
          let Qo := mm (expm dm) (ft_Q f) in
          let nL := mm (skew (mv (expm dm) a)) (Lmat dm) in
          match inn with
          | Fea j => if (i =? j)%nat then
              let X := mneg (mscale (sqrt dt) nL) in
              ((dot (M1 Qo) (mv X (perp1 (ft_Q f))), dot (M1 Qo) (mv X (perp2 (ft_Q f))), 0),
               (dot (M2c Qo) (mv X (perp1 (ft_Q f))), dot (M2c Qo) (mv X (perp2 (ft_Q f))), 0),
               (0, 0, sqrt dt))
              else mzero
          | Att => rows Qo (mneg (mscale (sqrt dt) (mm nL (mm (madd (mneg (proj a)) (mscale (1 / d) (mm (skew a) (skew (mv q r))))) q))))
                     (vscale (sqrt dt * pd) (mv (mt q) (mv (mt (skew (mv q r))) a)))
          | _ => mzero
          end
      end
  end.

(** product of a row of blocks with a tangent vector *)
Definition row_mul (n : dims) (row : seg -> M3) (v : tangent) : V3 :=
  fold_right (fun s acc => vadd (mv (row s) (v s)) acc) v0 (segs n).
Definition jmul (n : dims) (J : jac) (v : tangent) : tangent := fun s => row_mul n (J s) v.
