(** Model of filter initialisation and resets, of the external pose update and of the two velocity
    updates: include/rovio/FilterStates.hpp 582-600, RovioFilter.hpp 195-232, PoseUpdate.hpp,
    VelocityUpdate.hpp, ZeroVelocityUpdate.hpp. *)
From Coq Require Import Reals ZArith List Bool Arith.
From Verif Require Import Geo Lie DistModel FiltModel.
Import ListNotations.
Local Open Scope R_scope.

(** kindr setFromVectors (absent submodule): the minimal rotation taking the direction of [a] to the
    direction of [b]; for opposite vectors half a turn about some perpendicular [axis]. *)
Definition unitv (v : V3) : V3 := vscale (/ norm v) v.
Definition from_vectors (axis : V3 -> V3) (a b : V3) : M3 :=
  let u := unitv a in
  let v := unitv b in
  let c := dot u v in
  if Req_EM_T c (-1) then madd (mneg m1) (mscale 2 (outer (axis u) (axis u)))
  else madd m1 (madd (skew (cross u v)) (mscale (/ (1 + c)) (mm (skew (cross u v)) (skew (cross u v))))).

Definition with_pose (x : state) (p : V3) (q : M3) : state :=
  {| x_pos := p; x_vel := x_vel x; x_acb := x_acb x; x_gyb := x_gyb x; x_att := q; x_vep := x_vep x; x_vea := x_vea x;
     x_fea := x_fea x; x_pop := x_pop x; x_poa := x_poa x; x_aux := x_aux x |}.

(** initWithAccelerometer, FilterStates.hpp 591-598 *)
Definition init_acc (axis : V3 -> V3) (f : V3) (x : state) : state :=
  with_pose x (x_pos x) (if Rlt_dec (/ 1000000) (norm f) then from_vectors axis f (0, 0, 1) else m1).
(** initWithImuPose, FilterStates.hpp 582-585 *)
Definition init_pose (W : V3) (qMW : M3) (x : state) : state := with_pose x W (mt qMW).
(** setExtrinsics, RovioFilter.hpp 228-232: writes the auxiliary part of the initial state only *)
Definition set_extrinsics (RCM : M3) (CrCM : V3) (c : nat) (x : state) : state :=
  let a := x_aux x in
  {| x_pos := x_pos x; x_vel := x_vel x; x_acb := x_acb x; x_gyb := x_gyb x; x_att := x_att x; x_vep := x_vep x;
     x_vea := x_vea x; x_fea := x_fea x; x_pop := x_pop x; x_poa := x_poa x;
     x_aux := {| a_wmeas := a_wmeas a; a_west := a_west a; a_wcov := a_wcov a; a_calib := a_calib a;
                 a_qCM := fun k => if (k =? c)%nat then RCM else a_qCM a k;
                 a_MrMC := fun k => if (k =? c)%nat then vneg (mv (mt RCM) CrCM) else a_MrMC a k;
                 a_timerI := a_timerI a; a_timerV := a_timerV a |} |}.

(** ** external pose update *)
(** registered parameters and template indices, PoseUpdate.hpp 120-190 *)
Record pcfg := { enPos : bool; enAtt : bool; noFb : bool; doAlign : bool; inertial : option nat; body : option nat }.
(** members IrIW_, qWI_, MrMV_, qVM_, didAlignment_ *)
Record pupd := { u_IrIW : V3; u_qWI : M3; u_MrMV : V3; u_qVM : M3; u_did : bool }.
Record pmeas := { m_pos : V3; m_att : M3 }.

(** getters, lines 199-226 *)
Definition get_IrIW (c : pcfg) (u : pupd) (x : state) : V3 := match inertial c with Some i => x_pop x i | None => u_IrIW u end.
Definition get_qWI (c : pcfg) (u : pupd) (x : state) : M3 := match inertial c with Some i => x_poa x i | None => u_qWI u end.
Definition get_MrMV (c : pcfg) (u : pupd) (x : state) : V3 := match body c with Some i => x_pop x i | None => u_MrMV u end.
Definition get_qVM (c : pcfg) (u : pupd) (x : state) : M3 := match body c with Some i => x_poa x i | None => u_qVM u end.

(** evalInnovation, lines 227-242 *)
Definition innov_pos (c : pcfg) (u : pupd) (m : pmeas) (x : state) (n : V3) : V3 :=
  if enPos c then
    vadd (vsub (vadd (get_IrIW c u x) (mv (mt (get_qWI c u x)) (vadd (x_pos x) (mv (x_att x) (get_MrMV c u x))))) (m_pos m)) n
  else n.
Definition innov_att (c : pcfg) (u : pupd) (m : pmeas) (x : state) (n : V3) : M3 :=
  if enAtt c then mm (mm (mm (mm (expm n) (get_qVM c u x)) (mt (x_att x))) (get_qWI c u x)) (mt (m_att m))
  else expm n.

(** jacState, lines 243-277: later block assignments overwrite earlier ones *)
Definition is_idx (o : option nat) (k : nat) : bool := match o with Some i => (i =? k)%nat | None => false end.
Definition jac_pos (c : pcfg) (u : pupd) (x : state) : seg -> M3 := fun s =>
  if enPos c then
    match s with
    | Pos => if noFb c then mzero else mt (get_qWI c u x)
    | Att => if noFb c then mzero else mneg (mm (mt (get_qWI c u x)) (skew (mv (x_att x) (get_MrMV c u x))))
    | Pop k => if is_idx (body c) k then mm (mt (get_qWI c u x)) (x_att x)
               else if is_idx (inertial c) k then m1 else mzero
    | Poa k => if is_idx (inertial c) k then
                 mm (skew (mv (mt (get_qWI c u x)) (vadd (x_pos x) (mv (x_att x) (get_MrMV c u x))))) (mt (get_qWI c u x))
               else mzero
    | _ => mzero
    end
  else mzero.
Definition jac_att (c : pcfg) (u : pupd) (x : state) : seg -> M3 := fun s =>
  if enAtt c then
    match s with
    | Att => if noFb c then mzero else mneg (mm (get_qVM c u x) (mt (x_att x)))
    | Poa k => if is_idx (body c) k then m1
               else if is_idx (inertial c) k then mm (get_qVM c u x) (mt (x_att x)) else mzero
    | _ => mzero
    end
  else mzero.

Definition set_pop (x : state) (k : nat) (p : V3) (q : M3) : state :=
  {| x_pos := x_pos x; x_vel := x_vel x; x_acb := x_acb x; x_gyb := x_gyb x; x_att := x_att x; x_vep := x_vep x; x_vea := x_vea x;
     x_fea := x_fea x; x_pop := fun j => if (j =? k)%nat then p else x_pop x j;
     x_poa := fun j => if (j =? k)%nat then q else x_poa x j; x_aux := x_aux x |}.

(** preProcess, alignment part, lines 286-298. The lever arm of line 293 is read after the pose
    state has got its new rotation; the position read is unaffected by that. *)
Definition pre_process (c : pcfg) (u : pupd) (m : pmeas) (x : state) : pupd * state :=
  if negb (u_did u) && doAlign c then
    let qWI := mm (mm (x_att x) (mt (get_qVM c u x))) (m_att m) in
    let IrIW := vsub (m_pos m) (mv (mt qWI) (vadd (x_pos x) (mv (x_att x) (get_MrMV c u x)))) in
    ({| u_IrIW := IrIW; u_qWI := qWI; u_MrMV := u_MrMV u; u_qVM := u_qVM u; u_did := true |},
     match inertial c with Some i => set_pop x i IrIW qWI | None => x end)
  else (u, x).

(** postProcess, lines 318-325: camera pose implied by the measurement, kept for display *)
Definition pose_meas_lin (c : pcfg) (u : pupd) (m : pmeas) (x : state) : V3 :=
  vadd (mv (get_qWI c u x) (vsub (vsub (m_pos m) (mv (mm (mt (get_qWI c u x)) (x_att x)) (get_MrMV c u x))) (get_IrIW c u x)))
       (mv (x_att x) (MrMC x 0)).
Definition pose_meas_rot (c : pcfg) (u : pupd) (m : pmeas) (x : state) : M3 :=
  mm (mm (mm (qCM x 0) (mt (get_qVM c u x))) (m_att m)) (mt (get_qWI c u x)).

(** ** velocity updates: VelocityUpdate.hpp 166-180, ZeroVelocityUpdate.hpp 144-158 *)
Definition innov_vel (qAM : M3) (meas : V3) (x : state) (n : V3) : V3 := vadd (vadd (mv qAM (x_vel x)) meas) n.
Definition jac_vel (qAM : M3) : seg -> M3 := fun s => match s with Vel => qAM | _ => mzero end.
Definition innov_zero (x : state) (n : V3) : V3 := vadd (x_vel x) n.
Definition jac_zero : seg -> M3 := fun s => match s with Vel => m1 | _ => mzero end.

(** ** the filter as a state machine: initial state, current state and the pose update object.
    reset() of the absent filter base class copies the initial state. RovioFilter.hpp 205-218. *)
Record filt := { f_init : state; f_cur : state; f_upd : pupd }.
Inductive fop :=
| OReset_acc (f : V3) | OReset_pose (W : V3) (qMW : M3) | OExtr (RCM : M3) (CrCM : V3) (c : nat)
| OPose (m : pmeas) | OOther (g : state -> state).
Definition fstep (axis : V3 -> V3) (c : pcfg) (F : filt) (o : fop) : filt :=
  match o with
  | OReset_acc f => let i := init_acc axis f (f_init F) in {| f_init := i; f_cur := i; f_upd := f_upd F |}
  | OReset_pose W q => let i := init_pose W q (f_init F) in {| f_init := i; f_cur := i; f_upd := f_upd F |}
  | OExtr R_ r k => {| f_init := set_extrinsics R_ r k (f_init F); f_cur := f_cur F; f_upd := f_upd F |}
  | OPose m => let '(u, x) := pre_process c (f_upd F) m (f_cur F) in {| f_init := f_init F; f_cur := x; f_upd := u |}
  | OOther g => {| f_init := f_init F; f_cur := g (f_cur F); f_upd := f_upd F |}
  end.
Definition frun (axis : V3 -> V3) (c : pcfg) (F : filt) (l : list fop) : filt := fold_left (fstep axis c) l F.
