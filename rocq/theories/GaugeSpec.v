(** Choice of the world frame: what a filter looks like from another world frame, and which covariances say
    only where and in which direction the world frame lies. *)
From Coq Require Import Reals ZArith List Bool Arith.
From Verif Require Import Geo DistModel FiltModel UpdModel SlotModel.
Import ListNotations.
Local Open Scope R_scope.

(** [Y]: rotation about the direction of gravity *)
Definition heading_rotation (g : V3) (Y : M3) : Prop := is_rot Y /\ mv Y g = g.

(** The world frame turned by [Y] and shifted by [t]. [iw k]: the estimated pose [k] is the pose of an external
    inertial frame (and not of an external body). *)
Definition moved_state (Y : M3) (t : V3) (iw : nat -> bool) (x : state) : state :=
  {| x_pos := vadd (mv Y (x_pos x)) t; x_vel := x_vel x; x_acb := x_acb x; x_gyb := x_gyb x; x_att := mm Y (x_att x);
     x_vep := x_vep x; x_vea := x_vea x; x_fea := x_fea x; x_pop := x_pop x;
     x_poa := fun k => if iw k then mm Y (x_poa x k) else x_poa x k; x_aux := x_aux x |}.
(** the fixed external frame: its rotation to the world and the world origin seen from it *)
Definition moved_upd (Y : M3) (t : V3) (u : pupd) : pupd :=
  {| u_IrIW := vsub (u_IrIW u) (mv (mt (mm Y (u_qWI u))) t); u_qWI := mm Y (u_qWI u); u_MrMV := u_MrMV u; u_qVM := u_qVM u; u_did := u_did u |}.
(** errors of the position, attitude and frame rotations turn along *)
Definition turn (Y : M3) (iw : nat -> bool) (s : seg) : M3 :=
  match s with Pos | Att => Y | Poa k => if iw k then Y else m1 | _ => m1 end.
Definition turned (T : seg -> M3) (P : bmat) : bmat := fun s t => mm (mm (T s) (P s t)) (mt (T t)).
Definition moved (Y : M3) (t : V3) (iw : nat -> bool) (F : kf) : kf :=
  {| k_x := moved_state Y t iw (k_x F); k_P := turned (turn Y iw) (k_P F); k_used := k_used F; k_u := moved_upd Y t (k_u F) |}.
(** the noise of the position and of external frames is given in world coordinates, that of the attitude in
    body coordinates *)
Definition noise_turn (Y : M3) (iw : nat -> bool) (s : seg) : M3 :=
  match s with Pos => Y | Poa k => if iw k then Y else m1 | _ => m1 end.
Definition moved_op (Y : M3) (iw : nat -> bool) (o : kop) : kop :=
  match o with KPredict m dt Q => KPredict m dt (turned (noise_turn Y iw) Q) | _ => o end.
(** external poses: the two estimated poses play different roles, and a shift is possible only if the external
    frame is not estimated *)
Definition pose_fits (t : V3) (iw : nat -> bool) (o : kop) : Prop :=
  match o with
  | KMeas (MPose c _) _ _ =>
      match inertial c with Some i => iw i = true /\ t = v0 | None => True end /\
      match body c with Some j => iw j = false | None => True end
  | _ => True
  end.
(** prediction noise of the position alike in all directions and independent of the rest *)
Definition isotropic (o : kop) : Prop :=
  match o with KPredict _ _ Q => (exists c, Q Pos Pos = mscale c m1) /\ forall s, s <> Pos -> Q Pos s = mzero /\ Q s Pos = mzero | _ => True end.
Definition no_pose (o : kop) : Prop := match o with KMeas (MPose _ _) _ _ => False | _ => True end.

(** covariance about the position ([A]), the heading ([b]) and their correlation ([p], [q]) only *)
Definition about_frame (g : V3) (A : M3) (p q : V3) (b : R) : bmat := fun s t =>
  match s, t with
  | Pos, Pos => A
  | Pos, Att => outer p g
  | Att, Pos => outer g q
  | Att, Att => mscale b (outer g g)
  | _, _ => mzero
  end.
Definition with_cov (F : kf) (P : bmat) : kf := {| k_x := k_x F; k_P := P; k_used := k_used F; k_u := k_u F |}.
Definition padd (P D : bmat) : bmat := fun s t => madd (P s t) (D s t).
