(** Parts of the filter that must not influence the rest: external poses without feedback, extrinsics that are
    not calibrated; what a measurement is about. *)
From Coq Require Import Reals ZArith List Bool Arith.
From Verif Require Import Geo DistModel FiltModel OutModel CamModel InnoModel UpdModel SlotModel.
Import ListNotations.
Local Open Scope R_scope.

(** the segments that count if external poses ([xp]) or extrinsics ([xv]) are left aside *)
Definition counts (xp xv : bool) (s : seg) : bool :=
  match s with Pop _ | Poa _ => negb xp | Vep _ | Vea _ => negb xv | _ => true end.
(** the same filter but for the external poses or extrinsics *)
Record same_but (xp xv : bool) (F G : kf) : Prop := {
  sb_used : k_used F = k_used G;
  sb_pos : x_pos (k_x F) = x_pos (k_x G); sb_vel : x_vel (k_x F) = x_vel (k_x G);
  sb_acb : x_acb (k_x F) = x_acb (k_x G); sb_gyb : x_gyb (k_x F) = x_gyb (k_x G); sb_att : x_att (k_x F) = x_att (k_x G);
  sb_fea : x_fea (k_x F) = x_fea (k_x G); sb_aux : x_aux (k_x F) = x_aux (k_x G);
  sb_ext : xv = false -> x_vep (k_x F) = x_vep (k_x G) /\ x_vea (k_x F) = x_vea (k_x G);
  sb_pose : xp = false -> x_pop (k_x F) = x_pop (k_x G) /\ x_poa (k_x F) = x_poa (k_x G) /\ k_u F = k_u G;
  sb_cov : forall s t, counts xp xv s = true -> counts xp xv t = true -> k_P F s t = k_P G s t }.
Definition same_result_but (xp xv : bool) (a b : option kf) : Prop :=
  match a, b with Some F, Some G => same_but xp xv F G | None, None => True | _, _ => False end.

(** a covariance without correlation between the external poses and the rest *)
Definition separated (P : bmat) : Prop := forall s t, counts true false s = true -> counts true false t = false -> P s t = mzero /\ P t s = mzero.
(** histories: external poses without feedback, noise of the external poses independent of the rest *)
Definition without_feedback (o : kop) : Prop :=
  match o with KMeas (MPose c _) _ _ => noFb c = true | KPredict _ _ Q => separated Q | _ => True end.
Definition not_pose (o : kop) : bool := match o with KMeas (MPose _ _) _ _ => false | _ => true end.

(** what a measurement is about *)
Definition is_some (o : option nat) (k : nat) : bool := match o with Some i => (i =? k)%nat | None => false end.
Definition informs (x : state) (ms : meas) (s : seg) : bool :=
  match ms with
  | MPix i k _ _ | MDirect i k _ _ =>
      match s with
      | Fea j => (j =? i)%nat
      | Vep c | Vea c => a_calib (x_aux x) && negb (ft_cam (x_fea x i) =? Z.of_nat k)%Z && ((c =? k)%nat || (c =? fcam x i)%nat)
      | _ => false
      end
  | MPose c _ =>
      match s with
      | Pos => enPos c && negb (noFb c)
      | Att => (enPos c || enAtt c) && negb (noFb c)
      | Pop k => enPos c && (is_some (body c) k || is_some (inertial c) k)
      | Poa k => (enAtt c && is_some (body c) k) || ((enPos c || enAtt c) && is_some (inertial c) k)
      | _ => false
      end
  | MVel _ _ | MZero => match s with Vel => true | _ => false end
  end.
(** the part [s] of two states is the same *)
Definition same_part (s : seg) (x y : state) : Prop :=
  match s with
  | Pos => x_pos x = x_pos y | Vel => x_vel x = x_vel y | Acb => x_acb x = x_acb y | Gyb => x_gyb x = x_gyb y | Att => x_att x = x_att y
  | Vep c => x_vep x c = x_vep y c | Vea c => x_vea x c = x_vea y c | Fea i => x_fea x i = x_fea y i
  | Pop k => x_pop x k = x_pop y k | Poa k => x_poa x k = x_poa y k
  end.
(** the measurement is what the state predicts; [u]: the fixed part of the external frames *)
Definition agrees (cams : nat -> camera) (frame : V3 -> M3) (u : pupd) (ms : meas) (x : state) : Prop :=
  match ms with
  | MPix i k dold c => predicted cams frame dold k i x = Some c
  | MDirect i k dold eqs => exists c A, predicted cams frame dold k i x = Some c /\ eqs k c = Some (A, (0, 0))
  | MPose c m =>
      (enPos c = true -> vadd (get_IrIW c u x) (mv (mt (get_qWI c u x)) (vadd (x_pos x) (mv (x_att x) (get_MrMV c u x)))) = m_pos m) /\
      (enAtt c = true -> mm (mm (get_qVM c u x) (mt (x_att x))) (get_qWI c u x) = m_att m /\ is_rot (m_att m))
  | MVel q v => mv q (x_vel x) = vneg v
  | MZero => x_vel x = v0
  end.
