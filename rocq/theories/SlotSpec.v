(** When two filters hold the same estimate, as far as the features in use go. *)
From Coq Require Import Reals ZArith List Bool.
From Verif Require Import Geo DistModel FiltModel UpdModel SlotModel.
Local Open Scope R_scope.

(** everything but the free slots belongs to the estimate *)
Definition live (used : nat -> bool) (s : seg) : Prop := match s with Fea i => used i = true | _ => True end.

Record same_state (used : nat -> bool) (x y : state) : Prop := {
  ss_pos : x_pos x = x_pos y; ss_vel : x_vel x = x_vel y; ss_acb : x_acb x = x_acb y; ss_gyb : x_gyb x = x_gyb y; ss_att : x_att x = x_att y;
  ss_vep : x_vep x = x_vep y; ss_vea : x_vea x = x_vea y; ss_pop : x_pop x = x_pop y; ss_poa : x_poa x = x_poa y; ss_aux : x_aux x = x_aux y;
  ss_fea : forall i, used i = true -> x_fea x i = x_fea y i }.
Record same_estimate (F G : kf) : Prop := {
  se_used : k_used F = k_used G;
  se_upd : k_u F = k_u G;
  se_state : same_state (k_used F) (k_x F) (k_x G);
  se_cov : forall s t, live (k_used F) s -> live (k_used F) t -> k_P F s t = k_P G s t }.

(** a filter with all free slots as good as new: feature [f0], unit covariance, no correlation *)
Definition liveb (used : nat -> bool) (s : seg) : bool := match s with Fea i => used i | _ => true end.
Definition wipe (f0 : feat) (F : kf) : kf :=
  {| k_x := {| x_pos := x_pos (k_x F); x_vel := x_vel (k_x F); x_acb := x_acb (k_x F); x_gyb := x_gyb (k_x F); x_att := x_att (k_x F);
               x_vep := x_vep (k_x F); x_vea := x_vea (k_x F); x_fea := fun i => if k_used F i then x_fea (k_x F) i else f0;
               x_pop := x_pop (k_x F); x_poa := x_poa (k_x F); x_aux := x_aux (k_x F) |};
     k_P := fun s t => if liveb (k_used F) s && liveb (k_used F) t then k_P F s t else if seg_eq s t then m1 else mzero;
     k_used := k_used F; k_u := k_u F |}.
(** results of two runs: both broken off or both with the same estimate *)
Definition same_result (a b : option kf) : Prop :=
  match a, b with Some F, Some G => same_estimate F G | None, None => True | _, _ => False end.
(** slot [i] has no correlation with the rest *)
Definition uncorrelated (F : kf) (i : nat) : Prop := forall s, s <> Fea i -> k_P F (Fea i) s = mzero /\ k_P F s (Fea i) = mzero.

(** ** entries of the covariance matrix *)
From Verif Require Import CovModel.
(** first index of a segment in the state vector *)
Definition seg_id (n : dims) (s : seg) : nat :=
  let l := state_layout (d_cam n) (d_max n) (d_pose n) in
  match s with
  | Pos => get_id l _pos 0 | Vel => get_id l _vel 0 | Acb => get_id l _acb 0 | Gyb => get_id l _gyb 0 | Att => get_id l _att 0
  | Vep c => get_id l _vep c | Vea c => get_id l _vea c | Fea i => get_id l _fea i | Pop k => get_id l _pop k | Poa k => get_id l _poa k
  end.
Definition comp (v : V3) (a : nat) : R := match a with 0 => vx v | 1 => vy v | _ => vz v end%nat.
Definition ent (M : M3) (a b : nat) : R := comp (match a with 0 => r0 M | 1 => r1 M | _ => r2 M end%nat) b.
(** the matrix [m] consists of the blocks [P] *)
Definition represents (n : dims) (m : mat) (P : bmat) : Prop := forall s t a b, seg_in n s -> seg_in n t -> (a < 3)%nat -> (b < 3)%nat ->
  m (seg_id n s + a)%nat (seg_id n t + b)%nat = ent (P s t) a b.
(** a 3x3 initial covariance (distance parameter first) in the order of the state (distance parameter last) *)
Definition state_order (c : mat) : M3 :=
  ((c 1 1, c 1 2, c 1 0), (c 2 1, c 2 2, c 2 0), (c 0 1, c 0 2, c 0 0))%nat.
