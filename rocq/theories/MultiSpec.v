(** Vocabulary for C16 and C21. *)
From Coq Require Import Reals.
From Verif Require Import Geo DistModel DistSpec MultiModel.
Local Open Scope R_scope.

(** position of a feature in the body frame: camera position plus the ray rotated to the body frame *)
Definition body_point (e : extrinsics) (f : feat) : V3 :=
  vadd (BrBC e (f_cam f)) (mv (mt (qCB e (f_cam f))) (vscale (get_distance (f_dist f)) (f_nor f))).

Definition rigid (e : extrinsics) : Prop := forall i, is_rot (qCB e i).

(** distance of the feature from the centre of camera [i] *)
Definition range_from (e : extrinsics) (i : nat) (f : feat) : R := norm (vsub (body_point e f) (BrBC e i)).
