(** Vocabulary for C83. *)
From Coq Require Import Reals.
From Verif Require Import Geo DistModel FiltModel CovModel CovSpec BornModel.
Local Open Scope R_scope.

(** position in the body frame of the point at distance [d] along the bearing [n] of camera [c] *)
Definition point_at (x : state) (c : nat) (n : V3) (d : R) : V3 := vadd (MrMC x c) (mv (mt (qCM x c)) (vscale d n)).
(** cosine of the angle under which two rays of different cameras meet *)
Definition ray_cos (x : state) (c1 : nat) (n1 : V3) (c2 : nat) (n2 : V3) : R := dot (mv (mt (qCM x c1)) n1) (mv (mt (qCM x c2)) n2).
(** standard deviation of the distance, to first order, for a variance of its parameter *)
Definition sigma_distance (d : fdist) (var : R) : R := Rabs (distance_derivative d) * sqrt var.
(** the same set of covariance entries except those of the feature at [id] *)
Definition same_elsewhere (D id : nat) (m m' : mat) : Prop := forall i j, (i < D)%nat -> (j < D)%nat -> ~ belongs id i -> ~ belongs id j -> m' i j = m i j.
Definition uncorrelated (D id : nat) (m : mat) : Prop := forall i j, (i < D)%nat -> (j < D)%nat -> belongs id i -> ~ belongs id j -> m i j = 0 /\ m j i = 0.
(** no depth can be had from the next camera: there is none, it is not asked for, the patch was not found
    there, the rays are nearly parallel, or they meet at a point behind or within 1 cm of the camera *)
Inductive no_stereo (cf : bcfg) (x : state) (cam : nat) (nor1 : V3) : option V3 -> Prop :=
| one_camera seen : (b_ncam cf <= 1)%nat -> no_stereo cf x cam nor1 seen
| switched_off seen : b_stereo cf = false -> no_stereo cf x cam nor1 seen
| not_found : no_stereo cf x cam nor1 None
| parallel nor2 : 1 - ray_cos x cam nor1 ((cam + 1) mod b_ncam cf) nor2 ^ 2 < / 1000000 -> no_stereo cf x cam nor1 (Some nor2)
| too_near nor2 d1 d2 : norm nor2 = 1 -> point_at x cam nor1 d1 = point_at x ((cam + 1) mod b_ncam cf) nor2 d2 -> d1 < 1 / 100 -> no_stereo cf x cam nor1 (Some nor2).
