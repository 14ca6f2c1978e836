(** What the best linear estimate of the error state from a linearised measurement is. The error state [e] has
    the covariance [P]; what is measured is r = H e + w, where w has the covariance [Rn] and is not correlated
    with e. *)
From Coq Require Import Reals ZArith List Bool Arith.
From Verif Require Import Geo DistModel FiltModel UpdModel SlotModel KalSpec.
Import ListNotations.
Local Open Scope R_scope.

(** a linear estimator: for each component of the measurement the correction per unit *)
Definition gain := nat -> tangent.
(** the estimate from the measurement [r] of [m] components *)
Definition applied (m : nat) (L : gain) (r : nat -> R) : tangent := fun s => isum m (fun i => vscale (r i) (L i s)).
(** the combination [v] of what the estimator makes of one unit of component [i] *)
Definition weight (n : dims) (L : gain) (v : tangent) (i : nat) : R := rsum (segs n) (fun s => dot (v s) (L i s)).
(** variance of the combination [v] of the remaining error e - L (H e + w) *)
Definition error_variance (n : dims) (P : bmat) (H : list row) (Rn : list (list R)) (L : gain) (v : tangent) : R :=
  variance n P (fun s => vsub (v s) (isum (length H) (fun i => vscale (weight n L v i) (nth i H zrow s)))) + form (length H) Rn (weight n L v).
(** [d] is the estimate from [r] of an estimator whose remaining error has the covariance [P'], and no linear
    estimator leaves a smaller error in any combination of the error state *)
Definition best_estimate (n : dims) (P : bmat) (H : list row) (Rn : list (list R)) (r : nat -> R) (d : tangent) (P' : bmat) : Prop :=
  exists K : gain, (forall s, d s = applied (length H) K r s) /\ (forall v, variance n P' v = error_variance n P H Rn K v) /\
    forall L v, error_variance n P H Rn K v <= error_variance n P H Rn L v.

(** [f]: the measurement linearised at a state, innovation [y] and Jacobian [H]. At the error e the innovation is
    y + H (e - d0) + w, which would be zero: what is measured is H d0 - y. *)
Definition best_at (n : dims) (P : bmat) (Rn : list (list R)) (f : state -> option lin) (x : state) (d0 d : tangent) (P' : bmat) : Prop :=
  exists y H, f (boxplus x d0) = Some (y, H) /\ length y = length H /\
    best_estimate n P H Rn (fun i => rsum (segs n) (fun s => dot (nth i H zrow s) (d0 s)) - nth i y 0) d P'.
(** [k] times linearised again, each time at the estimate so far *)
Inductive estimated (n : dims) (P : bmat) (Rn : list (list R)) (f : state -> option lin) (x : state) : nat -> tangent -> bmat -> Prop :=
| E_first d P' : best_at n P Rn f x (fun _ => v0) d P' -> estimated n P Rn f x 0 d P'
| E_next k d0 P0 d P' : estimated n P Rn f x k d0 P0 -> best_at n P Rn f x d0 d P' -> estimated n P Rn f x (S k) d P'.
