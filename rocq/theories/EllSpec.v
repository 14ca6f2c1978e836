(** Vocabulary for C79 and C80. *)
From Coq Require Import Reals.
From Verif Require Import EllModel.
Local Open Scope R_scope.

(** ** C79 *)
Definition symmetric (m : cov2) : Prop := v01 m = v10 m.
(** variance of the coordinate along the direction [u] *)
Definition variance (m : cov2) (u : R * R) : R := v00 m * fst u ^ 2 + (v01 m + v10 m) * fst u * snd u + v11 m * snd u ^ 2.
Definition semidefinite (m : cov2) : Prop := forall u, 0 <= variance m u.
Definition unit2 (u : R * R) : Prop := fst u ^ 2 + snd u ^ 2 = 1.
(** squared Mahalanobis distance times the determinant *)
Definition det2 (m : cov2) : R := v00 m * v11 m - v01 m * v10 m.
Definition mahalanobis (m : cov2) (d : R * R) : R := (v11 m * fst d ^ 2 - (v01 m + v10 m) * fst d * snd d + v00 m * snd d ^ 2) / det2 m.
(** what an eigenvalue solver returns: two independent unit eigenvectors with their eigenvalues *)
Definition eigenpair (m : cov2) (l : R) (v : R * R) : Prop := 
  v00 m * fst v + v01 m * snd v = l * fst v /\ v10 m * fst v + v11 m * snd v = l * snd v /\ unit2 v.
Definition solved (m : cov2) (e : eig) : Prop :=
  eigenpair m (e_l0 e) (e_v0 e) /\ eigenpair m (e_l1 e) (e_v1 e) /\ fst (e_v0 e) * snd (e_v1 e) - snd (e_v0 e) * fst (e_v1 e) <> 0.
Definition opposite (u : R * R) : R * R := (- fst u, - snd u).

(** ** C80 *)
(** angle at the corner [b] of the triangle a b c *)
Definition corner_angle (a b c : vec) : R := acos (dot (sub a b) (sub c b) / (norm (sub a b) * norm (sub c b))).
Definition origin : vec := {| vx := 0; vy := 0; vz := 0 |}.
(** the ray of direction [f] and the baseline [t] are not parallel *)
Definition oblique (f t : vec) : Prop := dot f f = 1 /\ dot f t ^ 2 < dot t t.
