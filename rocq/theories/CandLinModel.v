(** Model of the numbers of the candidate generation, include/rovio/ImgUpdate.hpp 445-471, over an ordered field.

    [H] is canditateGenerationH_ (minus the Jacobian of the predicted pixel, line 454), [P] the covariance, [V] and [lam]
    the eigenvectors (columns) and eigenvalues returned by the eigensolver. The state is any type with a boxPlus. *)
Set Warnings "-notation-overridden,-ambiguous-paths".
From mathcomp Require Import all_ssreflect all_algebra.
From Coq Require Import ZArith.
Set Implicit Arguments. Unset Strict Implicit. Unset Printing Implicit Defensive.
Import GRing.Theory Num.Theory.
Local Open Scope ring_scope.

Section Lin.
Variables (F : realFieldType) (D : nat) (State : Type) (box : State -> 'cV[F]_D -> State).
Variables (H : 'M[F]_(2, D)) (P : 'M[F]_D) (V : 'M[F]_2) (lam : 'I_2 -> F) (r cov : F).

(** int to double *)
Definition of_Z (z : Z) : F := match z with Z0 => 0 | Zpos p => (Pos.to_nat p)%:R | Zneg p => - (Pos.to_nat p)%:R end.
(** line 455 *)
Definition Py : 'M[F]_2 := H *m P *m H^T.
(** lines 465-466; [r] is alignConvergencePixelRange_, [cov] is alignCoverageRatio_ *)
Definition in_ellipse (u v : Z) : bool := (of_Z u * r) ^+ 2 / lam 0 + (of_Z v * r) ^+ 2 / lam 1 < cov ^+ 2.
(** lines 467-468 *)
Definition offset (u v : Z) : 'cV[F]_2 := (of_Z u * r) *: col 0 V + (of_Z v * r) *: col 1 V.
(** line 469 *)
Definition dif (dy : 'cV[F]_2) : 'cV[F]_D := - P *m H^T *m invmx Py *m dy.
(** line 470 *)
Definition candidate (x : State) (u v : Z) : State := box x (dif (offset u v)).
End Lin.
