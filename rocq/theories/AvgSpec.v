(** Vocabulary for C30. *)
From Coq Require Import List Reals.
From Verif Require Import GradSpec AvgModel.
Local Open Scope R_scope.

(** pixel i of level l *)
Definition value (P : patches) (l i : nat) : R := nth i (nth l P nil) 0.
(** levels 0 .. l2 exist and hold n x n pixels *)
Definition filled (n : nat) (P : patches) (l2 : nat) : Prop :=
  (l2 < length P)%nat /\ forall p, In p P -> length p = (n * n)%nat.
(** mean over the pixels of the levels l1 .. l2 *)
Definition level_average (n l1 l2 : nat) (f : nat -> nat -> R) : R :=
  sum (l2 + 1 - l1) (fun k => sum (n * n) (fun i => f (l1 + k)%nat i)) / (INR (l2 + 1 - l1) * INR (n * n)).
(** mean squared difference after adding the brightness offset [b] to the second patch *)
Definition mse (n : nat) (P P' : patches) (l1 l2 : nat) (b : R) : R :=
  level_average n l1 l2 (fun l i => (value P l i - (value P' l i + b)) ^ 2).
Definition brighter (b : R) (P : patches) : patches := map (map (fun v => v + b)) P.
