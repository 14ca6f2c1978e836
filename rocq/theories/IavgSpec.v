(** Vocabulary for C77 in IEEE-754 arithmetic. *)
From Coq Require Import List ZArith Reals.
From Flocq Require Import BinarySingleNaN.
From Verif Require Import IeeeModel IeeeSpec IscoreSpec.
Import ListNotations.
Local Open Scope R_scope.

(** a multilevel patch with n x n pixels on the levels [l1] to [l2], all grey values *)
Definition grey_patch (n : nat) (P : list (list f32)) (l1 l2 : nat) : Prop :=
  (l2 < length P)%nat /\ forall l, (l1 <= l <= l2)%nat -> length (nth l P []) = (n * n)%nat /\ intensities (nth l P []).
(** on these levels the first is brighter by [c] everywhere *)
Definition brighter_by (c : R) (n : nat) (P P' : list (list f32)) (l1 l2 : nat) : Prop :=
  forall l i, (l1 <= l <= l2)%nat -> (i < n * n)%nat -> real (nth i (nth l P []) (B754_zero false)) - real (nth i (nth l P' []) (B754_zero false)) = c.
(** a threshold that is not below zero (possibly not a number) *)
Definition threshold (th : f32) : Prop := Bltb th (B754_zero false) = false.

(** the exact differences of the pixels on these levels, their mean and the root mean square deviation from it *)
Definition exact_differences (n : nat) (P P' : list (list f32)) (l1 l2 : nat) : list R :=
  flat_map (fun l => map (fun i => real (nth i (nth l P []) (B754_zero false)) - real (nth i (nth l P' []) (B754_zero false))) (seq 0 (n * n))) (seq l1 (l2 + 1 - l1)).
Definition total (l : list R) : R := fold_right Rplus 0 l.
Definition mean (l : list R) : R := total l / INR (length l).
Definition deviation (l : list R) : R := sqrt (mean (map (fun d => (d - mean l) * (d - mean l)) l)).
