(** Model of MultilevelPatch::computeAverageDifference (/repo/include/rovio/MultilevelPatch.hpp 155-179)
    over the reals (float rounding is not modelled). *)
From Coq Require Import List Reals.
From Verif Require Import PatchModel.
Import ListNotations.
Local Open Scope R_scope.

(** patches_[l].patch_ of the levels of a multilevel patch; a read outside is [None] *)
Definition patches := list (list R).
Definition pixel_at (P : patches) (l i : nat) : option R := bind (nth_error P l) (fun p => nth_error p i).
(** *it_patch - *it_patch_in over the loops "for l, for y, for x", lines 157-165 and 168-176: the
    pointers run through the n*n entries of each level *)
Definition differences (n : nat) (P P' : patches) (l1 l2 : nat) : option (list R) :=
  seqo (flat_map (fun l => map (fun i => bind (pixel_at P l i) (fun a => bind (pixel_at P' l i) (fun b => Some (a - b)))) (seq 0 (n * n))) (seq l1 (l2 + 1 - l1))).
(** patchSize*patchSize*(l2-l1+1), lines 166, 177 *)
Definition avg_count (n l1 l2 : nat) : R := INR (n * n * (l2 - l1 + 1)).
(** computeAverageDifference, lines 155-179 *)
Definition average_difference (n : nat) (P P' : patches) (l1 l2 : nat) : option R :=
  bind (differences n P P' l1 l2) (fun ds =>
  let offset := fold_left Rplus ds 0 / avg_count n l1 l2 in
  let error := fold_left (fun e d => e + (d - offset) ^ 2) ds 0 / avg_count n l1 l2 in
  Some (sqrt error)).
