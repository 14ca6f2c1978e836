(** MultilevelPatch::computeAverageDifference (/repo/include/rovio/MultilevelPatch.hpp 155-179) in IEEE-754 arithmetic.
    std::pow(float,int) is evaluated in double precision, where the square of a float is exact: so it is taken to be, and
    contracting it into the sum would change nothing. *)
From Coq Require Import List ZArith Bool.
From Flocq Require Import Core BinarySingleNaN.
From Verif Require Import IeeeModel IscoreModel NanModel.
Import ListNotations.

(** patches_[l].patch_[i]; a read outside is [None] *)
Definition pixel32 (P : list (list f32)) (l i : nat) : option f32 := obind (nth_error P l) (fun p => nth_error p i).
(** *it_patch - *it_patch_in over the loops of lines 157-165 and 168-176 *)
Definition differences32 (n : nat) (P P' : list (list f32)) (l1 l2 : nat) : option (list f32) :=
  collect (flat_map (fun l => map (fun i => obind (pixel32 P l i) (fun a => obind (pixel32 P' l i) (fun b => Some (sub32 a b)))) (seq 0 (n * n))) (seq l1 (l2 + 1 - l1))).
(** error += std::pow(x,2), line 173: a double sum, stored as float *)
Definition add_square (e x : f32) : f32 := narrow (add64 (widen e) (mul64 (widen x) (widen x))).
(** patchSize*patchSize*(l2-l1+1), lines 166 and 177, converted to float *)
Definition count32 (n l1 l2 : nat) : f32 := f32_of_Z (Z.of_nat (n * n * (l2 - l1 + 1))).
(** the whole function *)
Definition average_difference32 (n : nat) (P P' : list (list f32)) (l1 l2 : nat) : option f32 :=
  obind (differences32 n P P' l1 l2) (fun ds =>
  let offset := div32 (fold_left add32 ds zero32) (count32 n l1 l2) in
  let error := div32 (fold_left (fun e d => add_square e (sub32 d offset)) ds zero32) (count32 n l1 l2) in
  Some (sqrt32 error)).
(** ImgUpdate.hpp 619-622: whether a feature counts as moving; [None]: read outside a patch *)
Definition feature_moves32 (n : nat) (P P' : list (list f32)) (l1 l2 : nat) (e1 th : f32) : option bool :=
  obind (average_difference32 n P P' l1 l2) (fun err => Some (moving32 err e1 th)).
