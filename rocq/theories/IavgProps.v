(** C77 in IEEE-754 arithmetic: what the measured difference of two patches can be. *)
From Coq Require Import List ZArith Bool Reals Lia Lra.
From Flocq Require Import Core BinarySingleNaN.
From Verif Require Import IeeeModel IeeeSpec IscoreSpec NanModel IavgModel IavgSpec IeeeProofs IavgProofs IavgReal.
Import ListNotations.
Local Open Scope R_scope.

(** the difference of two patches of grey values is a proper number that cannot be negative; 1024 is
    far from overflow *)
Theorem C77_ieee_difference_defined : forall n l1 l2 P P', (0 < n)%nat -> (l1 <= l2)%nat ->
  (Z.of_nat (n * n * (l2 - l1 + 1)) <= 32768)%Z -> grey_patch n P l1 l2 -> grey_patch n P' l1 l2 ->
  exists r, average_difference32 n P P' l1 l2 = Some r /\ finite r /\ 0 <= real r <= 1024.
Proof. exact (fun n l1 l2 P P' N L C H H' => avg_ok n l1 l2 P P' H H' N L C). Qed.
Print Assumptions C77_ieee_difference_defined.

(** and it is the root mean square deviation of the exact differences from their mean, up to the rounding
    of the float sums, which grows with the number of pixels *)
Theorem C77_ieee_difference_accurate : forall n l1 l2 P P', (0 < n)%nat -> (l1 <= l2)%nat ->
  (Z.of_nat (n * n * (l2 - l1 + 1)) <= 32768)%Z -> grey_patch n P l1 l2 -> grey_patch n P' l1 l2 ->
  let pixels := INR (n * n * (l2 - l1 + 1)) in let exact := deviation (exact_differences n P P' l1 l2) in
  exists r, average_difference32 n P P' l1 l2 = Some r /\ Rabs (real r - exact) <= (pixels + 10) / 32000 + (pixels + 2) / 4000000 * exact.
Proof. exact (fun n l1 l2 P P' N L C H H' => acc n l1 l2 P P' H H' N L C). Qed.
Print Assumptions C77_ieee_difference_accurate.

(** a uniform change of brightness by a whole number of grey values measures as exactly zero: the
    rounding of sum, mean and squares does not leave a remainder *)
Theorem C77_ieee_uniform_brightness : forall n l1 l2 P P' c, (0 < n)%nat -> (l1 <= l2)%nat ->
  (Z.of_nat (n * n * (l2 - l1 + 1)) <= 32768)%Z -> grey_patch n P l1 l2 -> grey_patch n P' l1 l2 ->
  (Z.abs c <= 512)%Z -> brighter_by (IZR c) n P P' l1 l2 ->
  exists r, average_difference32 n P P' l1 l2 = Some r /\ finite r /\ real r = 0.
Proof. exact (fun n l1 l2 P P' c N L C H H' Hc U => avg_zero n l1 l2 P P' H H' N L C c Hc U). Qed.
Print Assumptions C77_ieee_uniform_brightness.

(** an unchanged patch never counts as moved, whatever the smaller eigenvalue of its gradient matrix is
    (zero, negative, infinite or not a number included) *)
Theorem C77_ieee_unchanged_not_moving : forall n l1 l2 P P' c e1 th, (0 < n)%nat -> (l1 <= l2)%nat ->
  (Z.of_nat (n * n * (l2 - l1 + 1)) <= 32768)%Z -> grey_patch n P l1 l2 -> grey_patch n P' l1 l2 ->
  (Z.abs c <= 512)%Z -> brighter_by (IZR c) n P P' l1 l2 -> threshold th ->
  feature_moves32 n P P' l1 l2 e1 th = Some false.
Proof.
  intros n l1 l2 P P' c e1 th N L C H H' Hc U T. destruct (avg_zero n l1 l2 P P' H H' N L C c Hc U) as (r & E & Fr & Er).
  unfold feature_moves32. rewrite E. cbn [obind]. now rewrite (zero_not_moving r e1 th Fr Er T).
Qed.
Print Assumptions C77_ieee_unchanged_not_moving.

(** a one-pixel patch on two levels, five grey values brighter than before *)
Definition ex_now : list (list f32) := [[f32_of_Z 10]; [f32_of_Z 20]].
Definition ex_then : list (list f32) := [[f32_of_Z 5]; [f32_of_Z 15]].
Example C77_ieee_hypotheses_met : grey_patch 1 ex_now 0 1 /\ grey_patch 1 ex_then 0 1 /\ brighter_by 5 1 ex_now ex_then 0 1 /\ threshold (B754_zero false) /\
  (exists r, average_difference32 1 ex_now ex_then 0 1 = Some r /\ real r = 0).
Proof.
  assert (G : forall a b, (0 <= a <= 256)%Z -> (0 <= b <= 256)%Z -> grey_patch 1 [[f32_of_Z a]; [f32_of_Z b]] 0 1).
  { intros a b Ha Hb. destruct (of_Z32 a ltac:(lia)) as [Fa Va]. destruct (of_Z32 b ltac:(lia)) as [Fb Vb].
    assert (IZR 0 <= IZR a <= IZR 256 /\ IZR 0 <= IZR b <= IZR 256) by (repeat split; apply IZR_le; lia).
    split; [cbn; lia|]. intros [|[|l]] Hl; [| |lia]; cbn; (split; [reflexivity|]; intros v [<-|[]]; split; [assumption|]; unfold real; first [rewrite Va|rewrite Vb]; rewrite Rabs_pos_eq; lra). }
  split; [apply G; lia|]. split; [apply G; lia|].
  assert (B : brighter_by 5 1 ex_now ex_then 0 1).
  { intros [|[|l]] [|i] Hl Hi; try (cbn in Hi; lia); try lia; cbn [nth ex_now ex_then]; unfold real.
    - rewrite (proj2 (of_Z32 10 ltac:(lia))), (proj2 (of_Z32 5 ltac:(lia))). lra.
    - rewrite (proj2 (of_Z32 20 ltac:(lia))), (proj2 (of_Z32 15 ltac:(lia))). lra. }
  split; [exact B|]. split; [reflexivity|].
  destruct (C77_ieee_uniform_brightness 1 0 1 ex_now ex_then 5 ltac:(lia) ltac:(lia) ltac:(cbn; lia) ltac:(apply G; lia) ltac:(apply G; lia) ltac:(lia) B) as (r & E & _ & Er). exists r. split; [exact E|exact Er].
Qed.
(** the same patch against one that is brighter on the first level only: the exact deviation is 5/2 *)
Definition ex_other : list (list f32) := [[f32_of_Z 5]; [f32_of_Z 20]].
Example C77_ieee_accuracy_case : deviation (exact_differences 1 ex_now ex_other 0 1) = 5 / 2.
Proof.
  assert (E : exact_differences 1 ex_now ex_other 0 1 = [5; 0]).
  { cbn [exact_differences flat_map app map seq Nat.mul Nat.add Nat.sub nth ex_now ex_other]. unfold real.
    rewrite (proj2 (of_Z32 10 ltac:(lia))), (proj2 (of_Z32 5 ltac:(lia))), (proj2 (of_Z32 20 ltac:(lia))). repeat f_equal; lra. }
  rewrite E. unfold deviation, mean, total. cbn [map fold_right length INR]. replace (_ / _) with (5 / 2 * (5 / 2)) by lra. apply sqrt_square. lra.
Qed.
