(** C30: computeAverageDifference. *)
From Coq Require Import List Reals Lra Lia Arith.
From Verif Require Import GradSpec AvgModel AvgSpec AvgProofs.
Import ListNotations.
Local Open Scope R_scope.

(** the result is the root mean square difference for the best brightness offset *)
Theorem C30_best_offset_rms : forall n P P' l1 l2, (0 < n)%nat -> (l1 <= l2)%nat -> filled n P l2 -> filled n P' l2 ->
  exists r b, average_difference n P P' l1 l2 = Some r /\ 0 <= r /\ r ^ 2 = mse n P P' l1 l2 b /\ forall b', r ^ 2 <= mse n P P' l1 l2 b'.
Proof. exact avg_best_offset. Qed.
Theorem C30_symmetric : forall n P P' l1 l2, (l1 <= l2)%nat -> filled n P l2 -> filled n P' l2 ->
  average_difference n P P' l1 l2 = average_difference n P' P l1 l2.
Proof. exact avg_symmetric. Qed.
Theorem C30_offset_invariant : forall n P P' l1 l2 b, (l1 <= l2)%nat -> filled n P l2 -> filled n P' l2 ->
  average_difference n (brighter b P) P' l1 l2 = average_difference n P P' l1 l2.
Proof. exact avg_brighter. Qed.
Theorem C30_zero_iff_constant_offset : forall n P P' l1 l2, (0 < n)%nat -> (l1 <= l2)%nat -> filled n P l2 -> filled n P' l2 ->
  average_difference n P P' l1 l2 = Some 0 <->
  exists b, forall l i, (l1 <= l <= l2)%nat -> (i < n * n)%nat -> value P l i = value P' l i + b.
Proof. exact avg_zero. Qed.
Theorem C30_triangle : forall n P P' P'' l1 l2, (l1 <= l2)%nat -> filled n P l2 -> filled n P' l2 -> filled n P'' l2 ->
  exists a b c, average_difference n P P' l1 l2 = Some a /\ average_difference n P' P'' l1 l2 = Some b /\
                average_difference n P P'' l1 l2 = Some c /\ c <= a + b.
Proof. exact avg_triangle. Qed.

Definition ex_P : patches := [[1; 2; 3; 4]; [0; 5; 0; 5]].
Definition ex_P' : patches := [[1; 1; 1; 1]; [2; 2; 2; 2]].
Example C30_ex : filled 2 ex_P 1 /\ filled 2 ex_P' 1.
Proof. split; (split; [cbn; lia|]); intros p Hp; cbn in Hp; destruct Hp as [<-|[<-|[]]]; reflexivity. Qed.
Example C30_ex_value : average_difference 2 ex_P ex_P' 0 0 = Some (sqrt (5 / 4)).
Proof. unfold average_difference. cbn -[pow]. f_equal. f_equal. unfold avg_count. cbn. field. Qed.

Print Assumptions C30_best_offset_rms.
Print Assumptions C30_symmetric.
Print Assumptions C30_offset_invariant.
Print Assumptions C30_zero_iff_constant_offset.
Print Assumptions C30_triangle.
