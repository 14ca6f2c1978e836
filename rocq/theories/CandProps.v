(** Property C37: generation of linearisation candidates. *)
From Coq Require Import List ZArith Bool Lia.
From Verif Require Import Util FsetModel CandModel CandSpec CandProofs.
Import ListNotations.
Local Open Scope Z_scope.

(** ** Enumeration of the search grid *)
Theorem C37_grid_is_a_square : forall n, 0 <= n ->
  NoDup (grid n) /\ (forall u v, In (u, v) (grid n) <-> (- n <= u <= n) /\ (- n <= v <= n)) /\
  Z.of_nat (length (grid n)) = (2 * n + 1) * (2 * n + 1).
Proof. intros n Hn. split; [apply nodup_grid|]. split; [intros; now apply in_grid|now apply grid_len]. Qed.
Print Assumptions C37_grid_is_a_square.

(** successive calls return exactly the samples of the grid that lie inside, each once, and then report exhaustion *)
Theorem C37_samples_are_enumerated_once_then_exhausted : forall n inside fuel j,
  0 <= n -> (2 * n + 1) * (2 * n + 1) < int_max -> (2 * n + 1) * (2 * n + 1) + Z.of_nat j <= int_max -> (length (grid n) < fuel)%nat ->
  let hits := filter (fun p => inside (fst p) (snd p)) (grid n) in
  exists c, samples n inside fuel (length hits + j) 0 = Ok (map Some hits ++ repeat None j, c).
Proof. intros n inside fuel j Hn Hm Hj Hf. apply samples_all; auto. now rewrite grid_len. Qed.
Print Assumptions C37_samples_are_enumerated_once_then_exhausted.

Example C37_ex_diamond : exists c, samples 1 (fun u v => Z.abs u + Z.abs v <=? 1) 20 7 0 =
  Ok ([Some (-1, 0); Some (0, -1); Some (0, 0); Some (0, 1); Some (1, 0); None; None], c).
Proof. eexists. vm_compute. reflexivity. Qed.

(** a grid with at least as many samples as the largest int overflows the counter *)
Theorem C37_oversized_grid_overflows_refuted : exists n, 0 <= n <= 23170 /\
  exists fuel0, forall fuel, (fuel0 <= fuel)%nat -> next_sample n (fun _ _ => false) fuel 0 = UB.
Proof. exists 23170. split; [lia|]. apply overflow; [lia|]. unfold int_max. lia. Qed.
Print Assumptions C37_oversized_grid_overflows_refuted.

(** ** The candidates themselves *)
Set Warnings "-notation-overridden,-ambiguous-paths".
From mathcomp Require Import all_ssreflect all_algebra.
From Verif Require Import CandLinModel CandLin.
Import Order.TTheory GRing.Theory Num.Theory.
Local Open Scope ring_scope.

(** [- H] is the Jacobian of the predicted pixel: a candidate moves the predicted pixel, to first order, by exactly the
    grid offset *)
Theorem C37_candidate_moves_pixel_by_offset : forall (F : realFieldType) D (H : 'M[F]_(2, D)) (P : 'M[F]_D) (V : 'M[F]_2) r u v,
  Py H P \in unitmx -> - H *m dif H P (offset V r u v) = (of_Z F u * r) *: col 0 V + (of_Z F v * r) *: col 1 V.
Proof. move=> F D H P V r u v U. exact: pixel_moves_by. Qed.
Print Assumptions C37_candidate_moves_pixel_by_offset.

(** a sample is used iff its candidate lies within the coverage ratio of the predicted uncertainty *)
Theorem C37_sample_used_iff_within_uncertainty : forall (F : realFieldType) D (H : 'M[F]_(2, D)) (P : 'M[F]_D) (V : 'M[F]_2) lam r cov u v,
  P^T = P -> P \in unitmx -> V^T *m V = 1%:M -> Py H P = V *m diag_mx (\row_i lam i) *m V^T -> (forall i, 0 < lam i) ->
  in_ellipse lam r cov u v = (mahal2 P (dif H P (offset V r u v)) < cov ^+ 2).
Proof.
move=> F D H P V lam r cov u v S UP O E L.
have N i : lam i != 0 by rewrite gt_eqF.
have U : Py H P \in unitmx.
  have VV : V *m V^T = 1%:M by apply: mulmx1C.
  have [UV UT] := mulmx1_unit O.
  rewrite E !unitmx_mul UV UT andbT /= unitmxE det_diag big_ord_recl big_ord_recl big_ord0 mulr1 unitfE !mxE.
  by rewrite mulf_neq0.
by rewrite dif_mahal // (ellipse_mahal r u v O E N).
Qed.
Print Assumptions C37_sample_used_iff_within_uncertainty.

(** no other state correction that moves the pixel like that is closer *)
Theorem C37_candidate_is_closest : forall (F : realFieldType) D (H : 'M[F]_(2, D)) (P : 'M[F]_D) dy d,
  P^T = P -> P \in unitmx -> Py H P \in unitmx -> (forall x, 0 <= mahal2 P x) ->
  - H *m d = dy -> mahal2 P (dif H P dy) <= mahal2 P d.
Proof. move=> F D H P dy d. exact: dif_least. Qed.
Print Assumptions C37_candidate_is_closest.

(** the current state itself is always among the candidates *)
Theorem C37_current_state_is_a_candidate : forall (F : realFieldType) D State (box : State -> 'cV[F]_D -> State) H P V lam r cov x,
  cov != 0 -> in_ellipse lam r cov 0 0 /\ candidate box H P V r x 0 0 = box x 0.
Proof.
move=> F D State box H P V lam r cov x C. split.
  rewrite /in_ellipse /= !mul0r expr0n /= !mul0r addr0. by rewrite lt_def sqr_ge0 expf_neq0.
by rewrite /candidate /offset /= !mul0r !scale0r addr0 /dif mulmx0.
Qed.
Print Assumptions C37_current_state_is_a_candidate.

(** a concrete filter: three state variables, the first two of which are the pixel, deviations 2 and 3 *)
Definition ex_H : 'M[rat]_(2, 3) := \matrix_(i, j) (if (i : nat) == j then -1 else 0).
Definition ex_P : 'M[rat]_3 := diag_mx (\row_i (if i == 0 then 4 else if i == 1 then 9 else 1)).
Definition ex_lam (i : 'I_2) : rat := if i == 0 then 4 else 9.
Example C37_ex_filter : ex_P^T = ex_P /\ ex_P \in unitmx /\ (1%:M : 'M[rat]_2)^T *m 1%:M = 1%:M /\
  Py ex_H ex_P = 1%:M *m diag_mx (\row_i ex_lam i) *m 1%:M^T /\ (forall i, 0 < ex_lam i) /\ Py ex_H ex_P \in unitmx.
Proof.
have E : Py ex_H ex_P = 1%:M *m diag_mx (\row_i ex_lam i) *m 1%:M^T.
  rewrite trmx1 mul1mx mulmx1. apply/matrixP => i j. rewrite /Py mxE !big_ord_recl big_ord0 !mxE !big_ord_recl !big_ord0 !mxE /=.
  by case: i => [[|[|i]] Hi]; case: j => [[|[|j]] Hj] //=; apply/eqP.
have L i : 0 < ex_lam i by rewrite /ex_lam; case: ifP.
split; first by rewrite tr_diag_mx.
split.
  rewrite unitmxE det_diag unitfE. apply/prodf_neq0 => i _. rewrite mxE. by case: ifP => // _; case: ifP.
split; first by rewrite trmx1 mulmx1.
split; first exact: E.
split; first exact: L.
rewrite E trmx1 mulmx1 mul1mx unitmxE det_diag unitfE. apply/prodf_neq0 => i _. by rewrite mxE gt_eqF.
Qed.
