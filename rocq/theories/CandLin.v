(** Candidates move the predicted pixel by the grid offset with the least Mahalanobis distance (C37). *)
Set Warnings "-notation-overridden,-ambiguous-paths".
From mathcomp Require Import all_ssreflect all_algebra.
From Coq Require Import ZArith.
From Verif Require Import CandLinModel.
Set Implicit Arguments. Unset Strict Implicit. Unset Printing Implicit Defensive.
Import GRing.Theory Num.Theory.
Local Open Scope ring_scope.

(** squared Mahalanobis distance of a vector for a covariance matrix *)
Definition mahal2 (F : fieldType) (k : nat) (S : 'M[F]_k) (x : 'cV[F]_k) : F := (x^T *m invmx S *m x) 0 0.

Section Lin.
Variables (F : realFieldType) (D : nat).
Variables (H : 'M[F]_(2, D)) (P : 'M[F]_D) (V : 'M[F]_2) (lam : 'I_2 -> F) (r cov : F).
Local Notation Py := (Py H P).
Local Notation dif := (dif H P).

Lemma trN (m k : nat) (A : 'M[F]_(m, k)) : (- A)^T = - A^T.
Proof. by apply/matrixP => i j; rewrite !mxE. Qed.

Lemma trB (m k : nat) (A B : 'M[F]_(m, k)) : (A - B)^T = A^T - B^T.
Proof. by apply/matrixP => i j; rewrite !mxE. Qed.

Lemma pixel_moves_by dy : Py \in unitmx -> - H *m dif dy = dy.
Proof.
move=> U. rewrite /CandLinModel.dif !mulNmx mulmxN opprK !mulmxA.
by rewrite -/(CandLinModel.Py H P) mulmxV // mul1mx.
Qed.

Lemma py_sym : P^T = P -> Py^T = Py.
Proof. by move=> S; rewrite /CandLinModel.Py !trmx_mul trmxK S mulmxA. Qed.

Lemma dif_mahal dy : P^T = P -> P \in unitmx -> Py \in unitmx -> mahal2 P (dif dy) = mahal2 Py dy.
Proof.
move=> S UP U. rewrite /mahal2. congr (_ 0 0).
rewrite /CandLinModel.dif !mulNmx trN !mulNmx mulmxN opprK.
rewrite !trmx_mul trmxK S trmx_inv (py_sym S) !mulmxA.
rewrite -(mulmxA _ P (invmx P)) mulmxV // mulmx1 -(mulmxA _ H P) -(mulmxA _ (H *m P)) -/(CandLinModel.Py H P).
by rewrite -(mulmxA _ (invmx Py) Py) mulVmx // mulmx1.
Qed.

(** any other displacement with the same effect on the pixel is at least as far away *)
Lemma dif_least dy d : P^T = P -> P \in unitmx -> Py \in unitmx -> (forall x, 0 <= mahal2 P x) ->
  - H *m d = dy -> mahal2 P (dif dy) <= mahal2 P d.
Proof.
move=> S UP U POS E. rewrite dif_mahal //.
(* d = dif dy + e with H e = 0; the cross term vanishes *)
have C : (dif dy)^T *m invmx P *m d = dy^T *m invmx Py *m dy.
  rewrite /CandLinModel.dif !mulNmx trN !mulNmx !trmx_mul trmxK S trmx_inv (py_sym S) !mulmxA.
  rewrite -(mulmxA _ P (invmx P)) mulmxV // mulmx1 -(mulmxA _ H d) -mulmxN.
  by rewrite -E mulNmx.
have := POS (d - dif dy). rewrite /mahal2 => Q.
have T : (d - dif dy)^T *m invmx P *m (d - dif dy) = d^T *m invmx P *m d - dy^T *m invmx Py *m dy.
  have C' : d^T *m invmx P *m dif dy = dy^T *m invmx Py *m dy.
    have -> : d^T *m invmx P *m dif dy = ((dif dy)^T *m invmx P *m d)^T.
      have tm (a b c : nat) (A : 'M[F]_(a, b)) (B : 'M[F]_(b, c)) : (A *m B)^T = B^T *m A^T := trmx_mul A B.
      by rewrite (tm _ _ _ _ d) (tm _ _ _ _ (invmx P)) trmxK trmx_inv S mulmxA.
    by rewrite C !trmx_mul trmxK trmx_inv (py_sym S) mulmxA.
  have M : (dif dy)^T *m invmx P *m dif dy = dy^T *m invmx Py *m dy.
    have := dif_mahal dy S UP U. rewrite /mahal2 => M.
    by apply/matrixP => i j; rewrite !ord1.
  by rewrite trB !mulmxBl !mulmxBr C C' M subrr subr0.
move: Q. by rewrite T !mxE subr_ge0.
Qed.

(** the ellipse test is the Mahalanobis test for the predicted pixel covariance *)
Lemma ellipse_mahal u v : V^T *m V = 1%:M -> Py = V *m diag_mx (\row_i lam i) *m V^T -> (forall i, lam i != 0) ->
  mahal2 Py (offset V r u v) = (of_Z F u * r) ^+ 2 / lam 0 + (of_Z F v * r) ^+ 2 / lam 1.
Proof.
move=> O E N.
have UV : V^T *m V = 1%:M by [].
have VV : V *m V^T = 1%:M by apply: mulmx1C.
pose w : 'cV[F]_2 := \col_i (if i == 0 then of_Z F u * r else of_Z F v * r).
have W : offset V r u v = V *m w.
  apply/matrixP => i j. rewrite !mxE !big_ord_recl big_ord0 !mxE /= addr0.
  have -> : lift ord0 ord0 = 1 :> 'I_2 by apply: val_inj.
  by rewrite (mulrC (V i ord0)) (mulrC (V i 1)).
pose L := diag_mx (\row_i lam i). pose L' : 'M[F]_2 := diag_mx (\row_i (lam i)^-1).
have LL : L *m L' = 1%:M.
  rewrite /L /L' mul_diag_mx. apply/matrixP => i j. rewrite !mxE. case: eqP => [->|_]; last by rewrite mulr0n mulr0.
  by rewrite !mulr1n mulfV.
have I : invmx Py = V *m L' *m V^T.
  have X : Py *m (V *m L' *m V^T) = 1%:M.
    by rewrite E -/L !mulmxA -(mulmxA _ V^T V) UV mulmx1 -(mulmxA _ L L') LL mulmx1.
  have U : Py \in unitmx by case/mulmx1_unit: X.
  by rewrite -[LHS]mulmx1 -X mulKmx.
rewrite /mahal2 I W trmx_mul !mulmxA -(mulmxA _ V^T V) UV mulmx1 -(mulmxA _ V^T V) UV mulmx1.
rewrite !mxE !big_ord_recl big_ord0 !mxE !big_ord_recl !big_ord0 !mxE /= !mulr1n !mulr0n !mulr0 !addr0 !add0r.
have -> : lift ord0 ord0 = 1 :> 'I_2 by apply: val_inj.
by rewrite !expr2 (mulrAC _ (lam 0)^-1) (mulrAC _ (lam 1)^-1).
Qed.
End Lin.
