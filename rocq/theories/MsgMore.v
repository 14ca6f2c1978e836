(** Proofs about the published covariances and the depth markers. *)
From Coq Require Import Reals ZArith List Bool Arith Lia Lra.
From Verif Require Import Geo DistModel DistProofs FiltModel FiltSpec OutModel MsgModel MsgSpec ViewDraw.
Import ListNotations.
Local Open Scope R_scope.

Lemma madd_0_r a : madd a mzero3 = a. Proof. unfold mzero3; veq. Qed.
Lemma mt_madd a b : mt (madd a b) = madd (mt a) (mt b). Proof. veq. Qed.
Lemma madd_swap a b c d : madd (madd a b) (madd c d) = madd (madd a c) (madd b d). Proof. veq. Qed.
Lemma mt_msum {A} (l : list A) f : mt (msum l f) = msum l (fun a => mt (f a)).
Proof. induction l as [|a l IH]; [reflexivity|]. cbn [msum fold_right]. fold (msum l f) (msum l (fun a => mt (f a))). now rewrite mt_madd, IH. Qed.
Lemma msum_ext {A} (l : list A) f g : (forall a, f a = g a) -> msum l f = msum l g.
Proof. intros H. induction l as [|a l IH]; [reflexivity|]. cbn [msum fold_right]. fold (msum l f) (msum l g). now rewrite H, IH. Qed.
Lemma msum_zero {A} (l : list A) : msum l (fun _ => mzero3) = mzero3.
Proof. induction l as [|a l IH]; [reflexivity|]. cbn [msum fold_right]. fold (@msum A l (fun _ => mzero3)). now rewrite IH, madd_0_r. Qed.
Lemma msum_add {A} (l : list A) f g : msum l (fun a => madd (f a) (g a)) = madd (msum l f) (msum l g).
Proof.
  induction l as [|a l IH]; [symmetry; apply madd_0_r|]. cbn [msum fold_right].
  fold (msum l f) (msum l g) (msum l (fun a => madd (f a) (g a))). rewrite IH. apply madd_swap.
Qed.
Lemma msum_swap {A B} (l : list A) (k : list B) f : msum l (fun a => msum k (fun b => f a b)) = msum k (fun b => msum l (fun a => f a b)).
Proof.
  induction l as [|a l IH]; [symmetry; apply msum_zero|]. cbn [msum fold_right].
  fold (msum l (fun a => msum k (fun b => f a b))). rewrite IH, <- msum_add. apply msum_ext. intros b. reflexivity.
Qed.
Lemma row_cov_sym n J C : sym C -> mt (row_cov n J C) = row_cov n J C.
Proof.
  intros S. unfold row_cov. rewrite mt_msum. rewrite (msum_ext _ _ (fun s => msum (segs n) (fun t => mt (mm (mm (J s) (C s t)) (mt (J t)))))) by (intros; apply mt_msum).
  rewrite msum_swap. apply msum_ext. intros s. apply msum_ext. intros t.
  rewrite !mt_mm, mt_mt, (S t s). now rewrite mm_assoc.
Qed.
Lemma upper_sym m : mt m = m -> m = from_upper (ment m 0 0) (ment m 0 1) (ment m 0 2) (ment m 1 1) (ment m 1 2) (ment m 2 2).
Proof.
  destruct m as [[[[a b] c] [[d e] f]] [[g h] i]]. unfold mt, from_upper, ment, r0, r1, r2, vx, vy, vz. cbn. intros K.
  injection K as K1 K2 K3 K4 K5 K6. subst. reflexivity.
Qed.
Lemma dot_0_r a : dot a v0 = 0. Proof. geo; ring. Qed.
Lemma dot_msum {A} (l : list A) f u : dot u (mv (msum l f) u) = fold_right (fun a acc => dot u (mv (f a) u) + acc) 0 l.
Proof.
  induction l as [|a l IH]; [cbn [msum fold_right]; unfold mzero3; geo; ring|]. cbn [msum fold_right]. fold (msum l f). rewrite <- IH. generalize (msum l f) (f a). intros m k. clear. geo. ring.
Qed.
Lemma sum_ext {A} (l : list A) (f g : A -> R) : (forall a, f a = g a) -> fold_right (fun a acc => f a + acc) 0 l = fold_right (fun a acc => g a + acc) 0 l.
Proof. intros H. induction l as [|a l IH]; [reflexivity|]. cbn. now rewrite H, IH. Qed.
Lemma row_cov_quad n J C u : dot u (mv (row_cov n J C) u) = quad n C (fun s => mv (mt (J s)) u).
Proof.
  unfold row_cov, quad. rewrite dot_msum. apply sum_ext. intros s. rewrite dot_msum.
  induction (segs n) as [|t l IH]; [symmetry; apply dot_0_r|]. cbn [fold_right]. rewrite IH, dot_add_r. f_equal.
  rewrite !mv_mm. rewrite (dot_comm u), mv_dot, dot_comm. reflexivity.
Qed.

Lemma clamp_range d : 0 <= clamp d <= 1000.
Proof. unfold clamp. destruct (Rlt_dec 1000 d); destruct (Rlt_dec _ 0); lra. Qed.
Lemma clamp_mono a b : a <= b -> clamp a <= clamp b.
Proof. intros H. unfold clamp. destruct (Rlt_dec 1000 a), (Rlt_dec 1000 b); repeat match goal with |- context [Rlt_dec ?x ?y] => destruct (Rlt_dec x y) end; lra. Qed.
Lemma clamp_id d : 0 <= d <= 1000 -> clamp d = d.
Proof. intros H. unfold clamp. destruct (Rlt_dec 1000 d); destruct (Rlt_dec _ 0); lra. Qed.
Lemma mnz_mono p q : 0 <= p <= q -> 0 < make_non_zero p <= make_non_zero q.
Proof.
  intros H. unfold make_non_zero, eps. repeat match goal with |- context [Rlt_dec ?x ?y] => destruct (Rlt_dec x y) | |- context [Rle_dec ?x ?y] => destruct (Rle_dec x y) end; lra.
Qed.
Lemma inv_mono p q : 0 <= p <= q -> dist_of INVERSE q <= dist_of INVERSE p.
Proof.
  intros H. cbn [dist_of]. destruct (mnz_mono p q H) as [A B]. unfold Rdiv. rewrite !Rmult_1_l. now apply Rinv_le_contravar.
Qed.
Lemma between_scale b lo hi d : lo <= d <= hi -> between (vscale lo b) (vscale hi b) (vscale d b) /\ between (vscale hi b) (vscale lo b) (vscale d b).
Proof.
  intros H. destruct (Req_dec lo hi) as [E|E].
  - assert (d = lo) by lra. subst. split; exists 0; (split; [lra|]); clear; veq.
  - split; [exists ((d - lo) / (hi - lo)) | exists ((hi - d) / (hi - lo))]; split.
    + split; [apply Rmult_le_pos; [lra|left; apply Rinv_0_lt_compat; lra]|]. apply Rmult_le_reg_r with (hi - lo); [lra|]. field_simplify; lra.
    + assert (K : hi - lo <> 0) by lra. revert K. clear. intros K. geo. repeat (match goal with |- (_, _) = (_, _) => f_equal end); field; exact K.
    + split; [apply Rmult_le_pos; [lra|left; apply Rinv_0_lt_compat; lra]|]. apply Rmult_le_reg_r with (hi - lo); [lra|]. field_simplify; lra.
    + assert (K : hi - lo <> 0) by lra. revert K. clear. intros K. geo. repeat (match goal with |- (_, _) = (_, _) => f_equal end); field; exact K.
Qed.
(** order of the two bounds around the estimate *)
Lemma bounds_around f sg : 0 <= sg -> 0 <= get_distance f <= 1000 ->
  (fd_type f <> INVERSE -> d_minus f sg <= get_distance f <= d_plus f sg) /\
  (fd_type f = INVERSE -> 0 <= fd_p f - 3 * sg -> d_plus f sg <= get_distance f <= d_minus f sg).
Proof.
  intros Hs Hd. unfold d_minus, d_plus. rewrite <- (clamp_id _ Hd). unfold get_distance. split.
  - intros T. split; apply clamp_mono, dist_mono; auto; lra.
  - intros T P. rewrite T. split; apply clamp_mono, inv_mono; lra.
Qed.
