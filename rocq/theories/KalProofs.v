(** The covariance stays symmetric and positive semidefinite through any history. *)
From Coq Require Import Reals ZArith List Bool Arith Lia Lra.
From Verif Require Import Geo Lie DistModel FiltModel OutModel CamModel InnoModel UpdModel CovModel CovSpec CovProofs BornModel SlotModel SlotSpec SlotProofs KalSpec.
Import ListNotations.
Local Open Scope R_scope.

(** ** sums *)
Lemma rsum_cons s l f : rsum (s :: l) f = f s + rsum l f. Proof. reflexivity. Qed.
Lemma rsum_add l f g : rsum l (fun s => f s + g s) = rsum l f + rsum l g.
Proof. induction l as [|s l IH]; [cbn; ring|]. rewrite !rsum_cons, IH. ring. Qed.
Lemma rsum_scale l c f : rsum l (fun s => c * f s) = c * rsum l f.
Proof. induction l as [|s l IH]; [cbn; ring|]. rewrite !rsum_cons, IH. ring. Qed.
Lemma rsum_swap l l' f : rsum l (fun s => rsum l' (fun t => f s t)) = rsum l' (fun t => rsum l (fun s => f s t)).
Proof.
  induction l as [|s l IH].
  - change (0 = rsum l' (fun _ => 0)). symmetry. apply rsum_zero.
  - rewrite rsum_cons, IH, <- rsum_add. apply rsum_ext. intros t _. now rewrite rsum_cons.
Qed.
Lemma rsum_nonneg l f : (forall s, 0 <= f s) -> 0 <= rsum l f.
Proof. intros H. induction l as [|s l IH]; [cbn; lra|]. rewrite rsum_cons. specialize (H s). lra. Qed.
Lemma dot_vsum_r l a f : dot a (vsum l f) = rsum l (fun s => dot a (f s)).
Proof. induction l as [|s l IH]; [apply dot_0_r|]. change (dot a (vadd (f s) (vsum l f)) = dot a (f s) + rsum l (fun s => dot a (f s))). now rewrite dot_add_r, IH. Qed.
Lemma dot_vsum_l l a f : dot (vsum l f) a = rsum l (fun s => dot (f s) a).
Proof. rewrite dot_comm, dot_vsum_r. apply rsum_ext. intros; apply dot_comm. Qed.
Lemma mv_madd_l a b v : mv (madd a b) v = vadd (mv a v) (mv b v). Proof. veq. Qed.
Lemma mv_0_l v : mv mzero v = v0. Proof. unfold mzero, v0. veq. Qed.
Lemma mv_mscale_l c a v : mv (mscale c a) v = vscale c (mv a v). Proof. veq. Qed.
Lemma mv_mneg_l a v : mv (mneg a) v = vneg (mv a v). Proof. veq. Qed.
Lemma dot_neg_r a b : dot a (vneg b) = - dot a b. Proof. geo; ring. Qed.
Lemma dot_mv_msum l a f b : dot a (mv (msum l f) b) = rsum l (fun s => dot a (mv (f s) b)).
Proof.
  induction l as [|s l IH]; [change (dot a (mv mzero b) = 0); now rewrite mv_0_l, dot_0_r|].
  change (dot a (mv (madd (f s) (msum l f)) b) = dot a (mv (f s) b) + rsum l (fun s => dot a (mv (f s) b))). now rewrite mv_madd_l, dot_add_r, IH.
Qed.
Lemma mv_msum_r l a f : mv a (vsum l f) = vsum l (fun s => mv a (f s)).
Proof. induction l as [|s l IH]; [apply mv_0_r|]. change (mv a (vadd (f s) (vsum l f)) = vadd (mv a (f s)) (vsum l (fun s => mv a (f s)))). now rewrite mv_add, IH. Qed.

(** ** prediction *)
Lemma variance_cong n J P v : variance n (cong n J P) v = variance n P (Jt n J v).
Proof.
  unfold variance, cong, Jt.
  transitivity (rsum (segs n) (fun s => rsum (segs n) (fun t => rsum (segs n) (fun a => rsum (segs n) (fun b => dot (mv (mt (J s a)) (v s)) (mv (P a b) (mv (mt (J t b)) (v t)))))))).
  { apply rsum_ext; intros s _; apply rsum_ext; intros t _. rewrite dot_mv_msum. apply rsum_ext; intros a _. rewrite dot_mv_msum. apply rsum_ext; intros b _.
    rewrite !mv_mm. rewrite mv_dot, mt_mt. reflexivity. }
  transitivity (rsum (segs n) (fun a => rsum (segs n) (fun b => rsum (segs n) (fun s => rsum (segs n) (fun t => dot (mv (mt (J s a)) (v s)) (mv (P a b) (mv (mt (J t b)) (v t)))))))).
  { transitivity (rsum (segs n) (fun s => rsum (segs n) (fun a => rsum (segs n) (fun t => rsum (segs n) (fun b => dot (mv (mt (J s a)) (v s)) (mv (P a b) (mv (mt (J t b)) (v t)))))))).
    { apply rsum_ext; intros s _. apply rsum_swap. }
    rewrite rsum_swap. apply rsum_ext; intros a _.
    transitivity (rsum (segs n) (fun s => rsum (segs n) (fun b => rsum (segs n) (fun t => dot (mv (mt (J s a)) (v s)) (mv (P a b) (mv (mt (J t b)) (v t))))))).
    { apply rsum_ext; intros s _. apply rsum_swap. }
    apply rsum_swap. }
  apply rsum_ext; intros a _; apply rsum_ext; intros b _. rewrite dot_vsum_l. apply rsum_ext; intros s _. rewrite mv_msum_r, dot_vsum_r. reflexivity.
Qed.
Lemma mt_madd a b : mt (madd a b) = madd (mt a) (mt b). Proof. veq. Qed.
Lemma mt_msum l f : mt (msum l f) = msum l (fun s => mt (f s)).
Proof. induction l as [|s l IH]; [reflexivity|]. change (mt (madd (f s) (msum l f)) = madd (mt (f s)) (msum l (fun s => mt (f s)))). now rewrite mt_madd, IH. Qed.
Lemma madd_ac a b c d : madd (madd a b) (madd c d) = madd (madd a c) (madd b d). Proof. veq. Qed.
Lemma msum_zero' l : msum l (fun _ => mzero) = mzero.
Proof. induction l as [|s l IH]; [reflexivity|]. change (madd mzero (msum l (fun _ => mzero)) = mzero). rewrite IH. apply madd_0. Qed.
Lemma msum_add l f g : msum l (fun s => madd (f s) (g s)) = madd (msum l f) (msum l g).
Proof.
  induction l as [|s l IH]; [symmetry; apply madd_0|]. change (madd (madd (f s) (g s)) (msum l (fun s => madd (f s) (g s))) = madd (madd (f s) (msum l f)) (madd (g s) (msum l g))).
  rewrite IH. apply madd_ac.
Qed.
Lemma msum_swap l l' f : msum l (fun s => msum l' (fun t => f s t)) = msum l' (fun t => msum l (fun s => f s t)).
Proof.
  induction l as [|s l IH].
  - change (mzero = msum l' (fun _ => mzero)). symmetry. apply msum_zero'.
  - change (madd (msum l' (f s)) (msum l (fun s => msum l' (fun t => f s t))) = msum l' (fun t => madd (f s t) (msum l (fun s => f s t)))).
    rewrite IH, msum_add. reflexivity.
Qed.
Lemma in_segs n s : In s (segs n) -> seg_in n s.
Proof.
  unfold segs. intros H. repeat (apply in_app_or in H; destruct H as [H|H]).
  1: cbn in H; destruct H as [<-|[<-|[<-|[<-|[<-|[]]]]]]; exact I.
  all: apply in_map_iff in H; destruct H as (k & <- & H); apply in_seq in H; cbn; lia.
Qed.
Lemma cong_sym n J P : (forall s t, seg_in n s -> seg_in n t -> P s t = mt (P t s)) -> forall s t, cong n J P s t = mt (cong n J P t s).
Proof.
  intros S s t. unfold cong. rewrite mt_msum.
  transitivity (msum (segs n) (fun b => msum (segs n) (fun a => mm (mm (J s a) (P a b)) (mt (J t b))))); [apply msum_swap|].
  apply msum_ext. intros b Hb. rewrite mt_msum. apply msum_ext. intros a Ha.
  rewrite (S a b (in_segs n a Ha) (in_segs n b Hb)). rewrite !mt_mm, !mt_mt, mm_assoc. reflexivity.
Qed.
Lemma variance_madd n P Q v : variance n (fun s t => madd (P s t) (Q s t)) v = variance n P v + variance n Q v.
Proof.
  unfold variance. rewrite <- rsum_add. apply rsum_ext; intros s _. rewrite <- rsum_add. apply rsum_ext; intros t _. now rewrite mv_madd_l, dot_add_r.
Qed.
Lemma predict_valid n F G P Q : valid_cov n P -> valid_cov n Q -> valid_cov n (predict_cov n F G P Q).
Proof.
  intros [S1 V1] [S2 V2]. constructor.
  - intros s t _ _. unfold predict_cov. rewrite mt_madd, <- (cong_sym n F P S1), <- (cong_sym n G Q S2). reflexivity.
  - intros v. unfold predict_cov. rewrite variance_madd, !variance_cong. specialize (V1 (Jt n F v)). specialize (V2 (Jt n G v)). lra.
Qed.

(** ** slots *)
Lemma reset_valid n i B P : B = mt B -> (forall a, 0 <= dot a (mv B a)) -> valid_cov n P -> valid_cov n (reset_slot i B P).
Proof.
  intros HB PB [S V]. constructor.
  - intros s t Hs Ht. destruct (seg_fea s i) as [->|Ns], (seg_fea t i) as [->|Nt].
    + rewrite !reset_diag. exact HB.
    + rewrite reset_row, reset_col by assumption. reflexivity.
    + rewrite reset_row, reset_col by assumption. reflexivity.
    + rewrite !reset_off by assumption. now apply S.
  - intros v. set (v' := fun s : seg => if seg_eq s (Fea i) then v0 else v s).
    set (e := fun s t : seg => if seg_eq s (Fea i) then if seg_eq t (Fea i) then dot (v (Fea i)) (mv B (v (Fea i))) else 0 else 0).
    assert (Q : variance n (reset_slot i B P) v = variance n P v' + rsum (segs n) (fun s => rsum (segs n) (fun t => e s t))).
    { unfold variance. rewrite <- rsum_add. apply rsum_ext; intros s _. rewrite <- rsum_add. apply rsum_ext; intros t _. unfold v', e.
      destruct (seg_eq s (Fea i)) as [->|Ns], (seg_eq t (Fea i)) as [->|Nt].
      - rewrite reset_diag, dot_0_l. ring.
      - rewrite reset_row, mv_0_l, dot_0_l, dot_0_r by assumption. ring.
      - rewrite reset_col, mv_0_l, mv_0_r, dot_0_r by assumption. ring.
      - rewrite reset_off by assumption. ring. }
    rewrite Q. specialize (V v'). enough (0 <= rsum (segs n) (fun s => rsum (segs n) (fun t => e s t))) by lra.
    apply rsum_nonneg; intros s; apply rsum_nonneg; intros t. unfold e. destruct (seg_eq s (Fea i)), (seg_eq t (Fea i)); try lra. apply PB.
Qed.
Lemma block_valid c : covariance 3 c -> block_of c = mt (block_of c) /\ forall a, 0 <= dot a (mv (block_of c) a).
Proof.
  intros [S V]. split.
  - unfold block_of, mt, r0, r1, r2, vx, vy, vz. cbn [fst snd]. rewrite (S 0 1)%nat, (S 0 2)%nat, (S 1 2)%nat by lia. reflexivity.
  - intros [[a0 a1] a2]. specialize (V (fun i => match i with 0 => a0 | 1 => a1 | _ => a2 end%nat)). unfold quad in V. cbn [AlignModel.fsum] in V.
    unfold block_of, mv, dot, r0, r1, r2, vx, vy, vz. cbn [fst snd]. lra.
Qed.

(** ** update *)
Lemma irsum_S k f : irsum (S k) f = f 0%nat + irsum k (fun i => f (S i)).
Proof. unfold irsum. cbn [seq fold_right]. f_equal. rewrite <- seq_shift. induction (seq 0 k) as [|a l IH]; [reflexivity|]. cbn [map fold_right]. now rewrite IH. Qed.
Lemma irsum_ext k f g : (forall i, (i < k)%nat -> f i = g i) -> irsum k f = irsum k g.
Proof.
  intros H. unfold irsum. assert (G : forall i, In i (seq 0 k) -> f i = g i) by (intros i I; apply in_seq in I; apply H; lia).
  clear H. induction (seq 0 k) as [|a l IH]; [reflexivity|]. cbn [fold_right]. rewrite (G a) by now left. rewrite IH; [reflexivity|]. intros; apply G; now right.
Qed.
Lemma irsum_add k f g : irsum k (fun s => f s + g s) = irsum k f + irsum k g.
Proof. unfold irsum. induction (seq 0 k) as [|s l IH]; cbn [fold_right]; [ring|]. rewrite IH. ring. Qed.
Lemma irsum_scale k c f : irsum k (fun s => c * f s) = c * irsum k f.
Proof. unfold irsum. induction (seq 0 k) as [|s l IH]; cbn [fold_right]; [ring|]. rewrite IH. ring. Qed.
Lemma irsum_0 k : irsum k (fun _ => 0) = 0.
Proof. unfold irsum. induction (seq 0 k) as [|s l IH]; cbn [fold_right]; [ring|]. rewrite IH. ring. Qed.
Lemma irsum_swap k m f : irsum k (fun i => irsum m (fun j => f i j)) = irsum m (fun j => irsum k (fun i => f i j)).
Proof.
  unfold irsum at 1 4. induction (seq 0 k) as [|a l IH]; cbn [fold_right]; [symmetry; apply irsum_0|]. rewrite IH, <- irsum_add. reflexivity.
Qed.
Lemma irsum_delta k i f : (i < k)%nat -> irsum k (fun j => (if (i =? j)%nat then 1 else 0) * f j) = f i.
Proof.
  revert i f. induction k as [|k IH]; intros i f H; [lia|]. rewrite irsum_S. destruct i as [|i]; cbn [Nat.eqb].
  - rewrite (irsum_ext k _ (fun _ => 0)) by (intros; ring). rewrite irsum_0. ring.
  - rewrite (IH i (fun j => f (S j))) by lia. ring.
Qed.
Lemma rsum_irsum l k f : rsum l (fun s => irsum k (fun i => f s i)) = irsum k (fun i => rsum l (fun s => f s i)).
Proof.
  induction l as [|s l IH]; [symmetry; apply irsum_0|]. rewrite rsum_cons, IH, <- irsum_add. reflexivity.
Qed.
Lemma vsub_v0 a : vsub a v0 = a. Proof. unfold v0. veq. Qed.
Lemma vscale_v0 a : vscale 0 a = v0. Proof. unfold v0. veq. Qed.
Lemma isum_v0 k f : (forall i, (i < k)%nat -> f i = v0) -> isum k f = v0.
Proof.
  intros H. unfold isum. assert (G : forall i, In i (seq 0 k) -> f i = v0) by (intros i I; apply in_seq in I; apply H; lia).
  induction (seq 0 k) as [|i l IH]; [reflexivity|]. cbn [fold_right]. rewrite (G i (or_introl eq_refl)), IH by (intros j J; apply G; now right). unfold v0. veq.
Qed.
Lemma dot_isum_r k a f : dot a (isum k f) = irsum k (fun i => dot a (f i)).
Proof. unfold isum, irsum. induction (seq 0 k) as [|s l IH]; cbn [fold_right]; [apply dot_0_r|]. now rewrite dot_add_r, IH. Qed.
Lemma mv_isum k a f : mv a (isum k f) = isum k (fun i => mv a (f i)).
Proof. unfold isum. induction (seq 0 k) as [|s l IH]; cbn [fold_right]; [apply mv_0_r|]. now rewrite mv_add, IH. Qed.
Lemma dot_mv_imsum k a f b : dot a (mv (imsum k f) b) = irsum k (fun i => dot a (mv (f i) b)).
Proof. unfold imsum, irsum. induction (seq 0 k) as [|s l IH]; cbn [fold_right]; [now rewrite mv_0_l, dot_0_r|]. now rewrite mv_madd_l, dot_add_r, IH. Qed.

(** sums of blocks over indices *)
Lemma im_ext k f g : (forall i, (i < k)%nat -> f i = g i) -> imsum k f = imsum k g.
Proof.
  intros H. unfold imsum. assert (G : forall i, In i (seq 0 k) -> f i = g i) by (intros i I; apply in_seq in I; apply H; lia).
  clear H. induction (seq 0 k) as [|a l IH]; [reflexivity|]. cbn [fold_right]. rewrite (G a) by now left. rewrite IH; [reflexivity|]. intros; apply G; now right.
Qed.
Lemma im_add k f g : imsum k (fun s => madd (f s) (g s)) = madd (imsum k f) (imsum k g).
Proof. unfold imsum. induction (seq 0 k) as [|s l IH]; cbn [fold_right]; [symmetry; apply madd_0|]. rewrite IH. apply madd_ac. Qed.
Lemma im_0 k : imsum k (fun _ => mzero) = mzero.
Proof. unfold imsum. induction (seq 0 k) as [|s l IH]; cbn [fold_right]; [reflexivity|]. rewrite IH. apply madd_0. Qed.
Lemma im_swap k m f : imsum k (fun i => imsum m (fun j => f i j)) = imsum m (fun j => imsum k (fun i => f i j)).
Proof. unfold imsum at 1 4. induction (seq 0 k) as [|a l IH]; cbn [fold_right]; [symmetry; apply im_0|]. rewrite IH, <- im_add. reflexivity. Qed.
Lemma mt_im k f : mt (imsum k f) = imsum k (fun i => mt (f i)).
Proof. unfold imsum. induction (seq 0 k) as [|a l IH]; [reflexivity|]. cbn [fold_right]. now rewrite mt_madd, IH. Qed.
Lemma mt_neg a : mt (mneg a) = mneg (mt a). Proof. veq. Qed.
Lemma mt_outer c x y : mscale c (outer x y) = mt (mscale c (outer y x)). Proof. veq. Qed.

(** h P g^T *)
Definition hPh (n : dims) (P : bmat) (h g : row) : R := rsum (segs n) (fun s => dot (h s) (PHt n P g s)).
Lemma hPh_full n P h g : hPh n P h g = rsum (segs n) (fun s => rsum (segs n) (fun t => dot (h s) (mv (P s t) (g t)))).
Proof. unfold hPh, PHt. apply rsum_ext; intros s _. apply dot_vsum_r. Qed.
Lemma hPh_sym n P h g : (forall s t, seg_in n s -> seg_in n t -> P s t = mt (P t s)) -> hPh n P h g = hPh n P g h.
Proof.
  intros S. rewrite !hPh_full, rsum_swap. apply rsum_ext; intros t Ht. apply rsum_ext; intros s Hs.
  rewrite (S s t (in_segs n s Hs) (in_segs n t Ht)). rewrite dot_comm, mv_dot, mt_mt. reflexivity.
Qed.
Lemma entry_map k (A B : Type) (f : A -> B -> R) (da : A) (db : B) (l : list A) (l' : A -> list B) i j :
  length l = k -> (i < k)%nat -> (j < length (l' (nth i l da)))%nat ->
  entry (map (fun a => map (fun b => f a b) (l' a)) l) i j = f (nth i l da) (nth j (l' (nth i l da)) db).
Proof.
  intros L Hi Hj. unfold entry.
  rewrite (nth_indep _ [] (map (fun b => f da b) (l' da))) by (rewrite map_length; lia).
  rewrite (map_nth (fun a => map (fun b => f a b) (l' a))).
  rewrite (nth_indep _ 0 (f (nth i l da) db)) by (rewrite map_length; lia). now rewrite (map_nth (fun b => f (nth i l da) b)).
Qed.
Lemma inn_entry n P H Rn i j : square (length H) Rn -> (i < length H)%nat -> (j < length H)%nat ->
  entry (inn_cov n P H Rn) i j = hPh n P (nth i H zrow) (nth j H zrow) + entry Rn i j.
Proof.
  intros [L1 L2] Hi Hj. unfold inn_cov.
  assert (Lr : length (nth i Rn []) = length H) by (apply L2, nth_In; lia).
  rewrite (entry_map (length H) _ _ (fun hr gr => rsum (segs n) (fun s => dot (fst hr s) (PHt n P (fst gr) s)) + snd gr) (zrow, []) (zrow, 0) (combine H Rn) (fun hr => combine H (snd hr)));
    rewrite ?combine_nth, ?combine_length by lia; cbn [fst snd]; rewrite ?combine_nth, ?combine_length by lia; try lia. reflexivity.
Qed.
Lemma inn_square n P H Rn : square (length H) Rn -> square (length H) (inn_cov n P H Rn).
Proof.
  intros [L1 L2]. unfold inn_cov. split; [rewrite map_length, combine_length; lia|]. intros r I. apply in_map_iff in I. destruct I as ([h q] & <- & I).
  rewrite map_length, combine_length. cbn [snd]. apply in_combine_r in I. rewrite (L2 q I). lia.
Qed.

Section Upd.
Variables (n : dims) (P : bmat) (H : list row) (Rn : list (list R)).
Hypothesis V : valid_cov n P.
Hypothesis N : good_noise (length H) Rn.
Let k := length H.
Let h i := nth i H zrow.
Let Sm := inn_cov n P H Rn.
Lemma s_entry i j : (i < k)%nat -> (j < k)%nat -> entry Sm i j = hPh n P (h i) (h j) + entry Rn i j.
Proof. intros. apply inn_entry; [apply N|assumption|assumption]. Qed.
Lemma s_sym : sym k Sm.
Proof. intros i j Hi Hj. rewrite !s_entry by assumption. rewrite (hPh_sym n P (h i) (h j)) by apply V. destruct N as (_ & NS & _). now rewrite (NS i j Hi Hj). Qed.
(** combination of the rows *)
Definition comb (v : nat -> R) : tangent := fun s => isum k (fun i => vscale (v i) (h i s)).
Lemma variance_comb v : variance n P (comb v) = irsum k (fun i => irsum k (fun j => v i * hPh n P (h i) (h j) * v j)).
Proof.
  unfold variance, comb.
  transitivity (rsum (segs n) (fun s => rsum (segs n) (fun t => irsum k (fun i => irsum k (fun j => v i * v j * dot (h i s) (mv (P s t) (h j t))))))).
  { apply rsum_ext; intros s _; apply rsum_ext; intros t _. rewrite dot_comm, dot_isum_r. apply irsum_ext; intros i _. rewrite dot_scale_r, dot_comm, mv_isum, dot_isum_r.
    rewrite <- irsum_scale. apply irsum_ext; intros j _. rewrite mv_scale, dot_scale_r. ring. }
  transitivity (rsum (segs n) (fun s => irsum k (fun i => irsum k (fun j => rsum (segs n) (fun t => v i * v j * dot (h i s) (mv (P s t) (h j t))))))).
  { apply rsum_ext; intros s _. rewrite rsum_irsum. apply irsum_ext; intros i _. apply rsum_irsum. }
  rewrite rsum_irsum. apply irsum_ext; intros i _. rewrite rsum_irsum. apply irsum_ext; intros j _. rewrite hPh_full.
  transitivity (v i * v j * rsum (segs n) (fun s => rsum (segs n) (fun t => dot (h i s) (mv (P s t) (h j t))))); [|ring].
  rewrite <- rsum_scale. apply rsum_ext; intros s _. apply rsum_scale.
Qed.
Lemma form_s v : form k Sm v = variance n P (comb v) + form k Rn v.
Proof.
  rewrite variance_comb. unfold form. rewrite <- irsum_add. apply irsum_ext; intros i Hi. rewrite <- irsum_add. apply irsum_ext; intros j Hj.
  rewrite s_entry by assumption. ring.
Qed.
Lemma s_posdef : posdef k Sm.
Proof. intros v E. rewrite form_s. pose proof (vc_psd n P V (comb v)). destruct N as (_ & _ & NP). assert (0 < form k Rn v) by exact (NP v E). lra. Qed.
Lemma noise_nonneg v : 0 <= form k Rn v.
Proof.
  destruct N as (_ & _ & NP).
  destruct (Exists_dec (fun i => v i <> 0) (seq 0 k)) as [E|E].
  { intros i. destruct (Req_EM_T (v i) 0); [right; tauto|left; assumption]. }
  - apply Exists_exists in E. destruct E as (i & I & E). apply in_seq in I. left. apply NP. exists i. split; [exact (proj2 I)|exact E].
  - right. unfold form. rewrite (irsum_ext k _ (fun _ => 0)); [now rewrite irsum_0|]. intros i Hi.
    assert (Z : v i = 0). { destruct (Req_EM_T (v i) 0) as [Z|Z]; [exact Z|]. elim E. apply Exists_exists. exists i. split; [apply in_seq; lia|exact Z]. }
    rewrite Z. rewrite (irsum_ext k _ (fun _ => 0)) by (intros; ring). apply irsum_0.
Qed.

Variable W : list (list R).
Hypothesis HW : inverse_of k Sm W.
Lemma update_sym s t : seg_in n s -> seg_in n t -> update_cov n P H W s t = mt (update_cov n P H W t s).
Proof.
  intros Hs Ht. unfold update_cov. fold k. rewrite mt_madd, <- (vc_sym n P V s t Hs Ht). f_equal.
  rewrite mt_neg. f_equal. rewrite im_swap, mt_im. apply im_ext. intros i Hi. rewrite mt_im. apply im_ext. intros j Hj.
  destruct HW as [WS _]. rewrite (WS j i Hj Hi). apply mt_outer.
Qed.

Section Form.
Variable x : tangent.
Let b i := rsum (segs n) (fun s => dot (x s) (PHt n P (h i) s)).
Let v i := irsum k (fun j => entry W i j * b j).
Let y : tangent := fun s => vsub (x s) (comb v s).
Lemma red_value : variance n (update_cov n P H W) x = variance n P x - irsum k (fun i => v i * b i).
Proof.
  unfold variance, update_cov. fold k.
  assert (E : irsum k (fun i => v i * b i) =
    rsum (segs n) (fun s => rsum (segs n) (fun t => irsum k (fun i => irsum k (fun j => entry W i j * (dot (x s) (PHt n P (h i) s) * dot (x t) (PHt n P (h j) t))))))).
  { transitivity (irsum k (fun i => irsum k (fun j => entry W i j * (b i * b j)))).
    { apply irsum_ext; intros i _. unfold v. rewrite Rmult_comm, <- irsum_scale. apply irsum_ext; intros; ring. }
    transitivity (rsum (segs n) (fun s => irsum k (fun i => irsum k (fun j => rsum (segs n) (fun t => entry W i j * (dot (x s) (PHt n P (h i) s) * dot (x t) (PHt n P (h j) t))))))).
    - rewrite rsum_irsum. apply irsum_ext; intros i _. rewrite rsum_irsum. apply irsum_ext; intros j _.
      transitivity (rsum (segs n) (fun s => dot (x s) (PHt n P (h i) s) * (entry W i j * b j))).
      + transitivity (entry W i j * b j * b i); [ring|]. unfold b at 2. rewrite <- rsum_scale. apply rsum_ext; intros; ring.
      + apply rsum_ext; intros s _. rewrite rsum_scale, rsum_scale. fold (b j). ring.
    - apply rsum_ext; intros s _. rewrite rsum_irsum. apply irsum_ext; intros i _. symmetry. apply rsum_irsum. }
  rewrite E. replace (rsum (segs n) (fun s => rsum (segs n) (fun t => dot (x s) (mv (P s t) (x t)))) - _)
    with (rsum (segs n) (fun s => rsum (segs n) (fun t => dot (x s) (mv (P s t) (x t)))) + (-1) * rsum (segs n) (fun s => rsum (segs n) (fun t => irsum k (fun i => irsum k (fun j => entry W i j * (dot (x s) (PHt n P (h i) s) * dot (x t) (PHt n P (h j) t))))))) by ring.
  rewrite <- rsum_scale, <- rsum_add. apply rsum_ext; intros s _. rewrite <- rsum_scale, <- rsum_add. apply rsum_ext; intros t _.
  rewrite mv_madd_l, dot_add_r, mv_mneg_l, dot_neg_r, dot_mv_imsum.
  replace (irsum k (fun i => irsum k (fun j => entry W i j * (dot (x s) (PHt n P (h i) s) * dot (x t) (PHt n P (h j) t)))))
    with (irsum k (fun i => dot (x s) (mv (imsum k (fun j => mscale (entry W i j) (outer (PHt n P (nth i H zrow) s) (PHt n P (nth j H zrow) t)))) (x t)))); [ring|].
  apply irsum_ext; intros i _. rewrite dot_mv_imsum. apply irsum_ext; intros j _. rewrite mv_mscale_l, mv_outer, !dot_scale_r.
  fold (h i) (h j). rewrite (dot_comm (PHt n P (h j) t)). ring.
Qed.
Lemma s_v i : (i < k)%nat -> irsum k (fun j => entry Sm i j * v j) = b i.
Proof.
  intros Hi. unfold v.
  transitivity (irsum k (fun j => irsum k (fun l => entry Sm i j * entry W j l * b l))).
  { apply irsum_ext; intros j _. rewrite <- irsum_scale. apply irsum_ext; intros; ring. }
  rewrite irsum_swap. transitivity (irsum k (fun l => (if (i =? l)%nat then 1 else 0) * b l)); [|now apply irsum_delta].
  apply irsum_ext; intros l Hl. destruct HW as [_ WI]. rewrite <- (WI i l Hi Hl), Rmult_comm, <- irsum_scale. apply irsum_ext; intros; ring.
Qed.
Lemma vSv : form k Sm v = irsum k (fun i => v i * b i).
Proof.
  unfold form. apply irsum_ext; intros i Hi. rewrite <- (s_v i Hi), <- irsum_scale. apply irsum_ext; intros; ring.
Qed.
Lemma cross_term : rsum (segs n) (fun s => rsum (segs n) (fun t => dot (x s) (mv (P s t) (comb v t)))) = irsum k (fun i => v i * b i).
Proof.
  transitivity (rsum (segs n) (fun s => irsum k (fun i => v i * dot (x s) (PHt n P (h i) s)))).
  - apply rsum_ext; intros s _. unfold PHt.
    transitivity (rsum (segs n) (fun t => irsum k (fun i => v i * dot (x s) (mv (P s t) (h i t))))).
    + apply rsum_ext; intros t _. unfold comb. rewrite mv_isum, dot_isum_r. apply irsum_ext; intros i _. now rewrite mv_scale, dot_scale_r.
    + rewrite rsum_irsum. apply irsum_ext; intros i _. now rewrite rsum_scale, dot_vsum_r.
  - rewrite rsum_irsum. apply irsum_ext; intros i _. apply rsum_scale.
Qed.
Lemma expand : variance n P y = variance n P x - 2 * irsum k (fun i => v i * b i) + variance n P (comb v).
Proof.
  assert (C2 : rsum (segs n) (fun s => rsum (segs n) (fun t => dot (comb v s) (mv (P s t) (x t)))) = irsum k (fun i => v i * b i)).
  { rewrite <- cross_term, rsum_swap. apply rsum_ext; intros t Ht. apply rsum_ext; intros s Hs.
    rewrite (vc_sym n P V s t (in_segs n s Hs) (in_segs n t Ht)), dot_comm, mv_dot, mt_mt. reflexivity. }
  pose proof cross_term as C1.
  assert (E : variance n P y = variance n P x + (-1) * rsum (segs n) (fun s => rsum (segs n) (fun t => dot (x s) (mv (P s t) (comb v t))))
     + (-1) * rsum (segs n) (fun s => rsum (segs n) (fun t => dot (comb v s) (mv (P s t) (x t)))) + variance n P (comb v)).
  { unfold variance. rewrite <- !rsum_scale, <- !rsum_add. apply rsum_ext; intros s _. rewrite <- !rsum_scale, <- !rsum_add. apply rsum_ext; intros t _.
    unfold y. rewrite mv_sub, dot_sub_l, !dot_sub_r. ring. }
  rewrite E, C1, C2. ring.
Qed.
(** the Joseph form *)
Lemma joseph : variance n (update_cov n P H W) x = variance n P y + form k Rn v.
Proof. rewrite red_value, expand. pose proof vSv as A. rewrite form_s in A. lra. Qed.
Lemma update_nonneg : 0 <= variance n (update_cov n P H W) x.
Proof. rewrite joseph. pose proof (vc_psd n P V y). pose proof (noise_nonneg v). lra. Qed.
Lemma update_less : variance n (update_cov n P H W) x <= variance n P x.
Proof. rewrite red_value, <- vSv, form_s. pose proof (vc_psd n P V (comb v)). pose proof (noise_nonneg v). lra. Qed.
Lemma update_pos : uncertain n P -> (exists s, seg_in n s /\ x s <> v0) -> 0 < variance n (update_cov n P H W) x.
Proof.
  intros U (s & Hs & X). rewrite joseph. pose proof (vc_psd n P V y) as Y. destruct N as (_ & _ & NP).
  destruct (Exists_dec (fun i => v i <> 0) (seq 0 k)) as [E|E].
  { intros i. destruct (Req_EM_T (v i) 0); [right; tauto|left; assumption]. }
  - apply Exists_exists in E. destruct E as (i & I & E). apply in_seq in I. assert (0 < form k Rn v) by (apply NP; exists i; split; [exact (proj2 I)|exact E]). lra.
  - pose proof (noise_nonneg v) as F. enough (0 < variance n P y) by lra. apply U. exists s. split; [exact Hs|]. unfold y.
    assert (Z : comb v s = v0).
    { unfold comb. apply isum_v0. intros i Hi.
      assert (Z : v i = 0). { destruct (Req_EM_T (v i) 0) as [Z|Z]; [exact Z|]. elim E. apply Exists_exists. exists i. split; [apply in_seq; lia|exact Z]. }
      rewrite Z. apply vscale_v0. }
    rewrite Z, vsub_v0. exact X.
Qed.
End Form.
Lemma update_valid : valid_cov n (update_cov n P H W).
Proof. constructor; [exact update_sym|exact update_nonneg]. Qed.
End Upd.

(** ** steps and runs *)
Lemma lin_dim cams frame logm ign u ms x y H : linearise cams frame logm ign u ms x = Some (y, H) -> length H = dim_of ms.
Proof.
  destruct ms as [i k dold c|i k dold eqs|c m|q v|]; cbn [linearise dim_of].
  - destruct (innovation_pix _ _ _ _ _ _ _ _); [|discriminate]. destruct (jac_pix _ _ _ _ _ _ _); [|discriminate].
    intros E; apply (f_equal (fun o => match o with Some (_, h) => length h | None => 0%nat end)) in E; now rewrite <- E.
  - destruct (innovation_direct _ _ _ _ _ _ _ _) as [w [|]]; [discriminate|]. destruct (jac_direct _ _ _ _ _ _ _ _) as [J [|]]; [discriminate|].
    intros E; apply (f_equal (fun o => match o with Some (_, h) => length h | None => 0%nat end)) in E; now rewrite <- E.
  - intros E; apply (f_equal (fun o => match o with Some (_, h) => length h | None => 0%nat end)) in E; now rewrite <- E.
  - intros E; apply (f_equal (fun o => match o with Some (_, h) => length h | None => 0%nat end)) in E; now rewrite <- E.
  - intros E; apply (f_equal (fun o => match o with Some (_, h) => length h | None => 0%nat end)) in E; now rewrite <- E.
Qed.
Lemma iterate_form n inv Rn P f x k : forall d d' P', iterate n inv Rn P f x k d = Some (d', P') ->
  exists z y H, f z = Some (y, H) /\ P' = update_cov n P H (inv (inn_cov n P H Rn)).
Proof.
  induction k as [|k IH]; intros d d' P'; cbn [iterate]; destruct (f (boxplus x d)) as [[y H]|] eqn:E; try discriminate.
  - intros Q. exists (boxplus x d), y, H. split; [exact E|]. apply (f_equal (fun o => match o with Some (_, p) => p | None => P end)) in Q. now rewrite <- Q.
  - apply IH.
Qed.
Section Run.
Variables (n : dims) (P : params) (cams : nat -> camera) (frame : V3 -> M3) (logm : M3 -> V3) (inv : list (list R) -> list (list R))
  (front : feat -> bool) (nth_elt : list R -> nat -> list R) (ign track : bool) (ic : icfg).
Hypothesis HI : inverts inv.
Notation step := (kstep n P cams frame logm inv front nth_elt ign track ic).
Lemma meas_form F ms Rn k G : step F (KMeas ms Rn k) = Some G ->
  k_P G = k_P F \/ exists H, length H = dim_of ms /\ k_P G = update_cov n (k_P F) H (inv (inn_cov n (k_P F) H Rn)).
Proof.
  cbn [kstep]. destruct (concerns F ms); [|intros E; injection E as <-; now left]. destruct (before F ms) as [u x].
  destruct (iterate _ _ _ _ _ _ _ _) as [[d Q]|] eqn:I; intros E; injection E as <-; [|now left]. right. cbn [k_P].
  apply iterate_form in I. destruct I as (z & y & H & L & ->). exists H. split; [now apply lin_dim in L|reflexivity].
Qed.
Lemma meas_inv F H Rn : valid_cov n (k_P F) -> good_noise (length H) Rn -> inverse_of (length H) (inn_cov n (k_P F) H Rn) (inv (inn_cov n (k_P F) H Rn)).
Proof. intros V N. apply HI; [apply inn_square, N|now apply s_sym|now apply s_posdef]. Qed.
Lemma meas_valid F ms Rn k G : good_noise (dim_of ms) Rn -> valid_cov n (k_P F) -> step F (KMeas ms Rn k) = Some G -> valid_cov n (k_P G).
Proof.
  intros N V E. apply meas_form in E. destruct E as [->|(H & L & ->)]; [exact V|]. rewrite <- L in N. apply (update_valid n (k_P F) H Rn); auto. now apply meas_inv.
Qed.
Lemma meas_less F ms Rn k G : good_noise (dim_of ms) Rn -> valid_cov n (k_P F) -> step F (KMeas ms Rn k) = Some G ->
  forall v, variance n (k_P G) v <= variance n (k_P F) v.
Proof.
  intros N V E v. apply meas_form in E. destruct E as [->|(H & L & ->)]; [lra|]. rewrite <- L in N. apply (update_less n (k_P F) H Rn); auto. now apply meas_inv.
Qed.
Lemma meas_pos F ms Rn k G : good_noise (dim_of ms) Rn -> valid_cov n (k_P F) -> uncertain n (k_P F) -> step F (KMeas ms Rn k) = Some G -> uncertain n (k_P G).
Proof.
  intros N V U E. apply meas_form in E. destruct E as [->|(H & L & ->)]; [exact U|]. rewrite <- L in N. intros v X. apply (update_pos n (k_P F) H Rn); auto. now apply meas_inv.
Qed.
Hypothesis HB : forall x t p nor1 cam seen, covariance 3 (snd (init_feature (c_b ic) x 3 0 cam t p nor1 seen (fun _ _ => 0))).
Lemma use_valid p F w G : valid_cov n (k_P F) -> use_slot track ic p F w = Some G -> valid_cov n (k_P G).
Proof.
  intros V. unfold use_slot. destruct (k_used F (w_slot w)); [intros E; injection E as <-; exact V|].
  pose proof (HB (k_x F) (w_type w) (p (w_cam w)) (nor (w_Q w)) (w_cam w) (w_seen w)) as C.
  destruct (init_feature _ _ _ _ _ _ _ _ _ _) as [[d|] c]; [|discriminate]. intros E; injection E as <-. cbn [k_P]. cbn [snd] in C.
  destruct (block_valid c C). now apply reset_valid.
Qed.
Lemma uses_valid p l : forall o G, (forall F, o = Some F -> valid_cov n (k_P F)) ->
  fold_left (fun o w => match o with Some K => use_slot track ic p K w | None => None end) l o = Some G -> valid_cov n (k_P G).
Proof.
  induction l as [|w l IH]; intros o G V E; cbn [fold_left] in E; [now apply V|]. apply (IH _ _) in E; [exact E|].
  destruct o as [F|]; [|discriminate]. intros K Q. apply (use_valid p F w K); [now apply V|exact Q].
Qed.
Lemma m1_sym : m1 = mt m1. Proof. reflexivity. Qed.
Lemma m1_nonneg a : 0 <= dot a (mv m1 a). Proof. rewrite mv_m1. apply dot_nonneg. Qed.
Lemma step_valid F o G : step_ok n o -> valid_cov n (k_P F) -> step F o = Some G -> valid_cov n (k_P G).
Proof.
  intros K V E. destruct o as [m dt Q|ms Rn k|i|l|i|].
  - cbn [kstep] in E. injection E as <-. cbn [k_P]. now apply predict_valid.
  - exact (meas_valid F ms Rn k G K V E).
  - cbn [kstep] in E. destruct (k_used F i); injection E as <-; [|exact V]. cbn [k_P]. apply reset_valid; [exact m1_sym|exact m1_nonneg|exact V].
  - cbn [kstep] in E. apply (uses_valid _ l (Some F) G) in E; [exact E|]. intros K' Q. injection Q as <-. exact V.
  - cbn [kstep] in E. destruct (k_used F i); injection E as <-; exact V.
  - cbn [kstep] in E. injection E as <-. exact V.
Qed.
Lemma run_valid l : Forall (step_ok n) l -> forall o G, (forall F, o = Some F -> valid_cov n (k_P F)) ->
  fold_left (fun o s => match o with Some K => step K s | None => None end) l o = Some G -> valid_cov n (k_P G).
Proof.
  intros A. induction A as [|s l S A IH]; intros o G V E; cbn [fold_left] in E; [now apply V|]. apply (IH _ _) in E; [exact E|].
  destruct o as [F|]; [|discriminate]. intros K Q. apply (step_valid F s K S); [now apply V|exact Q].
Qed.
End Run.
