(** C92: the covariance of the estimate stays a covariance. *)
From Coq Require Import Reals ZArith List Bool Arith Lia Lra.
From Verif Require Import Geo Lie DistModel FiltModel OutModel CamModel InnoModel UpdModel CovModel CovSpec CovProofs BornModel BornProps SlotModel SlotSpec SlotProofs SlotProps KalSpec KalProofs KalInv.
From Verif Require AlignLoop.
Import ListNotations.
Local Open Scope R_scope.

(** ** blocks and matrix *)
Definition vec_of (n : dims) (x : nat -> R) : tangent := fun s => (x (seg_id n s), x (seg_id n s + 1)%nat, x (seg_id n s + 2)%nat).
Lemma rsum_app l l' f : rsum (l ++ l') f = rsum l f + rsum l' f.
Proof. induction l as [|s l IH]; [change (rsum l' f = 0 + rsum l' f); ring|]. change ((s :: l) ++ l') with (s :: (l ++ l')). rewrite !rsum_cons, IH. ring. Qed.
Lemma fsum_triples k base f (c : nat -> seg) g : (forall j, (j < k)%nat -> g (c j) = f (base + 3 * j)%nat + f (base + 3 * j + 1)%nat + f (base + 3 * j + 2)%nat) ->
  AlignModel.fsum (3 * k) (fun i => f (base + i)%nat) = rsum (map c (seq 0 k)) g.
Proof.
  induction k as [|k IH]; intros H; [reflexivity|]. rewrite seq_S, map_app, rsum_app. cbn [map Nat.add]. rewrite rsum_cons.
  replace (3 * S k)%nat with (S (S (S (3 * k)))) by lia. cbn [AlignModel.fsum]. rewrite IH by (intros; apply H; lia). rewrite (H k) by lia.
  replace (base + S (3 * k))%nat with (base + 3 * k + 1)%nat by lia. replace (base + S (S (3 * k)))%nat with (base + 3 * k + 2)%nat by lia. cbn [rsum fold_right]. ring.
Qed.
Notation size n := (size_of (state_layout (d_cam n) (d_max n) (d_pose n))).
Lemma fsum_segs n f : AlignModel.fsum (size n) f = rsum (segs n) (fun s => f (seg_id n s) + f (seg_id n s + 1)%nat + f (seg_id n s + 2)%nat).
Proof.
  destruct (state_ids (d_cam n) (d_max n) (d_pose n)) as (I1 & I2 & I3 & I4 & I5 & I6 & I7 & I8 & I9 & I10 & IS).
  rewrite IS. unfold segs. rewrite !rsum_app. set (g := fun s => f (seg_id n s) + f (seg_id n s + 1)%nat + f (seg_id n s + 2)%nat).
  replace (15 + 6 * d_cam n + 3 * d_max n + 6 * d_pose n)%nat with (15 + (3 * d_cam n + (3 * d_cam n + (3 * d_max n + (3 * d_pose n + 3 * d_pose n)))))%nat by lia.
  rewrite !AlignLoop.fsum_split.
  rewrite (fsum_triples (d_cam n) 15 f Vep g) by (intros j _; unfold g; cbn [seg_id]; rewrite I6; repeat f_equal; lia).
  rewrite (AlignLoop.fsum_ext (3 * d_cam n) _ (fun i => f (15 + 3 * d_cam n + i)%nat)) by (intros; f_equal; lia).
  rewrite (fsum_triples (d_cam n) (15 + 3 * d_cam n) f Vea g) by (intros j _; unfold g; cbn [seg_id]; rewrite I7; repeat f_equal; lia).
  rewrite (AlignLoop.fsum_ext (3 * d_max n) _ (fun i => f (15 + 6 * d_cam n + i)%nat)) by (intros; f_equal; lia).
  rewrite (fsum_triples (d_max n) (15 + 6 * d_cam n) f Fea g) by (intros j _; unfold g; cbn [seg_id]; rewrite I8; repeat f_equal; lia).
  rewrite (AlignLoop.fsum_ext (3 * d_pose n) (fun i => f (15 + (3 * d_cam n + (3 * d_cam n + (3 * d_max n + i))))%nat) (fun i => f (15 + 6 * d_cam n + 3 * d_max n + i)%nat)) by (intros; f_equal; lia).
  rewrite (fsum_triples (d_pose n) (15 + 6 * d_cam n + 3 * d_max n) f Pop g) by (intros j _; unfold g; cbn [seg_id]; rewrite I9; repeat f_equal; lia).
  rewrite (AlignLoop.fsum_ext (3 * d_pose n) _ (fun i => f (15 + 6 * d_cam n + 3 * d_max n + 3 * d_pose n + i)%nat)) by (intros; f_equal; lia).
  rewrite (fsum_triples (d_pose n) (15 + 6 * d_cam n + 3 * d_max n + 3 * d_pose n) f Poa g) by (intros j _; unfold g; cbn [seg_id]; rewrite I10; repeat f_equal; lia).
  assert (B : AlignModel.fsum 15 f = rsum [Pos; Vel; Acb; Gyb; Att] g).
  { rewrite !rsum_cons. unfold g. cbn [seg_id]. rewrite I1, I2, I3, I4, I5. cbn [AlignModel.fsum rsum fold_right Nat.add]. ring. }
  rewrite B. ring.
Qed.
Lemma quad_variance n m P x : represents n m P -> quad (size n) m x = variance n P (vec_of n x).
Proof.
  intros H. unfold quad, variance. rewrite fsum_segs. apply rsum_ext; intros s Hs. apply in_segs in Hs. rewrite !fsum_segs, <- !rsum_add. apply rsum_ext; intros t Ht. apply in_segs in Ht.
  assert (E : forall a b, (a < 3)%nat -> (b < 3)%nat -> m (seg_id n s + a)%nat (seg_id n t + b)%nat = ent (P s t) a b) by (intros; now apply H).
  pose proof (E 0 0 ltac:(lia) ltac:(lia))%nat as E00. pose proof (E 0 1 ltac:(lia) ltac:(lia))%nat as E01. pose proof (E 0 2 ltac:(lia) ltac:(lia))%nat as E02.
  pose proof (E 1 0 ltac:(lia) ltac:(lia))%nat as E10. pose proof (E 1 1 ltac:(lia) ltac:(lia))%nat as E11. pose proof (E 1 2 ltac:(lia) ltac:(lia))%nat as E12.
  pose proof (E 2 0 ltac:(lia) ltac:(lia))%nat as E20. pose proof (E 2 1 ltac:(lia) ltac:(lia))%nat as E21. pose proof (E 2 2 ltac:(lia) ltac:(lia))%nat as E22.
  rewrite ?Nat.add_0_r in *. unfold ent, comp in *. rewrite E00, E01, E02, E10, E11, E12, E20, E21, E22.
  unfold vec_of, dot, mv, vx, vy, vz. cbn [fst snd]. unfold dot, vx, vy, vz. cbn [fst snd]. ring.
Qed.
Lemma ids_disjoint n s t a b : seg_in n s -> seg_in n t -> (a < 3)%nat -> (b < 3)%nat -> (seg_id n s + a = seg_id n t + b)%nat -> s = t /\ a = b.
Proof.
  intros Hs Ht Ha Hb. destruct (state_ids (d_cam n) (d_max n) (d_pose n)) as (I1 & I2 & I3 & I4 & I5 & I6 & I7 & I8 & I9 & I10 & IS).
  destruct s, t; cbn [seg_id seg_in] in *; rewrite ?I1, ?I2, ?I3, ?I4, ?I5, ?I6, ?I7, ?I8, ?I9, ?I10; intros E; try lia; try (split; [reflexivity|lia]).
  all: (split; [f_equal|]; lia).
Qed.
Lemma segs_in n s : seg_in n s -> In s (segs n).
Proof.
  intros H. unfold segs. rewrite !in_app_iff. destruct s; cbn [seg_in] in H.
  1-5: left; cbn; tauto.
  - right; left. apply in_map. apply in_seq. lia.
  - right; right; left. apply in_map. apply in_seq. lia.
  - right; right; right; left. apply in_map. apply in_seq. lia.
  - right; right; right; right; left. apply in_map. apply in_seq. lia.
  - right; right; right; right; right. apply in_map. apply in_seq. lia.
Qed.
Lemma every_index n i : (i < size n)%nat -> exists s a, seg_in n s /\ (a < 3)%nat /\ i = (seg_id n s + a)%nat.
Proof.
  intros H. destruct (state_ids (d_cam n) (d_max n) (d_pose n)) as (I1 & I2 & I3 & I4 & I5 & I6 & I7 & I8 & I9 & I10 & IS). rewrite IS in H.
  assert (D : forall k q, (k < 3 * q)%nat -> (k / 3 < q)%nat /\ k = (3 * (k / 3) + k mod 3)%nat /\ (k mod 3 < 3)%nat).
  { intros k q L. split; [apply Nat.div_lt_upper_bound; lia|]. split; [apply Nat.div_mod; lia|apply Nat.mod_upper_bound; lia]. }
  destruct (Nat.lt_ge_cases i 15) as [L|L].
  { destruct (D i 5%nat ltac:(lia)) as (D1 & D2 & D3). assert (C : (i / 3 = 0 \/ i / 3 = 1 \/ i / 3 = 2 \/ i / 3 = 3 \/ i / 3 = 4)%nat) by lia.
    destruct C as [C|[C|[C|[C|C]]]]; [exists Pos|exists Vel|exists Acb|exists Gyb|exists Att]; exists (i mod 3)%nat; cbn [seg_in seg_id]; rewrite ?I1, ?I2, ?I3, ?I4, ?I5; repeat split; try assumption; rewrite C in D2; lia. }
  destruct (Nat.lt_ge_cases (i - 15) (3 * d_cam n)) as [L1|L1].
  { destruct (D (i - 15) (d_cam n) L1)%nat as (D1 & D2 & D3). exists (Vep ((i - 15) / 3)%nat), ((i - 15) mod 3)%nat. cbn [seg_in seg_id]. rewrite I6. repeat split; try assumption. lia. }
  destruct (Nat.lt_ge_cases (i - 15 - 3 * d_cam n) (3 * d_cam n)) as [L2|L2].
  { destruct (D _ _ L2) as (D1 & D2 & D3). exists (Vea ((i - 15 - 3 * d_cam n) / 3)%nat), ((i - 15 - 3 * d_cam n) mod 3)%nat. cbn [seg_in seg_id]. rewrite I7. repeat split; try assumption. lia. }
  destruct (Nat.lt_ge_cases (i - 15 - 6 * d_cam n) (3 * d_max n)) as [L3|L3].
  { destruct (D _ _ L3) as (D1 & D2 & D3). exists (Fea ((i - 15 - 6 * d_cam n) / 3)%nat), ((i - 15 - 6 * d_cam n) mod 3)%nat. cbn [seg_in seg_id]. rewrite I8. repeat split; try assumption. lia. }
  destruct (Nat.lt_ge_cases (i - 15 - 6 * d_cam n - 3 * d_max n) (3 * d_pose n)) as [L4|L4].
  { destruct (D _ _ L4) as (D1 & D2 & D3). exists (Pop ((i - 15 - 6 * d_cam n - 3 * d_max n) / 3)%nat), ((i - 15 - 6 * d_cam n - 3 * d_max n) mod 3)%nat. cbn [seg_in seg_id]. rewrite I9. repeat split; try assumption. lia. }
  destruct (D (i - 15 - 6 * d_cam n - 3 * d_max n - 3 * d_pose n)%nat (d_pose n) ltac:(lia)) as (D1 & D2 & D3).
  exists (Poa ((i - 15 - 6 * d_cam n - 3 * d_max n - 3 * d_pose n) / 3)%nat), ((i - 15 - 6 * d_cam n - 3 * d_max n - 3 * d_pose n) mod 3)%nat. cbn [seg_in seg_id]. rewrite I10. repeat split; try assumption. lia.
Qed.
Lemma ent_ext A B : (forall a b, (a < 3)%nat -> (b < 3)%nat -> ent A a b = ent B a b) -> A = B.
Proof.
  intros H. destruct A as [[[[a b] c] [[d e] f]] [[g h] i]], B as [[[[a' b'] c'] [[d' e'] f']] [[g' h'] i']].
  pose proof (H 0 0 ltac:(lia) ltac:(lia))%nat as E00. pose proof (H 0 1 ltac:(lia) ltac:(lia))%nat as E01. pose proof (H 0 2 ltac:(lia) ltac:(lia))%nat as E02.
  pose proof (H 1 0 ltac:(lia) ltac:(lia))%nat as E10. pose proof (H 1 1 ltac:(lia) ltac:(lia))%nat as E11. pose proof (H 1 2 ltac:(lia) ltac:(lia))%nat as E12.
  pose proof (H 2 0 ltac:(lia) ltac:(lia))%nat as E20. pose proof (H 2 1 ltac:(lia) ltac:(lia))%nat as E21. pose proof (H 2 2 ltac:(lia) ltac:(lia))%nat as E22.
  cbv [ent comp r0 r1 r2 vx vy vz fst snd] in *. now subst.
Qed.
Lemma ent_mt A a b : (a < 3)%nat -> (b < 3)%nat -> ent (mt A) a b = ent A b a.
Proof. intros Ha Hb. destruct A as [[[[x0 x1] x2] [[y0 y1] y2]] [[z0 z1] z2]]. destruct (lt3 a Ha) as [->|[->| ->]], (lt3 b Hb) as [->|[->| ->]]; reflexivity. Qed.
Lemma find_seg n i : {sa : seg * nat | seg_in n (fst sa) /\ (snd sa < 3)%nat /\ i = (seg_id n (fst sa) + snd sa)%nat} + {forall s a, seg_in n s -> (a < 3)%nat -> i <> (seg_id n s + a)%nat}.
Proof.
  assert (C : forall l : list seg, {sa : seg * nat | In (fst sa) l /\ (snd sa < 3)%nat /\ i = (seg_id n (fst sa) + snd sa)%nat} + {forall s a, In s l -> (a < 3)%nat -> i <> (seg_id n s + a)%nat}).
  { induction l as [|s l [([t a] & A & B & E)|N]].
    - right. intros s a [].
    - left. exists (t, a). cbn in *. auto.
    - destruct (Nat.eq_dec i (seg_id n s)) as [E|E0]; [left; exists (s, 0%nat); cbn; split; [auto|lia]|].
      destruct (Nat.eq_dec i (seg_id n s + 1)) as [E|E1]; [left; exists (s, 1%nat); cbn; split; [auto|lia]|].
      destruct (Nat.eq_dec i (seg_id n s + 2)) as [E|E2]; [left; exists (s, 2%nat); cbn; split; [auto|lia]|].
      right. intros t a [<-|I] H; [lia|now apply N]. }
  destruct (C (segs n)) as [([t a] & A & B & E)|N].
  - left. exists (t, a). split; [now apply in_segs|auto].
  - right. intros s a I H. apply N; [now apply segs_in|exact H].
Qed.
Definition flat (n : dims) (v : tangent) (i : nat) : R := match find_seg n i with inleft (exist _ sa _) => comp (v (fst sa)) (snd sa) | inright _ => 0 end.
Lemma flat_at n v s a : seg_in n s -> (a < 3)%nat -> flat n v (seg_id n s + a) = comp (v s) a.
Proof.
  intros Hs Ha. unfold flat. destruct (find_seg n (seg_id n s + a)) as [([t b] & B1 & B2 & E)|N]; [|elim (N s a Hs Ha eq_refl)].
  cbn [fst snd] in *. destruct (ids_disjoint n s t a b Hs B1 Ha B2 E) as [-> ->]. reflexivity.
Qed.
Theorem C92_blocks_and_matrix : forall n m P, represents n m P -> (valid_cov n P <-> covariance (size n) m).
Proof.
  intros n m P H. split.
  - intros [S V]. split.
    + intros i j Hi Hj. destruct (every_index n i Hi) as (s & a & Hs & Ha & ->). destruct (every_index n j Hj) as (t & b & Ht & Hb & ->).
      rewrite !H by assumption. rewrite (S s t Hs Ht), ent_mt by assumption. reflexivity.
    + intros x. rewrite (quad_variance n m P x H). apply V.
  - intros [S V]. constructor.
    + intros s t Hs Ht. apply ent_ext. intros a b Ha Hb. rewrite ent_mt by assumption. rewrite <- (H s t a b), <- (H t s b a) by assumption.
      apply S; now apply id_fits.
    + intros v. specialize (V (flat n v)). rewrite (quad_variance n m P _ H) in V. unfold variance in *.
      replace (rsum (segs n) (fun s => rsum (segs n) (fun t => dot (v s) (mv (P s t) (v t)))))
        with (rsum (segs n) (fun s => rsum (segs n) (fun t => dot (vec_of n (flat n v) s) (mv (P s t) (vec_of n (flat n v) t))))); [exact V|].
      assert (E : forall s, In s (segs n) -> vec_of n (flat n v) s = v s).
      { intros s I. apply in_segs in I. unfold vec_of. rewrite <- (Nat.add_0_r (seg_id n s)) at 1. rewrite !flat_at by (assumption || lia). cbn [comp]. destruct (v s) as [[? ?] ?]. reflexivity. }
      apply rsum_ext; intros s Hs; apply rsum_ext; intros t Ht. now rewrite (E s Hs), (E t Ht).
Qed.

(** ** runs *)
Lemma init_block_ok c x t p nor1 cam seen : good_init (b_cov c) -> covariance 3 (snd (init_feature c x 3 0 cam t p nor1 seen (fun _ _ => 0))).
Proof.
  intros [C Z]. apply C83_stays_covariance; [lia| |exact C|exact Z]. split; [intros i j _ _; reflexivity|]. intros y. unfold quad. cbn [AlignModel.fsum]. lra.
Qed.
(** Starting from a valid covariance, every history of predictions, measurements, removals and additions
    leaves a valid covariance. *)
Theorem C92_stays_covariance : forall n P cams frame logm inv front nth_elt ign track ic, inverts inv -> good_init (b_cov (c_b ic)) ->
  forall l F G, Forall (step_ok n) l -> valid_cov n (k_P F) -> krun n P cams frame logm inv front nth_elt ign track ic F l = Some G -> valid_cov n (k_P G).
Proof.
  intros n P cams frame logm inv front nth_elt ign track ic HI HB l F G A V E.
  apply (run_valid n P cams frame logm inv front nth_elt ign track ic HI (fun x t p nor1 cam seen => init_block_ok (c_b ic) x t p nor1 cam seen HB) l A (Some F) G); [|exact E].
  intros K Q. now injection Q as <-.
Qed.
(** no measurement makes any combination of the error state more uncertain *)
Theorem C92_measurement_never_hurts : forall n P cams frame logm inv front nth_elt ign track ic ms Rn k F G, inverts inv ->
  good_noise (dim_of ms) Rn -> valid_cov n (k_P F) -> kstep n P cams frame logm inv front nth_elt ign track ic F (KMeas ms Rn k) = Some G ->
  forall v, 0 <= variance n (k_P G) v <= variance n (k_P F) v.
Proof.
  intros n P cams frame logm inv front nth_elt ign track ic ms Rn k F G HI N V E v. split.
  - apply vc_psd. eapply (meas_valid n P cams frame logm inv front nth_elt ign track ic HI); eassumption.
  - eapply (meas_less n P cams frame logm inv front nth_elt ign track ic HI); eassumption.
Qed.
(** the innovation covariance of every measurement is symmetric and positive definite, so the gain exists and
    the Mahalanobis distance of the outlier test is a distance *)
Theorem C92_innovation_covariance : forall n P cams frame logm ign u ms x y H Rn, valid_cov n P -> good_noise (dim_of ms) Rn ->
  linearise cams frame logm ign u ms x = Some (y, H) ->
  square (dim_of ms) (inn_cov n P H Rn) /\ sym (dim_of ms) (inn_cov n P H Rn) /\ posdef (dim_of ms) (inn_cov n P H Rn).
Proof.
  intros n P cams frame logm ign u ms x y H Rn V N L. apply lin_dim in L. rewrite <- L in *. split; [apply inn_square, N|]. split; [now apply s_sym|now apply s_posdef].
Qed.
(** no measurement makes any combination of the error state exactly known *)
Theorem C92_never_certain : forall n P cams frame logm inv front nth_elt ign track ic ms Rn k F G, inverts inv ->
  good_noise (dim_of ms) Rn -> valid_cov n (k_P F) -> uncertain n (k_P F) ->
  kstep n P cams frame logm inv front nth_elt ign track ic F (KMeas ms Rn k) = Some G -> uncertain n (k_P G).
Proof.
  intros n P cams frame logm inv front nth_elt ign track ic ms Rn k F G HI N V U E. eapply (meas_pos n P cams frame logm inv front nth_elt ign track ic HI); eassumption.
Qed.
(** a prediction propagates the uncertainty and adds that of the noise *)
Theorem C92_prediction : forall n P cams frame logm inv front nth_elt ign track ic m dt Q F G, valid_cov n (k_P F) -> valid_cov n Q ->
  kstep n P cams frame logm inv front nth_elt ign track ic F (KPredict m dt Q) = Some G ->
  forall v, let propagated := variance n (k_P F) (Jt n (jac_state n P m (k_x F) dt) v) in
  variance n (k_P G) v = propagated + variance n Q (Jt n (FiltModel.jac_noise n P m (k_x F) dt) v) /\ 0 <= propagated <= variance n (k_P G) v.
Proof.
  intros n P cams frame logm inv front nth_elt ign track ic m dt Q F G VP VQ E v propagated. cbn [kstep] in E. apply (f_equal (fun o => match o with Some K => k_P K | None => fun _ _ => mzero end)) in E. cbn [k_P] in E. rewrite <- E. clear E.
  assert (E : variance n (predict_cov n (jac_state n P m (k_x F) dt) (FiltModel.jac_noise n P m (k_x F) dt) (k_P F) Q) v = propagated + variance n Q (Jt n (FiltModel.jac_noise n P m (k_x F) dt) v))
    by (unfold predict_cov, propagated; now rewrite variance_madd, !variance_cong).
  split; [exact E|]. rewrite E. unfold propagated. pose proof (vc_psd n _ VP (Jt n (jac_state n P m (k_x F) dt) v)). pose proof (vc_psd n Q VQ (Jt n (FiltModel.jac_noise n P m (k_x F) dt) v)). lra.
Qed.

(** matrix inversion as assumed exists *)
Example C92_ex_inverts : exists inv, inverts inv.
Proof. exists the_inverse. exact the_inverse_ok. Qed.
Definition unit_cov : bmat := fun s t => if seg_eq s t then m1 else mzero.
Lemma unit_term v s t : 0 <= dot (v s) (mv (unit_cov s t) (v t)).
Proof. unfold unit_cov. destruct (seg_eq s t) as [->|]; [rewrite mv_m1; apply dot_nonneg|rewrite mv_0_l, dot_0_r; lra]. Qed.
Lemma dot_self_0 v : dot v v = 0 -> v = v0.
Proof.
  destruct v as [[a b] c]. unfold dot, vx, vy, vz. cbn [fst snd]. intros E. pose proof (Rle_0_sqr a). pose proof (Rle_0_sqr b). pose proof (Rle_0_sqr c). unfold Rsqr in *.
  assert (a * a = 0) by lra. assert (b * b = 0) by lra. assert (c * c = 0) by lra.
  assert (a = 0) by now destruct (Rmult_integral a a). assert (b = 0) by now destruct (Rmult_integral b b). assert (c = 0) by now destruct (Rmult_integral c c). now subst.
Qed.
Lemma rsum_ge l f s : (forall t, 0 <= f t) -> In s l -> f s <= rsum l f.
Proof.
  intros H. induction l as [|t l IH]; [intros []|]. rewrite rsum_cons. intros [->|I]; [pose proof (rsum_nonneg l f H); lra|]. specialize (H t). specialize (IH I). lra.
Qed.
Example C92_ex_cov : forall n, valid_cov n unit_cov /\ uncertain n unit_cov.
Proof.
  intros n. split; [constructor|].
  - intros s t _ _. unfold unit_cov. destruct (seg_eq s t), (seg_eq t s); try congruence; reflexivity.
  - intros v. apply rsum_nonneg. intros s. apply rsum_nonneg. intros t. apply unit_term.
  - intros v (s & Hs & X). apply segs_in in Hs.
    assert (A : dot (v s) (v s) <= variance n unit_cov v).
    { unfold variance. eapply Rle_trans; [|apply (rsum_ge (segs n) _ s); [intros u; apply rsum_nonneg; intros t; apply unit_term|exact Hs]].
      cbv beta. eapply Rle_trans; [|apply (rsum_ge (segs n) _ s); [intros u; apply unit_term|exact Hs]]. cbv beta. unfold unit_cov. destruct (seg_eq s s); [|congruence]. rewrite mv_m1. lra. }
    pose proof (dot_nonneg (v s)) as B. destruct B as [B|B]; [lra|]. elim X. now apply dot_self_0.
Qed.
Definition unit_noise : list (list R) := [[1; 0; 0]; [0; 1; 0]; [0; 0; 1]].
Example C92_ex_noise : good_noise 3 unit_noise.
Proof.
  split; [split; [reflexivity|intros r [<-|[<-|[<-|[]]]]; reflexivity]|]. split.
  - intros i j Hi Hj. destruct i as [|[|[|]]]; [| | |lia]; (destruct j as [|[|[|]]]; [| | |lia]); reflexivity.
  - intros v (i & Hi & E). unfold form, entry, unit_noise, irsum. cbn [seq map fold_right nth]. pose proof (Rle_0_sqr (v 0%nat)). pose proof (Rle_0_sqr (v 1%nat)). pose proof (Rle_0_sqr (v 2%nat)).
    assert (P : 0 < Rsqr (v i)) by now apply Rsqr_pos_lt. unfold Rsqr in *. destruct i as [|[|[|]]]; [| | |lia]; lra.
Qed.
Example C92_ex_init : good_init (fun i j => if (i =? j)%nat then 1 else 0).
Proof.
  split; [split|].
  - intros i j _ _. rewrite (Nat.eqb_sym i j). reflexivity.
  - intros x. unfold quad. cbn [AlignModel.fsum Nat.eqb]. pose proof (Rle_0_sqr (x 0%nat)). pose proof (Rle_0_sqr (x 1%nat)). pose proof (Rle_0_sqr (x 2%nat)). unfold Rsqr in *. lra.
  - intros k [K1 K2]. destruct k as [|[|[|]]]; try lia; now split.
Qed.
(** a history that meets all hypotheses *)
Example C92_ex_run : forall cams frame logm front nth_elt ign track,
  let ic := {| c_b := {| b_ncam := 1; b_stereo := false; b_cov := fun i j => if (i =? j)%nat then 1 else 0 |}; c_init := 3; c_ratio := 0; c_dold := ft_d ex_fea |} in
  let F := {| k_x := ex_x; k_P := unit_cov; k_used := k_used ex_F; k_u := k_u ex_F |} in
  let l := [KMeas MZero unit_noise 2; KFree 0; KPredict ex_still 1 unit_cov; KUse [{| w_slot := 0; w_cam := 0; w_Q := m1; w_type := REGULAR; w_seen := None |}]; KMeas (MVel m1 v0) unit_noise 0] in
  Forall (step_ok ex_n) l /\ valid_cov ex_n (k_P F) /\
  exists G, krun ex_n ex_P cams frame logm the_inverse front nth_elt ign track ic F l = Some G /\ valid_cov ex_n (k_P G).
Proof.
  intros cams frame logm front nth_elt ign track ic F l.
  assert (A : Forall (step_ok ex_n) l) by (apply Forall_cons; [exact C92_ex_noise|]; apply Forall_cons; [exact I|]; apply Forall_cons; [apply C92_ex_cov|]; apply Forall_cons; [exact I|]; apply Forall_cons; [exact C92_ex_noise|apply Forall_nil]).
  assert (V : valid_cov ex_n (k_P F)) by apply C92_ex_cov. split; [exact A|]. split; [exact V|].
  assert (E : exists G, krun ex_n ex_P cams frame logm the_inverse front nth_elt ign track ic F l = Some G).
  { unfold krun, l. cbn [fold_left]. cbn [kstep concerns before iterate linearise k_used k_x k_P k_u]. cbn [fold_left]. unfold use_slot, depths. cbn [k_used k_x k_P w_slot w_cam w_type w_Q w_seen F ex_F Nat.eqb ic c_b c_ratio].
    eexists. reflexivity. }
  destruct E as [G E]. exists G. split; [exact E|]. revert E. apply C92_stays_covariance; [exact the_inverse_ok|exact C92_ex_init|exact A|exact V].
Qed.

Print Assumptions C92_blocks_and_matrix.
Print Assumptions C92_stays_covariance.
Print Assumptions C92_measurement_never_hurts.
Print Assumptions C92_never_certain.
Print Assumptions C92_innovation_covariance.
Print Assumptions C92_prediction.
