(** The filter does not depend on the world frame, and does not learn it. *)
From Coq Require Import Reals ZArith List Bool Arith Lia Lra FunctionalExtensionality.
From Verif Require Import Geo Lie DistModel FiltModel OutModel CamModel InnoModel UpdModel CovModel BornModel SlotModel SlotSpec SlotProofs KalSpec KalProofs GaugeSpec.
Import ListNotations.
Local Open Scope R_scope.

(** ** rotations *)
Lemma mm_madd_l a b c : mm (madd a b) c = madd (mm a c) (mm b c). Proof. veq. Qed.
Lemma mm_madd_r a b c : mm c (madd a b) = madd (mm c a) (mm c b). Proof. veq. Qed.
Lemma mm_mscale_l k a b : mm (mscale k a) b = mscale k (mm a b). Proof. veq. Qed.
Lemma mm_mscale_r k a b : mm a (mscale k b) = mscale k (mm a b). Proof. veq. Qed.
Lemma mm_outer_r a u v : mm a (outer u v) = outer (mv a u) v. Proof. veq. Qed.
Lemma mm_outer_l a u v : mm (outer u v) a = outer u (mv (mt a) v). Proof. veq. Qed.
Lemma outer_scale_r k u v : outer u (vscale k v) = mscale k (outer u v). Proof. veq. Qed.
Lemma outer_scale_l k u v : outer (vscale k u) v = mscale k (outer u v). Proof. veq. Qed.
Lemma outer_add_l u v w : outer (vadd u v) w = madd (outer u w) (outer v w). Proof. veq. Qed.
Lemma outer_add_r u v w : outer w (vadd u v) = madd (outer w u) (outer w v). Proof. veq. Qed.
Lemma expm_conj Y v : is_rot Y -> expm (mv Y v) = mm (mm Y (expm v)) (mt Y).
Proof.
  intros H. unfold expm. rewrite (rot_norm Y v H), <- (skew_conj Y v H). rewrite !mm_madd_r, !mm_madd_l, mm_1_r, (proj1 H), !mm_mscale_r, !mm_mscale_l. f_equal. f_equal. f_equal.
  rewrite <- !mm_assoc. do 2 f_equal. rewrite (mm_assoc (mt Y)), (proj1 (proj2 H)), mm_1_l. reflexivity.
Qed.
Lemma expm_turn Y v a : is_rot Y -> mm (expm (mv Y v)) (mm Y a) = mm Y (mm (expm v) a).
Proof. intros H. rewrite (expm_conj Y v H), <- !mm_assoc, (mm_assoc (mt Y)), (proj1 (proj2 H)), mm_1_l. reflexivity. Qed.

Section Turn.
Variables (n : dims) (T : seg -> M3).
Hypothesis HT : forall s, mm (mt (T s)) (T s) = m1.
Lemma T_inv s v : mv (mt (T s)) (mv (T s) v) = v. Proof. now rewrite <- mv_mm, HT, mv_m1. Qed.
Lemma T_dot s a b : dot (mv (T s) a) (mv (T s) b) = dot a b. Proof. now rewrite mv_dot, T_inv. Qed.
Definition trow (h : row) : row := fun s => mv (T s) (h s).
Definition ttan (d : tangent) : tangent := fun s => mv (T s) (d s).
Lemma mm_sandwich a b s : mm (mm a (mt (T s))) (mm (T s) b) = mm a b.
Proof. rewrite <- mm_assoc, (mm_assoc (mt (T s))), HT, mm_1_l. reflexivity. Qed.
Lemma mm_msum_l l a f : mm a (msum l f) = msum l (fun s => mm a (f s)).
Proof. induction l as [|s l IH]; [apply mm_0_r|]. change (mm a (madd (f s) (msum l f)) = madd (mm a (f s)) (msum l (fun s => mm a (f s)))). now rewrite mm_madd_r, IH. Qed.
Lemma mm_msum_r l a f : mm (msum l f) a = msum l (fun s => mm (f s) a).
Proof. induction l as [|s l IH]; [apply mm_0_l|]. change (mm (madd (f s) (msum l f)) a = madd (mm (f s) a) (msum l (fun s => mm (f s) a))). now rewrite mm_madd_l, IH. Qed.
End Turn.
Lemma cong_turned n (T N : seg -> M3) J J' P : (forall s, mm (mt (N s)) (N s) = m1) ->
  (forall s a, J' s a = mm (mm (T s) (J s a)) (mt (N a))) -> cong n J' (turned N P) = turned T (cong n J P).
Proof.
  intros HN HJ. apply functional_extensionality; intros s. apply functional_extensionality; intros t. unfold cong, turned.
  rewrite mm_msum_l, mm_msum_r. apply msum_ext; intros a _. rewrite mm_msum_l, mm_msum_r. apply msum_ext; intros b _.
  rewrite !HJ, !mt_mm, mt_mt. rewrite <- !mm_assoc. do 2 f_equal. rewrite (mm_assoc (mt (N a))), HN, mm_1_l. f_equal.
  rewrite (mm_assoc (mt (N b))), HN, mm_1_l. reflexivity.
Qed.
Lemma cong_padd n J P D : cong n J (padd P D) = padd (cong n J P) (cong n J D).
Proof.
  apply functional_extensionality; intros s. apply functional_extensionality; intros t. unfold cong, padd.
  rewrite <- msum_add. apply msum_ext; intros a _. rewrite <- msum_add. apply msum_ext; intros b _. now rewrite mm_madd_r, mm_madd_l.
Qed.

Lemma vadd_ac p q r u : vadd (vadd p q) (vadd r u) = vadd (vadd p r) (vadd q u). Proof. veq. Qed.
Lemma vadd_v0 : vadd v0 v0 = v0. Proof. unfold v0. veq. Qed.
Lemma vsum_add l f g : vsum l (fun s => vadd (f s) (g s)) = vadd (vsum l f) (vsum l g).
Proof.
  induction l as [|s l IH]; [symmetry; exact vadd_v0|].
  change (vadd (vadd (f s) (g s)) (vsum l (fun s => vadd (f s) (g s))) = vadd (vadd (f s) (vsum l f)) (vadd (g s) (vsum l g))). rewrite IH. apply vadd_ac.
Qed.
Lemma isum_ext_in k f g : (forall i, (i < k)%nat -> f i = g i) -> isum k f = isum k g.
Proof.
  intros H. unfold isum. assert (G : forall i, In i (seq 0 k) -> f i = g i) by (intros i I; apply in_seq in I; apply H; lia).
  induction (seq 0 k) as [|i l IH]; [reflexivity|]. cbn [fold_right]. rewrite (G i (or_introl eq_refl)), IH by (intros j J; apply G; now right). reflexivity.
Qed.
Lemma mm_im_l k a f : mm a (imsum k f) = imsum k (fun i => mm a (f i)).
Proof. unfold imsum. induction (seq 0 k) as [|s l IH]; [apply mm_0_r|]. cbn [fold_right]. now rewrite mm_madd_r, IH. Qed.
Lemma mm_im_r k a f : mm (imsum k f) a = imsum k (fun i => mm (f i) a).
Proof. unfold imsum. induction (seq 0 k) as [|s l IH]; [apply mm_0_l|]. cbn [fold_right]. now rewrite mm_madd_l, IH. Qed.
Lemma mm_mneg_l a b : mm (mneg a) b = mneg (mm a b). Proof. veq. Qed.
Lemma mm_mneg_r a b : mm a (mneg b) = mneg (mm a b). Proof. veq. Qed.
Lemma madd_rot a b c : madd (madd a b) c = madd (madd a c) b. Proof. veq. Qed.

(** ** measurements *)
Section Meas.
Variables (n : dims) (T : seg -> M3) (P D : bmat).
Hypothesis HT : forall s, mm (mt (T s)) (T s) = m1.
Definition unseen (h : row) : Prop := forall s, PHt n D (trow T h) s = v0.
Lemma PHt_turned h s : unseen h -> PHt n (padd (turned T P) D) (trow T h) s = mv (T s) (PHt n P h s).
Proof.
  intros U. specialize (U s). unfold PHt in *. rewrite mv_msum_r.
  transitivity (vadd (vsum (segs n) (fun t => mv (T s) (mv (P s t) (h t)))) (vsum (segs n) (fun t => mv (D s t) (trow T h t)))).
  - rewrite <- vsum_add. apply vsum_ext; intros t _. unfold padd, turned. rewrite mv_madd_l. f_equal. unfold trow. rewrite !mv_mm, (T_inv T HT). reflexivity.
  - rewrite U. apply vadd_0_r.
Qed.
Lemma trow_nth H i : nth i (map (trow T) H) zrow = trow T (nth i H zrow).
Proof.
  assert (Z : zrow = trow T zrow) by (apply functional_extensionality; intros s; unfold trow, zrow; now rewrite mv_0_r). rewrite Z at 1. apply map_nth.
Qed.
Variable H : list row.
Hypothesis HU : forall h, In h H -> unseen h.
Lemma unseen_nth i : unseen (nth i H zrow).
Proof.
  destruct (nth_in_or_default i H zrow) as [I|E]; [now apply HU|]. rewrite E. intros s. unfold PHt. transitivity (vsum (segs n) (fun _ => v0)).
  - apply vsum_ext; intros t _. unfold trow, zrow. now rewrite !mv_0_r.
  - induction (segs n) as [|t l IH]; [reflexivity|]. change (vadd v0 (vsum l (fun _ => v0)) = v0). rewrite IH. apply vadd_v0.
Qed.
Lemma inn_turned Rn : inn_cov n (padd (turned T P) D) (map (trow T) H) Rn = inn_cov n P H Rn.
Proof.
  unfold inn_cov.
  assert (E : forall (A : Type) (H : list row) (r : list A), combine (map (trow T) H) r = map (fun p => (trow T (fst p), snd p)) (combine H r)).
  { intros A H0. induction H0 as [|h H0 IH]; intros [|q r]; try reflexivity. cbn [map combine fst snd]. now rewrite IH. }
  rewrite E, map_map. apply map_ext_in. intros [h r] I. cbn [fst snd]. rewrite E, map_map. apply map_ext_in. intros [g e] I'. cbn [fst snd]. f_equal.
  apply in_combine_l in I'. apply rsum_ext; intros s _. rewrite (PHt_turned g s (HU g I')). apply T_dot, HT.
Qed.
Lemma gain_turned W z : gain_mul n (padd (turned T P) D) (map (trow T) H) W z = ttan T (gain_mul n P H W z).
Proof.
  apply functional_extensionality; intros s. unfold gain_mul, ttan. rewrite map_length, mv_isum. apply isum_ext; intros i.
  rewrite trow_nth, (PHt_turned _ s (unseen_nth i)), mv_scale. reflexivity.
Qed.
Lemma update_turned W : update_cov n (padd (turned T P) D) (map (trow T) H) W = padd (turned T (update_cov n P H W)) D.
Proof.
  apply functional_extensionality; intros s. apply functional_extensionality; intros t. unfold update_cov. rewrite map_length.
  rewrite (imsum_ext (length H) _ (fun i => imsum (length H) (fun j => mscale (entry W i j) (outer (mv (T s) (PHt n P (nth i H zrow) s)) (mv (T t) (PHt n P (nth j H zrow) t)))))).
  - unfold padd, turned. rewrite mm_madd_r, mm_madd_l, madd_rot. f_equal. f_equal. rewrite mm_mneg_r, mm_mneg_l. f_equal.
    rewrite mm_im_l, mm_im_r. apply imsum_ext; intros i. rewrite mm_im_l, mm_im_r. apply imsum_ext; intros j.
    rewrite mm_mscale_r, mm_mscale_l, mm_outer_r, mm_outer_l, mt_mt. reflexivity.
  - intros i. apply imsum_ext; intros j. now rewrite !trow_nth, (PHt_turned _ s (unseen_nth i)), (PHt_turned _ t (unseen_nth j)).
Qed.
Lemma hmul_turned d : hmul n (map (trow T) H) (ttan T d) = hmul n H d.
Proof. unfold hmul. rewrite map_map. apply map_ext. intros h. apply rsum_ext; intros s _. apply T_dot, HT. Qed.
End Meas.
Section It.
Variables (n : dims) (T : seg -> M3) (P D : bmat) (inv : list (list R) -> list (list R)) (Rn : list (list R)) (f f' : state -> option lin) (mov : state -> state).
Hypothesis HT : forall s, mm (mt (T s)) (T s) = m1.
Hypothesis Hbox : forall x d, boxplus (mov x) (ttan T d) = mov (boxplus x d).
Hypothesis Hf : forall x, f' (mov x) = option_map (fun l => (fst l, map (trow T) (snd l))) (f x).
Hypothesis HU : forall x y H, f x = Some (y, H) -> forall h, In h H -> unseen n T D h.
Lemma iterate_turned k : forall x d,
  iterate n inv Rn (padd (turned T P) D) f' (mov x) k (ttan T d) =
  option_map (fun p => (ttan T (fst p), padd (turned T (snd p)) D)) (iterate n inv Rn P f x k d).
Proof.
  induction k as [|k IH]; intros x d; cbn [iterate]; rewrite Hbox, Hf; destruct (f (boxplus x d)) as [[y H]|] eqn:L; cbn [option_map fst snd]; try reflexivity.
  all: pose proof (HU _ _ _ L) as U; rewrite (inn_turned n T P D HT H U), (hmul_turned n T HT H d), (gain_turned n T P D HT H U).
  - now rewrite (update_turned n T P D HT H U).
  - apply IH.
Qed.
End It.

(** ** the filter seen from the other frame *)
Lemma state_ext a b : x_pos a = x_pos b -> x_vel a = x_vel b -> x_acb a = x_acb b -> x_gyb a = x_gyb b -> x_att a = x_att b ->
  x_vep a = x_vep b -> x_vea a = x_vea b -> x_fea a = x_fea b -> x_pop a = x_pop b -> x_poa a = x_poa b -> x_aux a = x_aux b -> a = b.
Proof. destruct a, b. cbn. intros. now subst. Qed.
Lemma moving_dep P a b m : x_acb a = x_acb b -> x_gyb a = x_gyb b -> mv (mt (x_att a)) (p_g P) = mv (mt (x_att b)) (p_g P) -> moving P a m = moving P b m.
Proof. intros E1 E2 E3. unfold moving, imu_acc_err. now rewrite E1, E2, E3. Qed.
Lemma r0_mm a b : r0 (mm a (mt b)) = mv b (r0 a). Proof. veq. Qed.
Lemma r1_mm a b : r1 (mm a (mt b)) = mv b (r1 a). Proof. veq. Qed.
Lemma r2_mm a b : r2 (mm a (mt b)) = mv b (r2 a). Proof. veq. Qed.
Lemma mm_skew_fix a Y g : is_rot Y -> mv Y g = g -> mm (mm a (mt Y)) (skew g) = mm (mm a (skew g)) (mt Y).
Proof.
  intros HY Hg. rewrite <- !mm_assoc. f_equal.
  assert (E : mv (mt Y) g = g) by (rewrite <- Hg at 1; now apply rot_inv_l). rewrite (skew_move (mt Y) g (rot_tr Y HY)), E. reflexivity.
Qed.
Lemma mscale_0 c : mscale c mzero = mzero. Proof. unfold mzero, v0. veq. Qed.
Lemma move_pos Y t a b c : vsub (vadd (mv Y a) t) (vscale c (vsub (mv Y b) v0)) = vadd (mv Y (vsub a (vscale c (vsub b v0)))) t.
Proof. unfold v0. veq. Qed.
Lemma move_sum Y t a d : vadd (vadd (mv Y a) t) (mv Y d) = vadd (mv Y (vadd a d)) t. Proof. veq. Qed.
Lemma scale_v0 c : vscale c v0 = v0. Proof. unfold v0. veq. Qed.

Lemma alg1 c d t : vadd (vadd c t) d = vadd (vadd c d) t. Proof. veq. Qed.
Lemma cancel a b c : vadd (vsub a c) (vadd b c) = vadd a b. Proof. veq. Qed.
Lemma sub_sum a b c : vsub a (vadd b c) = vsub (vsub a b) c. Proof. veq. Qed.

Definition framed (s : seg) : Prop := s = Pos \/ s = Att.
Lemma framed_dec s : framed s \/ ~ framed s.
Proof. unfold framed. destruct s; (left; auto; fail) || (right; intros [H|H]; discriminate). Qed.
Definition supported (D : bmat) : Prop := forall s r, ~ framed s \/ ~ framed r -> D s r = mzero.
Lemma madd_0_r' a : madd a mzero = a. Proof. unfold mzero, v0. veq. Qed.
Lemma kf_ext F G : k_x F = k_x G -> k_P F = k_P G -> k_used F = k_used G -> k_u F = k_u G -> F = G.
Proof. destruct F, G. cbn. intros. now subst. Qed.

Definition inner (s : seg) : Prop := match s with Pos | Att | Pop _ | Poa _ => False | _ => True end.
Lemma inner_dec s : inner s \/ ~ inner s. Proof. destruct s; cbn; auto. Qed.
Lemma transfer_outer frame g k i x s : ~ inner s -> transfer_jac frame g k x i s = mzero.
Proof. intros N. destruct s; cbn in N; try tauto; unfold transfer_jac; destruct (_ =? _)%Z; reflexivity. Qed.

Section World.
Variables (P : params) (Y : M3) (t : V3) (iw : nat -> bool).
Hypothesis HY : heading_rotation (p_g P) Y.
Let T := turn Y iw.
Let mov := moved_state Y t iw.
Let HR : is_rot Y := proj1 HY.
Let Hg : mv Y (p_g P) = p_g P := proj2 HY.
Lemma tg : mv (mt Y) (p_g P) = p_g P.
Proof. rewrite <- Hg at 1. now apply rot_inv_l. Qed.
Lemma HT s : mm (mt (T s)) (T s) = m1.
Proof. destruct s; cbn [T turn]; try (rewrite mt_1; apply mm_1_l); try apply HR. unfold T, turn. destruct (iw k); [apply HR|rewrite mt_1; apply mm_1_l]. Qed.
Lemma HN s : mm (mt (noise_turn Y iw s)) (noise_turn Y iw s) = m1.
Proof. destruct s; cbn [noise_turn]; try (rewrite mt_1; apply mm_1_l); try apply HR. destruct (iw k); [apply HR|rewrite mt_1; apply mm_1_l]. Qed.
Lemma box_moved x d : boxplus (mov x) (ttan T d) = mov (boxplus x d).
Proof.
  apply state_ext; unfold mov, moved_state, boxplus, ttan, T; cbn [x_pos x_vel x_acb x_gyb x_att x_vep x_vea x_fea x_pop x_poa x_aux turn]; rewrite ?mv_m1; try reflexivity.
  - apply move_sum.
  - now apply expm_turn.
  - apply functional_extensionality; intros c. now rewrite mv_m1.
  - apply functional_extensionality; intros c. now rewrite mv_m1.
  - apply functional_extensionality; intros c. now rewrite mv_m1.
  - apply functional_extensionality; intros c. now rewrite mv_m1.
  - apply functional_extensionality; intros k. destruct (iw k); [now apply expm_turn|now rewrite mv_m1].
Qed.
Lemma predict_moved n m dt x : predict n P m true no_noise dt (mov x) = mov (predict n P m true no_noise dt x).
Proof.
  assert (G : mv (mt (x_att (mov x))) (p_g P) = mv (mt (x_att x)) (p_g P)) by (unfold mov, moved_state; cbn [x_att]; rewrite mt_mm, mv_mm, tg; reflexivity).
  assert (A : imu_acc_err P (mov x) m = imu_acc_err P x m) by (unfold imu_acc_err; rewrite G; reflexivity).
  apply state_ext; try reflexivity.
  - unfold predict, mov, moved_state, no_noise. cbn [x_pos x_att x_vel]. rewrite !scale_v0, !mv_mm. apply move_pos.
  - change (x_vel (predict n P m true no_noise dt (mov x))) with (vsub (mv (madd m1 (mneg (skew (vscale dt (vadd (vsub (i_gyr m) (x_gyb x)) (vscale (/ sqrt dt) (no_noise Att))))))) (x_vel x))
       (vscale dt (vsub (imu_acc_err P (mov x) m) (vscale (/ sqrt dt) (no_noise Vel))))). rewrite A. reflexivity.
  - unfold predict, mov, moved_state. cbn [x_att x_gyb]. symmetry. apply mm_assoc.
  - unfold predict, mov, moved_state, no_noise. cbn [x_poa]. apply functional_extensionality; intros k. rewrite !scale_v0, !expm_0, !mm_1_l. now destruct (k <? d_pose n)%nat.
  - unfold predict, mov, moved_state at 1. cbn [x_aux]. unfold predict. cbn [x_aux moved_state].
    f_equal.
    match goal with |- (if moving P ?a m then _ else _) = (if moving P ?b m then _ else _) => rewrite (moving_dep P a b m); [reflexivity|reflexivity|reflexivity|] end.
    cbn [x_att]. cbn [moved_state x_att x_gyb]. rewrite <- (mm_assoc Y), mt_mm, mv_mm, tg. reflexivity.
Qed.
Lemma jac_moved n m dt x s a : jac_state n P m (mov x) dt s a = mm (mm (T s) (jac_state n P m x dt s a)) (mt (T a)).
Proof.
  unfold T.
  destruct s, a; unfold mov, moved_state; cbn [jac_state turn x_att x_vel x_gyb x_fea x_aux]; rewrite ?mm_0_r, ?mm_0_l, ?mt_1, ?mm_1_l, ?mm_1_r, ?mm_0_l; try reflexivity.
  - symmetry. apply HR.
  - now rewrite mm_mscale_r.
  - rewrite mm_mscale_r, mm_mscale_l. f_equal. rewrite mv_mm. symmetry. now apply skew_conj.
  - rewrite mm_mscale_l. f_equal. rewrite mt_mm. now apply mm_skew_fix.
  - now rewrite mm_mscale_r, mm_assoc.
  - symmetry. apply HR.
  - destruct (cam_of n (x_fea x i)); [|now rewrite mm_0_l]. now rewrite mm_0_l.
  - destruct (cam_of n (x_fea x i)); [|now rewrite mm_0_l]. now rewrite mm_0_l.
  - destruct (cam_of n (x_fea x i)); [|now rewrite mm_0_l]. now rewrite mm_0_l.
  - destruct (Nat.eqb_spec k k0); [subst k0; rewrite mm_1_r; destruct (iw k); [symmetry; apply HR|now rewrite mt_1, mm_1_l]|now rewrite mm_0_r, mm_0_l].
Qed.
Lemma noise_moved n m dt x s a : FiltModel.jac_noise n P m (mov x) dt s a = mm (mm (T s) (FiltModel.jac_noise n P m x dt s a)) (mt (noise_turn Y iw a)).
Proof.
  unfold T.
  destruct s, a; unfold mov, moved_state; cbn [FiltModel.jac_noise turn noise_turn x_att x_vel x_gyb x_fea x_aux]; rewrite ?mm_0_r, ?mm_0_l, ?mt_1, ?mm_1_l, ?mm_1_r, ?mm_0_l; try reflexivity.
  - rewrite mm_mscale_r, mm_mscale_l, mm_1_r. f_equal. symmetry. apply HR.
  - now rewrite mm_mscale_r, mm_assoc.
  - destruct (cam_of n (x_fea x i)); [|now rewrite mm_0_l]. now rewrite mm_0_l.
  - destruct (cam_of n (x_fea x i)); [|now rewrite mm_0_l]. now rewrite mm_0_l.
  - destruct (Nat.eqb_spec k k0); [subst k0; destruct (iw k); [rewrite mm_mscale_r, mm_mscale_l, mm_1_r; f_equal; symmetry; apply HR|now rewrite mt_1, mm_1_l, mm_1_r]|now rewrite mm_0_r, mm_0_l].
Qed.

(** *** what the updates hand over *)
Variables (cams : nat -> camera) (frame : V3 -> M3) (logm : M3 -> V3) (ign : bool).
Definition tlin (l : lin) : lin := (fst l, map (trow T) (snd l)).
Lemma transfer_moved k i dold x : transfer frame k (mov x) i dold = transfer frame k x i dold. Proof. reflexivity. Qed.
Lemma transfer_jac_moved g k i x s : transfer_jac frame g k (mov x) i s = transfer_jac frame g k x i s. Proof. reflexivity. Qed.
Lemma T_inner s : inner s -> T s = m1.
Proof. destruct s; cbn; try tauto; reflexivity. Qed.
Lemma trow_inner h : (forall s, ~ inner s -> h s = v0) -> trow T h = h.
Proof. intros Z. apply functional_extensionality; intros s. unfold trow. destruct (inner_dec s) as [I|I]; [rewrite (T_inner s I); apply mv_m1|rewrite (Z s I); apply mv_0_r]. Qed.
Lemma rows2_moved J g k i x : map (trow T) (rows2 (fun s => neg_times J (transfer_jac frame g k x i s))) = rows2 (fun s => neg_times J (transfer_jac frame g k x i s)).
Proof.
  unfold rows2. cbn [map]. rewrite !trow_inner; [reflexivity| |]; intros s I; rewrite (transfer_outer frame g k i x s I), neg_times_0; reflexivity.
Qed.
Lemma mrows_moved J J' : (forall s, J' s = mm (J s) (mt (T s))) -> mrows J' = map (trow T) (mrows J).
Proof.
  intros E. unfold mrows. cbn [map]. repeat (apply f_equal2; [apply functional_extensionality; intros s; unfold trow; rewrite E; first [apply r0_mm|apply r1_mm|apply r2_mm]|]). reflexivity.
Qed.
Definition fits (ms : meas) : Prop :=
  match ms with
  | MPose c _ => match inertial c with Some i => iw i = true /\ t = v0 | None => True end /\ match body c with Some j => iw j = false | None => True end
  | _ => True
  end.
Lemma get_moved c u x m : fits (MPose c m) ->
  get_qWI c (moved_upd Y t u) (mov x) = mm Y (get_qWI c u x) /\ get_MrMV c (moved_upd Y t u) (mov x) = get_MrMV c u x /\ get_qVM c (moved_upd Y t u) (mov x) = get_qVM c u x /\
  get_IrIW c (moved_upd Y t u) (mov x) = vsub (get_IrIW c u x) (mv (mt (mm Y (get_qWI c u x))) t).
Proof.
  intros [F1 F2]. unfold get_qWI, get_MrMV, get_qVM, get_IrIW, mov, moved_state, moved_upd. cbn [x_pop x_poa u_qWI u_MrMV u_qVM u_IrIW].
  destruct (inertial c) as [i|].
  - destruct F1 as [F1 ->]. rewrite F1, mv_0_r, vsub_v0. destruct (body c) as [j|]; [rewrite F2|]; auto.
  - destruct (body c) as [j|]; [rewrite F2|]; auto.
Qed.
Lemma place_inner Q M b : vadd (vadd (mv Y b) t) (mv (mm Y Q) M) = vadd (mv Y (vadd b (mv Q M))) t.
Proof. rewrite mv_mm, mv_add. apply alg1. Qed.
Lemma back_moved q w : mv (mt (mm Y q)) (vadd (mv Y w) t) = vadd (mv (mt q) w) (mv (mt (mm Y q)) t).
Proof. rewrite mv_add. f_equal. rewrite mt_mm, mv_mm, (rot_inv_l Y w HR). reflexivity. Qed.
Lemma innov_pos_moved c u x m : fits (MPose c m) -> innov_pos c (moved_upd Y t u) m (mov x) v0 = innov_pos c u m x v0.
Proof.
  intros F. destruct (get_moved c u x m F) as (E1 & E2 & E3 & E4). unfold innov_pos. destruct (enPos c); [|reflexivity]. rewrite E1, E2, E4. do 2 f_equal.
  change (x_pos (mov x)) with (vadd (mv Y (x_pos x)) t). change (x_att (mov x)) with (mm Y (x_att x)). rewrite place_inner, back_moved. apply cancel.
Qed.
Lemma YtY a b : mm (mm a (mt Y)) (mm Y b) = mm a b.
Proof. rewrite <- mm_assoc, (mm_assoc (mt Y)), (proj1 (proj2 HR)), mm_1_l. reflexivity. Qed.
Lemma innov_att_moved c u x m : fits (MPose c m) -> innov_att c (moved_upd Y t u) m (mov x) v0 = innov_att c u m x v0.
Proof.
  intros F. destruct (get_moved c u x m F) as (E1 & E2 & E3 & E4). unfold innov_att. destruct (enAtt c); [|reflexivity]. rewrite E1, E3. f_equal.
  change (x_att (mov x)) with (mm Y (x_att x)). rewrite mt_mm, (mm_assoc _ (mt (x_att x))). apply YtY.
Qed.
Lemma jac_pos_moved c u x m s : fits (MPose c m) -> jac_pos c (moved_upd Y t u) (mov x) s = mm (jac_pos c u x s) (mt (T s)).
Proof.
  intros F. destruct (get_moved c u x m F) as (E1 & E2 & E3 & E4). unfold jac_pos. destruct (enPos c); [|now rewrite mm_0_l]. rewrite E1, E2.
  change (x_pos (mov x)) with (vadd (mv Y (x_pos x)) t). change (x_att (mov x)) with (mm Y (x_att x)).
  destruct s; unfold T; cbn [turn]; rewrite ?mt_1, ?mm_1_r; try reflexivity.
  - destruct (noFb c); [now rewrite mm_0_l|]. apply mt_mm.
  - destruct (noFb c); [now rewrite mm_0_l|]. rewrite mt_mm, mm_mneg_l. f_equal. rewrite mv_mm, <- (skew_conj Y _ HR), <- (mm_assoc Y (skew _)), YtY. apply mm_assoc.
  - destruct (is_idx (body c) k); [rewrite mt_mm; apply YtY|reflexivity].
  - destruct F as [F1 F2]. unfold is_idx. destruct (inertial c) as [i|]; [|now rewrite mm_0_l]. destruct (Nat.eqb_spec i k) as [<-|]; [|now rewrite mm_0_l].
    destruct F1 as [F1 Ft]. rewrite F1, place_inner, back_moved, Ft, mv_0_r, vadd_0_r, mt_mm. apply mm_assoc.
Qed.
Lemma jac_att_moved c u x m s : fits (MPose c m) -> jac_att c (moved_upd Y t u) (mov x) s = mm (jac_att c u x s) (mt (T s)).
Proof.
  intros F. destruct (get_moved c u x m F) as (E1 & E2 & E3 & E4). unfold jac_att. destruct (enAtt c); [|now rewrite mm_0_l]. rewrite E3.
  change (x_att (mov x)) with (mm Y (x_att x)).
  destruct s; unfold T; cbn [turn]; rewrite ?mt_1, ?mm_1_r; try reflexivity.
  - now rewrite mm_0_l.
  - destruct (noFb c); [now rewrite mm_0_l|]. rewrite mt_mm, mm_mneg_l. f_equal. apply mm_assoc.
  - destruct F as [F1 F2]. unfold is_idx. destruct (body c) as [j|].
    + destruct (Nat.eqb_spec j k) as [<-|].
      * rewrite F2, mt_1, mm_1_r. reflexivity.
      * destruct (inertial c) as [i|]; [|now rewrite mm_0_l]. destruct (Nat.eqb_spec i k) as [<-|]; [|now rewrite mm_0_l]. destruct F1 as [F1 _]. rewrite F1, mt_mm. apply mm_assoc.
    + destruct (inertial c) as [i|]; [|now rewrite mm_0_l]. destruct (Nat.eqb_spec i k) as [<-|]; [|now rewrite mm_0_l]. destruct F1 as [F1 _]. rewrite F1, mt_mm. apply mm_assoc.
Qed.
Lemma lin_moved u ms x : fits ms -> linearise cams frame logm ign (moved_upd Y t u) ms (mov x) = option_map tlin (linearise cams frame logm ign u ms x).
Proof.
  intros F. destruct ms as [i k dold c|i k dold eqs|c m|q v|]; cbn [linearise].
  - change (innovation_pix cams frame dold k i c (0, 0) (mov x)) with (innovation_pix cams frame dold k i c (0, 0) x).
    change (jac_pix cams frame dold ign k i (mov x)) with (jac_pix cams frame dold ign k i x).
    destruct (innovation_pix cams frame dold k i c (0, 0) x) as [y|]; [|reflexivity]. unfold jac_pix. destruct (pixel_jac cams frame dold k i x) as [J|]; [|reflexivity].
    cbn [option_map]. unfold tlin. cbn [fst snd]. now rewrite rows2_moved.
  - change (innovation_direct cams frame dold eqs k i (0, 0) (mov x)) with (innovation_direct cams frame dold eqs k i (0, 0) x).
    change (jac_direct cams frame dold eqs ign k i (mov x)) with (jac_direct cams frame dold eqs ign k i x).
    destruct (innovation_direct cams frame dold eqs k i (0, 0) x) as [y [|]]; [reflexivity|]. unfold jac_direct.
    destruct (predicted cams frame dold k i x) as [p|]; [|reflexivity]. destruct (pixel_jac cams frame dold k i x) as [J|]; [|reflexivity]. destruct (eqs k p) as [[A b]|]; [|reflexivity].
    cbn [option_map]. unfold tlin. cbn [fst snd]. now rewrite rows2_moved.
  - cbn [option_map]. unfold tlin. cbn [fst snd]. rewrite (innov_pos_moved c u x m F), (innov_att_moved c u x m F), map_app.
    rewrite (mrows_moved (jac_pos c u x) (jac_pos c (moved_upd Y t u) (mov x))) by (intros s; exact (jac_pos_moved c u x m s F)).
    rewrite (mrows_moved (jac_att c u x) (jac_att c (moved_upd Y t u) (mov x))) by (intros s; exact (jac_att_moved c u x m s F)). reflexivity.
  - cbn [option_map]. unfold tlin. cbn [fst snd]. rewrite <- (mrows_moved (jac_vel q) (jac_vel q)); [reflexivity|]. intros s. destruct s; unfold T; cbn [jac_vel turn]; now rewrite ?mm_0_l, ?mt_1, ?mm_1_r.
  - cbn [option_map]. unfold tlin. cbn [fst snd]. rewrite <- (mrows_moved jac_zero jac_zero); [reflexivity|]. intros s. destruct s; unfold T; cbn [jac_zero turn]; now rewrite ?mm_0_l, ?mt_1, ?mm_1_r.
Qed.
Lemma pre_moved c u m x : fits (MPose c m) ->
  pre_process c (moved_upd Y t u) m (mov x) = (moved_upd Y t (fst (pre_process c u m x)), mov (snd (pre_process c u m x))).
Proof.
  intros F. destruct (get_moved c u x m F) as (E1 & E2 & E3 & E4). unfold pre_process. change (u_did (moved_upd Y t u)) with (u_did u).
  destruct (negb (u_did u) && doAlign c); [|reflexivity]. rewrite E2, E3. cbn [fst snd].
  change (x_pos (mov x)) with (vadd (mv Y (x_pos x)) t). change (x_att (mov x)) with (mm Y (x_att x)).
  rewrite <- !(mm_assoc Y). set (q := mm (mm (x_att x) (mt (get_qVM c u x))) (m_att m)). rewrite place_inner, back_moved.
  rewrite sub_sum.
  f_equal. destruct (inertial c) as [i|] eqn:I; [|reflexivity]. destruct F as [F1 _]. rewrite I in F1. destruct F1 as [F1 Ft]. rewrite Ft, mv_0_r, vsub_v0.
  unfold mov. rewrite Ft. apply state_ext; try reflexivity. unfold set_pop, moved_state. cbn [x_poa]. apply functional_extensionality; intros k. destruct (Nat.eqb_spec k i) as [->|]; [now rewrite F1|reflexivity].
Qed.

(** *** slots and depths *)
Variables (n : dims) (inv : list (list R) -> list (list R)) (front : feat -> bool) (nth_elt : list R -> nat -> list R) (track : bool) (ic : icfg).
Definition mvd (D : bmat) (F : kf) : kf := with_cov (moved Y t iw F) (padd (turned T (k_P F)) D).
Lemma not_framed i : ~ framed (Fea i). Proof. intros [H|H]; discriminate. Qed.
Lemma reset_moved i B D Q : supported D -> reset_slot i B (padd (turned T Q) D) = padd (turned T (reset_slot i B Q)) D.
Proof.
  intros SD. apply functional_extensionality; intros s. apply functional_extensionality; intros r.
  destruct (seg_fea s i) as [->|Ns], (seg_fea r i) as [->|Nt].
  - rewrite reset_diag. unfold padd, turned. rewrite reset_diag, SD by (left; apply not_framed). unfold T. cbn [turn]. now rewrite mt_1, mm_1_l, mm_1_r, madd_0_r'.
  - rewrite reset_row by assumption. unfold padd, turned. rewrite reset_row by assumption. rewrite SD by (left; apply not_framed). now rewrite mm_0_r, mm_0_l, madd_0_r'.
  - rewrite reset_col by assumption. unfold padd, turned. rewrite reset_col by assumption. rewrite SD by (right; apply not_framed). now rewrite mm_0_r, mm_0_l, madd_0_r'.
  - rewrite reset_off by assumption. unfold padd, turned. now rewrite reset_off by assumption.
Qed.
Lemma seen_moved dold k x D Q i : supported D -> seen_in n frame front dold k (mov x) (padd (turned T Q) D) i = seen_in n frame front dold k x Q i.
Proof.
  intros SD. unfold seen_in. change (transfer frame k (mov x) i dold) with (transfer frame k x i dold). destruct (transfer frame k x i dold) as [g|]; [|reflexivity].
  f_equal. do 3 f_equal. apply rsum_ext. intros s _. apply rsum_ext. intros r _.
  change (transfer_jac frame false k (mov x) i s) with (transfer_jac frame false k x i s). change (transfer_jac frame false k (mov x) i r) with (transfer_jac frame false k x i r).
  destruct (inner_dec s) as [Is|Is]; [|rewrite (transfer_outer frame false k i x s Is); change (r2 mzero) with v0; now rewrite !dot_0_l].
  destruct (inner_dec r) as [Ir|Ir]; [|rewrite (transfer_outer frame false k i x r Ir); change (r2 mzero) with v0; now rewrite !mv_0_r, !dot_0_r].
  unfold padd, turned. rewrite (T_inner s Is), (T_inner r Ir), mt_1, mm_1_l, mm_1_r, SD, madd_0_r'; [reflexivity|]. left. intros [->| ->]; exact Is.
Qed.
Lemma depths_moved D F : supported D -> depths n frame front nth_elt ic (mvd D F) = depths n frame front nth_elt ic F.
Proof.
  intros SD. apply functional_extensionality; intros c. unfold depths. destruct (Rlt_dec 0 (c_ratio ic)); [|reflexivity]. unfold median_of. f_equal. apply map_ext. intros i.
  cbn [mvd with_cov moved k_used k_x k_P]. f_equal. now apply seen_moved.
Qed.
Lemma use_moved p D F w : supported D -> use_slot track ic p (mvd D F) w = option_map (mvd D) (use_slot track ic p F w).
Proof.
  intros SD. unfold use_slot. cbn [mvd with_cov moved k_used k_x k_P k_u]. destruct (k_used F (w_slot w)); [reflexivity|].
  change (init_feature (c_b ic) (moved_state Y t iw (k_x F))) with (init_feature (c_b ic) (k_x F)).
  destruct (init_feature _ _ _ _ _ _ _ _ _ _) as [[d|] c]; [|reflexivity]. cbn [option_map]. f_equal. apply kf_ext; cbn [mvd with_cov moved k_used k_x k_P k_u]; try reflexivity.
  now apply reset_moved.
Qed.
Lemma uses_moved p D l : supported D -> forall o,
  fold_left (fun o w => match o with Some K => use_slot track ic p K w | None => None end) l (option_map (mvd D) o) =
  option_map (mvd D) (fold_left (fun o w => match o with Some K => use_slot track ic p K w | None => None end) l o).
Proof.
  intros SD. induction l as [|w l IH]; intros o; [reflexivity|]. cbn [fold_left]. rewrite <- IH. f_equal. destruct o as [F|]; [|reflexivity]. cbn [option_map]. now apply use_moved.
Qed.
(** *** steps *)
Notation step := (kstep n P cams frame logm inv front nth_elt ign track ic).
Definition blindD (D : bmat) (o : kop) : Prop :=
  match o with KMeas ms _ _ => forall u x y H, linearise cams frame logm ign u ms x = Some (y, H) -> forall h, In h H -> unseen n T D h | _ => True end.
Definition nextD (D : bmat) (F : kf) (o : kop) : bmat :=
  match o with KPredict m dt _ => cong n (jac_state n P m (mov (k_x F)) dt) D | _ => D end.
Lemma step_moved D F o : supported D -> pose_fits t iw o -> blindD D o -> step (mvd D F) (moved_op Y iw o) = option_map (mvd (nextD D F o)) (step F o).
Proof.
  intros SD PF BD. destruct o as [m dt Q|ms Rn k|i|l|i|]; cbn [moved_op nextD].
  - cbn [kstep option_map]. f_equal. apply kf_ext; cbn [mvd with_cov moved k_used k_x k_P k_u]; try reflexivity.
    + exact (predict_moved n m dt (k_x F)).
    + unfold predict_cov. fold T. rewrite cong_padd.
      rewrite (cong_turned n T T (jac_state n P m (k_x F) dt) (jac_state n P m (moved_state Y t iw (k_x F)) dt) (k_P F) HT (jac_moved n m dt (k_x F))).
      rewrite (cong_turned n T (noise_turn Y iw) (FiltModel.jac_noise n P m (k_x F) dt) (FiltModel.jac_noise n P m (moved_state Y t iw (k_x F)) dt) Q HN (noise_moved n m dt (k_x F))).
      apply functional_extensionality; intros s. apply functional_extensionality; intros r. unfold padd, turned. rewrite mm_madd_r, mm_madd_l. apply madd_rot.
  - cbn [kstep]. assert (C : concerns (mvd D F) ms = concerns F ms) by (destruct ms; reflexivity). rewrite C. destruct (concerns F ms); [|reflexivity].
    assert (FI : fits ms) by (destruct ms; exact PF).
    assert (B : before (mvd D F) ms = (moved_upd Y t (fst (before F ms)), mov (snd (before F ms)))).
    { destruct ms; cbn [before mvd with_cov moved k_used k_x k_P k_u fst snd]; try reflexivity. now apply pre_moved. }
    rewrite B. destruct (before F ms) as [u x]. cbn [fst snd].
    assert (Z : (fun _ : seg => v0) = ttan T (fun _ => v0)) by (apply functional_extensionality; intros s; unfold ttan; now rewrite mv_0_r).
    cbn [blindD] in BD.
    assert (I : iterate n inv Rn (k_P (mvd D F)) (linearise cams frame logm ign (moved_upd Y t u) ms) (mov x) k (fun _ => v0) =
       option_map (fun p => (ttan T (fst p), padd (turned T (snd p)) D)) (iterate n inv Rn (k_P F) (linearise cams frame logm ign u ms) x k (fun _ => v0))).
    { rewrite Z at 1. apply (iterate_turned n T (k_P F) D inv Rn (linearise cams frame logm ign u ms) (linearise cams frame logm ign (moved_upd Y t u) ms) mov HT box_moved).
      - intros z. exact (lin_moved u ms z FI).
      - intros z y H. apply BD. }
    rewrite I. clear I. destruct (iterate n inv Rn (k_P F) (linearise cams frame logm ign u ms) x k (fun _ => v0)) as [[d Q]|]; cbn [option_map fst snd]; f_equal.
    apply kf_ext; cbn [mvd with_cov moved k_used k_x k_P k_u]; try reflexivity. exact (box_moved x d).
  - cbn [kstep]. change (k_used (mvd D F) i) with (k_used F i). destruct (k_used F i); [|reflexivity]. cbn [option_map]. f_equal. apply kf_ext; cbn [mvd with_cov moved k_used k_x k_P k_u]; try reflexivity.
    now apply reset_moved.
  - cbn [kstep]. rewrite (depths_moved D F SD). exact (uses_moved _ D l SD (Some F)).
  - cbn [kstep]. change (k_used (mvd D F) i) with (k_used F i). destruct (k_used F i); reflexivity.
  - reflexivity.
Qed.
End World.

(** ** uncertainty of the frame *)
Lemma msum_framed n f : (forall s, ~ framed s -> f s = mzero) -> msum (segs n) f = madd (f Pos) (f Att).
Proof.
  intros Z. assert (R0 : forall l, (forall s, In s l -> ~ framed s) -> msum l f = mzero).
  { induction l as [|s l IH]; intros H; [reflexivity|]. change (madd (f s) (msum l f) = mzero). rewrite (Z s) by (apply H; now left). rewrite IH by (intros r I; apply H; now right). apply madd_0. }
  unfold segs. cbn [app]. set (rest := map Vep _ ++ _).
  change (madd (f Pos) (madd (f Vel) (madd (f Acb) (madd (f Gyb) (madd (f Att) (msum rest f))))) = madd (f Pos) (f Att)).
  rewrite (Z Vel), (Z Acb), (Z Gyb) by (intros [H|H]; discriminate). rewrite (R0 rest).
  - rewrite madd_0_r'. assert (L : forall a, madd mzero a = a) by (intros; unfold mzero, v0; veq). now rewrite !L.
  - intros s I. unfold rest in I. repeat (apply in_app_or in I; destruct I as [I|I]); apply in_map_iff in I; destruct I as (k & <- & _); intros [H|H]; discriminate.
Qed.
Lemma about_supported g A p q b : supported (about_frame g A p q b).
Proof. intros s r [H|H]; destruct s; try reflexivity; destruct r; try reflexivity; elim H; unfold framed; auto. Qed.
Lemma outer_0_l v : outer v0 v = mzero. Proof. unfold mzero, v0. veq. Qed.
Lemma outer_0_r v : outer v v0 = mzero. Proof. unfold mzero, v0. veq. Qed.
Lemma madd_0_l' a : madd mzero a = a. Proof. unfold mzero, v0. veq. Qed.
Lemma skew_self g : mv (skew g) g = v0. Proof. unfold v0. veq. Qed.
Lemma jac_pos_col n P m x dt s : jac_state n P m x dt s Pos = match s with Pos => m1 | _ => mzero end.
Proof. destruct s; try reflexivity. cbn [jac_state]. now destruct (cam_of n (x_fea x i)). Qed.
Lemma jac_heading n P m x dt s : mv (jac_state n P m x dt s Att) (p_g P) =
  match s with Pos => vscale dt (cross (mv (x_att x) (x_vel x)) (p_g P)) | Att => p_g P | _ => v0 end.
Proof.
  destruct s; cbn [jac_state]; rewrite ?mv_0_l, ?mv_m1; try reflexivity.
  - now rewrite mv_mscale_l, skew_cross.
  - now rewrite mv_mscale_l, mv_mm, skew_self, mv_0_r, scale_v0.
  - destruct (cam_of n (x_fea x i)); apply mv_0_l.
Qed.
Definition next_A (K : V3) (A : M3) (p q : V3) (b : R) : M3 := madd (madd A (outer p K)) (madd (outer K q) (mscale b (outer K K))).
Lemma about_next n P m x dt A p q b : let K := vscale dt (cross (mv (x_att x) (x_vel x)) (p_g P)) in
  cong n (jac_state n P m x dt) (about_frame (p_g P) A p q b) = about_frame (p_g P) (next_A K A p q b) (vadd p (vscale b K)) (vadd q (vscale b K)) b.
Proof.
  intros K. apply functional_extensionality; intros s. apply functional_extensionality; intros r. set (J := jac_state n P m x dt). unfold cong.
  rewrite msum_framed.
  2: { intros a Na. transitivity (msum (segs n) (fun _ => mzero)); [|apply msum_zero']. apply msum_ext; intros c _. rewrite about_supported by (now left). now rewrite mm_0_r, mm_0_l. }
  rewrite !msum_framed by (intros a Na; rewrite about_supported by (now right); now rewrite mm_0_r, mm_0_l).
  cbn [about_frame]. rewrite !mm_mscale_r, !mm_mscale_l, !mm_outer_r, !mm_outer_l, !mt_mt.
  assert (E1 : forall z, J z Pos = match z with Pos => m1 | _ => mzero end) by (intros; apply jac_pos_col).
  assert (E2 : forall z, mv (J z Att) (p_g P) = match z with Pos => K | Att => p_g P | _ => v0 end) by (intros; apply jac_heading).
  rewrite !E1, !E2. clear E1 E2 J.
  destruct s, r; cbn [about_frame]; rewrite ?mt_1, ?mt_0, ?mm_1_l, ?mm_1_r, ?mm_0_l, ?mm_0_r, ?mv_m1, ?mv_0_l, ?outer_0_l, ?outer_0_r, ?mscale_0, ?madd_0_r', ?madd_0_l'; try reflexivity.
  - now rewrite outer_add_l, outer_scale_l.
  - now rewrite outer_add_r, outer_scale_r.
Qed.

(** ** runs *)
Section Runs.
Variables (n : dims) (P : params) (cams : nat -> camera) (frame : V3 -> M3) (logm : M3 -> V3) (inv : list (list R) -> list (list R))
  (front : feat -> bool) (nth_elt : list R -> nat -> list R) (ign track : bool) (ic : icfg).
Notation step := (kstep n P cams frame logm inv front nth_elt ign track ic).
Notation run := (krun n P cams frame logm inv front nth_elt ign track ic).
Notation g := (p_g P).
Lemma run_cons F o l : run F (o :: l) = match step F o with Some G => run G l | None => None end.
Proof.
  unfold krun. cbn [fold_left]. destruct (step F o) as [G|]; [reflexivity|]. induction l as [|p l IH]; [reflexivity|exact IH].
Qed.

Lemma zero_D : about_frame g mzero v0 v0 0 = fun _ _ => mzero.
Proof.
  apply functional_extensionality; intros s. apply functional_extensionality; intros r. destruct s, r; cbn [about_frame]; rewrite ?outer_0_l, ?outer_0_r; try reflexivity. unfold mzero, v0. veq.
Qed.
Lemma vsum_v0 l : vsum l (fun _ => v0) = v0.
Proof. induction l as [|s l IH]; [reflexivity|]. change (vadd v0 (vsum l (fun _ => v0)) = v0). rewrite IH. apply vadd_v0. Qed.
Lemma blind_zero T h : unseen n T (fun _ _ => mzero) h.
Proof. intros s. unfold PHt. rewrite (vsum_ext (segs n) _ (fun _ => v0)); [apply vsum_v0|]. intros r _. apply mv_0_l. Qed.
Lemma cong_zero J : cong n J (fun _ _ => mzero) = fun _ _ => mzero.
Proof.
  apply functional_extensionality; intros s. apply functional_extensionality; intros r. unfold cong.
  transitivity (msum (segs n) (fun _ => mzero)); [|apply msum_zero']. apply msum_ext; intros a _. transitivity (msum (segs n) (fun _ => mzero)); [|apply msum_zero']. apply msum_ext; intros b _. now rewrite mm_0_r, mm_0_l.
Qed.
Lemma run_moved Y t iw l : heading_rotation g Y -> Forall (pose_fits t iw) l -> forall F,
  run (mvd Y t iw (fun _ _ => mzero) F) (map (moved_op Y iw) l) = option_map (mvd Y t iw (fun _ _ => mzero)) (run F l).
Proof.
  intros HY A. induction A as [|o l PF A IH]; intros F; [reflexivity|]. cbn [map]. rewrite !run_cons.
  rewrite (step_moved P Y t iw HY cams frame logm ign n inv front nth_elt track ic (fun _ _ => mzero) F o).
  - assert (N : nextD P Y t iw n (fun _ _ => mzero) F o = fun _ _ => mzero) by (destruct o; try reflexivity; apply cong_zero). rewrite N.
    destruct (step F o) as [G|]; [|reflexivity]. cbn [option_map]. apply IH.
  - intros s r _. reflexivity.
  - exact PF.
  - destruct o; try exact I. intros u x y H _ h _. apply blind_zero.
Qed.
Lemma mvd_zero Y t iw F : mvd Y t iw (fun _ _ => mzero) F = moved Y t iw F.
Proof.
  apply kf_ext; try reflexivity. cbn [mvd with_cov moved k_P]. apply functional_extensionality; intros s. apply functional_extensionality; intros r. unfold padd. apply madd_0_r'.
Qed.

Lemma id_turn s iw : turn m1 iw s = m1. Proof. destruct s; try reflexivity. cbn. now destruct (iw k). Qed.
Lemma id_noise s iw : noise_turn m1 iw s = m1. Proof. destruct s; try reflexivity. cbn. now destruct (iw k). Qed.
Lemma id_turned T Q : (forall s, T s = m1) -> turned T Q = Q.
Proof. intros E. apply functional_extensionality; intros s. apply functional_extensionality; intros r. unfold turned. now rewrite !E, mt_1, mm_1_l, mm_1_r. Qed.
Lemma id_mvd iw D F : mvd m1 v0 iw D F = with_cov F (padd (k_P F) D).
Proof.
  apply kf_ext; try reflexivity; cbn [mvd with_cov moved k_P k_x k_u].
  - apply state_ext; try reflexivity; cbn [moved_state x_pos x_att x_poa].
    + now rewrite mv_m1, vadd_0_r.
    + apply mm_1_l.
    + apply functional_extensionality; intros k. rewrite mm_1_l. now destruct (iw k).
  - rewrite id_turned; [reflexivity|]. intros; apply id_turn.
  - destruct (k_u F) as [a b c d e]. unfold moved_upd. cbn [u_IrIW u_qWI u_MrMV u_qVM u_did]. now rewrite mv_0_r, vsub_v0, mm_1_l.
Qed.
Lemma id_op iw o : moved_op m1 iw o = o.
Proof. destruct o; try reflexivity. cbn [moved_op]. rewrite id_turned; [reflexivity|]. intros; apply id_noise. Qed.
Lemma heading_1 : heading_rotation g m1. Proof. split; [exact rot_1|apply mv_m1]. Qed.
Lemma blind_rows T A p q b h : (forall s, framed s -> h s = v0) -> unseen n T (about_frame g A p q b) h.
Proof.
  intros Z s. unfold PHt. rewrite (vsum_ext (segs n) _ (fun _ => v0)); [apply vsum_v0|]. intros r _. destruct (framed_dec r) as [I|I].
  - unfold trow. now rewrite (Z r I), !mv_0_r.
  - rewrite about_supported by (now right). apply mv_0_l.
Qed.
Lemma mrows_framed J : (forall s, framed s -> J s = mzero) -> forall h, In h (mrows J) -> forall s, framed s -> h s = v0.
Proof. intros Z h [<-|[<-|[<-|[]]]] s I; now rewrite (Z s I). Qed.
Lemma rows2_framed (J : seg -> block2) : (forall s, framed s -> J s = (v0, v0)) -> forall h, In h (rows2 J) -> forall s, framed s -> h s = v0.
Proof. intros Z h [<-|[<-|[]]] s I; now rewrite (Z s I). Qed.
Lemma framed_outer s : framed s -> ~ inner s. Proof. intros [->| ->]; intros []. Qed.
Lemma lin_framed u ms x y H : match ms with MPose _ _ => False | _ => True end -> linearise cams frame logm ign u ms x = Some (y, H) -> forall h, In h H -> forall s, framed s -> h s = v0.
Proof.
  intros A E. destruct ms as [i k dold c|i k dold eqs|c m|q v|]; cbn [linearise] in E; [| |contradiction| |].
  - destruct (innovation_pix _ _ _ _ _ _ _ _); [|discriminate]. unfold jac_pix in E. destruct (pixel_jac _ _ _ _ _ _) as [J|]; cbn [option_map] in E; [|discriminate].
    apply (f_equal (fun o => match o with Some (_, h) => h | None => [] end)) in E. rewrite <- E. apply rows2_framed. intros s I. rewrite (transfer_outer frame ign k i x s) by (now apply framed_outer). apply neg_times_0.
  - destruct (innovation_direct _ _ _ _ _ _ _ _) as [w [|]]; [discriminate|]. unfold jac_direct in E.
    destruct (predicted _ _ _ _ _ _) as [p|]; [|discriminate]. destruct (pixel_jac _ _ _ _ _ _) as [J|]; [|discriminate]. destruct (eqs k p) as [[Aq b]|]; [|discriminate].
    apply (f_equal (fun o => match o with Some (_, h) => h | None => [] end)) in E. rewrite <- E. apply rows2_framed. intros s I. rewrite (transfer_outer frame ign k i x s) by (now apply framed_outer). apply neg_times_0.
  - apply (f_equal (fun o => match o with Some (_, h) => h | None => [] end)) in E. rewrite <- E. apply mrows_framed. intros s [->| ->]; reflexivity.
  - apply (f_equal (fun o => match o with Some (_, h) => h | None => [] end)) in E. rewrite <- E. apply mrows_framed. intros s [->| ->]; reflexivity.
Qed.
Lemma run_inert l : Forall no_pose l -> forall F A p q b, exists A' p' q',
  run (with_cov F (padd (k_P F) (about_frame g A p q b))) l = option_map (fun G => with_cov G (padd (k_P G) (about_frame g A' p' q' b))) (run F l) /\
  (b = 0 -> p' = p /\ q' = q) /\ (b = 0 -> p = v0 -> q = v0 -> A' = A).
Proof.
  intros NP. induction NP as [|o l N NP IH]; intros F A p q b; [exists A, p, q; split; [reflexivity|auto]|].
  assert (E : exists A1 p1 q1, nextD P m1 v0 (fun _ => false) n (about_frame g A p q b) F o = about_frame g A1 p1 q1 b /\ (b = 0 -> p1 = p /\ q1 = q) /\ (b = 0 -> p = v0 -> q = v0 -> A1 = A)).
  { destruct o as [m dt Q| | | | |]; try (exists A, p, q; split; [reflexivity|auto]; fail). cbn [nextD]. rewrite about_next. eexists _, _, _. split; [reflexivity|]. split.
    - intros ->. rewrite !vscale_v0, !vadd_0_r. auto.
    - intros -> -> ->. unfold next_A. rewrite outer_0_l, outer_0_r. assert (Z : forall M, mscale 0 M = mzero) by (intros; unfold mzero, v0; veq). now rewrite Z, !madd_0_r'. }
  destruct E as (A1 & p1 & q1 & E & E1 & E2).
  assert (ST : step (with_cov F (padd (k_P F) (about_frame g A p q b))) o = option_map (fun G => with_cov G (padd (k_P G) (about_frame g A1 p1 q1 b))) (step F o)).
  { rewrite <- (id_mvd (fun _ => false)), <- (id_op (fun _ => false) o) at 1.
    rewrite (step_moved P m1 v0 (fun _ => false) heading_1 cams frame logm ign n inv front nth_elt track ic (about_frame g A p q b) F o).
    - rewrite E. destruct (step F o) as [G|]; [|reflexivity]. cbn [option_map]. now rewrite id_mvd.
    - apply about_supported.
    - destruct o as [|[] | | | |]; try exact I; contradiction.
    - destruct o as [|ms Rn k| | | |]; try exact I. intros u x y H L h Hh. apply blind_rows. eapply lin_framed; [|exact L|exact Hh]. destruct ms; try exact I; contradiction. }
  rewrite !run_cons, ST. destruct (step F o) as [G|]; [|exists A1, p1, q1; split; [reflexivity|split; [exact E1|exact E2]]]. cbn [option_map].
  destruct (IH G A1 p1 q1 b) as (A' & p' & q' & R & R1 & R2). exists A', p', q'. split; [exact R|]. split.
  - intros B. destruct (E1 B) as [<- <-]. now apply R1.
  - intros B Z1 Z2. destruct (E1 B) as [E1a E1b]. rewrite (R2 B); [now apply E2|congruence|congruence].
Qed.
End Runs.
