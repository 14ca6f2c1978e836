(** C100: the correction of every measurement is the best linear estimate, and the covariance afterwards is the
    covariance of its error. *)
From Coq Require Import Reals ZArith List Bool Arith Lia Lra.
From Verif Require Import Geo Lie DistModel FiltModel OutModel CamModel InnoModel UpdModel CovModel CovSpec CovProofs BornModel SlotModel SlotSpec SlotProofs SlotProps KalSpec KalProofs KalInv KalProps BestSpec BestProofs.
From Verif Require GaugeProofs.
Import ListNotations.
Local Open Scope R_scope.

Lemma lin_length cams frame logm ign u ms x y H : linearise cams frame logm ign u ms x = Some (y, H) -> length y = length H.
Proof.
  intros L. rewrite (lin_dim _ _ _ _ _ _ _ _ _ L). revert L. destruct ms as [i k dold c|i k dold eqs|c m|q v|]; cbn [linearise dim_of].
  - destruct (innovation_pix _ _ _ _ _ _ _ _); [|discriminate]. destruct (jac_pix _ _ _ _ _ _ _); [|discriminate].
    intros E; apply (f_equal (fun o => match o with Some (z, _) => length z | None => 0%nat end)) in E; now rewrite <- E.
  - destruct (innovation_direct _ _ _ _ _ _ _ _) as [w [|]]; [discriminate|]. destruct (jac_direct _ _ _ _ _ _ _ _) as [J [|]]; [discriminate|].
    intros E; apply (f_equal (fun o => match o with Some (z, _) => length z | None => 0%nat end)) in E; now rewrite <- E.
  - intros E; apply (f_equal (fun o => match o with Some (z, _) => length z | None => 0%nat end)) in E; now rewrite <- E.
  - intros E; apply (f_equal (fun o => match o with Some (z, _) => length z | None => 0%nat end)) in E; now rewrite <- E.
  - intros E; apply (f_equal (fun o => match o with Some (z, _) => length z | None => 0%nat end)) in E; now rewrite <- E.
Qed.
Lemma residual_nth n H y d i : length y = length H -> (i < length H)%nat ->
  nth i (map (fun p => snd p - fst p) (combine y (hmul n H d))) 0 = rsum (segs n) (fun s => dot (nth i H zrow s) (d s)) - nth i y 0.
Proof.
  revert H i. induction y as [|a y IH]; intros [|h H] i L Hi; cbn [length] in *; try lia.
  destruct i as [|i]; cbn [hmul map combine nth fst snd]; [reflexivity|]. apply IH; lia.
Qed.
Section Iter.
Variables (n : dims) (inv : list (list R) -> list (list R)) (Rn : list (list R)) (P : bmat) (f : state -> option lin) (x : state) (m : nat).
Hypothesis HI : inverts inv.
Hypothesis V : valid_cov n P.
Hypothesis N : good_noise m Rn.
Hypothesis D : forall z y H, f z = Some (y, H) -> length y = length H /\ length H = m.
Lemma one_best d0 y H : f (boxplus x d0) = Some (y, H) ->
  best_at n P Rn f x d0 (gain_mul n P H (inv (inn_cov n P H Rn)) (map (fun p => snd p - fst p) (combine y (hmul n H d0)))) (update_cov n P H (inv (inn_cov n P H Rn))).
Proof.
  intros E. destruct (D _ _ _ E) as [L1 L2]. exists y, H. split; [exact E|]. split; [exact L1|].
  assert (NH : good_noise (length H) Rn) by now rewrite L2.
  apply gain_best; [exact V|exact NH| | |].
  - apply HI; [apply inn_square, NH|now apply s_sym|now apply s_posdef].
  - rewrite map_length, combine_length. unfold hmul. rewrite map_length, L1. apply Nat.min_id.
  - intros i Hi. now apply residual_nth.
Qed.
Lemma iterate_estimated k : forall j d0 P0 d P', estimated n P Rn f x j d0 P0 -> iterate n inv Rn P f x k d0 = Some (d, P') -> estimated n P Rn f x (S (k + j)) d P'.
Proof.
  induction k as [|k IH]; intros j d0 P0 d P' B; cbn [iterate]; destruct (f (boxplus x d0)) as [[y H]|] eqn:E; try discriminate.
  - intros Q. pose proof (one_best d0 y H E) as O. injection Q as <- <-. exact (E_next _ _ _ _ _ _ _ _ _ _ B O).
  - intros Q. pose proof (one_best d0 y H E) as O. replace (S (S k + j)) with (S (k + S j)) by lia. eapply IH; [|exact Q]. exact (E_next _ _ _ _ _ _ _ _ _ _ B O).
Qed.
Lemma iterate_best k d P' : iterate n inv Rn P f x k (fun _ => v0) = Some (d, P') -> estimated n P Rn f x k d P'.
Proof.
  destruct k as [|k]; cbn [iterate]; destruct (f (boxplus x (fun _ => v0))) as [[y H]|] eqn:E; try discriminate.
  - intros Q. pose proof (one_best _ y H E) as O. injection Q as <- <-. now apply E_first.
  - intros Q. pose proof (one_best _ y H E) as O. rewrite <- (Nat.add_0_r k). eapply iterate_estimated; [|exact Q]. apply E_first. exact O.
Qed.
End Iter.

(** A measurement that is used moves the estimate [x] to [x] plus the best linear estimate of its error, and the
    covariance afterwards is that of the error which remains; one that cannot be linearised at the estimate
    changes nothing. [x] is the estimate before, after a first pose has placed the frames. *)
Theorem C100_measurement_is_best_estimate : forall n P cams frame logm inv front nth_elt ign track ic ms Rn k F G, inverts inv ->
  good_noise (dim_of ms) Rn -> valid_cov n (k_P F) -> concerns F ms = true ->
  kstep n P cams frame logm inv front nth_elt ign track ic F (KMeas ms Rn k) = Some G ->
  let (u, x) := before F ms in
  (exists d, estimated n (k_P F) Rn (linearise cams frame logm ign u ms) x k d (k_P G) /\ k_x G = boxplus x d) \/
  (iterate n inv Rn (k_P F) (linearise cams frame logm ign u ms) x k (fun _ => v0) = None /\ k_x G = x /\ k_P G = k_P F).
Proof.
  intros n P cams frame logm inv front nth_elt ign track ic ms Rn k F G HI N V C. cbn [kstep]. rewrite C. destruct (before F ms) as [u x].
  destruct (iterate _ _ _ _ _ _ _ _) as [[d P']|] eqn:I; intros E; injection E as <-; cbn [k_x k_P]; [left|right; auto].
  exists d. split; [|reflexivity]. revert I. apply iterate_best with (m := dim_of ms); auto.
  intros z y H L. split; [exact (lin_length _ _ _ _ _ _ _ _ _ L)|exact (lin_dim _ _ _ _ _ _ _ _ _ L)].
Qed.
(** so it is at any time of any history *)
Theorem C100_in_every_history : forall n P cams frame logm inv front nth_elt ign track ic, inverts inv -> good_init (b_cov (c_b ic)) ->
  forall l F G ms Rn k G', Forall (step_ok n) (l ++ [KMeas ms Rn k]) -> valid_cov n (k_P F) ->
  krun n P cams frame logm inv front nth_elt ign track ic F l = Some G -> concerns G ms = true ->
  kstep n P cams frame logm inv front nth_elt ign track ic G (KMeas ms Rn k) = Some G' ->
  let (u, x) := before G ms in
  (exists d, estimated n (k_P G) Rn (linearise cams frame logm ign u ms) x k d (k_P G') /\ k_x G' = boxplus x d) \/
  (iterate n inv Rn (k_P G) (linearise cams frame logm ign u ms) x k (fun _ => v0) = None /\ k_x G' = x /\ k_P G' = k_P G).
Proof.
  intros n P cams frame logm inv front nth_elt ign track ic HI HB l F G ms Rn k G' A V E C S. apply Forall_app in A. destruct A as [A1 A2]. inversion A2 as [|? ? N _]; subst.
  eapply C100_measurement_is_best_estimate; [exact HI|exact N| |exact C|exact S]. revert E. now apply C92_stays_covariance.
Qed.
(** there is only one best estimate, and its error has only one covariance *)
Lemma rsum_pos_ge l f s : (forall t, 0 <= f t) -> In s l -> rsum l f = 0 -> f s = 0.
Proof. intros A I Z. pose proof (rsum_ge l f s A I). specialize (A s). lra. Qed.
Theorem C100_one_best_estimate : forall n P H Rn inv r d1 P1 d2 P2, inverts inv -> valid_cov n P -> good_noise (length H) Rn ->
  best_estimate n P H Rn r d1 P1 -> best_estimate n P H Rn r d2 P2 ->
  (forall s, seg_in n s -> d1 s = d2 s) /\ forall v, variance n P1 v = variance n P2 v.
Proof.
  intros n P H Rn inv r d1 P1 d2 P2 HI V N (K1 & D1 & E1 & B1) (K2 & D2 & E2 & B2).
  assert (HW : inverse_of (length H) (inn_cov n P H Rn) (inv (inn_cov n P H Rn))) by (apply HI; [apply inn_square, N|now apply s_sym|now apply s_posdef]).
  split.
  - intros s Hs. rewrite D1, D2. unfold applied. apply GaugeProofs.isum_ext_in. intros i Hi. f_equal.
    set (v := fun t => if seg_eq t s then vsub (K1 i s) (K2 i s) else v0).
    pose proof (best_gain_weight n P H Rn _ V N HW K1 B1 v i Hi) as W1. pose proof (best_gain_weight n P H Rn _ V N HW K2 B2 v i Hi) as W2.
    apply eq_sym in W2. pose proof (eq_trans W1 W2) as W3. unfold weight in W3.
    assert (Z : rsum (segs n) (fun t => dot (v t) (vsub (K1 i t) (K2 i t))) = 0).
    { transitivity (rsum (segs n) (fun t => dot (v t) (K1 i t)) + (-1) * rsum (segs n) (fun t => dot (v t) (K2 i t))); [|rewrite W3; ring].
      rewrite <- rsum_scale, <- rsum_add. apply rsum_ext; intros t _. rewrite dot_sub_r. ring. }
    assert (Q : dot (v s) (vsub (K1 i s) (K2 i s)) = 0).
    { revert Z. apply (rsum_pos_ge (segs n) (fun t => dot (v t) (vsub (K1 i t) (K2 i t)))); [|now apply segs_in].
      intros t. unfold v. destruct (seg_eq t s) as [->|]; [apply dot_nonneg|]. rewrite dot_comm, dot_0_r. lra. }
    unfold v in Q. destruct (seg_eq s s) as [_|X]; [|congruence]. apply dot_self_0 in Q. revert Q. generalize (K1 i s), (K2 i s). intros [[a b] c] [[a' b'] c'].
    unfold vsub, v0, vx, vy, vz. cbn [fst snd]. intros Q. injection Q as Q1 Q2 Q3. f_equal; [f_equal|]; lra.
  - intros v. rewrite E1, E2. apply Rle_antisym; [apply B1|apply B2].
Qed.

(** ** a case: zero velocity measured, unit covariances *)
Definition ex_moving : kf := {| k_x := boxplus ex_x (fun s => match s with Vel => (2, 0, 0) | _ => v0 end); k_P := unit_cov; k_used := k_used ex_F; k_u := k_u ex_F |}.
Example C100_ex_run : forall P cams frame logm front nth_elt ign track ic, exists G d,
  kstep ex_n P cams frame logm the_inverse front nth_elt ign track ic ex_moving (KMeas MZero unit_noise 1) = Some G /\
  estimated ex_n unit_cov unit_noise (linearise cams frame logm ign (k_u ex_F) MZero) (k_x ex_moving) 1 d (k_P G) /\ k_x G = boxplus (k_x ex_moving) d.
Proof.
  intros P cams frame logm front nth_elt ign track ic.
  assert (E : exists G, kstep ex_n P cams frame logm the_inverse front nth_elt ign track ic ex_moving (KMeas MZero unit_noise 1) = Some G) by (cbn [kstep concerns before iterate linearise]; eexists; reflexivity).
  destruct E as [G E]. exists G.
  pose proof (C100_measurement_is_best_estimate ex_n P cams frame logm the_inverse front nth_elt ign track ic MZero unit_noise 1 ex_moving G the_inverse_ok C92_ex_noise (proj1 (C92_ex_cov ex_n)) eq_refl E) as B.
  cbn [before] in B. destruct B as [(d & B1 & B2)|(B & _)]; [exists d; auto|]. cbn [iterate linearise] in B. discriminate B.
Qed.

(** half of what is measured is taken for velocity error, and half of its variance remains *)
Definition half : list (list R) := [[/ 2; 0; 0]; [0; / 2; 0]; [0; 0; / 2]].
Lemma PHt_unit h s : In s (segs ex_n) -> PHt ex_n unit_cov h s = h s.
Proof.
  unfold PHt, vsum. intros I. apply dot_ext. intros u. change (dot u (fold_right (fun t acc => vadd (mv (unit_cov s t) (h t)) acc) v0 (segs ex_n)) = dot u (h s)).
  unfold segs, ex_n in *. cbn [map seq app d_cam d_max d_pose fold_right] in *.
  assert (Y : forall t, mv (unit_cov t t) (h t) = h t) by (intros t; unfold unit_cov; destruct (seg_eq t t); [apply mv_m1|congruence]).
  assert (X : forall t, s <> t -> mv (unit_cov s t) (h t) = v0) by (intros t D; unfold unit_cov; destruct (seg_eq s t); [congruence|apply mv_0_l]).
  repeat (destruct I as [<-|I]; [rewrite !dot_add_r, Y; rewrite ?(X Pos), ?(X Vel), ?(X Acb), ?(X Gyb), ?(X Att), ?(X (Vep 0)), ?(X (Vea 0)), ?(X (Fea 0)) by discriminate; rewrite ?dot_0_r; ring|]). destruct I.
Qed.
Lemma dots_unit x h : rsum (segs ex_n) (fun s => dot (x s) (PHt ex_n unit_cov h s)) = rsum (segs ex_n) (fun s => dot (x s) (h s)).
Proof. apply rsum_ext. intros s Hs. now rewrite PHt_unit. Qed.
Lemma half_inverse : inverse_of 3 (inn_cov ex_n unit_cov (mrows jac_zero) unit_noise) half.
Proof.
  assert (S : inn_cov ex_n unit_cov (mrows jac_zero) unit_noise = [[2; 0; 0]; [0; 2; 0]; [0; 0; 2]]).
  { unfold inn_cov, mrows, unit_noise. cbn [combine map fst snd]. rewrite !dots_unit. unfold segs, ex_n, rsum, jac_zero. cbn [map seq app d_cam d_max d_pose fold_right].
    unfold dot, r0, r1, r2, m1, mzero, v0, vx, vy, vz. cbn [fst snd]. repeat f_equal; ring. }
  rewrite S. split.
  - intros i j Hi Hj. destruct i as [|[|[|]]]; [| | |lia]; (destruct j as [|[|[|]]]; [| | |lia]); reflexivity.
  - intros i j Hi Hj. destruct i as [|[|[|]]]; [| | |lia]; (destruct j as [|[|[|]]]; [| | |lia]); unfold irsum, entry, half; cbn [seq map fold_right nth Nat.eqb]; field.
Qed.
Example C100_ex_value : forall r d P', best_estimate ex_n unit_cov (mrows jac_zero) unit_noise r d P' ->
  d Vel = (r 0%nat / 2, r 1%nat / 2, r 2%nat / 2) /\ variance ex_n P' (fun s => match s with Vel => (1, 0, 0) | _ => v0 end) = / 2.
Proof.
  intros r d P' B.
  pose proof (gain_best ex_n unit_cov (mrows jac_zero) unit_noise half (proj1 (C92_ex_cov ex_n)) C92_ex_noise half_inverse [r 0%nat; r 1%nat; r 2%nat] r eq_refl) as Q.
  assert (Z : forall i, (i < 3)%nat -> nth i [r 0%nat; r 1%nat; r 2%nat] 0 = r i) by (intros i Hi; destruct i as [|[|[|]]]; [| | |lia]; reflexivity).
  specialize (Q Z). destruct (C100_one_best_estimate ex_n unit_cov (mrows jac_zero) unit_noise the_inverse r d P' _ _ the_inverse_ok (proj1 (C92_ex_cov ex_n)) C92_ex_noise B Q) as [A1 A2].
  assert (IV : In Vel (segs ex_n)) by (right; left; reflexivity).
  split.
  - rewrite (A1 Vel I). unfold gain_mul, mrows, isum, half, entry, irsum. cbn [length seq fold_right nth]. rewrite !PHt_unit by exact IV.
    unfold jac_zero, vadd, vscale, r0, r1, r2, m1, v0, vx, vy, vz. cbn [fst snd]. unfold vx, vy, vz. cbn [fst snd]. f_equal; [f_equal|]; field.
  - rewrite A2, red_value. cbn [length mrows]. unfold irsum, entry, half. cbn [length seq fold_right nth mrows]. rewrite !dots_unit.
    change (variance ex_n unit_cov) with (fun v : tangent => rsum (segs ex_n) (fun s => rsum (segs ex_n) (fun t => dot (v s) (mv (unit_cov s t) (v t))))). cbv beta.
    rewrite (rsum_ext (segs ex_n) _ (fun s => dot (match s with Vel => (1, 0, 0) | _ => v0 end) (match s with Vel => (1, 0, 0) | _ => v0 end))).
    + unfold segs, ex_n, rsum, jac_zero. cbn [map seq app d_cam d_max d_pose fold_right]. unfold dot, r0, r1, r2, m1, mzero, v0, vx, vy, vz. cbn [fst snd]. field.
    + intros s Hs. rewrite <- (PHt_unit (fun t => match t with Vel => (1, 0, 0) | _ => v0 end) s Hs) at 2. unfold PHt. symmetry. apply dot_vsum_r.
Qed.

Print Assumptions C100_measurement_is_best_estimate.
Print Assumptions C100_in_every_history.
Print Assumptions C100_one_best_estimate.
