(** Proofs about the image innovation. *)
From Coq Require Import Reals ZArith List Bool Arith Lia Lra.
From Verif Require Import Geo Lie DistModel DistSpec FiltModel FiltSpec FiltProofs FiltJac FiltKin FiltMore OutModel OutSpec OutProofs OutMore CamModel CamSpec CamProofs InnoModel InnoSpec.
From Verif Require AlignModel AlignLoop.
Import ListNotations.
Local Open Scope R_scope.

Lemma row2_mul_neg n J B tv : row2_mul n (fun s => neg_times J (B s)) tv =
  (let '(a, b, c, d) := J in let r := row_mul n B tv in (- (a * vx r + b * vy r), - (c * vx r + d * vy r))).
Proof.
  destruct J as [[[a b] c] d]. unfold row2_mul, row_mul. induction (segs n) as [|s l IH]; cbn [fold_right].
  - unfold v0. cbn. f_equal; ring.
  - rewrite IH. clear IH. set (r := fold_right _ _ _). destruct r as [[q1 q2] q3], (B s) as [[[[b1 b2] b3] [[b4 b5] b6]] [[b7 b8] b9]], (tv s) as [[t1 t2] t3].
    unfold neg_times, mv, r0, r1, r2, vneg, vadd, vscale, dot, vx, vy, vz. cbn. f_equal; ring.
Qed.

Lemma pos_near f d : dR f d -> 0 < f 0 -> exists e, 0 < e /\ forall t, Rabs t < e -> 0 < f t.
Proof.
  intros D P. destruct (dR_cont _ _ D (f 0) P) as (e & He & N). exists e. split; [exact He|]. intros t Ht.
  destruct (Req_dec t 0) as [->|NZ]; [exact P|]. specialize (N t). cbn in N. unfold R_dist in N.
  assert (B : Rabs (t - 0) < e) by (rewrite Rminus_0_r; exact Ht). assert (K := N (conj (conj I (not_eq_sym NZ)) B)). apply Rabs_def2 in K. lra.
Qed.
Lemma own_cam n x i k : usable n x i -> k = fcam x i -> ft_cam (x_fea x i) = Z.of_nat k.
Proof. intros [[A B] _] ->. unfold fcam. lia. Qed.

(** bearing derivative, own or other camera *)
Lemma bearing_deriv cams frame n dold k i x g tv : good_frame frame -> seen cams frame n dold k i x g -> forall ign,
  let row := row_mul n (transfer_jac frame ign k x i) (if (k =? fcam x i)%nat then tv else flip_vea tv) in
  dV (fun t => OutSpec.bearing (transfer frame k (boxplus x (along tv t)) i dold)) (Mmul (ft_Q g) (vx row) (vy row)).
Proof.
  intros GF [W Hi Hk U ND Hg _ _] ign. cbv zeta. destruct (Nat.eqb_spec k (fcam x i)) as [E|E].
  - pose proof (own_cam n x i k U E) as OC. rewrite (own_row frame ign k x i n tv Hi OC).
    destruct (own_transfer frame k x i dold OC) as (g' & Hg' & _ & HQ & _). rewrite Hg in Hg'. injection Hg' as <-. rewrite HQ.
    eapply dV_ext; [|exact (f_nor n x i tv W Hi)]. intros t. cbv beta.
    assert (OCt : ft_cam (x_fea (boxplus x (along tv t)) i) = Z.of_nat k) by exact OC.
    destruct (own_transfer frame k _ i dold OCt) as (g'' & -> & _ & HQ' & _). cbn [OutSpec.bearing]. now rewrite HQ'.
  - destruct (trf_bearing frame n x i k tv GF W Hi Hk U E (ND E) dold ign) as (g' & Hg' & D). rewrite Hg in Hg'. injection Hg' as <-. exact D.
Qed.

Lemma proj_M k v m1 m2 : 0 < vz v -> exists c J, bearing_to_pixel k v = Some c /\ bearing_to_pixel_M k v m1 m2 = Some (c, J).
Proof.
  destruct v as [[x y] z], m1 as [[u1 u2] u3], m2 as [[w1 w2] w3]. cbn [vz fst snd]. intros P.
  unfold bearing_to_pixel, bearing_to_pixel_M, bearing_to_pixel_J. destruct (Rle_dec z 0) as [H|_]; [lra|].
  pose proof (distort_value k (x / z, y / z)) as V. destruct (distort_J k (x / z, y / z)) as [[dx dy] [[[j00 j01] j10] j11]]. cbn [fst] in V. rewrite <- V. eauto.
Qed.

Section SEEN.
Variables (cams : nat -> camera) (frame : V3 -> M3) (n : dims) (dold : fdist) (k i : nat) (x : state) (g : feat) (tv : tangent) (ign : bool).
Hypothesis GF : good_frame frame.
Hypothesis S : seen cams frame n dold k i x g.
Let X t := boxplus x (along tv t).
Let row := row_mul n (transfer_jac frame ign k x i) (if (k =? fcam x i)%nat then tv else flip_vea tv).

Lemma seen_J : exists c J, predicted cams frame dold k i x = Some c /\ pixel_jac cams frame dold k i x = Some J /\
  bearing_to_pixel_M (cams k) (nor (ft_Q g)) (M1 (ft_Q g)) (M2c (ft_Q g)) = Some (c, J).
Proof.
  destruct S as [W Hi Hk U ND Hg F RG].
  destruct (proj_M (cams k) _ (M1 (ft_Q g)) (M2c (ft_Q g)) F) as (c & J & H1 & H2). exists c, J.
  unfold predicted, pixel_jac. rewrite Hg, H2. auto.
Qed.
(** the predicted pixel is the pixel of the bearing of the transferred feature (both 0 when there is none) *)
Lemma predicted_pixel y : or0 (predicted cams frame dold k i y) = pixel (cams k) (OutSpec.bearing (transfer frame k y i dold)).
Proof.
  unfold predicted, pixel. destruct (transfer frame k y i dold) as [h|]; [reflexivity|]. cbn [OutSpec.bearing].
  unfold bearing_to_pixel, v0. destruct (Rle_dec 0 0); [reflexivity|lra].
Qed.
Lemma bearing0 : OutSpec.bearing (transfer frame k (X 0) i dold) = nor (ft_Q g).
Proof.
  destruct S as [W Hi Hk U ND Hg F RG].
  destruct (Nat.eq_dec k (fcam x i)) as [E|E].
  - pose proof (own_cam n x i k U E) as OC. destruct (own_transfer frame k x i dold OC) as (g' & Hg' & _ & HQ & _). rewrite Hg in Hg'. injection Hg' as <-.
    assert (OCt : ft_cam (x_fea (X 0) i) = Z.of_nat k) by exact OC.
    destruct (own_transfer frame k _ i dold OCt) as (g'' & -> & _ & HQ' & _). cbn [OutSpec.bearing]. rewrite HQ', HQ. unfold X. now rewrite (f_Q0 x i tv).
  - assert (E0 : DrDP (X 0) k i = DrDP x k i) by exact (D0 x i k tv).
    destruct (transfer_some frame x i k E x dold eq_refl eq_refl (ND E)) as (g1 & H1 & _ & HQ1 & _). rewrite Hg in H1. injection H1 as <-.
    destruct (transfer_some frame x i k E (X 0) dold eq_refl eq_refl ltac:(rewrite E0; exact (ND E))) as (g2 & -> & _ & HQ2 & _).
    cbn [OutSpec.bearing]. now rewrite HQ1, HQ2, E0.
Qed.
(** the feature stays visible for small changes of the state *)
Lemma predicted_near : exists e, 0 < e /\ forall t, Rabs t < e -> exists c, predicted cams frame dold k i (X t) = Some c.
Proof.
  pose proof (bearing_deriv cams frame n dold k i x g tv GF S ign) as D. cbv zeta in D. fold X in D. destruct D as (_ & _ & D3).
  pose proof (sn_front _ _ _ _ _ _ _ _ S) as F. rewrite <- bearing0 in F. destruct (pos_near _ _ D3 F) as (e & He & N).
  exists e. split; [exact He|]. intros t Ht. pose proof (N t Ht : 0 < vz (OutSpec.bearing (transfer frame k (X t) i dold))) as P.
  unfold predicted. destruct (transfer frame k (X t) i dold) as [h|]; cbn [OutSpec.bearing] in P; [|unfold v0 in P; cbn in P; lra].
  destruct (proj_M (cams k) _ v0 v0 P) as (c & _ & H & _). eauto.
Qed.
Lemma predicted_deriv J : pixel_jac cams frame dold k i x = Some J ->
  dP (fun t => or0 (predicted cams frame dold k i (X t))) (let '(a, b, c, d) := J in (a * vx row + b * vy row, c * vx row + d * vy row)).
Proof.
  intros HJ. destruct seen_J as (c & J' & _ & HJ' & HM). rewrite HJ in HJ'. injection HJ' as <-.
  pose proof (bearing_deriv cams frame n dold k i x g tv GF S ign) as D. cbv zeta in D. fold row in D. fold X in D.
  destruct S as [W Hi Hk U ND Hg F RG]. destruct J as [[[a b] d] e].
  pose proof bearing0 as B0.
  set (f := fun t => OutSpec.bearing (transfer frame k (X t) i dold)) in *. change (f 0 = nor (ft_Q g)) in B0.
  destruct (nor (ft_Q g)) as [[x0 y0] z0] eqn:EN.
  destruct D as (D1 & D2 & D3).
  assert (K : derivable_pt_lim (fun s => fst (pixel (cams k) (vx (f s), vy (f s), vz (f s)))) 0 (a * vx row + b * vy row) /\
              derivable_pt_lim (fun s => snd (pixel (cams k) (vx (f s), vy (f s), vz (f s)))) 0 (d * vx row + e * vy row)).
  { apply (project_jac_M (cams k) x0 y0 z0 (M1 (ft_Q g)) (M2c (ft_Q g)) c a b d e (fun s => vx (f s)) (fun s => vy (f s)) (fun s => vz (f s)) 0 (vx row) (vy row)).
    - exact RG.
    - exact HM.
    - now rewrite B0.
    - now rewrite B0.
    - now rewrite B0.
    - unfold Mmul in D1, D2, D3. fold (M1 (ft_Q g)) (M2c (ft_Q g)) in D1, D2, D3. clear -D1 D2 D3.
      destruct (M1 (ft_Q g)) as [[u1 u2] u3], (M2c (ft_Q g)) as [[w1 w2] w3]. unfold vadd, vscale in D1, D2, D3. cbn [vx vy vz fst snd] in D1, D2, D3.
      split; [exact D1|split; [exact D2|exact D3]]. }
  destruct K as [K1 K2].
  assert (P : forall t, pixel (cams k) (vx (f t), vy (f t), vz (f t)) = or0 (predicted cams frame dold k i (X t))).
  { intros t. rewrite predicted_pixel. fold (f t). destruct (f t) as [[? ?] ?]. reflexivity. }
  split; [eapply dR_ext; [|exact K1]|eapply dR_ext; [|exact K2]]; intros t; cbv beta; now rewrite P.
Qed.

Lemma innovation_deriv J meas nz : jac_pix cams frame dold ign k i x = Some J ->
  dP (fun t => or0 (innovation_pix cams frame dold k i meas nz (X t)))
     (row2_mul n J (if (k =? fcam x i)%nat then tv else flip_vea tv)).
Proof.
  unfold jac_pix. intros HJ. destruct seen_J as (c0 & P & _ & HP & _). rewrite HP in HJ. cbn [option_map] in HJ. injection HJ as <-.
  rewrite row2_mul_neg. pose proof (predicted_deriv P HP) as [D1 D2]. destruct P as [[[a b] c] d]. cbv zeta. fold row.
  destruct predicted_near as (e & He & N).
  split; (eapply dR_loc; [exists e; split; [exact He|]|]).
  2: { cbn [fst] in *. eapply dR_eq; [exact (dR_plus _ _ _ _ (dR_minus _ _ _ _ (dR_const (fst meas)) D1) (dR_const (fst nz)))|ring]. }
  3: { cbn [snd] in *. eapply dR_eq; [exact (dR_plus _ _ _ _ (dR_minus _ _ _ _ (dR_const (snd meas)) D2) (dR_const (snd nz)))|ring]. }
  all: intros t Ht; destruct (N t Ht) as (q & Hq); unfold innovation_pix; rewrite Hq; reflexivity.
Qed.
(** the direct method: first order model of the photometric cost *)
Lemma direct_grad eqs m qq r sw a b A bb c J : (2 <= m)%nat ->
  (forall i j, (i < m)%nat -> (j < m)%nat -> AlignModel.fsum m (fun k => qq i k * qq j k) = if Nat.eqb i j then 1 else 0) ->
  (forall i j, (i < m)%nat -> (j < m)%nat -> AlignModel.fsum m (fun k => qq k i * qq k j) = if Nat.eqb i j then 1 else 0) ->
  (forall i j, (i < m)%nat -> (j < 2)%nat -> a i j = AlignModel.fsum m (fun k => qq i k * (if Nat.leb k (AlignModel.perm sw j) then r k (AlignModel.perm sw j) else 0))) ->
  A = (AlignModel.reduced_a r sw 0 0, AlignModel.reduced_a r sw 0 1, AlignModel.reduced_a r sw 1 0, AlignModel.reduced_a r sw 1 1) ->
  bb = (AlignModel.reduced_b m qq b 0, AlignModel.reduced_b m qq b 1) ->
  predicted cams frame dold k i x = Some c -> eqs k c = Some (A, bb) ->
  jac_direct cams frame dold eqs ign k i x = (J, false) ->
  dR (fun t => photometric m a b (vsub2 (or0 (predicted cams frame dold k i (X t))) c))
     (2 * dot2 bb (row2_mul n J (if (k =? fcam x i)%nat then tv else flip_vea tv))).
Proof.
  intros M Q1 Q2 QR EA EB Hc He HJ. destruct seen_J as (c0 & P & HP & HPJ & _). rewrite Hc in HP. injection HP as <-.
  unfold jac_direct in HJ. rewrite Hc, HPJ, He in HJ. apply (f_equal fst) in HJ. cbn [fst] in HJ. subst J. rewrite row2_mul_neg. cbv zeta. fold row.
  pose proof (predicted_deriv P HPJ) as [D1 D2].
  assert (Z : or0 (predicted cams frame dold k i (X 0)) = c).
  { rewrite predicted_pixel. rewrite bearing0. pose proof (predicted_pixel x) as K. rewrite Hc in K. cbn [or0] in K. rewrite (sn_out _ _ _ _ _ _ _ _ S) in K. now rewrite K. }
  assert (F : forall d, photometric m a b d =
    (AlignModel.reduced_a r sw 0 0 * fst d + AlignModel.reduced_a r sw 0 1 * snd d - fst bb) ^ 2 +
    (AlignModel.reduced_a r sw 1 0 * fst d + AlignModel.reduced_a r sw 1 1 * snd d - snd bb) ^ 2 +
    AlignModel.fsum (m - 2) (fun k => (AlignModel.reduced_b m qq b (2 + k)) ^ 2)).
  { intros d. unfold photometric. rewrite (AlignLoop.reduced_ok m qq r sw a b (fst d) (snd d) M Q1 Q2 QR). subst bb. cbn [AlignModel.fsum fst snd]. ring. }
  set (u := fun t => fst (or0 (predicted cams frame dold k i (X t)))) in *. set (v := fun t => snd (or0 (predicted cams frame dold k i (X t)))) in *.
  assert (U0 : u 0 = fst c) by (unfold u; now rewrite Z). assert (V0 : v 0 = snd c) by (unfold v; now rewrite Z).
  eapply dR_ext. { intros t. symmetry. exact (F _). }
  destruct P as [[[p1 p2] p3] p4]. cbn [fst snd] in D1, D2. subst A. unfold mul22, vsub2, dot2. cbn [fst snd].
  assert (L : forall al be ga, dR (fun t => (al * (u t - fst c) + be * (v t - snd c) - ga) ^ 2) (2 * (- ga) * (al * (p1 * vx row + p2 * vy row) + be * (p3 * vx row + p4 * vy row)))).
  { intros al be ga. assert (DL : dR (fun t => al * (u t - fst c) + be * (v t - snd c) - ga) (al * (p1 * vx row + p2 * vy row) + be * (p3 * vx row + p4 * vy row))).
    { eapply dR_eq; [exact (dR_minus _ _ _ _ (dR_plus _ _ _ _ (dR_scal al _ _ (dR_minus _ _ _ _ D1 (dR_const (fst c)))) (dR_scal be _ _ (dR_minus _ _ _ _ D2 (dR_const (snd c))))) (dR_const ga))|ring]. }
    eapply dR_eq; [eapply dR_ext; [|exact (dR_mult _ _ _ _ DL DL)]|].
    - intros t. cbv beta. ring.
    - cbv beta. rewrite U0, V0. ring. }
  eapply dR_eq; [exact (dR_plus _ _ _ _ (dR_plus _ _ _ _ (L _ _ _) (L _ _ _)) (dR_const _))|]. ring.
Qed.
End SEEN.
