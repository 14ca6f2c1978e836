From Coq Require Import Reals Lra Psatz.
From Coquelicot Require Import Coquelicot.
From Verif Require Import CamModel CamSpec.
Local Open Scope R_scope.

Lemma dl_is f x l : derivable_pt_lim f x l -> is_derive f x l.
Proof. apply is_derive_Reals. Qed.
Lemma is_dl f x l : is_derive f x l -> derivable_pt_lim f x l.
Proof. apply is_derive_Reals. Qed.
Lemma dl_ex f x l : derivable_pt_lim f x l -> ex_derive f x.
Proof. intros H. exists l. now apply dl_is. Qed.
Lemma dl_Derive f x l : derivable_pt_lim f x l -> Derive (fun y => f y) x = l.
Proof. intros H. apply is_derive_unique. now apply dl_is. Qed.

(** value overloads agree *)
Lemma distort_value k i : fst (distort_J k i) = distort k i.
Proof.
  destruct i as [x y]. unfold distort, distort_J. destruct (ctype k); cbn.
  - reflexivity.
  - destruct (Rlt_dec _ _); reflexivity.
  - destruct (Rlt_dec _ _); reflexivity.
Qed.

Ltac der1 Hu Hv :=
  auto_derive; [repeat split; eauto using dl_ex | rewrite ?(dl_Derive _ _ _ Hu), ?(dl_Derive _ _ _ Hv)].

Lemma radtan_jac k i : jacobian_at (distort_radtan k) i (snd (distort_radtan_J k i)).
Proof.
  destruct i as [x y]. cbn [distort_radtan_J snd jacobian_at]. intros u v t u' v' Eu Ev Hu Hv. cbn [fst snd] in *. subst x y.
  split; apply is_dl; unfold distort_radtan; cbn [fst snd]; der1 Hu Hv; ring.
Qed.

Lemma locally_gt (g : R -> R) t a : ex_derive g t -> a < g t -> locally t (fun s => a < g s).
Proof.
  intros Hd Hg. apply ex_derive_continuous in Hd.
  apply (Hd (fun y => a < y)). apply (open_gt a). exact Hg.
Qed.
Lemma locally_lt (g : R -> R) t a : ex_derive g t -> g t < a -> locally t (fun s => g s < a).
Proof.
  intros Hd Hg. apply ex_derive_continuous in Hd.
  apply (Hd (fun y => y < a)). apply (open_lt a). exact Hg.
Qed.

Lemma rmin_pos : 0 < r_min. Proof. unfold r_min. lra. Qed.
Lemma r2min_sq : r2_min = r_min * r_min. Proof. unfold r2_min, r_min. field. Qed.

Lemma sqrt_lt_iff a : 0 <= a -> (sqrt a < r_min <-> a < r2_min).
Proof.
  intros Ha. rewrite r2min_sq. pose proof rmin_pos. split; intros H1.
  - rewrite <- (sqrt_sqrt a) by auto. apply Rmult_le_0_lt_compat; auto using sqrt_pos.
  - rewrite <- (sqrt_square r_min) by lra. apply sqrt_lt_1; auto. apply Rmult_le_pos; lra.
Qed.
Lemma sqrt_gt_iff a : 0 <= a -> (r_min < sqrt a <-> r2_min < a).
Proof.
  intros Ha. rewrite r2min_sq. pose proof rmin_pos. split; intros H1.
  - rewrite <- (sqrt_sqrt a) by auto. apply Rmult_le_0_lt_compat; lra.
  - rewrite <- (sqrt_square r_min) by lra. apply sqrt_lt_1; auto. apply Rmult_le_pos; lra.
Qed.

Lemma sq_nonneg x y : 0 <= x * x + y * y. Proof. nra. Qed.

Lemma equidist_jac k i : sqrt (fst i * fst i + snd i * snd i) <> r_min ->
  jacobian_at (distort_equidist k) i (snd (distort_equidist_J k i)).
Proof.
  destruct i as [x y]. cbn [fst snd]. intros Hr. unfold distort_equidist_J.
  destruct (Rlt_dec (sqrt (x * x + y * y)) r_min) as [L|L]; cbn [snd jacobian_at]; intros u v t u' v' Eu Ev Hu Hv; cbn [fst snd] in *; subst x y.
  - (* inside *)
    assert (LL : locally t (fun s => u s * u s + v s * v s < r2_min)).
    { apply (locally_lt (fun s => u s * u s + v s * v s)).
      - auto_derive. repeat split; eauto using dl_ex.
      - apply sqrt_lt_iff; auto using sq_nonneg. }
    split; apply is_dl.
    + apply (is_derive_ext_loc u).
      * revert LL. apply filter_imp. intros s Hs. unfold distort_equidist. destruct (Rlt_dec _ _) as [_|N]; [reflexivity|].
        exfalso. apply N. apply sqrt_lt_iff; auto using sq_nonneg.
      * replace (1 * u' + 0 * v') with u' by ring. now apply dl_is.
    + apply (is_derive_ext_loc v).
      * revert LL. apply filter_imp. intros s Hs. unfold distort_equidist. destruct (Rlt_dec _ _) as [_|N]; [reflexivity|].
        exfalso. apply N. apply sqrt_lt_iff; auto using sq_nonneg.
      * replace (0 * u' + 1 * v') with v' by ring. now apply dl_is.
  - assert (G : r2_min < u t * u t + v t * v t).
    { apply sqrt_gt_iff; auto using sq_nonneg. lra. }
    assert (GP : 0 < r2_min). { rewrite r2min_sq. pose proof rmin_pos. nra. }
    assert (LL : locally t (fun s => r2_min < u s * u s + v s * v s)).
    { apply (locally_gt (fun s => u s * u s + v s * v s)); auto.
      auto_derive. repeat split; eauto using dl_ex. }
    assert (E : forall s, r2_min < u s * u s + v s * v s ->
       (u s * (thd_of k (atan (sqrt (u s * u s + v s * v s))) / sqrt (u s * u s + v s * v s)),
        v s * (thd_of k (atan (sqrt (u s * u s + v s * v s))) / sqrt (u s * u s + v s * v s))) = distort_equidist k (u s, v s)).
    { intros s Hs. unfold distort_equidist. destruct (Rlt_dec _ _) as [N|_]; [|reflexivity].
      exfalso. apply sqrt_lt_iff in N; auto using sq_nonneg. lra. }
    set (q := u t * u t + v t * v t) in *.
    assert (Q : 0 < sqrt q) by (apply sqrt_lt_R0; lra).
    assert (Q2 : sqrt q * sqrt q = q) by (apply sqrt_sqrt; lra).
    split; apply is_dl.
    + apply (is_derive_ext_loc (fun s => u s * (thd_of k (atan (sqrt (u s * u s + v s * v s))) / sqrt (u s * u s + v s * v s)))).
      { revert LL. apply filter_imp. intros s Hs. rewrite <- (E s Hs). reflexivity. }
      unfold thd_of. der1 Hu Hv; fold q; try lra.
      unfold thd_th_of.
      set (rr := sqrt q) in *. set (A := atan rr).
      field; repeat split; first [lra | nra].
    + apply (is_derive_ext_loc (fun s => v s * (thd_of k (atan (sqrt (u s * u s + v s * v s))) / sqrt (u s * u s + v s * v s)))).
      { revert LL. apply filter_imp. intros s Hs. rewrite <- (E s Hs). reflexivity. }
      unfold thd_of. der1 Hu Hv; fold q; try lra.
      unfold thd_th_of.
      set (rr := sqrt q) in *. set (A := atan rr).
      field; repeat split; first [lra | nra].
Qed.

Lemma ds_d1_pos r2 : 0 <= r2 -> 0 < r2 + 1 /\ 0 < ds_d1 r2.
Proof. intros H. split; [lra|]. apply sqrt_lt_R0. lra. Qed.
Lemma ds_d2_pos k r2 : 0 < r2 -> 0 < r2 + (k1 k * ds_d1 r2 + 1) * (k1 k * ds_d1 r2 + 1) /\ 0 < ds_d2 k r2.
Proof.
  intros H. assert (0 < r2 + (k1 k * ds_d1 r2 + 1) * (k1 k * ds_d1 r2 + 1)).
  { pose proof (Rle_0_sqr (k1 k * ds_d1 r2 + 1)) as Q. unfold Rsqr in Q. lra. }
  split; [auto|]. apply sqrt_lt_R0. auto.
Qed.

Lemma ds_jac k i : let r2 := fst i * fst i + snd i * snd i in
  r2 < r2_min \/ (r2_min < r2 /\ ds_den k r2 <> 0) ->
  jacobian_at (distort_ds k) i (snd (distort_ds_J k i)).
Proof.
  destruct i as [x y]. cbn [fst snd]. intros Hr. unfold distort_ds_J.
  assert (GP : 0 < r2_min). { rewrite r2min_sq. pose proof rmin_pos. nra. }
  destruct (Rlt_dec (x * x + y * y) r2_min) as [L|L]; cbn [snd jacobian_at]; intros u v t u' v' Eu Ev Hu Hv; cbn [fst snd] in *; subst x y.
  - assert (LL : locally t (fun s => u s * u s + v s * v s < r2_min)).
    { apply (locally_lt (fun s => u s * u s + v s * v s)); auto.
      auto_derive. repeat split; eauto using dl_ex. }
    split; apply is_dl.
    + apply (is_derive_ext_loc u).
      * revert LL. apply filter_imp. intros s Hs. unfold distort_ds. destruct (Rlt_dec _ _) as [_|N]; [reflexivity|contradiction].
      * replace (1 * u' + 0 * v') with u' by ring. now apply dl_is.
    + apply (is_derive_ext_loc v).
      * revert LL. apply filter_imp. intros s Hs. unfold distort_ds. destruct (Rlt_dec _ _) as [_|N]; [reflexivity|contradiction].
      * replace (0 * u' + 1 * v') with v' by ring. now apply dl_is.
  - destruct Hr as [Hr|[G D]]; [contradiction|].
    assert (LL : locally t (fun s => r2_min < u s * u s + v s * v s)).
    { apply (locally_gt (fun s => u s * u s + v s * v s)); auto.
      auto_derive. repeat split; eauto using dl_ex. }
    assert (E : forall s, r2_min < u s * u s + v s * v s ->
       (u s * (1 / ds_den k (u s * u s + v s * v s)), v s * (1 / ds_den k (u s * u s + v s * v s))) = distort_ds k (u s, v s)).
    { intros s Hs. unfold distort_ds. destruct (Rlt_dec _ _) as [N|_]; [lra|reflexivity]. }
    set (q := u t * u t + v t * v t) in *.
    assert (Qp : 0 < q) by lra.
    destruct (ds_d1_pos q ltac:(lra)) as [P1 P1']. destruct (ds_d2_pos k q Qp) as [P2 P2'].
    split; apply is_dl.
    + apply (is_derive_ext_loc (fun s => u s * (1 / ds_den k (u s * u s + v s * v s)))).
      { revert LL. apply filter_imp. intros s Hs. rewrite <- (E s Hs). reflexivity. }
      unfold ds_den, ds_d2, ds_d1. der1 Hu Hv; fold q; try exact D; auto.
      unfold ds_den, ds_d2, ds_d1 in *.
      set (d1 := sqrt (q + 1)) in *. set (d2 := sqrt (q + (k1 k * d1 + 1) * (k1 k * d1 + 1))) in *.
      field; repeat split; first [lra | exact D].
    + apply (is_derive_ext_loc (fun s => v s * (1 / ds_den k (u s * u s + v s * v s)))).
      { revert LL. apply filter_imp. intros s Hs. rewrite <- (E s Hs). reflexivity. }
      unfold ds_den, ds_d2, ds_d1. der1 Hu Hv; fold q; try exact D; auto.
      unfold ds_den, ds_d2, ds_d1 in *.
      set (d1 := sqrt (q + 1)) in *. set (d2 := sqrt (q + (k1 k * d1 + 1) * (k1 k * d1 + 1))) in *.
      field; repeat split; first [lra | exact D].
Qed.

Lemma distort_jac k i : regular k i -> jacobian_at (distort k) i (snd (distort_J k i)).
Proof.
  unfold regular, distort_J. intros H.
  assert (E : jacobian_at (distort k) = match ctype k with RADTAN => jacobian_at (distort_radtan k)
     | EQUIDIST => jacobian_at (distort_equidist k) | DS => jacobian_at (distort_ds k) end).
  { unfold distort. destruct (ctype k); reflexivity. }
  rewrite E. destruct (ctype k); [apply radtan_jac | apply equidist_jac; auto | apply ds_jac; auto].
Qed.

(** partial derivatives *)
Lemma jacobian_partials f x y a b c d : jacobian_at f (x, y) (a, b, c, d) ->
  derivable_pt_lim (fun s => fst (f (s, y))) x a /\ derivable_pt_lim (fun s => fst (f (x, s))) y b /\
  derivable_pt_lim (fun s => snd (f (s, y))) x c /\ derivable_pt_lim (fun s => snd (f (x, s))) y d.
Proof.
  intros H. cbn in H.
  destruct (H (fun s => s) (fun _ => y) x 1 0 eq_refl eq_refl (derivable_pt_lim_id x) (derivable_pt_lim_const y x)) as [A C].
  destruct (H (fun _ => x) (fun s => s) y 0 1 eq_refl eq_refl (derivable_pt_lim_const x y) (derivable_pt_lim_id y)) as [B D].
  replace (a * 1 + b * 0) with a in A by ring. replace (c * 1 + d * 0) with c in C by ring.
  replace (a * 0 + b * 1) with b in B by ring. replace (c * 0 + d * 1) with d in D by ring. auto.
Qed.

(** ** projection *)
Lemma project_fails k v : bearing_to_pixel k v = None <-> depth v <= 0.
Proof.
  destruct v as [[x y] z]. cbn. destruct (Rle_dec z 0); [tauto|].
  destruct (distort k (x / z, y / z)). split; [discriminate|lra].
Qed.
Lemma project_scale k v s : 0 < s -> bearing_to_pixel k (scale3 s v) = bearing_to_pixel k v.
Proof.
  intros Hs. destruct v as [[x y] z]. cbn. destruct (Rle_dec z 0) as [L|L].
  - destruct (Rle_dec (s * z) 0); [reflexivity|nra].
  - destruct (Rle_dec (s * z) 0); [nra|].
    replace (s * x / (s * z)) with (x / z) by (field; lra).
    replace (s * y / (s * z)) with (y / z) by (field; lra). reflexivity.
Qed.
Lemma project_J_value k v : option_map fst (bearing_to_pixel_J k v) = bearing_to_pixel k v.
Proof.
  destruct v as [[x y] z]. cbn. destruct (Rle_dec z 0); [reflexivity|].
  rewrite <- distort_value. destruct (distort_J k (x / z, y / z)) as [[dx dy] [[[? ?] ?] ?]]. reflexivity.
Qed.

Lemma dl_affine (f : R -> R) t l a b : derivable_pt_lim f t l -> derivable_pt_lim (fun s => a * f s + b) t (a * l).
Proof. intros H. apply is_dl. auto_derive; [eauto using dl_ex|]. rewrite (dl_Derive _ _ _ H). ring. Qed.

Lemma project_jac k x y z c J : regular k (x / z, y / z) ->
  bearing_to_pixel_J k (x, y, z) = Some (c, J) -> jacobian3_at (pixel k) (x, y, z) J.
Proof.
  intros HR H. cbn in H. destruct (Rle_dec z 0) as [|Z]; [discriminate|]. apply Rnot_le_lt in Z.
  pose proof (distort_jac k _ HR) as HJ.
  destruct (distort_J k (x / z, y / z)) as [[dx dy] [[[j00 j01] j10] j11]]. cbn [snd] in HJ.
  injection H as _ <-. cbn [jacobian3_at]. intros xs ys zs t x' y' z' Ex Ey Ez Hx Hy Hz.
  assert (Hu : derivable_pt_lim (fun s => xs s / zs s) t (x' / z - x * z' / (z * z))).
  { apply is_dl. auto_derive; [repeat split; eauto using dl_ex; lra|].
    rewrite (dl_Derive _ _ _ Hx), (dl_Derive _ _ _ Hz), Ex, Ez. field. lra. }
  assert (Hv : derivable_pt_lim (fun s => ys s / zs s) t (y' / z - y * z' / (z * z))).
  { apply is_dl. auto_derive; [repeat split; eauto using dl_ex; lra|].
    rewrite (dl_Derive _ _ _ Hy), (dl_Derive _ _ _ Hz), Ey, Ez. field. lra. }
  cbn in HJ.
  destruct (HJ (fun s => xs s / zs s) (fun s => ys s / zs s) t _ _ ltac:(cbn; now rewrite Ex, Ez) ltac:(cbn; now rewrite Ey, Ez) Hu Hv) as [A B].
  assert (LL : locally t (fun s => 0 < zs s)).
  { apply (locally_gt zs); [eauto using dl_ex|lra]. }
  split; apply is_dl.
  - apply (is_derive_ext_loc (fun s => fx k * fst (distort k (xs s / zs s, ys s / zs s)) + cx k)).
    { revert LL. apply filter_imp. intros s Hs. unfold pixel. cbn. destruct (Rle_dec (zs s) 0); [lra|].
      destruct (distort k _); reflexivity. }
    apply dl_is. eapply eq_rect; [apply (dl_affine _ _ _ (fx k) (cx k) A)|]. field. lra.
  - apply (is_derive_ext_loc (fun s => fy k * snd (distort k (xs s / zs s, ys s / zs s)) + cy k)).
    { revert LL. apply filter_imp. intros s Hs. unfold pixel. cbn. destruct (Rle_dec (zs s) 0); [lra|].
      destruct (distort k _); reflexivity. }
    apply dl_is. eapply eq_rect; [apply (dl_affine _ _ _ (fy k) (cy k) B)|]. field. lra.
Qed.

(** tangent-space version *)
Lemma project_jac_M k x y z m1 m2 c a b d e (n1 n2 n3 : R -> R) t al be :
  regular k (x / z, y / z) ->
  bearing_to_pixel_M k (x, y, z) m1 m2 = Some (c, (a, b, d, e)) ->
  n1 t = x -> n2 t = y -> n3 t = z ->
  (let '(u1, u2, u3) := m1 in let '(w1, w2, w3) := m2 in
   derivable_pt_lim n1 t (al * u1 + be * w1) /\ derivable_pt_lim n2 t (al * u2 + be * w2) /\ derivable_pt_lim n3 t (al * u3 + be * w3)) ->
  derivable_pt_lim (fun s => fst (pixel k (n1 s, n2 s, n3 s))) t (a * al + b * be) /\
  derivable_pt_lim (fun s => snd (pixel k (n1 s, n2 s, n3 s))) t (d * al + e * be).
Proof.
  intros HR H E1 E2 E3 HD. unfold bearing_to_pixel_M in H.
  destruct (bearing_to_pixel_J k (x, y, z)) as [[c0 [[[a0 b0] g0] [[d0 e0] h0]]]|] eqn:HJ; [|discriminate].
  pose proof (project_jac _ _ _ _ _ _ HR HJ) as P.
  destruct m1 as [[u1 u2] u3], m2 as [[w1 w2] w3]. destruct HD as (D1&D2&D3).
  injection H as <- <- <- <- <-. cbn in P.
  destruct (P n1 n2 n3 t _ _ _ E1 E2 E3 D1 D2 D3) as [A B].
  split.
  - replace ((a0 * u1 + b0 * u2 + g0 * u3) * al + (a0 * w1 + b0 * w2 + g0 * w3) * be)
      with (a0 * (al * u1 + be * w1) + b0 * (al * u2 + be * w2) + g0 * (al * u3 + be * w3)) by ring. exact A.
  - replace ((d0 * u1 + e0 * u2 + h0 * u3) * al + (d0 * w1 + e0 * w2 + h0 * w3) * be)
      with (d0 * (al * u1 + be * w1) + e0 * (al * u2 + be * w2) + h0 * (al * u3 + be * w3)) by ring. exact B.
Qed.
