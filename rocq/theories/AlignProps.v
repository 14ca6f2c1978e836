(** C31-C33 and C56-C58: photometric alignment. *)
From Coq Require Import List Reals ZArith Bool Lra Lia.
From Verif Require Import AlignModel AlignSpec AlignProofs AlignLoop.
Import ListNotations.
Local Open Scope R_scope.

(** ** C31. [fst (huber th e)] replaces the residual, [snd (huber th e)] multiplies its gradient row. *)
Theorem C31_within_threshold_unchanged : forall th e, 0 < th -> Rabs e <= th -> huber th e = (e, 1).
Proof. exact huber_small. Qed.
Theorem C31_square_is_huber_loss : forall th e, 0 < th -> fst (huber th e) ^ 2 = huber_loss th e.
Proof. exact huber_square. Qed.
(** gradient contribution = limited residual: at most the threshold *)
Theorem C31_influence_limited : forall th e, 0 < th ->
  snd (huber th e) * fst (huber th e) = limited th e /\ 0 < snd (huber th e) <= 1.
Proof. exact huber_influence. Qed.
Theorem C31_odd : forall th e, fst (huber th (- e)) = - fst (huber th e) /\ snd (huber th (- e)) = snd (huber th e).
Proof. exact huber_odd. Qed.
Theorem C31_strictly_monotone : forall th e f, e < f -> fst (huber th e) < fst (huber th f).
Proof. exact huber_strict. Qed.
Theorem C31_continuous : forall th, continuity (fun e => fst (huber th e)).
Proof. exact huber_continuous. Qed.
Theorem C31_lipschitz : forall th e f, Rabs (fst (huber th e) - fst (huber th f)) <= Rabs (e - f).
Proof. exact huber_lipschitz. Qed.
(** the equations use exactly this map, followed by multiplication of the whole row by one factor: the
    pixel's weight, reduced (not raised) for strong gradients if that option is on *)
Theorem C31_rows : forall s g p, exists k,
  let r := error_row s g p in let h := huber (huber_th s) (e_b r) in
  final_row s g p = {| e_b := k * fst h; e_x := k * (snd h * e_x r); e_y := k * (snd h * e_y r) |} /\
  (grad_exp s <= 0 \/ gradient2 r = 0 -> k = weight s p) /\
  (0 <= weight s p -> gradient2 r <= max_gradient2 -> 0 <= k <= weight s p).
Proof.
  intros s g p. exists (grad_weight s (error_row s g p) * weight s p). cbv zeta. split; [|split].
  - unfold final_row. destruct (huber (huber_th s) (e_b (error_row s g p))) as [b f]. cbn [fst snd]. apply row_eq; ring.
  - intros H. rewrite (grad_weight_full s _ H). ring.
  - intros W G. pose proof (grad_weight_range s _ G). split; [|rewrite <- (Rmult_1_l (weight s p)) at 2]; [apply Rmult_le_pos|apply Rmult_le_compat_r]; lra.
Qed.
Example C31_ex : fst (huber 1 (5 / 2)) = 2.
Proof.
  rewrite huber_pos by lra. destruct (Rle_dec (5 / 2) 1); [lra|]. replace (1 * (2 * (5 / 2) - 1)) with (2 * 2) by lra. apply sqrt_square. lra.
Qed.

(** ** C88: gradient based weighting. [counts_with s g p k]: the equation of pixel p enters with factor k. *)
Theorem C88_strong_gradients_count_less : forall s g p q, 0 < grad_exp s -> 0 < weight s p -> weight s q = weight s p ->
  gradient2 (error_row s g p) < gradient2 (error_row s g q) <= max_gradient2 ->
  exists kp kq, counts_with s g p kp /\ counts_with s g q kq /\ 0 <= kq < kp /\ kp <= weight s p.
Proof.
  intros s g p q E W WE [L U].
  exists (grad_weight s (error_row s g p) * weight s p), (grad_weight s (error_row s g q) * weight s q).
  pose proof (grad_weight_strict s _ _ E L) as M. pose proof (grad_weight_range s _ U) as B.
  pose proof (grad_weight_range s (error_row s g p) (Rle_trans _ _ _ (Rlt_le _ _ L) U)) as B'.
  rewrite WE. repeat split; try apply final_row_counts; try (rewrite <- WE; apply final_row_counts); nra.
Qed.
(** the steepest admitted gradient counts nothing at all *)
Theorem C88_steepest_is_ignored : forall s g p, 0 < grad_exp s -> gradient2 (error_row s g p) = max_gradient2 ->
  final_row s g p = {| e_b := 0; e_x := 0; e_y := 0 |}.
Proof.
  intros s g p E G. rewrite (final_row_counts s g p). cbv zeta.
  assert (Z : grad_weight s (error_row s g p) = 0).
  { unfold grad_weight. destruct (Rlt_dec 0 (grad_exp s)); [|lra]. fold (gradient2 (error_row s g p)). rewrite G. unfold max_gradient2.
    replace (2 * 128 * 128 / (2 * 128 * 128)) with 1 by field. unfold cpow. destruct (Req_EM_T 1 0); [lra|].
    unfold Rpower. rewrite ln_1, Rmult_0_r, exp_0. ring. }
  rewrite Z. apply row_eq; ring.
Qed.
(** Beyond that (a warp or brightness gain may magnify gradients) pixels count the more the steeper they are, without bound *)
Theorem C88_never_counts_more_refuted : forall bound, exists s g p k,
  0 < grad_exp s /\ weight s p = 1 /\ counts_with s g p k /\ final_row s g p <> {| e_b := 0; e_x := 0; e_y := 0 |} /\ bound < k ^ 2 /\
  forall k', counts_with s g p k' -> k' = k.
Proof.
  intros bound. set (s := {| use_offset := false; use_skew := false; use_weight := false; huber_th := 0; grad_exp := 2 |}).
  set (g := {| ra := 1; ra_dx := 0; ra_dy := 0; rb := 0; rb_dx := 0; rb_dy := 0 |}).
  set (x := 256 * (1 + Rabs bound)).
  set (p := {| r_t := 0; r_i := 1; r_jx := x; r_jy := 0; r_w := 1 |}).
  pose proof (Rabs_pos bound) as B. pose proof (Rle_abs bound) as B'. assert (X : 256 <= x) by (unfold x; lra).
  set (k := 1 - x * x / (2 * 128 * 128)).
  assert (K : grad_weight s (error_row s g p) = k).
  { unfold grad_weight, s, p. cbn. destruct (Rlt_dec 0 2); [|lra]. replace (x * x + 0 * 0) with (x * x) by ring.
    replace (/ 2 * 2) with 1 by field. unfold cpow. destruct (Req_EM_T (x * x / (2 * 128 * 128)) 0) as [Z|Z].
    - exfalso. assert (0 < x * x / (2 * 128 * 128)) by (apply Rdiv_lt_0_compat; nra). lra.
    - rewrite Rpower_1; [reflexivity|]. apply Rdiv_lt_0_compat; nra. }
  assert (H0 : huber (huber_th s) (e_b (error_row s g p)) = (1 - 0, 1)).
  { unfold huber, s, p. cbn. destruct (Rlt_dec 0 0); [lra|reflexivity]. }
  assert (KL : k <= - (1 + 2 * Rabs bound)).
  { unfold k, x. assert (E : 256 * (1 + Rabs bound) * (256 * (1 + Rabs bound)) / (2 * 128 * 128) = 2 * (1 + Rabs bound) * (1 + Rabs bound)) by field. rewrite E. nra. }
  exists s, g, p, k. assert (F : counts_with s g p k).
  { unfold counts_with. rewrite (final_row_counts s g p), K. cbv zeta. unfold weight, s. cbn. apply row_eq; ring. }
  repeat split.
  - cbn. lra.
  - exact F.
  - unfold counts_with in F. rewrite F, H0. intros Q. apply (f_equal e_b) in Q. cbn in Q. lra.
  - nra.
  - intros k' F'. unfold counts_with in F, F'. rewrite F in F'. rewrite H0 in F'. apply (f_equal e_b) in F'. cbn in F'. lra.
Qed.
Example C88_ex : exists s g p q, 0 < grad_exp s /\ 0 < weight s p /\ weight s q = weight s p /\
  gradient2 (error_row s g p) < gradient2 (error_row s g q) <= max_gradient2.
Proof.
  exists {| use_offset := false; use_skew := false; use_weight := true; huber_th := 1; grad_exp := / 2 |},
    {| ra := 1; ra_dx := 0; ra_dy := 0; rb := 0; rb_dx := 0; rb_dy := 0 |},
    {| r_t := 0; r_i := 1; r_jx := 10; r_jy := 0; r_w := / 3 |}, {| r_t := 0; r_i := 1; r_jx := 20; r_jy := 20; r_w := / 3 |}.
  unfold gradient2, max_gradient2. cbn. repeat split; lra.
Qed.

(** ** C32. [regress] is the brightness model i = ra t + rb; [error_row] the compensated residual. *)
Theorem C32_defined_for_textured_templates : forall s ps, positive_weights s ps -> ps <> [] -> (use_skew s = true -> textured ps) ->
  exists g, regress s ps = Some g.
Proof. exact regress_defined. Qed.
Theorem C32_zero_mean_residual : forall s ps g, use_offset s = true -> regress s ps = Some g ->
  wsum s ps (fun p => e_b (error_row s g p)) = 0.
Proof. exact residual_mean. Qed.
(** the brightness model is the weighted least squares fit among those with gain at least 1/2 *)
Theorem C32_best_brightness_fit : forall s ps g, use_offset s = true -> use_skew s = true -> positive_weights s ps -> ps <> [] ->
  regress s ps = Some g -> / 2 <= ra g /\ forall a b, / 2 <= a -> cost s ps (ra g) (rb g) <= cost s ps a b.
Proof.
  intros s ps g O K P NE R. split; [now apply (regress_some_gain s ps g R)|]. now apply regress_optimal.
Qed.
Theorem C32_best_offset_fit : forall s ps g, use_offset s = true -> use_skew s = false -> positive_weights s ps -> ps <> [] ->
  regress s ps = Some g -> ra g = 1 /\ forall b, cost s ps 1 (rb g) <= cost s ps 1 b.
Proof. exact regress_optimal_offset. Qed.
(** a brightness-affine copy of the template has no residual *)
Theorem C32_copy_has_zero_residual : forall s ps g a b, regress s ps = Some g -> (forall p, In p ps -> r_i p = a * r_t p + b) ->
  (if use_skew s then / 2 <= a else a = 1) -> (use_offset s = false -> b = 0) ->
  forall p, In p ps -> e_b (error_row s g p) = 0.
Proof. exact copy_residual. Qed.
(** a brightness offset of the image changes no equation; a gain and offset of the template neither, as
    long as the gain limit is not active *)
Theorem C32_image_offset_irrelevant : forall s ps b, use_offset s = true -> solved s (map (image_offset b) ps) = solved s ps.
Proof. exact image_offset_rows. Qed.
Theorem C32_template_brightness_irrelevant : forall s ps k b g g', use_offset s = true -> use_skew s = true -> 0 < k ->
  regress s ps = Some g -> regress s (map (template_affine k b) ps) = Some g' -> / 2 < ra g -> / 2 < ra g' ->
  solved s (map (template_affine k b) ps) = solved s ps.
Proof. exact template_rows. Qed.
(** an image gain scales residual and gradients alike (so the least squares step is unchanged) *)
Theorem C32_image_gain_scales_rows : forall s ps k g g', use_offset s = true -> use_skew s = true -> 0 < k ->
  regress s ps = Some g -> regress s (map (image_gain k) ps) = Some g' -> / 2 < ra g -> / 2 < ra g' ->
  forall p, In p ps -> error_row s g' (image_gain k p) =
    {| e_b := k * e_b (error_row s g p); e_x := k * e_x (error_row s g p); e_y := k * e_y (error_row s g p) |}.
Proof. exact image_gain_rows. Qed.
(** template of constant brightness: 0/0 *)
Theorem C32_constant_template_undefined : forall s ps c, use_skew s = true -> (forall p, In p ps -> r_t p = c) -> regress s ps = None.
Proof. exact regress_constant. Qed.
Definition ex_s : settings := {| use_offset := true; use_skew := true; use_weight := false; huber_th := 0; grad_exp := 0 |}.
Definition ex_ps : list raw :=
  [{| r_t := 0; r_i := 10; r_jx := 1; r_jy := 0; r_w := 1 |}; {| r_t := 2; r_i := 14; r_jx := 0; r_jy := 1; r_w := 1 |}].
Example C32_ex : positive_weights ex_s ex_ps /\ textured ex_ps /\ forall p, In p ex_ps -> r_i p = 2 * r_t p + 10.
Proof.
  split; [discriminate|]. split.
  - exists {| r_t := 0; r_i := 10; r_jx := 1; r_jy := 0; r_w := 1 |}, {| r_t := 2; r_i := 14; r_jx := 0; r_jy := 1; r_w := 1 |}. split; [now left|]. split; [now right; left|]. cbn. lra.
  - cbn. intros p [<-|[<-|[]]]; cbn; lra.
Qed.
Example C32_ex_gain : exists g, regress ex_s ex_ps = Some g /\ ra g = 2 /\ rb g = 10.
Proof.
  destruct (regress_defined ex_s ex_ps) as [g G]; [apply C32_ex|discriminate|intros _; apply C32_ex|]. exists g. split; [exact G|].
  pose proof (copy_residual ex_s ex_ps g 2 10 G (proj2 (proj2 C32_ex)) ltac:(cbn; lra) ltac:(discriminate)) as Z.
  pose proof (Z _ (or_introl eq_refl)) as Z1. pose proof (Z _ (or_intror (or_introl eq_refl))) as Z2. cbn in Z1, Z2. lra.
Qed.

(** ** C33. [hit sd c]: alignment started at [sd] converges to [c], which is in the frame. *)
Theorem C33_best_converged_seed : forall align in_fr err, (forall c, 0 <= err c) -> forall n c dir step junk, n <> 0%Z ->
  match align_adaptive align in_fr err n c dir step junk with
  | (true, c') => (exists i, (- n <= i <= n)%Z /\ hit align in_fr (seed c dir step i) c') /\
                  forall i c'', (- n <= i <= n)%Z -> hit align in_fr (seed c dir step i) c'' -> err c' <= err c''
  | (false, _) => forall i c'', (- n <= i <= n)%Z -> ~ hit align in_fr (seed c dir step i) c''
  end.
Proof. exact adaptive_spec. Qed.
Theorem C33_single_seed : forall align in_fr err c dir step junk, align_adaptive align in_fr err 0 c dir step junk = align c.
Proof. reflexivity. Qed.
Theorem C33_seed_count_bounded : forall sigma cov range lowest m, (0 <= m)%Z -> (0 <= samples sigma cov range lowest m <= m)%Z.
Proof. exact samples_range. Qed.
(** unless limited, the seeds with their convergence range cover the uncertain segment *)
Theorem C33_seeds_cover_uncertainty : forall sigma cov range lowest m, 0 < range -> (samples sigma cov range lowest m < m)%Z ->
  sigma * cov <= (IZR (samples sigma cov range lowest m) + / 2) * (range * 2 ^ (lowest + 1)).
Proof. exact samples_cover. Qed.
(** the seeds lie symmetrically around the start, all on the given direction *)
Theorem C33_seeds_symmetric : forall c dir step i,
  fst (seed c dir step i) + fst (seed c dir step (- i)) = 2 * fst c /\ snd (seed c dir step i) + snd (seed c dir step (- i)) = 2 * snd c.
Proof. intros c dir step i. unfold seed. cbn [fst snd]. rewrite opp_IZR. split; ring. Qed.
(** without seeds within the limit 0 the plain alignment is used without the in-frame check; a negative
    limit makes the alignment fail always *)
Theorem C33_negative_limit_always_fails : forall align in_fr err sigma cov range lowest m c dir step junk, (m < 0)%Z ->
  fst (align_adaptive align in_fr err (samples sigma cov range lowest m) c dir step junk) = false.
Proof.
  intros. assert (N : (samples sigma cov range lowest m < 0)%Z) by (unfold samples; lia). unfold align_adaptive.
  destruct (Z.eqb_spec (samples sigma cov range lowest m) 0); [lia|]. replace (steps (samples sigma cov range lowest m)) with (@nil Z).
  - cbn. destruct (Req_EM_T (-1) (-1)); [reflexivity|congruence].
  - unfold steps. replace (Z.to_nat _) with 0%nat by lia. reflexivity.
Qed.
(** After a failure the output coordinate is not the initial one but the end of the last attempt. *)
Theorem C33_output_untouched_on_failure_refuted : exists align in_fr err n c dir step junk,
  (forall c, 0 <= err c) /\ n <> 0%Z /\ align_adaptive align in_fr err n c dir step junk = (false, (7, 7)) /\ c <> (7, 7).
Proof.
  exists (fun _ => (false, (7, 7))), (fun _ => true), (fun _ => 0), 1%Z, (0, 0), (1, 0), 1, (0, 0).
  split; [intros; lra|]. split; [lia|]. split.
  - unfold align_adaptive. change (steps 1) with [(-1)%Z; 0%Z; 1%Z]. cbn. destruct (Req_EM_T (-1) (-1)); [reflexivity|congruence].
  - intros E. injection E. lra.
Qed.
Example C33_ex : exists c', align_adaptive (fun c => (true, c)) (fun _ => true) (fun c => Rabs (fst c)) 1 (0, 0) (1, 0) 1 (0, 0) = (true, c') /\ fst c' = 0.
Proof.
  pose proof (adaptive_spec (fun c => (true, c)) (fun _ => true) (fun c => Rabs (fst c)) (fun c => Rabs_pos _) 1 (0, 0) (1, 0) 1 (0, 0) ltac:(lia)) as S.
  destruct (align_adaptive _ _ _ _ _ _ _ _) as [[] c'].
  - exists c'. split; [reflexivity|]. destruct S as [_ M]. specialize (M 0%Z (seed (0, 0) (1, 0) 1 0) ltac:(lia)).
    assert (H : hit (fun c : coordinate => (true, c)) (fun _ : coordinate => true) (seed (0, 0) (1, 0) 1 0) (seed (0, 0) (1, 0) 1 0)) by (split; reflexivity).
    specialize (M H). unfold seed in M. cbn [fst snd] in M. rewrite Rmult_0_r, Rmult_0_l, Rplus_0_r, Rabs_R0 in M.
    pose proof (Rabs_pos (fst c')). destruct (Req_dec (fst c') 0) as [|N]; [auto|]. apply Rabs_no_R0 in N. lra.
  - exfalso. apply (S 0%Z (seed (0, 0) (1, 0) 1 0) ltac:(lia)). split; reflexivity.
Qed.

(** ** C56: the reduced (QR) system has the same least squares cost up to a constant.
    [q], [r], [sw]: orthogonal factor, stored R and column swap of the decomposition A P = Q R. *)
Theorem C56_reduced_system_equivalent : forall m q r sw a b u v, (2 <= m)%nat ->
  (forall i j, (i < m)%nat -> (j < m)%nat -> fsum m (fun k => q i k * q j k) = if Nat.eqb i j then 1 else 0) ->
  (forall i j, (i < m)%nat -> (j < m)%nat -> fsum m (fun k => q k i * q k j) = if Nat.eqb i j then 1 else 0) ->
  (forall i j, (i < m)%nat -> (j < 2)%nat -> a i j = fsum m (fun k => q i k * (if Nat.leb k (perm sw j) then r k (perm sw j) else 0))) ->
  fsum m (fun i => (a i 0%nat * u + a i 1%nat * v - b i) ^ 2) =
  fsum 2 (fun k => (reduced_a r sw k 0 * u + reduced_a r sw k 1 * v - reduced_b m q b k) ^ 2)
  + fsum (m - 2) (fun k => (reduced_b m q b (2 + k)) ^ 2).
Proof. exact reduced_ok. Qed.
Example C56_ex : let q := fun i k => if Nat.eqb i k then 1 else 0 in let r := fun k j => INR (k + 2 * j + 1) in
  let a := fun i j => fsum 3 (fun k => q i k * (if Nat.leb k (perm true j) then r k (perm true j) else 0)) in
  a 0%nat 0%nat = 3 /\ a 1%nat 1%nat = 0 /\ a 1%nat 0%nat = 4 /\
  (forall i j, (i < 3)%nat -> (j < 3)%nat -> fsum 3 (fun k => q i k * q j k) = if Nat.eqb i j then 1 else 0).
Proof.
  cbv zeta. split; [cbn; ring|]. split; [cbn; ring|]. split; [cbn; ring|].
  intros i j Hi Hj. destruct i as [|[|[|]]], j as [|[|[|]]]; try lia; cbn; ring.
Qed.

(** ** C57: weighting mask *)
Theorem C57_mask_range : forall n sg x y, 0 < sg -> 0 < mask n sg x y <= 1.
Proof. exact mask_range. Qed.
Theorem C57_mask_symmetric : forall n x y sg, (x < n)%nat -> mask n sg (n - 1 - x) y = mask n sg x y /\ mask n sg x y = mask n sg y x.
Proof. intros n x y sg H. split; [now apply mask_sym|apply mask_comm]. Qed.
Theorem C57_mask_decreases_outwards : forall n sg x x' y, 0 < sg -> (n <= 2 * x + 1)%nat -> (x <= x')%nat -> mask n sg x' y <= mask n sg x y.
Proof. exact mask_decreasing. Qed.
(** the weight is the Gaussian of the distance from the centre, each coordinate rounded down to whole pixels *)
Theorem C57_gaussian : forall n sg x y, exists u v : nat,
  INR u <= Rabs (INR x - (INR n - 1) / 2) < INR u + 1 /\ INR v <= Rabs (INR y - (INR n - 1) / 2) < INR v + 1 /\
  mask n sg x y = exp (- (INR u ^ 2 + INR v ^ 2) / (2 * sg ^ 2)).
Proof.
  intros n sg x y. exists (Z.abs_nat (mask_coord n x)), (Z.abs_nat (mask_coord n y)). split; [apply mask_coord_floor|split; [apply mask_coord_floor|]].
  unfold mask. f_equal. replace (2 * sg ^ 2) with (2 * sg * sg) by ring. f_equal. f_equal.
  rewrite plus_IZR, !mult_IZR, !INR_IZR_INZ, !Zabs2Nat.id_abs, !abs_IZR, <- !Rsqr_pow2, <- !Rsqr_abs. unfold Rsqr. reflexivity.
Qed.
(** hence exactly the central pixels (for an even patch size two in each direction) get the full weight *)
Theorem C57_full_weight_at_the_centre : forall n sg x y, 0 < sg ->
  mask n sg x y = 1 <-> Rabs (INR x - (INR n - 1) / 2) < 1 /\ Rabs (INR y - (INR n - 1) / 2) < 1.
Proof.
  intros n sg x y P. destruct (C57_gaussian n sg x y) as (u & v & U & V & ->).
  pose proof (pos_INR u) as PU. pose proof (pos_INR v) as PV.
  assert (D : forall q, exp q = 1 <-> q = 0).
  { intros q. rewrite <- exp_0. split; [apply exp_inv|intros ->; reflexivity]. }
  assert (SG : 0 < 2 * sg ^ 2) by nra.
  assert (I : forall w, INR w = 0 \/ 1 <= INR w).
  { intros [|w]; [left; reflexivity|right]. rewrite S_INR. pose proof (pos_INR w). lra. }
  rewrite D. split.
  - intros E. assert (Z : INR u ^ 2 + INR v ^ 2 = 0).
    { apply (Rmult_eq_reg_r (- / (2 * sg ^ 2))); [|apply Ropp_neq_0_compat, Rinv_neq_0_compat; lra]. rewrite Rmult_0_l, <- E. unfold Rdiv. ring. }
    assert (INR u = 0) by nra. assert (INR v = 0) by nra. lra.
  - intros [A B]. destruct (I u) as [->|K]; [|lra]. destruct (I v) as [->|K]; [|lra]. unfold Rdiv. ring.
Qed.
Example C57_ex : mask_coord 6 0 = (-2)%Z /\ mask_coord 6 5 = 2%Z. Proof. split; reflexivity. Qed.

(** ** C58: iterations *)
(** a successful alignment ends with a step shorter than the limit, after at most max_iter steps *)
Theorem C58_iterations_bounded : forall solve k m c ok c', align2d solve k m c = (ok, c') ->
  exists us, (length us <= k)%nat /\ c' = fold_left (fun c u => (fst c + fst u, snd c + snd u)) us c /\
    (ok = true -> exists us0 u, us = us0 ++ [u] /\ fst u * fst u + snd u * snd u < m * m).
Proof. intros solve k m c ok c' H. unfold align2d in H. now apply (align_loop_spec solve k (m * m) c). Qed.
Theorem C58_success_means_converged : forall solve k m c c', align2d solve k m c = (true, c') ->
  exists c0 u, solve c0 = Some u /\ fst u * fst u + snd u * snd u < m * m /\ c' = (fst c0 + fst u, snd c0 + snd u).
Proof. intros solve k m c c' H. unfold align2d in H. now apply (align_success_fix solve k (m * m) c). Qed.
(** Level by level: from the coarse level [start] down to the fine level [highest], each level starts where the
    one above ended; the first failure ends the alignment. *)
Theorem C58_coarse_to_fine : forall solve highest start c, (highest <= start)%nat ->
  align2d_composed solve highest start c =
  let (ok, c1) := align2d (solve start) 10 (3 / 100) c in
  if ok then if (start =? highest)%nat then (true, c1) else align2d_composed solve highest (start - 1) c1 else (false, c1).
Proof.
  intros solve highest start c H. unfold align2d_composed.
  assert (E : (start + 1 - highest = S (start - highest))%nat) by lia. rewrite E, seq_S, rev_app_distr. cbn [rev app composed_loop].
  replace (highest + (start - highest))%nat with start by lia. destruct (align2d (solve start) 10 (3 / 100) c) as [ok c1]. destruct ok; [|reflexivity].
  destruct (Nat.eqb_spec start highest) as [->|N]; [now rewrite Nat.sub_diag|]. do 3 f_equal. lia.
Qed.
(** Success means that the finest level converged. *)
Theorem C58_finest_level_converged : forall solve highest start c c', (highest <= start)%nat -> align2d_composed solve highest start c = (true, c') ->
  exists c0 u, solve highest c0 = Some u /\ fst u * fst u + snd u * snd u < (3 / 100) * (3 / 100) /\ c' = (fst c0 + fst u, snd c0 + snd u).
Proof.
  intros solve highest start. remember (start - highest)%nat as k eqn:K. revert start K. induction k as [|k IH]; intros start K c c' H; rewrite C58_coarse_to_fine by exact H.
  - assert (start = highest) by lia. subst start. rewrite Nat.eqb_refl. destruct (align2d (solve highest) 10 (3 / 100) c) as [ok c1] eqn:A. destruct ok; [|discriminate]. injection 1 as <-. now apply C58_success_means_converged in A.
  - destruct (Nat.eqb_spec start highest); [lia|]. destruct (align2d (solve start) 10 (3 / 100) c) as [ok c1]. destruct ok; [|discriminate]. apply IH; lia.
Qed.
Print Assumptions C58_coarse_to_fine.
Print Assumptions C58_finest_level_converged.
Example C58_composed_ex : align2d_composed (fun l c => Some (INR l - fst c, 0)) 0 0 (0, 1) = (true, (0 + (INR 0 - 0), 1 + 0)).
Proof.
  rewrite C58_coarse_to_fine by lia. unfold align2d. cbn [align_loop fst snd INR Nat.eqb]. destruct (Rlt_dec _ _) as [|N]; [reflexivity|]. elim N. lra.
Qed.
(** the equations fail exactly when no level is usable *)
Theorem C58_fails_iff_no_level : forall s ident inv l1 levels,
  align_equations s ident inv l1 levels = Fail <-> forall lv, In lv levels -> lv = None.
Proof.
  intros. unfold align_equations. destruct (forallb _ levels) eqn:E.
  - split; [|reflexivity]. intros _ lv H. rewrite forallb_forall in E. specialize (E lv H). destruct lv; [discriminate|reflexivity].
  - split; [destruct (regress _ _); discriminate|]. intros H. exfalso. 
    assert (T : forallb (fun lv : option (list pixel) => match lv with None => true | Some _ => false end) levels = true) by (apply forallb_forall; intros lv Hl; now rewrite (H lv Hl)).
    congruence.
Qed.
(** one least squares step recovers the displacement exactly when intensities are displaced to first
    order (sign, level scale and inverse warp of the equations are right) *)
Theorem C58_exact_first_order_step : forall s (ident : bool) inv l1 levels rows u c target,
  use_skew s = false -> huber_th s <= 0 ->
  align_equations s ident inv l1 levels = Rows rows -> rank2 rows -> (forall v, lsq rows u <= lsq rows v) ->
  (forall k ps p, nth_error levels k = Some (Some ps) -> In p ps -> displaced (if ident then id2 else inv) (l1 + k) c target p) ->
  (fst c + fst u, snd c + snd u) = target.
Proof. exact exact_step. Qed.
(** [inv2] is the inverse of the warp *)
Theorem C58_inverse_warp : forall w v, m00 w * m11 w - m01 w * m10 w <> 0 -> mul2 (inv2 w) (mul2 w v) = v.
Proof. intros w [x y] H. unfold mul2, inv2. cbn [m00 m01 m10 m11 fst snd]. f_equal; field; auto. Qed.
(** a coordinate at which the image is a brightness-affine copy of the template is found at once *)
Theorem C58_fixed_point : forall s ps g a b solve k m c, regress s ps = Some g -> (forall p, In p ps -> r_i p = a * r_t p + b) ->
  (if use_skew s then / 2 <= a else a = 1) -> (use_offset s = false -> b = 0) ->
  rank2 (map (final_row s g) ps) ->
  (exists u, solve c = Some u /\ forall v, lsq (map (final_row s g) ps) u <= lsq (map (final_row s g) ps) v) ->
  m <> 0 -> align2d solve (S k) m c = (true, c).
Proof.
  intros s ps g a b solve k m c R H Ha Hb RK (u&Su&M) Hm. unfold align2d. cbn [align_loop]. rewrite Su.
  assert (U : u = (0, 0)).
  { apply (zero_residual_update _ u RK); [|exact M]. intros r Hr. apply in_map_iff in Hr as (p&<-&Hp).
    pose proof (copy_residual s ps g a b R H Ha Hb p Hp) as E. unfold final_row. rewrite E. pose proof (huber_0 (huber_th s)) as HZ.
    destruct (huber (huber_th s) 0) as [x f]. cbn [fst] in HZ. subst x. cbn [e_b]. ring. }
  rewrite U. cbn [fst snd]. destruct (Rlt_dec _ (m * m)) as [L|L].
  - destruct c. cbn. f_equal. f_equal; ring.
  - exfalso. apply L. pose proof (Rlt_0_sqr m Hm). unfold Rsqr in *. lra.
Qed.
Definition ex_px : list pixel :=
  [{| p_t := 0; p_i := 3; p_dx := 1; p_dy := 0; p_w := 1 |}; {| p_t := 1; p_i := 6; p_dx := 0; p_dy := 1; p_w := 1 |}].
Definition ex_off : settings := {| use_offset := false; use_skew := false; use_weight := true; huber_th := 0; grad_exp := 0 |}.
Example C58_ex : forall p, In p ex_px -> displaced id2 0 (3, 5) (0, 0) p.
Proof. intros p [<-|[<-|[]]]; unfold displaced, mul2, id2; cbn; lra. Qed.
Example C58_ex_rank : exists rows, align_equations ex_off true id2 0 [Some ex_px] = Rows rows /\ rank2 rows.
Proof.
  eexists. split; [reflexivity|]. intros u v H. pose proof (H _ (or_introl eq_refl)) as H1. pose proof (H _ (or_intror (or_introl eq_refl))) as H2.
  unfold final_row, huber, grad_weight, weight, error_row, ex_off, jac in H1, H2. cbn in H1, H2.
  destruct (Rlt_dec 0 0); [lra|]. cbn in H1, H2. lra.
Qed.

Print Assumptions C31_within_threshold_unchanged.
Print Assumptions C31_square_is_huber_loss.
Print Assumptions C31_influence_limited.
Print Assumptions C31_odd.
Print Assumptions C31_strictly_monotone.
Print Assumptions C31_continuous.
Print Assumptions C31_lipschitz.
Print Assumptions C31_rows.
Print Assumptions C88_strong_gradients_count_less.
Print Assumptions C88_steepest_is_ignored.
Print Assumptions C88_never_counts_more_refuted.
Print Assumptions C32_defined_for_textured_templates.
Print Assumptions C32_zero_mean_residual.
Print Assumptions C32_best_brightness_fit.
Print Assumptions C32_best_offset_fit.
Print Assumptions C32_copy_has_zero_residual.
Print Assumptions C32_image_offset_irrelevant.
Print Assumptions C32_template_brightness_irrelevant.
Print Assumptions C32_image_gain_scales_rows.
Print Assumptions C32_constant_template_undefined.
Print Assumptions C33_best_converged_seed.
Print Assumptions C33_single_seed.
Print Assumptions C33_seed_count_bounded.
Print Assumptions C33_seeds_cover_uncertainty.
Print Assumptions C33_seeds_symmetric.
Print Assumptions C33_negative_limit_always_fails.
Print Assumptions C33_output_untouched_on_failure_refuted.
Print Assumptions C56_reduced_system_equivalent.
Print Assumptions C57_mask_range.
Print Assumptions C57_mask_symmetric.
Print Assumptions C57_mask_decreases_outwards.
Print Assumptions C57_gaussian.
Print Assumptions C57_full_weight_at_the_centre.
Print Assumptions C58_iterations_bounded.
Print Assumptions C58_success_means_converged.
Print Assumptions C58_fails_iff_no_level.
Print Assumptions C58_exact_first_order_step.
Print Assumptions C58_inverse_warp.
Print Assumptions C58_fixed_point.
