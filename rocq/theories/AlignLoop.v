From Coq Require Import List Reals ZArith Bool Lra Lia Psatz Ranalysis.
From Verif Require Import AlignModel AlignSpec AlignProofs.
Import ListNotations.
Local Open Scope R_scope.

(** ** Huber norm *)
Lemma sgn_abs e : sgn e * Rabs e = e.
Proof. unfold sgn. destruct (Rlt_dec e 0); [rewrite Rabs_left by lra|rewrite Rabs_right by lra]; ring. Qed.
Lemma sgn_sq e : sgn e * sgn e = 1. Proof. unfold sgn. destruct (Rlt_dec e 0); ring. Qed.
Lemma sgn_pm e : sgn e = 1 \/ sgn e = -1. Proof. unfold sgn. destruct (Rlt_dec e 0); auto. Qed.
Lemma arg_pos th e : 0 < th -> th < Rabs e -> th * th < th * (2 * Rabs e - th).
Proof. intros. nra. Qed.
Lemma huber_small th e : 0 < th -> Rabs e <= th -> huber th e = (e, 1).
Proof. intros H L. unfold huber. destruct (Rlt_dec 0 th); [|lra]. destruct (Rlt_dec th (Rabs e)); [lra|reflexivity]. Qed.
Lemma huber_off th e : th <= 0 -> huber th e = (e, 1).
Proof. intros H. unfold huber. destruct (Rlt_dec 0 th); [lra|reflexivity]. Qed.
Lemma huber_large th e : 0 < th -> th < Rabs e -> 
  huber th e = (sqrt (th * (2 * Rabs e - th)) * sgn e, th / sqrt (th * (2 * Rabs e - th))).
Proof.
  intros H L. unfold huber. destruct (Rlt_dec 0 th); [|lra]. destruct (Rlt_dec th (Rabs e)); [|lra]. f_equal.
  pose proof (arg_pos th e H L). assert (0 < sqrt (th * (2 * Rabs e - th))) by (apply sqrt_lt_R0; nra).
  destruct (sgn_pm e) as [-> | ->]; field; lra.
Qed.
Lemma huber_square th e : 0 < th -> fst (huber th e) ^ 2 = huber_loss th e.
Proof.
  intros H. unfold huber_loss. destruct (Rle_dec (Rabs e) th) as [L|L].
  - now rewrite huber_small.
  - rewrite huber_large by lra. cbn [fst]. rewrite Rpow_mult_distr. pose proof (arg_pos th e H ltac:(lra)).
    replace (sgn e ^ 2) with (sgn e * sgn e) by ring. rewrite sgn_sq, Rmult_1_r, <- Rsqr_pow2. apply Rsqr_sqrt. nra.
Qed.
Lemma limited_small th e : Rabs e <= th -> limited th e = e.
Proof. intros H. apply Rabs_def2b in H || idtac. unfold limited. assert (- th <= e <= th) by (split; [pose proof (Rle_abs (-e)); rewrite Rabs_Ropp in *; lra|pose proof (Rle_abs e); lra]). rewrite Rmin_right by lra. apply Rmax_right. lra. Qed.
Lemma limited_large th e : 0 < th -> th < Rabs e -> limited th e = th * sgn e.
Proof.
  intros H L. unfold limited, sgn. destruct (Rlt_dec e 0).
  - rewrite Rabs_left in L by lra. rewrite Rmin_right by lra. rewrite Rmax_left by lra. ring.
  - rewrite Rabs_right in L by lra. rewrite Rmin_left by lra. rewrite Rmax_right by lra. ring.
Qed.
Lemma huber_influence th e : 0 < th -> snd (huber th e) * fst (huber th e) = limited th e /\ 0 < snd (huber th e) <= 1.
Proof.
  intros H. destruct (Rle_dec (Rabs e) th) as [L|L].
  - rewrite huber_small, limited_small by auto. cbn. lra.
  - rewrite huber_large, limited_large by lra. cbn [fst snd]. pose proof (arg_pos th e H ltac:(lra)) as A.
    assert (S : th < sqrt (th * (2 * Rabs e - th))).
    { rewrite <- (sqrt_square th) at 1 by lra. apply sqrt_lt_1; nra. }
    split; [field; lra|]. split; [apply Rdiv_lt_0_compat; lra|]. apply Rmult_le_reg_r with (sqrt (th * (2 * Rabs e - th))); [lra|].
    unfold Rdiv. rewrite Rmult_assoc, Rinv_l by lra. lra.
Qed.
Lemma sgn_opp e : e <> 0 -> sgn (- e) = - sgn e.
Proof. intros H. unfold sgn. destruct (Rlt_dec e 0), (Rlt_dec (- e) 0); lra. Qed.
Lemma huber_odd th e : fst (huber th (- e)) = - fst (huber th e) /\ snd (huber th (- e)) = snd (huber th e).
Proof.
  destruct (Rlt_dec 0 th) as [H|H]; [|rewrite !huber_off by lra; split; reflexivity].
  destruct (Rle_dec (Rabs e) th) as [L|L].
  - rewrite !huber_small by (rewrite ?Rabs_Ropp; lra). split; reflexivity.
  - rewrite !huber_large by (rewrite ?Rabs_Ropp; lra). rewrite Rabs_Ropp. cbn [fst snd]. rewrite sgn_opp; [split; ring|].
    intros Z. subst. rewrite Rabs_R0 in L. lra.
Qed.
(** value for non-negative residuals *)
Lemma huber_pos th e : 0 < th -> 0 <= e -> fst (huber th e) = if Rle_dec e th then e else sqrt (th * (2 * e - th)).
Proof.
  intros H P. destruct (Rle_dec e th) as [L|L].
  - rewrite huber_small; auto. rewrite Rabs_right; lra.
  - rewrite huber_large by (rewrite ?Rabs_right; lra). cbn [fst]. rewrite Rabs_right by lra. unfold sgn. destruct (Rlt_dec e 0); [lra|ring].
Qed.
Lemma huber_mono_pos th e f : 0 < th -> 0 <= e -> e < f -> fst (huber th e) < fst (huber th f).
Proof.
  intros H P L. rewrite !huber_pos by lra. destruct (Rle_dec e th), (Rle_dec f th); try lra.
  - apply Rle_lt_trans with th; [auto|]. rewrite <- (sqrt_square th) at 1 by lra. apply sqrt_lt_1; nra.
  - apply sqrt_lt_1; nra.
Qed.
Lemma huber_0 th : fst (huber th 0) = 0.
Proof.
  destruct (Rlt_dec 0 th) as [H|H]; [|now rewrite huber_off by lra]. rewrite huber_small; auto. rewrite Rabs_R0. lra.
Qed.
Lemma huber_strict th e f : e < f -> fst (huber th e) < fst (huber th f).
Proof.
  intros L. destruct (Rlt_dec 0 th) as [H|H]; [|rewrite !huber_off by lra; auto].
  destruct (Rle_dec 0 e) as [P|P]; [now apply huber_mono_pos|].
  destruct (Rle_dec f 0) as [N|N].
  - pose proof (huber_mono_pos th (- f) (- e) H ltac:(lra) ltac:(lra)). rewrite !(proj1 (huber_odd th _)) in H0. lra.
  - pose proof (huber_mono_pos th 0 f H ltac:(lra) ltac:(lra)). rewrite huber_0 in H0.
    pose proof (huber_mono_pos th 0 (- e) H ltac:(lra) ltac:(lra)). rewrite huber_0, (proj1 (huber_odd th e)) in H1. lra.
Qed.
(** 1-Lipschitz, hence continuous *)
Lemma huber_lip_pos th e f : 0 < th -> 0 <= e -> e <= f -> fst (huber th f) - fst (huber th e) <= f - e.
Proof.
  intros H P L. rewrite !huber_pos by lra. destruct (Rle_dec e th), (Rle_dec f th); try lra.
  - (* sqrt(th(2f-th)) <= f *) assert (sqrt (th * (2 * f - th)) <= f); [|lra].
    rewrite <- (sqrt_square f) at 2 by lra. pose proof (Rle_0_sqr (f - th)). unfold Rsqr in *. apply sqrt_le_1; nra.
  - set (a := sqrt (th * (2 * e - th))). set (b := sqrt (th * (2 * f - th))).
    assert (A : th <= a) by (unfold a; rewrite <- (sqrt_square th) at 1 by lra; apply sqrt_le_1; nra).
    assert (B : th <= b) by (unfold b; rewrite <- (sqrt_square th) at 1 by lra; apply sqrt_le_1; nra).
    assert (A2 : a * a = th * (2 * e - th)) by (unfold a; apply sqrt_sqrt; nra).
    assert (B2 : b * b = th * (2 * f - th)) by (unfold b; apply sqrt_sqrt; nra).
    assert ((b - a) * (b + a) = 2 * th * (f - e)) by lra. clearbody a b.
    destruct (Rle_dec (b - a) 0); [lra|]. apply Rmult_le_reg_r with (2 * th); [lra|]. nra.
Qed.
Lemma huber_lipschitz th e f : Rabs (fst (huber th e) - fst (huber th f)) <= Rabs (e - f).
Proof.
  destruct (Rlt_dec 0 th) as [H|H]; [|rewrite !huber_off by lra; apply Rle_refl].
  assert (G : forall e f, e <= f -> fst (huber th f) - fst (huber th e) <= f - e).
  { intros a b L. destruct (Rle_dec 0 a) as [P|P]; [now apply huber_lip_pos|]. destruct (Rle_dec b 0) as [N|N].
    - pose proof (huber_lip_pos th (- b) (- a) H ltac:(lra) ltac:(lra)) as X. rewrite !(proj1 (huber_odd th _)) in X. lra.
    - pose proof (huber_lip_pos th 0 b H ltac:(lra) ltac:(lra)) as X. pose proof (huber_lip_pos th 0 (- a) H ltac:(lra) ltac:(lra)) as Y.
      rewrite huber_0 in *. rewrite (proj1 (huber_odd th a)) in Y. lra. }
  destruct (Rtotal_order e f) as [L|[->|L]].
  - pose proof (huber_strict th e f L). pose proof (G e f ltac:(lra)). rewrite !Rabs_left by lra. lra.
  - rewrite !Rminus_eq_0, Rabs_R0. lra.
  - pose proof (huber_strict th f e L). pose proof (G f e ltac:(lra)). rewrite !Rabs_right by lra. lra.
Qed.
Lemma huber_continuous th : continuity (fun e => fst (huber th e)).
Proof.
  intros e eps He. exists eps. split; [auto|]. intros f [_ D]. unfold dist in *. cbn in *. unfold R_dist in *.
  pose proof (huber_lipschitz th f e). lra.
Qed.

(** ** least squares *)
Lemma lsq_nonneg rows u : 0 <= lsq rows u.
Proof. unfold lsq. induction rows as [|r l IH]; cbn [fold_right]; [lra|]. pose proof (sqn (e_x r * fst u + e_y r * snd u - e_b r)). lra. Qed.
Lemma lsq_zero rows u : lsq rows u = 0 -> forall r, In r rows -> e_x r * fst u + e_y r * snd u = e_b r.
Proof.
  unfold lsq. induction rows as [|r l IH]; cbn [fold_right]; intros E q Hq; [destruct Hq|].
  pose proof (sqn (e_x r * fst u + e_y r * snd u - e_b r)). pose proof (lsq_nonneg l u) as N. unfold lsq in N.
  destruct Hq as [<-|Hq]; [|apply IH; [lra|auto]]. assert (Z : (e_x r * fst u + e_y r * snd u - e_b r) ^ 2 = 0) by lra. apply sq0 in Z. lra.
Qed.
Lemma zero_residual_update rows u : rank2 rows -> (forall r, In r rows -> e_b r = 0) -> (forall v, lsq rows u <= lsq rows v) -> u = (0, 0).
Proof.
  intros K Z M. assert (L0 : lsq rows (0, 0) = 0).
  { unfold lsq. clear K M. induction rows as [|r l IH]; [reflexivity|]. cbn [fold_right]. rewrite IH by (intros; apply Z; now right). rewrite (Z r) by now left. cbn [fst snd]. ring. }
  pose proof (M (0, 0)). pose proof (lsq_nonneg rows u). assert (E : lsq rows u = 0) by lra.
  destruct (K (fst u) (snd u)) as [A B]; [intros r Hr; rewrite <- (Z r Hr); now apply lsq_zero with (rows := rows)|]. destruct u. cbn in *. congruence.
Qed.

(** ** iterations *)
Lemma align_loop_spec solve k m c : 
  (forall ok c', align_loop solve k m c = (ok, c') ->
   exists us, (length us <= k)%nat /\ c' = fold_left (fun c u => (fst c + fst u, snd c + snd u)) us c /\
     (ok = true -> exists us0 u, us = us0 ++ [u] /\ fst u * fst u + snd u * snd u < m)).
Proof.
  revert c. induction k as [|k IH]; intros c ok c' H; cbn [align_loop] in H.
  - injection H as <- <-. exists []. split; [cbn; lia|]. split; [reflexivity|discriminate].
  - destruct (solve c) as [u|].
    + destruct (Rlt_dec _ m) as [L|L].
      * injection H as <- <-. exists [u]. split; [cbn; lia|]. split; [reflexivity|]. intros _. exists [], u. auto.
      * apply IH in H as (us&Hl&Hc&Hs). exists (u :: us). split; [cbn; lia|]. split; [exact Hc|].
        intros E. destruct (Hs E) as (us0&u0&->&Hu). exists (u :: us0), u0. auto.
    + injection H as <- <-. exists []. split; [cbn; lia|]. split; [reflexivity|discriminate].
Qed.
(** the last solved system *)
Lemma align_success_fix solve k m c c' : align_loop solve k m c = (true, c') ->
  exists c0 u, solve c0 = Some u /\ fst u * fst u + snd u * snd u < m /\ c' = (fst c0 + fst u, snd c0 + snd u).
Proof.
  revert c. induction k as [|k IH]; intros c H; cbn [align_loop] in H; [discriminate|].
  destruct (solve c) as [u|] eqn:E; [|discriminate]. destruct (Rlt_dec _ m) as [L|L]; [injection H as <-; eauto|eauto].
Qed.

(** ** adaptive *)
Section Adaptive.
Variables (align : coordinate -> bool * coordinate) (in_fr : coordinate -> bool) (err : coordinate -> R).
Hypothesis (Herr : forall c, 0 <= err c).
Definition hit (sd c : coordinate) : Prop := align sd = (true, c) /\ in_fr c = true.
Definition inv (seeds : list coordinate) (st : search) : Prop :=
  (s_err st = -1 /\ forall sd c, In sd seeds -> ~ hit sd c) \/
  (exists sd, In sd seeds /\ hit sd (s_best st) /\ s_err st = err (s_best st) /\ 
              forall sd' c', In sd' seeds -> hit sd' c' -> err (s_best st) <= err c').
Lemma try_inv seeds st sd : inv seeds st -> inv (seeds ++ [sd]) (try_seed align in_fr err st sd).
Proof.
  intros I. unfold try_seed. destruct (align sd) as [ok c] eqn:E.
  assert (NH : (ok && in_fr c = false)%bool -> forall c', ~ hit sd c').
  { intros N c' [H1 H2]. rewrite E in H1. injection H1 as -> ->. rewrite H2 in N. discriminate. }
  assert (KEEP : (ok && in_fr c = false)%bool -> inv (seeds ++ [sd]) {| s_err := s_err st; s_best := s_best st; s_out := c |}).
  { intros N. specialize (NH N). destruct I as [[I1 I2]|(sd0&I1&I2&I3&I4)].
    - left. cbn. split; [auto|]. intros sd' c' H. apply in_app_or in H as [H|[<-|[]]]; auto.
    - right. cbn. exists sd0. split; [apply in_or_app; auto|]. split; [auto|]. split; [auto|].
      intros sd' c' H Hh. apply in_app_or in H as [H|[<-|[]]]; [eauto|]. exfalso. eapply NH; eauto. }
  destruct ok; [|now apply KEEP]. destruct (in_fr c) eqn:F; [|now apply KEEP].
  assert (HT : hit sd c) by (split; auto). assert (ONE : forall c', hit sd c' -> c' = c) by (intros c' [H1 _]; rewrite E in H1; congruence).
  destruct (Req_EM_T (s_err st) (-1)) as [Z|Z].
  - right. cbn. exists sd. split; [apply in_or_app; right; now left|]. split; [auto|]. split; [auto|].
    intros sd' c' H Hh. destruct I as [[I1 I2]|(sd0&I1&I2&I3&I4)].
    + apply in_app_or in H as [H|[<-|[]]]; [exfalso; eapply I2; eauto|]. rewrite (ONE c' Hh). lra.
    + exfalso. pose proof (Herr (s_best st)). lra.
  - destruct I as [[I1 I2]|(sd0&I1&I2&I3&I4)]; [contradiction|]. destruct (Rlt_dec (err c) (s_err st)) as [L|L]; right; cbn.
    + exists sd. split; [apply in_or_app; right; now left|]. split; [auto|]. split; [auto|].
      intros sd' c' H Hh. apply in_app_or in H as [H|[<-|[]]]; [specialize (I4 sd' c' H Hh); lra|]. rewrite (ONE c' Hh). lra.
    + exists sd0. split; [apply in_or_app; auto|]. split; [auto|]. split; [auto|].
      intros sd' c' H Hh. apply in_app_or in H as [H|[<-|[]]]; [eauto|]. rewrite (ONE c' Hh). lra.
Qed.
Lemma fold_inv seeds done st : inv done st -> inv (done ++ seeds) (fold_left (try_seed align in_fr err) seeds st).
Proof.
  revert done st. induction seeds as [|sd seeds IH]; intros done st I; cbn [fold_left]; [now rewrite app_nil_r|].
  replace (done ++ sd :: seeds) with ((done ++ [sd]) ++ seeds) by (rewrite <- app_assoc; reflexivity). apply IH. now apply try_inv.
Qed.
Lemma steps_in n i : In i (steps n) <-> (- n <= i <= n)%Z.
Proof.
  unfold steps. rewrite in_map_iff. split.
  - intros (k&<-&H). apply in_seq in H. lia.
  - intros H. exists (Z.to_nat (i + n)). split; [lia|]. apply in_seq. lia.
Qed.
Lemma adaptive_spec n c dir step junk : n <> 0%Z ->
  match align_adaptive align in_fr err n c dir step junk with
  | (true, c') => (exists i, (- n <= i <= n)%Z /\ hit (seed c dir step i) c') /\
                  forall i c'', (- n <= i <= n)%Z -> hit (seed c dir step i) c'' -> err c' <= err c''
  | (false, _) => forall i c'', (- n <= i <= n)%Z -> ~ hit (seed c dir step i) c''
  end.
Proof.
  intros Hn. unfold align_adaptive. destruct (Z.eqb_spec n 0); [contradiction|].
  pose proof (fold_inv (map (seed c dir step) (steps n)) [] {| s_err := -1; s_best := junk; s_out := c |}) as I. cbn [app] in I.
  set (st := fold_left _ _ _) in *. destruct I as [[I1 I2]|(sd&I1&I2&I3&I4)].
  - left. split; [reflexivity|]. intros sd c0 [].
  - rewrite I1. destruct (Req_EM_T (-1) (-1)); [|congruence]. intros i c'' Hi Hh. apply (I2 (seed c dir step i) c''); auto. apply in_map. now apply steps_in.
  - destruct (Req_EM_T (s_err st) (-1)) as [Z|Z]; [exfalso; rewrite I3 in Z; pose proof (Herr (s_best st)); lra|].
    apply in_map_iff in I1 as (i&<-&Hi). apply steps_in in Hi. split; [eauto|].
    intros j c'' Hj Hh. apply (I4 (seed c dir step j)); auto. apply in_map. now apply steps_in.
Qed.
End Adaptive.
Lemma samples_range sigma cov range lowest m : (0 <= m)%Z -> (0 <= samples sigma cov range lowest m <= m)%Z.
Proof. intros H. unfold samples. lia. Qed.
Lemma ceil_ge x : x <= IZR (ceil x).
Proof. unfold ceil. rewrite opp_IZR. pose proof (base_Int_part (- x)). lra. Qed.
(** unless limited by max_uni, the seeds cover the uncertain range *)
Lemma samples_cover sigma cov range lowest m : 0 < range -> (samples sigma cov range lowest m < m)%Z ->
  sigma * cov <= (IZR (samples sigma cov range lowest m) + / 2) * (range * 2 ^ (lowest + 1)).
Proof.
  intros Hr H. unfold samples in *. set (x := sigma * cov / (range * 2 ^ (lowest + 1)) - / 2) in *.
  assert (Hp : 0 < range * 2 ^ (lowest + 1)) by (apply Rmult_lt_0_compat; [auto|apply pow_lt; lra]).
  rewrite Z.min_l in * by lia. assert (L : x <= IZR (Z.max (ceil x) 0)).
  { pose proof (ceil_ge x). apply Rle_trans with (IZR (ceil x)); [auto|]. apply IZR_le. lia. }
  assert (E : sigma * cov = (x + / 2) * (range * 2 ^ (lowest + 1))) by (unfold x; field; split; [apply pow_nonzero; lra|lra]).
  rewrite E. apply Rmult_le_compat_r; lra.
Qed.

(** ** mask *)
Lemma mask_sym n x y sg : (x < n)%nat -> mask n sg (n - 1 - x) y = mask n sg x y.
Proof.
  intros H. unfold mask. f_equal. f_equal. f_equal. f_equal.
  assert (E : mask_coord n (n - 1 - x) = (- mask_coord n x)%Z).
  { unfold mask_coord. rewrite <- Z.quot_opp_l by lia. f_equal. lia. }
  rewrite E. ring.
Qed.
Lemma mask_comm n x y sg : mask n sg x y = mask n sg y x.
Proof. unfold mask. now rewrite Z.add_comm. Qed.
Lemma mask_range n sg x y : 0 < sg -> 0 < mask n sg x y <= 1.
Proof.
  intros H. unfold mask. split; [apply exp_pos|]. rewrite <- exp_0. 
  assert (L : - IZR (mask_coord n x * mask_coord n x + mask_coord n y * mask_coord n y) / (2 * sg * sg) <= 0).
  { assert (0 <= IZR (mask_coord n x * mask_coord n x + mask_coord n y * mask_coord n y)) by (apply IZR_le; nia).
    assert (0 < / (2 * sg * sg)) by (apply Rinv_0_lt_compat; nra). unfold Rdiv. nra. }
  destruct (Rle_lt_or_eq_dec _ _ L) as [S|E]; [left; now apply exp_increasing|rewrite E; lra].
Qed.
Lemma mask_decreasing n sg x x' y : 0 < sg -> (n <= 2 * x + 1)%nat -> (x <= x')%nat -> mask n sg x' y <= mask n sg x y.
Proof.
  intros H Hx Hxx. unfold mask.
  assert (L : - IZR (mask_coord n x' * mask_coord n x' + mask_coord n y * mask_coord n y) / (2 * sg * sg) <= - IZR (mask_coord n x * mask_coord n x + mask_coord n y * mask_coord n y) / (2 * sg * sg)).
  { assert (Q : (0 <= mask_coord n x <= mask_coord n x')%Z).
    { unfold mask_coord. rewrite !Z.quot_div_nonneg by lia. split; [apply Z.div_pos; lia|apply Z.div_le_mono; lia]. }
    assert (IZR (mask_coord n x * mask_coord n x + mask_coord n y * mask_coord n y) <= IZR (mask_coord n x' * mask_coord n x' + mask_coord n y * mask_coord n y)) by (apply IZR_le; nia).
    assert (0 < / (2 * sg * sg)) by (apply Rinv_0_lt_compat; nra). unfold Rdiv. nra. }
  destruct (Rle_lt_or_eq_dec _ _ L) as [S|E]; [left; now apply exp_increasing|rewrite E; lra].
Qed.

(** ** reduced system *)
Lemma fsum_ext k f g : (forall i, (i < k)%nat -> f i = g i) -> fsum k f = fsum k g.
Proof. induction k; intros H; cbn; [reflexivity|]. rewrite IHk, H by auto. reflexivity. Qed.
Lemma fsum_plus k f g : fsum k (fun i => f i + g i) = fsum k f + fsum k g.
Proof. induction k; cbn; [ring|]. rewrite IHk. ring. Qed.
Lemma fsum_scale k c f : fsum k (fun i => c * f i) = c * fsum k f.
Proof. induction k; cbn; [ring|]. rewrite IHk. ring. Qed.
Lemma fsum_swap k m f : fsum k (fun i => fsum m (fun j => f i j)) = fsum m (fun j => fsum k (fun i => f i j)).
Proof. induction k; cbn; [induction m; cbn; [reflexivity|rewrite <- IHm; ring]|]. rewrite IHk, <- fsum_plus. reflexivity. Qed.
Lemma fsum_zero k : fsum k (fun _ => 0) = 0.
Proof. induction k; cbn; [reflexivity|]. rewrite IHk. ring. Qed.
Lemma fsum_delta k j f : (j < k)%nat -> fsum k (fun i => (if Nat.eqb i j then 1 else 0) * f i) = f j.
Proof.
  induction k as [|k IH]; intros H; [lia|]. cbn [fsum]. destruct (Nat.eqb_spec k j) as [->|N].
  - rewrite (fsum_ext j _ (fun _ => 0)) by (intros i Hi; destruct (Nat.eqb_spec i j); [lia|ring]). rewrite fsum_zero. ring.
  - rewrite IH by lia. ring.
Qed.
Lemma fsum_split a b f : fsum (a + b) f = fsum a f + fsum b (fun i => f (a + i)%nat).
Proof. induction b; [rewrite Nat.add_0_r; cbn; ring|]. rewrite Nat.add_succ_r. cbn. rewrite IHb. ring. Qed.
(** v^T v = (Q^T v)^T (Q^T v) for Q Q^T = I *)
Lemma ortho_norm m q v : (forall i j, (i < m)%nat -> (j < m)%nat -> fsum m (fun k => q i k * q j k) = if Nat.eqb i j then 1 else 0) ->
  fsum m (fun i => v i * v i) = fsum m (fun k => fsum m (fun i => q i k * v i) * fsum m (fun i => q i k * v i)).
Proof.
  intros O. symmetry. rewrite (fsum_ext m _ (fun k => fsum m (fun i => fsum m (fun j => v i * (v j * (q i k * q j k)))))).
  - rewrite fsum_swap. apply fsum_ext. intros i Hi. rewrite fsum_swap.
    rewrite (fsum_ext m _ (fun j => (if Nat.eqb j i then 1 else 0) * (v i * v j))).
    + rewrite fsum_delta by auto. reflexivity.
    + intros j Hj. rewrite fsum_scale, fsum_scale, O by auto. rewrite Nat.eqb_sym. ring.
  - intros k Hk. rewrite <- fsum_scale. rewrite (fsum_ext m _ (fun j => fsum m (fun i => v i * (v j * (q i k * q j k))))).
    + rewrite fsum_swap. reflexivity.
    + intros j Hj. rewrite (Rmult_comm (fsum _ _)), <- fsum_scale. apply fsum_ext. intros; ring.
Qed.
Lemma reduced_ok m q r sw a b u v : (2 <= m)%nat ->
  (forall i j, (i < m)%nat -> (j < m)%nat -> fsum m (fun k => q i k * q j k) = if Nat.eqb i j then 1 else 0) ->
  (forall i j, (i < m)%nat -> (j < m)%nat -> fsum m (fun k => q k i * q k j) = if Nat.eqb i j then 1 else 0) ->
  (* A P = Q R with R upper triangular: column perm j of R belongs to column j of A *)
  (forall i j, (i < m)%nat -> (j < 2)%nat -> a i j = fsum m (fun k => q i k * (if Nat.leb k (perm sw j) then r k (perm sw j) else 0))) ->
  fsum m (fun i => (a i 0%nat * u + a i 1%nat * v - b i) ^ 2) =
  fsum 2 (fun k => (reduced_a r sw k 0 * u + reduced_a r sw k 1 * v - reduced_b m q b k) ^ 2)
  + fsum (m - 2) (fun k => (reduced_b m q b (2 + k)) ^ 2).
Proof.
  intros Hm O1 O2 QR.
  rewrite (fsum_ext m _ (fun i => (a i 0%nat * u + a i 1%nat * v - b i) * (a i 0%nat * u + a i 1%nat * v - b i))) by (intros; ring).
  rewrite (ortho_norm m q (fun i => a i 0%nat * u + a i 1%nat * v - b i) O1).
  set (R' := fun k j => if Nat.leb k (perm sw j) then r k (perm sw j) else 0).
  assert (E : forall k, (k < m)%nat -> fsum m (fun i => q i k * (a i 0%nat * u + a i 1%nat * v - b i)) = R' k 0%nat * u + R' k 1%nat * v - reduced_b m q b k).
  { intros k Hk. assert (C : forall j, (j < 2)%nat -> fsum m (fun i => q i k * a i j) = R' k j).
    { intros j Hj. rewrite (fsum_ext m _ (fun i => fsum m (fun k' => (q i k * q i k') * R' k' j))).
      - rewrite fsum_swap. rewrite (fsum_ext m _ (fun k' => (if Nat.eqb k' k then 1 else 0) * R' k' j)).
        + now rewrite fsum_delta.
        + intros k' Hk'. rewrite (fsum_ext m _ (fun i => R' k' j * (q i k' * q i k))) by (intros; ring). rewrite fsum_scale, O2 by auto. ring.
      - intros i Hi. rewrite QR by auto. rewrite <- fsum_scale. apply fsum_ext. intros k' Hk'. unfold R'. ring. }
    rewrite (fsum_ext m _ (fun i => (u * (q i k * a i 0%nat) + v * (q i k * a i 1%nat)) + (-1) * (q i k * b i))) by (intros; ring).
    rewrite !fsum_plus, !fsum_scale, !C by lia. unfold reduced_b. ring. }
  rewrite (fsum_ext m _ (fun k => (R' k 0%nat * u + R' k 1%nat * v - reduced_b m q b k) ^ 2)) by (intros k Hk; rewrite E by auto; ring).
  replace m with (2 + (m - 2))%nat at 1 by lia. rewrite fsum_split. f_equal.
  - apply fsum_ext. intros k Hk. f_equal. f_equal. f_equal; f_equal; unfold R', reduced_a; destruct sw; destruct k as [|[|k]]; try lia; reflexivity.
  - apply fsum_ext. intros k Hk. replace (R' (2 + k)%nat 0%nat) with 0; [replace (R' (2 + k)%nat 1%nat) with 0; [ring|]|]; unfold R'; destruct sw; reflexivity.
Qed.

(** ** exact step *)
Lemma lsq_unique rows u d : rank2 rows -> (forall r, In r rows -> e_x r * fst d + e_y r * snd d = e_b r) -> (forall v, lsq rows u <= lsq rows v) -> u = d.
Proof.
  intros K Z M. assert (L0 : lsq rows d = 0).
  { unfold lsq. clear K M. induction rows as [|r l IH]; [reflexivity|]. cbn [fold_right]. rewrite IH by (intros; apply Z; now right). rewrite <- (Z r) by now left. ring. }
  pose proof (M d). pose proof (lsq_nonneg rows u). assert (E : lsq rows u = 0) by lra.
  destruct (K (fst u - fst d) (snd u - snd d)) as [A B].
  - intros r Hr. pose proof (Z r Hr). pose proof (lsq_zero rows u E r Hr). lra.
  - destruct u, d. cbn in *. f_equal; lra.
Qed.
Lemma step_rows s ps g dx dy : use_skew s = false -> huber_th s <= 0 -> regress s ps = Some g ->
  (forall p, In p ps -> r_i p = r_t p + (r_jx p * dx + r_jy p * dy)) ->
  forall p, In p ps -> e_x (final_row s g p) * dx + e_y (final_row s g p) * dy = e_b (final_row s g p).
Proof.
  intros K H R D p Hp. unfold final_row. rewrite huber_off by auto. cbn [e_b e_x e_y].
  assert (E : e_x (error_row s g p) * dx + e_y (error_row s g p) * dy = e_b (error_row s g p)).
  2: { rewrite <- E. ring. }
  unfold error_row. destruct (use_offset s || use_skew s) eqn:C.
  - assert (O : use_offset s = true) by (rewrite K, orb_false_r in C; auto).
    rewrite regress_eq in R by auto. destruct (Req_EM_T _ 0) as [|W0]; [discriminate|]. rewrite K, O in R. injection R as <-.
    cbn [e_b e_x e_y ra ra_dx ra_dy rb rb_dx rb_dy]. unfold sa, sax, say, slope. rewrite K. cbn [fst snd].
    assert (SI : wsum s ps r_i = wsum s ps r_t + (dx * wsum s ps r_jx + dy * wsum s ps r_jy)).
    { rewrite <- !wsum_scale, <- !wsum_plus. apply wsum_ext. intros q Hq. rewrite (D q Hq). ring. }
    rewrite SI, (D p Hp). field. auto.
  - cbn [e_b e_x e_y]. rewrite (D p Hp). ring.
Qed.
Lemma gather_in ident inv levels : forall l r, In r (gather ident inv l levels) ->
  exists k ps p, nth_error levels k = Some (Some ps) /\ In p ps /\
    r = let j := jac ident inv (l + k) p in {| r_t := p_t p; r_i := p_i p; r_jx := fst j; r_jy := snd j; r_w := p_w p |}.
Proof.
  induction levels as [|lv rest IH]; intros l r H; cbn [gather] in H; [destruct H|]. apply in_app_or in H as [H|H].
  - destruct lv as [ps|]; [|destruct H]. apply in_map_iff in H as (p&<-&Hp). exists 0%nat, ps, p. rewrite Nat.add_0_r. auto.
  - apply IH in H as (k&ps&p&H1&H2&H3). exists (S k), ps, p. rewrite Nat.add_succ_r, <- Nat.add_succ_l. auto.
Qed.
Lemma pow_half l : (/ 2) ^ l = / 2 ^ l.
Proof. apply pow_inv. Qed.
Lemma exact_step s (ident : bool) inv l1 levels rows u c target :
  use_skew s = false -> huber_th s <= 0 ->
  align_equations s ident inv l1 levels = Rows rows -> rank2 rows -> (forall v, lsq rows u <= lsq rows v) ->
  (forall k ps p, nth_error levels k = Some (Some ps) -> In p ps -> displaced (if ident then id2 else inv) (l1 + k) c target p) ->
  (fst c + fst u, snd c + snd u) = target.
Proof.
  intros K H E RK M D. unfold align_equations in E. destruct (forallb _ levels); [discriminate|].
  destruct (regress s _) as [g|] eqn:R; [|discriminate]. injection E as <-.
  set (d := (fst target - fst c, snd target - snd c)). assert (U : u = d).
  { apply (lsq_unique _ u d RK); [|exact M]. intros r Hr. apply in_map_iff in Hr as (q&<-&Hq).
    apply (step_rows s (gather ident inv l1 levels) g); auto. clear q Hq. intros q Hq. apply gather_in in Hq as (k&ps&p&Hk&Hp&->).
    specialize (D k ps p Hk Hp). unfold displaced in D. cbn [r_i r_t r_jx r_jy] in *. rewrite D. unfold jac, d.
    rewrite pow_half. assert (2 ^ (l1 + k) <> 0) by (apply pow_nonzero; lra).
    destruct ident; unfold mul2, id2; cbn [fst snd m00 m01 m10 m11]; field; auto. }
  rewrite U. unfold d. cbn [fst snd]. destruct target. cbn. f_equal; lra.
Qed.
