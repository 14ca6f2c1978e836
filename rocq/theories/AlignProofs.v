From Coq Require Import List Reals ZArith Bool Lra Lia Psatz.
From Verif Require Import AlignModel AlignSpec.
Import ListNotations.
Local Open Scope R_scope.

(** ** sums *)
Lemma acc_wsum s f ps : acc s f ps = wsum s ps f.
Proof.
  unfold acc, wsum. assert (G : forall a, fold_left (fun a p => a + weight s p * f p) ps a = a + fold_right (fun p r => weight s p * f p + r) 0 ps).
  { induction ps as [|p ps IH]; intros a; cbn; [lra|]. rewrite IH. lra. }
  rewrite G. lra.
Qed.
Lemma wsum_cons s p ps f : wsum s (p :: ps) f = weight s p * f p + wsum s ps f. Proof. reflexivity. Qed.
Lemma wsum_ext s ps f g : (forall p, In p ps -> f p = g p) -> wsum s ps f = wsum s ps g.
Proof. induction ps as [|p ps IH]; intros H; [reflexivity|]. rewrite !wsum_cons, IH, H; auto using in_eq, in_cons. Qed.
Lemma wsum_plus s ps f g : wsum s ps (fun p => f p + g p) = wsum s ps f + wsum s ps g.
Proof. induction ps; [cbn; ring|]. rewrite !wsum_cons, IHps. ring. Qed.
Lemma wsum_scale s ps c f : wsum s ps (fun p => c * f p) = c * wsum s ps f.
Proof. induction ps; [cbn; ring|]. rewrite !wsum_cons, IHps. ring. Qed.
Lemma wsum_map s ps f h : (forall p, r_w (h p) = r_w p) -> wsum s (map h ps) f = wsum s ps (fun p => f (h p)).
Proof. intros H. induction ps; [reflexivity|]. cbn [map]. rewrite !wsum_cons, IHps. unfold weight. now rewrite H. Qed.
Lemma weight_pos s ps p : positive_weights s ps -> In p ps -> 0 < weight s p.
Proof. intros H Hp. unfold weight. destruct (use_weight s) eqn:E; [auto|lra]. Qed.
Lemma wsum_nonneg s ps f : positive_weights s ps -> (forall p, In p ps -> 0 <= f p) -> 0 <= wsum s ps f.
Proof.
  intros W H. induction ps as [|p ps IH]; [cbn; lra|]. rewrite wsum_cons.
  assert (0 < weight s p) by (apply (weight_pos s (p :: ps)); auto using in_eq). pose proof (H p (in_eq _ _)).
  assert (0 <= wsum s ps f) by (apply IH; [intros U q Hq; apply W; auto using in_cons|auto using in_cons]). nra.
Qed.
Lemma wsum_pos s ps f p : positive_weights s ps -> (forall p, In p ps -> 0 <= f p) -> In p ps -> 0 < f p -> 0 < wsum s ps f.
Proof.
  intros W H Hp Fp. induction ps as [|q ps IH]; [destruct Hp|]. rewrite wsum_cons.
  assert (0 < weight s q) by (apply (weight_pos s (q :: ps)); auto using in_eq). pose proof (H q (in_eq _ _)).
  assert (W' : positive_weights s ps) by (intros U r Hr; apply W; auto using in_cons).
  assert (N : 0 <= wsum s ps f) by (apply wsum_nonneg; auto using in_cons).
  destruct Hp as [-> | Hp]; [nra|]. specialize (IH W' (fun p Hp => H p (in_cons _ _ _ Hp)) Hp). nra.
Qed.
Lemma sqn x : 0 <= x ^ 2. Proof. rewrite <- Rsqr_pow2. apply Rle_0_sqr. Qed.
Lemma sq0 x : x ^ 2 = 0 -> x = 0. Proof. rewrite <- Rsqr_pow2. apply Rsqr_0_uniq. Qed.

(** names for the sums *)
Section Sums.
Variables (s : settings) (ps : list raw).
Let W := wsum s ps (fun _ => 1).
Let St := wsum s ps r_t.
Let Si := wsum s ps r_i.
Let Stt := wsum s ps (fun p => r_t p * r_t p).
Let Sti := wsum s ps (fun p => r_t p * r_i p).
Let Sii := wsum s ps (fun p => r_i p * r_i p).
Let V := Stt / W - St / W * (St / W).
Let C := Sti / W - St / W * (Si / W).

Lemma cost_expand a b : cost s ps a b = Sii - 2 * a * Sti - 2 * b * Si + a ^ 2 * Stt + 2 * a * b * St + b ^ 2 * W.
Proof.
  unfold cost, Sii, Sti, Si, Stt, St, W. induction ps as [|p l IH]; [cbn; ring|]. rewrite !wsum_cons, IH. ring.
Qed.
Lemma cost_form a b : W <> 0 -> cost s ps a b = W * (Sii / W - Si / W * (Si / W) - 2 * a * C + a ^ 2 * V + (Si / W - a * (St / W) - b) ^ 2).
Proof. intros H. rewrite cost_expand. unfold C, V. field. auto. Qed.
Lemma var_form m : wsum s ps (fun p => (r_t p - m) ^ 2) = Stt - 2 * m * St + m ^ 2 * W.
Proof. unfold Stt, St, W. induction ps as [|p l IH]; [cbn; ring|]. rewrite !wsum_cons, IH. ring. Qed.
Lemma W_pos : positive_weights s ps -> ps <> [] -> 0 < W.
Proof. intros P H. destruct ps as [|p l] eqn:E; [congruence|]. apply (wsum_pos s (p :: l) _ p); auto using in_eq; intros; lra. Qed.
Lemma V_eq : W <> 0 -> V = wsum s ps (fun p => (r_t p - St / W) ^ 2) / W.
Proof. intros H. rewrite var_form. unfold V. field. auto. Qed.
Lemma V_nonneg : positive_weights s ps -> ps <> [] -> 0 <= V.
Proof.
  intros P H. pose proof (W_pos P H). rewrite V_eq by lra. apply Rmult_le_pos; [|left; now apply Rinv_0_lt_compat].
  apply wsum_nonneg; auto. intros; apply sqn.
Qed.
Lemma V_pos : positive_weights s ps -> textured ps -> 0 < V.
Proof.
  intros P (p&q&Hp&Hq&N). assert (H : ps <> []) by (intros E; rewrite E in Hp; destruct Hp). pose proof (W_pos P H) as WP. rewrite V_eq by lra.
  apply Rmult_lt_0_compat; [|now apply Rinv_0_lt_compat].
  destruct (Req_dec (r_t p) (St / W)) as [E|E].
  - apply (wsum_pos s ps _ q); auto; [intros; apply sqn|]. pose proof (sqn (r_t q - St / W)). destruct (Req_dec ((r_t q - St / W) ^ 2) 0) as [Z|Z]; [apply sq0 in Z; exfalso; apply N; lra|lra].
  - apply (wsum_pos s ps _ p); auto; [intros; apply sqn|]. pose proof (sqn (r_t p - St / W)). destruct (Req_dec ((r_t p - St / W) ^ 2) 0) as [Z|Z]; [apply sq0 in Z; exfalso; apply E; lra|lra].
Qed.
Lemma V_zero c : W <> 0 -> (forall p, In p ps -> r_t p = c) -> V = 0.
Proof.
  intros H E. unfold V, Stt, St. rewrite (wsum_ext s ps (fun p => r_t p * r_t p) (fun p => c * c * 1)), (wsum_ext s ps r_t (fun p => c * 1)).
  - rewrite !wsum_scale. fold W. field. auto.
  - intros p Hp. rewrite (E p Hp). ring.
  - intros p Hp. rewrite (E p Hp). ring.
Qed.

(** regression in these names *)
Let Sx := wsum s ps r_jx.
Let Sy := wsum s ps r_jy.
Let Stx := wsum s ps (fun p => r_t p * r_jx p).
Let Sty := wsum s ps (fun p => r_t p * r_jy p).
Definition slope : R * R * R :=
  if use_skew s then if Rlt_dec (C / V) (/ 2) then (/ 2, 0, 0) else (C / V, (Stx / W - St / W * (Sx / W)) / V, (Sty / W - St / W * (Sy / W)) / V)
  else (1, 0, 0).
Definition sa := fst (fst slope). Definition sax := snd (fst slope). Definition say := snd slope.
Lemma regress_eq : use_offset s || use_skew s = true ->
  regress s ps = if Req_EM_T W 0 then None else
                 if use_skew s then if Req_EM_T V 0 then None else
                   Some (if use_offset s then {| ra := sa; ra_dx := sax; ra_dy := say; rb := Si / W - sa * (St / W); rb_dx := Sx / W - sax * (St / W); rb_dy := Sy / W - say * (St / W) |}
                         else {| ra := sa; ra_dx := sax; ra_dy := say; rb := 0; rb_dx := 0; rb_dy := 0 |})
                 else Some (if use_offset s then {| ra := sa; ra_dx := sax; ra_dy := say; rb := Si / W - sa * (St / W); rb_dx := Sx / W - sax * (St / W); rb_dy := Sy / W - say * (St / W) |}
                         else {| ra := sa; ra_dx := sax; ra_dy := say; rb := 0; rb_dx := 0; rb_dy := 0 |}).
Proof.
  intros H. unfold regress. rewrite H. unfold w_tot. rewrite !acc_wsum. fold W St Si Stt Sti Sx Sy Stx Sty. fold V.
  destruct (Req_EM_T W 0); [reflexivity|]. unfold sa, sax, say, slope. fold C. destruct (use_skew s).
  - destruct (Req_EM_T V 0); [reflexivity|]. destruct (Rlt_dec (C / V) (/ 2)), (use_offset s); reflexivity.
  - destruct (use_offset s); reflexivity.
Qed.
End Sums.

(** ** C32 *)
Lemma residual_mean s ps g : use_offset s = true -> regress s ps = Some g -> wsum s ps (fun p => e_b (error_row s g p)) = 0.
Proof.
  intros O R. assert (E : use_offset s || use_skew s = true) by now rewrite O. rewrite regress_eq in R by auto. rewrite O in R.
  destruct (Req_EM_T _ 0) as [|W0]; [discriminate|].
  assert (G : ra g = sa s ps /\ rb g = wsum s ps r_i / wsum s ps (fun _ => 1) - sa s ps * (wsum s ps r_t / wsum s ps (fun _ => 1))).
  { destruct (use_skew s); [destruct (Req_EM_T _ 0); [discriminate|]|]; injection R as <-; split; reflexivity. }
  destruct G as [Ga Gb]. unfold error_row. rewrite E. cbn [e_b].
  rewrite (wsum_ext s ps _ (fun p => r_i p + (- ra g * r_t p + - rb g * 1))) by (intros; ring).
  rewrite !wsum_plus, !wsum_scale, Gb, <- Ga. field. auto.
Qed.
Lemma regress_defined s ps : positive_weights s ps -> ps <> [] -> (use_skew s = true -> textured ps) -> exists g, regress s ps = Some g.
Proof.
  intros P NE T. destruct (use_offset s || use_skew s) eqn:E.
  - rewrite regress_eq by auto. pose proof (W_pos s ps P NE). destruct (Req_EM_T _ 0); [lra|]. destruct (use_skew s); [|eauto].
    pose proof (V_pos s ps P (T eq_refl)) as VP. cbv zeta in VP. destruct (Req_EM_T _ 0); [lra|eauto].
  - unfold regress. rewrite E. eauto.
Qed.
Lemma regress_constant s ps c : use_skew s = true -> (forall p, In p ps -> r_t p = c) -> regress s ps = None.
Proof.
  intros K H. rewrite regress_eq by (rewrite K; apply orb_true_r). destruct (Req_EM_T _ 0) as [|W0]; [reflexivity|]. rewrite K.
  pose proof (V_zero s ps c W0 H) as E. cbv zeta in E. rewrite E. destruct (Req_EM_T 0 0); [reflexivity|congruence].
Qed.
Lemma regress_some_gain s ps g : regress s ps = Some g -> (use_skew s = true -> / 2 <= ra g) /\ (use_skew s = false -> ra g = 1).
Proof.
  destruct (use_offset s || use_skew s) eqn:E.
  - rewrite regress_eq by auto. destruct (Req_EM_T _ 0); [discriminate|]. destruct (use_skew s) eqn:K.
    + destruct (Req_EM_T _ 0); [discriminate|]. intros R. assert (A : ra g = sa s ps) by (destruct (use_offset s); injection R as <-; reflexivity).
      split; [|discriminate]. intros _. rewrite A. unfold sa, slope. rewrite K. destruct (Rlt_dec _ (/ 2)); cbn [fst]; lra.
    + intros R. assert (A : ra g = sa s ps) by (destruct (use_offset s); injection R as <-; reflexivity).
      split; [discriminate|]. intros _. rewrite A. unfold sa, slope. now rewrite K.
  - unfold regress. rewrite E. intros R. injection R as <-. apply orb_false_iff in E as [_ ->]. split; [discriminate|reflexivity].
Qed.
Lemma regress_optimal s ps g : use_offset s = true -> use_skew s = true -> positive_weights s ps -> ps <> [] -> regress s ps = Some g ->
  forall a b, / 2 <= a -> cost s ps (ra g) (rb g) <= cost s ps a b.
Proof.
  intros O K P NE R a b Ha. pose proof (W_pos s ps P NE) as WP. pose proof (V_nonneg s ps P NE) as VN. cbv zeta in VN.
  rewrite regress_eq in R by now rewrite O. destruct (Req_EM_T _ 0) as [|W0]; [discriminate|]. rewrite K, O in R.
  destruct (Req_EM_T _ 0) as [|V0]; [discriminate|]. injection R as <-. cbn [ra rb].
  rewrite (cost_form s ps _ _ W0), (cost_form s ps a b W0). apply Rmult_le_compat_l; [lra|].
  unfold sa, slope. rewrite K.
  set (W := wsum s ps (fun _ => 1)) in *. set (St := wsum s ps r_t) in *. set (Si := wsum s ps r_i) in *.
  set (V := wsum s ps (fun p => r_t p * r_t p) / W - St / W * (St / W)) in *.
  set (C := wsum s ps (fun p => r_t p * r_i p) / W - St / W * (Si / W)) in *.
  set (Sii := wsum s ps (fun p => r_i p * r_i p)) in *. clearbody V C.
  set (A := fst (fst (if Rlt_dec (C / V) (/ 2) then _ else _))).
  assert (AV : V * A >= C /\ (A = C / V \/ A = / 2)).
  { unfold A. destruct (Rlt_dec (C / V) (/ 2)) as [L|L]; cbn [fst].
    - split; [|now right]. apply Rle_ge. apply Rmult_le_reg_l with (/ V); [apply Rinv_0_lt_compat; lra|]. replace (/ V * (V * / 2)) with (/ 2) by (field; lra). unfold Rdiv in L. lra.
    - split; [|now left]. right. field. auto. }
  destruct AV as [AV1 AV2]. clearbody A.
  replace (Si / W - A * (St / W) - (Si / W - A * (St / W))) with 0 by ring.
  pose proof (sqn (Si / W - a * (St / W) - b)) as Q.
  assert (- 2 * A * C + A ^ 2 * V <= - 2 * a * C + a ^ 2 * V).
  { destruct AV2 as [-> | ->].
    - assert (E : - 2 * a * C + a ^ 2 * V - (- 2 * (C / V) * C + (C / V) ^ 2 * V) = V * (a - C / V) ^ 2) by (field; auto).
      pose proof (sqn (a - C / V)). assert (0 <= V * (a - C / V) ^ 2) by (apply Rmult_le_pos; auto). lra.
    - assert (E : - 2 * a * C + a ^ 2 * V - (- 2 * / 2 * C + (/ 2) ^ 2 * V) = (a - / 2) * (V * (a - / 2) + 2 * (V * / 2 - C))) by field.
      assert (0 <= (a - / 2) * (V * (a - / 2) + 2 * (V * / 2 - C))); [|lra]. apply Rmult_le_pos; [lra|].
      assert (0 <= V * (a - / 2)) by (apply Rmult_le_pos; lra). lra. }
  replace (0 ^ 2) with 0 by ring. lra.
Qed.
Lemma regress_optimal_offset s ps g : use_offset s = true -> use_skew s = false -> positive_weights s ps -> ps <> [] -> regress s ps = Some g ->
  ra g = 1 /\ forall b, cost s ps 1 (rb g) <= cost s ps 1 b.
Proof.
  intros O K P NE R. pose proof (W_pos s ps P NE) as WP.
  rewrite regress_eq in R by now rewrite O. destruct (Req_EM_T _ 0) as [|W0]; [discriminate|]. rewrite K, O in R. injection R as <-. cbn [ra rb].
  assert (A : sa s ps = 1) by (unfold sa, slope; now rewrite K). split; [exact A|]. intros b. rewrite A.
  rewrite (cost_form s ps _ _ W0), (cost_form s ps 1 b W0). apply Rmult_le_compat_l; [lra|].
  apply Rplus_le_compat_l. match goal with |- ?x ^ 2 <= _ => replace x with 0 by ring end. replace (0 ^ 2) with 0 by ring. apply sqn.
Qed.

(** exact copy *)
Lemma copy_residual s ps g a b : regress s ps = Some g -> (forall p, In p ps -> r_i p = a * r_t p + b) ->
  (if use_skew s then / 2 <= a else a = 1) -> (use_offset s = false -> b = 0) ->
  forall p, In p ps -> e_b (error_row s g p) = 0.
Proof.
  intros R H Ha Hb p Hp. unfold error_row. destruct (use_offset s || use_skew s) eqn:E.
  2: { apply orb_false_iff in E as [O K]. rewrite K in Ha. cbn [e_b]. rewrite (H p Hp), Ha, Hb by auto. ring. }
  cbn [e_b]. rewrite regress_eq in R by auto. destruct (Req_EM_T _ 0) as [|W0]; [discriminate|].
  assert (SI : wsum s ps r_i = a * wsum s ps r_t + b * wsum s ps (fun _ => 1)).
  { rewrite <- !wsum_scale, <- wsum_plus. apply wsum_ext. intros q Hq. rewrite (H q Hq). ring. }
  assert (STI : wsum s ps (fun p => r_t p * r_i p) = a * wsum s ps (fun p => r_t p * r_t p) + b * wsum s ps r_t).
  { rewrite <- !wsum_scale, <- wsum_plus. apply wsum_ext. intros q Hq. rewrite (H q Hq). ring. }
  assert (A : sa s ps = a /\ ra g = sa s ps /\ rb g = if use_offset s then wsum s ps r_i / wsum s ps (fun _ => 1) - sa s ps * (wsum s ps r_t / wsum s ps (fun _ => 1)) else 0).
  { destruct (use_skew s) eqn:K.
    - destruct (Req_EM_T _ 0) as [|V0]; [discriminate|]. split; [|destruct (use_offset s); injection R as <-; split; reflexivity].
      unfold sa, slope. rewrite K, SI, STI.
      set (W := wsum s ps (fun _ => 1)) in *. set (St := wsum s ps r_t) in *. set (Stt := wsum s ps (fun p => r_t p * r_t p)) in *.
      replace (((a * Stt + b * St) / W - St / W * ((a * St + b * W) / W)) / (Stt / W - St / W * (St / W))) with a.
      + destruct (Rlt_dec a (/ 2)); [lra|reflexivity].
      + replace ((a * Stt + b * St) / W - St / W * ((a * St + b * W) / W)) with (a * (Stt / W - St / W * (St / W))) by (field; auto). field. split; [auto|]. intros Z. apply V0. 
        replace (Stt / W - St / W * (St / W)) with ((Stt * W - St * St) / (W * W)) by (field; auto). rewrite Z. unfold Rdiv. ring.
    - split; [unfold sa, slope; now rewrite K, Ha|destruct (use_offset s); injection R as <-; split; reflexivity]. }
  destruct A as (A1&A2&A3). rewrite A3, A2, A1, (H p Hp), SI. destruct (use_offset s); [field; auto|rewrite Hb by auto; ring].
Qed.

(** image offset *)
Lemma slope_image_offset s ps b : wsum s ps (fun _ => 1) <> 0 -> slope s (map (image_offset b) ps) = slope s ps.
Proof.
  intros W0. unfold slope. rewrite !wsum_map by reflexivity. cbn [image_offset r_t r_i r_jx r_jy].
  rewrite (wsum_ext s ps (fun p => r_t p * (r_i p + b)) (fun p => r_t p * r_i p + b * r_t p)) by (intros; ring).
  rewrite (wsum_ext s ps (fun p => r_i p + b) (fun p => r_i p + b * 1)) by (intros; ring). rewrite !wsum_plus, !wsum_scale.
  set (W := wsum s ps (fun _ => 1)) in *. set (St := wsum s ps r_t) in *. set (Si := wsum s ps r_i) in *.
  replace ((wsum s ps (fun p => r_t p * r_i p) + b * St) / W - St / W * ((Si + b * W) / W)) with (wsum s ps (fun p => r_t p * r_i p) / W - St / W * (Si / W)) by (field; auto).
  reflexivity.
Qed.
Lemma regress_image_offset s ps b : use_offset s = true ->
  regress s (map (image_offset b) ps) = option_map (fun g => {| ra := ra g; ra_dx := ra_dx g; ra_dy := ra_dy g; rb := rb g + b; rb_dx := rb_dx g; rb_dy := rb_dy g |}) (regress s ps).
Proof.
  intros O. rewrite !regress_eq by now rewrite O. rewrite O. rewrite !wsum_map by reflexivity. cbn [image_offset r_t r_i r_jx r_jy].
  destruct (Req_EM_T _ 0) as [|W0]; [reflexivity|]. unfold sa, sax, say. rewrite slope_image_offset by auto.
  assert (E : wsum s ps (fun p => r_i p + b) = wsum s ps r_i + b * wsum s ps (fun _ => 1)).
  { rewrite <- wsum_scale, <- wsum_plus. apply wsum_ext. intros; ring. }
  rewrite E. change (wsum s ps (fun p => r_t p)) with (wsum s ps r_t). set (W := wsum s ps (fun _ => 1)) in *.
  replace ((wsum s ps r_i + b * W) / W - fst (fst (slope s ps)) * (wsum s ps r_t / W)) with (wsum s ps r_i / W - fst (fst (slope s ps)) * (wsum s ps r_t / W) + b) by (field; auto).
  destruct (use_skew s); [destruct (Req_EM_T _ 0); reflexivity|reflexivity].
Qed.
Lemma final_ext s g g' p p' : error_row s g p = error_row s g' p' -> r_w p = r_w p' -> final_row s g p = final_row s g' p'.
Proof. intros E W. unfold final_row. rewrite E. unfold weight. rewrite W. reflexivity. Qed.
Lemma row_eq a b c a' b' c' : a = a' -> b = b' -> c = c' -> {| e_b := a; e_x := b; e_y := c |} = {| e_b := a'; e_x := b'; e_y := c' |}.
Proof. congruence. Qed.
Definition solved (s : settings) (ps : list raw) : option (list row) := option_map (fun g => map (final_row s g) ps) (regress s ps).
Lemma image_offset_rows s ps b : use_offset s = true -> solved s (map (image_offset b) ps) = solved s ps.
Proof.
  intros O. unfold solved. rewrite regress_image_offset by auto. destruct (regress s ps) as [g|]; [|reflexivity]. cbn [option_map]. f_equal.
  rewrite map_map. apply map_ext. intros p. apply final_ext; [|reflexivity]. unfold error_row. rewrite O. cbn [orb image_offset ra ra_dx ra_dy rb rb_dx rb_dy r_t r_i r_jx r_jy].
  apply row_eq; ring.
Qed.

(** template gain and offset *)
Lemma template_rows s ps k b g g' : use_offset s = true -> use_skew s = true -> 0 < k ->
  regress s ps = Some g -> regress s (map (template_affine k b) ps) = Some g' -> / 2 < ra g -> / 2 < ra g' ->
  solved s (map (template_affine k b) ps) = solved s ps.
Proof.
  intros O K Hk R R' U U'. unfold solved. rewrite R, R'. cbn [option_map]. f_equal. rewrite map_map. apply map_ext. intros p. apply final_ext; [|reflexivity].
  rewrite regress_eq in R, R' by now rewrite O. rewrite O, K in *. rewrite !wsum_map in R' by reflexivity. cbn [template_affine r_t r_i r_jx r_jy] in R'.
  destruct (Req_EM_T _ 0) as [|W0]; [discriminate|]. destruct (Req_EM_T _ 0) as [|V0]; [discriminate|]. injection R as <-.
  destruct (Req_EM_T _ 0) as [|V0']; [discriminate|]. injection R' as <-. cbn [ra] in U, U'.
  unfold sa, sax, say, slope in *. rewrite K in *. destruct (Rlt_dec _ (/ 2)); [cbn [fst] in U; lra|].
  destruct (Rlt_dec _ (/ 2)); [cbn [fst] in U'; lra|]. cbn [fst snd] in *. clear n n0.
  rewrite !wsum_map in * by reflexivity. cbn [template_affine r_t r_i r_jx r_jy] in *.
  unfold error_row. rewrite O. cbn [orb ra ra_dx ra_dy rb rb_dx rb_dy template_affine r_t r_i r_jx r_jy].
  change (wsum s ps (fun p => r_i p)) with (wsum s ps r_i) in *.
  rewrite (wsum_ext s ps (fun p => k * r_t p + b) (fun p => k * r_t p + b * 1)) in * by (intros; ring).
  rewrite (wsum_ext s ps (fun p => (k * r_t p + b) * (k * r_t p + b)) (fun p => k * k * (r_t p * r_t p) + (2 * k * b * r_t p + b * b * 1))) in * by (intros; ring).
  rewrite (wsum_ext s ps (fun p => (k * r_t p + b) * r_i p) (fun p => k * (r_t p * r_i p) + b * r_i p)) in * by (intros; ring).
  rewrite (wsum_ext s ps (fun p => (k * r_t p + b) * (k * r_jx p)) (fun p => k * k * (r_t p * r_jx p) + b * k * r_jx p)) in * by (intros; ring).
  rewrite (wsum_ext s ps (fun p => (k * r_t p + b) * (k * r_jy p)) (fun p => k * k * (r_t p * r_jy p) + b * k * r_jy p)) in * by (intros; ring).
  rewrite !wsum_plus, !wsum_scale in *.
  set (W := wsum s ps (fun _ => 1)) in *. set (St := wsum s ps r_t) in *. set (Si := wsum s ps r_i) in *. set (Stt := wsum s ps (fun p => r_t p * r_t p)) in *.
  set (Sti := wsum s ps (fun p => r_t p * r_i p)) in *. set (Sx := wsum s ps r_jx) in *. set (Sy := wsum s ps r_jy) in *.
  set (Stx := wsum s ps (fun p => r_t p * r_jx p)) in *. set (Sty := wsum s ps (fun p => r_t p * r_jy p)) in *.
  clearbody W St Si Stt Sti Sx Sy Stx Sty. clear U U'.
  set (V := Stt / W - St / W * (St / W)) in *.
  assert (EV : (k * k * Stt + (2 * k * b * St + b * b * W)) / W - (k * St + b * W) / W * ((k * St + b * W) / W) = k * k * V) by (unfold V; field; auto).
  rewrite EV in *.
  replace ((k * Sti + b * Si) / W - (k * St + b * W) / W * (Si / W)) with (k * (Sti / W - St / W * (Si / W))) by (field; auto).
  replace ((k * k * Stx + b * k * Sx) / W - (k * St + b * W) / W * (k * Sx / W)) with (k * k * (Stx / W - St / W * (Sx / W))) by (field; auto).
  replace ((k * k * Sty + b * k * Sy) / W - (k * St + b * W) / W * (k * Sy / W)) with (k * k * (Sty / W - St / W * (Sy / W))) by (field; auto).
  clearbody V. assert (k <> 0) by lra.
  apply row_eq; field; auto.
Qed.

(** image gain *)
Lemma image_gain_rows s ps k g g' : use_offset s = true -> use_skew s = true -> 0 < k ->
  regress s ps = Some g -> regress s (map (image_gain k) ps) = Some g' -> / 2 < ra g -> / 2 < ra g' ->
  forall p, In p ps -> error_row s g' (image_gain k p) = {| e_b := k * e_b (error_row s g p); e_x := k * e_x (error_row s g p); e_y := k * e_y (error_row s g p) |}.
Proof.
  intros O K Hk R R' U U' p Hp.
  rewrite regress_eq in R, R' by now rewrite O. rewrite O, K in *. rewrite !wsum_map in R' by reflexivity. cbn [image_gain r_t r_i r_jx r_jy] in R'.
  destruct (Req_EM_T _ 0) as [|W0]; [discriminate|]. destruct (Req_EM_T _ 0) as [|V0]; [discriminate|]. injection R as <-. injection R' as <-. cbn [ra] in U, U'.
  unfold sa, sax, say, slope in *. rewrite K in *. destruct (Rlt_dec _ (/ 2)); [cbn [fst] in U; lra|].
  destruct (Rlt_dec _ (/ 2)); [cbn [fst] in U'; lra|]. cbn [fst snd] in *. clear n n0.
  rewrite !wsum_map in * by reflexivity. cbn [image_gain r_t r_i r_jx r_jy] in *.
  unfold error_row. rewrite O. cbn [orb ra ra_dx ra_dy rb rb_dx rb_dy image_gain r_t r_i r_jx r_jy e_b e_x e_y].
  change (wsum s ps (fun p => r_t p)) with (wsum s ps r_t) in *. change (wsum s ps (fun p => r_jx p)) with (wsum s ps r_jx) in *. change (wsum s ps (fun p => r_jy p)) with (wsum s ps r_jy) in *.
  rewrite (wsum_ext s ps (fun p => r_t p * (k * r_i p)) (fun p => k * (r_t p * r_i p))) in * by (intros; ring).
  rewrite !wsum_scale in *.
  set (W := wsum s ps (fun _ => 1)) in *. set (St := wsum s ps r_t) in *. set (Stt := wsum s ps (fun p => r_t p * r_t p)) in *.
  set (V := Stt / W - St / W * (St / W)) in *. clearbody V. apply row_eq; field; auto.
Qed.

(** ** gradient based weight *)
Lemma cpow_range x y : 0 <= x <= 1 -> 0 < y -> 0 <= cpow x y <= 1.
Proof.
  intros [A B] Y. unfold cpow. destruct (Req_EM_T x 0); [lra|]. unfold Rpower. split; [left; apply exp_pos|].
  rewrite <- exp_0. destruct (Req_dec x 1) as [->|N]; [rewrite ln_1, Rmult_0_r; lra|].
  left. apply exp_increasing. assert (ln x < ln 1) by (apply ln_increasing; lra). rewrite ln_1 in H. nra.
Qed.
Lemma cpow_strict x x' y : 0 <= x < x' -> 0 < y -> cpow x y < cpow x' y.
Proof.
  intros [A B] Y. unfold cpow. destruct (Req_EM_T x' 0); [lra|]. destruct (Req_EM_T x 0) as [->|N]; [apply exp_pos|].
  apply exp_increasing. apply Rmult_lt_compat_l; [exact Y|]. apply ln_increasing; lra.
Qed.
Lemma gradient2_pos r : 0 <= gradient2 r.
Proof. unfold gradient2. nra. Qed.
Lemma grad_weight_range s r : gradient2 r <= max_gradient2 -> 0 <= grad_weight s r <= 1.
Proof.
  intros G. pose proof (gradient2_pos r). unfold grad_weight. destruct (Rlt_dec 0 (grad_exp s)); [|lra].
  fold (gradient2 r). unfold max_gradient2 in G.
  assert (0 <= cpow (gradient2 r / (2 * 128 * 128)) (/ 2 * grad_exp s) <= 1); [|lra]. apply cpow_range; lra.
Qed.
Lemma grad_weight_full s r : grad_exp s <= 0 \/ gradient2 r = 0 -> grad_weight s r = 1.
Proof.
  intros H. unfold grad_weight. destruct (Rlt_dec 0 (grad_exp s)); [|reflexivity]. fold (gradient2 r). destruct H as [H| ->]; [lra|].
  replace (0 / (2 * 128 * 128)) with 0 by field. unfold cpow. destruct (Req_EM_T 0 0); lra.
Qed.
Lemma grad_weight_strict s r r' : 0 < grad_exp s -> gradient2 r < gradient2 r' -> grad_weight s r' < grad_weight s r.
Proof.
  intros E L. pose proof (gradient2_pos r). unfold grad_weight. destruct (Rlt_dec 0 (grad_exp s)); [|lra]. fold (gradient2 r) (gradient2 r').
  assert (cpow (gradient2 r / (2 * 128 * 128)) (/ 2 * grad_exp s) < cpow (gradient2 r' / (2 * 128 * 128)) (/ 2 * grad_exp s)); [|lra].
  apply cpow_strict; lra.
Qed.
Lemma final_row_counts s g p : counts_with s g p (grad_weight s (error_row s g p) * weight s p).
Proof.
  unfold counts_with, final_row. destruct (huber (huber_th s) (e_b (error_row s g p))) as [b f]. cbn [fst snd]. cbv zeta.
  f_equal; ring.
Qed.

(** ** mask coordinate *)
Lemma mask_coord_floor n x :
  INR (Z.abs_nat (mask_coord n x)) <= Rabs (INR x - (INR n - 1) / 2) < INR (Z.abs_nat (mask_coord n x)) + 1.
Proof.
  set (z := (2 * Z.of_nat x - (Z.of_nat n - 1))%Z).
  assert (E : Rabs (INR x - (INR n - 1) / 2) = IZR (Z.abs z) / 2).
  { rewrite abs_IZR. unfold z. rewrite minus_IZR, mult_IZR, minus_IZR, <- !INR_IZR_INZ.
    replace (INR x - (INR n - 1) / 2) with ((2 * INR x - (INR n - 1)) * / 2) by field.
    rewrite Rabs_mult, (Rabs_right (/ 2)) by lra. reflexivity. }
  rewrite E, INR_IZR_INZ, Zabs2Nat.id_abs. unfold mask_coord. fold z. clearbody z. clear E.
  rewrite <- (Z.quot_abs z 2) by lia. change (Z.abs 2) with 2%Z. rewrite Z.quot_div_nonneg by lia.
  pose proof (Z_div_mod_eq_full (Z.abs z) 2) as D. pose proof (Z_mod_lt (Z.abs z) 2 ltac:(lia)) as M.
  set (q := (Z.abs z / 2)%Z) in *. clearbody q. 
  assert (L : (2 * q <= Z.abs z < 2 * q + 2)%Z) by lia. destruct L as [L1 L2].
  apply IZR_le in L1. apply IZR_lt in L2. rewrite plus_IZR in L2. rewrite mult_IZR in L1, L2. lra.
Qed.
