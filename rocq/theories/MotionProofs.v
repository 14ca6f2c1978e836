(** Lemmas for C77. *)
From Coq Require Import List ZArith QArith Qreals Reals Bool Arith Lia Lra.
From Verif Require Import PatchModel PatchSpec PatchProofs PyrModel PyrSpec PyrProofs GradModel GradSpec GradProofs AvgModel AvgSpec AvgProofs MotionModel MotionSpec.
Import ListNotations.
Local Open Scope R_scope.

(** ** extraction: number and size of the levels *)
Lemma seqo_length {A} (l : list (option A)) r : seqo l = Some r -> length r = length l.
Proof.
  revert r. induction l as [|[a|] l IH]; intros r H; cbn in H; [injection H as <-; reflexivity| |discriminate].
  destruct (seqo l) as [m|]; [|discriminate]. cbn in H. injection H as <-. cbn. f_equal. now apply IH.
Qed.
Lemma seqo_forall {A} (P : A -> Prop) (l : list (option A)) r : seqo l = Some r -> (forall a, In (Some a) l -> P a) -> Forall P r.
Proof.
  revert r. induction l as [|[a|] l IH]; intros r H F; cbn in H; [injection H as <-; constructor| |discriminate].
  destruct (seqo l) as [m|]; [|discriminate]. cbn in H. injection H as <-. constructor; [apply F; now left|]. apply IH; [reflexivity|]. intros; apply F; now right.
Qed.
Definition squares (n : nat) (Bs : list (list Q)) : Prop := Forall (fun B => length B = ((n + 2) * (n + 2))%nat) Bs.
Lemma extract_squares near n py q s Bs : Nat.Even n -> ml_extract near n py q s true = Some Bs -> length Bs = S s /\ squares n Bs.
Proof.
  intros EN H. unfold ml_extract in H. split; [apply seqo_length in H; now rewrite map_length, seq_length in H|].
  eapply seqo_forall; [exact H|]. intros B HB. apply in_map_iff in HB as (i & E & _). unfold level_extract in E.
  set (q' := level_transform (py_ct py) q 0 i) in *.
  pose proof (data_length (fun x => x) n (Extract (py_img py i) (near_id near q') (warp_of q') (fst (q_c q')) (snd (q_c q')) true) (map Q2R B) EN eq_refl) as D.
  cbn [data_of] in D. rewrite E in D. specialize (D eq_refl). now rewrite map_length in D.
Qed.

(** ** inner pixels *)
Lemma filled_inner n Bs s : (s < length Bs)%nat -> squares n Bs -> filled n (inner_of n Bs) s.
Proof.
  intros L F. split; [unfold inner_of; now rewrite map_length|]. intros p Hp. unfold inner_of in Hp. apply in_map_iff in Hp as (B & <- & HB).
  rewrite inner_r_map, map_length. apply inner_length. now apply (proj1 (Forall_forall _ _) F).
Qed.
Lemma value_inner n Bs l x y : (l < length Bs)%nat -> squares n Bs -> (x < n)%nat -> (y < n)%nat ->
  value (inner_of n Bs) l (y * n + x) = inner_px n Bs l x y.
Proof.
  intros L F Hx Hy. unfold value, inner_of, inner_px, px, bordered.
  rewrite (nth_indep _ nil (inner_r n (map Q2R nil))) by (now rewrite map_length). rewrite (map_nth (fun B => inner_r n (map Q2R B))).
  assert (LB : length (nth l Bs nil) = ((n + 2) * (n + 2))%nat) by (apply (proj1 (Forall_forall _ _) F), nth_In; auto).
  rewrite inner_r_map. apply nth_error_nth.
  rewrite nth_error_map. pose proof (inner_nth n (nth l Bs nil) x y LB Hx Hy) as N. rewrite N.
  rewrite (nth_error_nth' _ (0%Q)) by (rewrite LB; nia). cbn [option_map].
  f_equal. rewrite <- (map_nth Q2R). replace (Q2R 0) with 0 by (unfold Q2R; cbn; lra). reflexivity.
Qed.
Lemma sum_split n m f : sum (m * n) f = sum m (fun y => sum n (fun x => f (y * n + x)%nat)).
Proof.
  induction m as [|m IH]; [reflexivity|]. cbn [sum]. rewrite <- IH. replace (S m * n)%nat with (m * n + n)%nat by lia.
  clear. induction n as [|n IH] in m |- *; [cbn [sum]; replace (m * 0 + 0)%nat with (m * 0)%nat by lia; lra|].
  generalize (m * S n)%nat. intros k. clear. generalize (S n). intros j. induction j as [|j IH]; [cbn [sum]; replace (k + 0)%nat with k by lia; lra|].
  cbn [sum]. replace (k + S j)%nat with (S (k + j)) by lia. cbn [sum]. rewrite IH. lra.
Qed.

(** ** means over levels and pixels *)
Definition LT (n e s : nat) (f : nat -> nat -> nat -> R) : R := sum (s + 1 - e) (fun j => total n (f (e + j)%nat)) / (INR (s + 1 - e) * INR (n * n)).
Lemma total_ext n f g : (forall x y, (x < n)%nat -> (y < n)%nat -> f x y = g x y) -> total n f = total n g.
Proof. intros H. apply sum_ext. intros y Hy. apply sum_ext. intros x Hx. now apply H. Qed.
Lemma total_plus n f g : total n (fun x y => f x y + g x y) = total n f + total n g.
Proof. unfold total. rewrite <- sum_plus. apply sum_ext. intros. apply sum_plus. Qed.
Lemma total_scale n a f : total n (fun x y => a * f x y) = a * total n f.
Proof. unfold total. rewrite <- sum_scale. apply sum_ext. intros. apply sum_scale. Qed.
Lemma LT_ext n e s f g : (forall l x y, (e <= l <= s)%nat -> (x < n)%nat -> (y < n)%nat -> f l x y = g l x y) -> LT n e s f = LT n e s g.
Proof. intros H. unfold LT. f_equal. apply sum_ext. intros j Hj. apply total_ext. intros. apply H; auto; lia. Qed.
Lemma LT_plus n e s f g : LT n e s (fun l x y => f l x y + g l x y) = LT n e s f + LT n e s g.
Proof.
  unfold LT. rewrite <- Rdiv_plus_distr. f_equal. rewrite <- sum_plus. apply sum_ext. intros. apply total_plus.
Qed.
Lemma LT_scale n e s a f : LT n e s (fun l x y => a * f l x y) = a * LT n e s f.
Proof.
  unfold LT, Rdiv. rewrite <- Rmult_assoc. f_equal. rewrite <- sum_scale. apply sum_ext. intros. apply total_scale.
Qed.
Lemma LT_const n e s a : (0 < n)%nat -> (e <= s)%nat -> LT n e s (fun _ _ _ => a) = a.
Proof.
  intros N L. unfold LT, total. rewrite !sum_const, mult_INR. field. split; apply not_0_INR; lia.
Qed.
Lemma LT_mean n e s f (w : nat -> R) : (0 < n)%nat -> (e <= s)%nat ->
  LT n e s (fun l x y => / w l * f l x y) = sum (s + 1 - e) (fun j => mean n (f (e + j)%nat) / w (e + j)%nat) / INR (s + 1 - e).
Proof.
  intros N L. unfold LT, mean.
  rewrite (sum_ext _ (fun j => total n (f (e + j)%nat) / INR (n * n) / w (e + j)%nat) (fun j => / INR (n * n) * total n (fun x y => / w (e + j)%nat * f (e + j)%nat x y))).
  - rewrite sum_scale. field. split; apply not_0_INR; nia.
  - intros j _. rewrite total_scale. unfold Rdiv. ring.
Qed.
Lemma mse_LT n e s Bs Cs b : (s < length Bs)%nat -> (s < length Cs)%nat -> squares n Bs -> squares n Cs ->
  mse n (inner_of n Bs) (inner_of n Cs) e s b = LT n e s (fun l x y => (inner_px n Bs l x y - (inner_px n Cs l x y + b)) ^ 2).
Proof.
  intros LB LC FB FC. unfold mse, level_average, LT. f_equal. apply sum_ext. intros j Hj. rewrite sum_split. unfold total. apply sum_ext. intros y Hy.
  apply sum_ext. intros x Hx. rewrite !value_inner by (auto; lia). reflexivity.
Qed.
(** ** the error of a shifted patch *)
Lemma pow42 l : 4 ^ l = 2 ^ l * 2 ^ l.
Proof. rewrite <- Rpow_mult_distr. now replace (2 * 2) with 4 by ring. Qed.
Lemma shift_error n e s dx dy b Bs Cs : (0 < n)%nat -> (e <= s)%nat -> (s < length Bs)%nat -> (s < length Cs)%nat -> squares n Bs -> squares n Cs ->
  shifted n e s dx dy b Bs Cs ->
  exists r, average_difference n (inner_of n Bs) (inner_of n Cs) e s = Some r /\ 0 <= r /\
    r ^ 2 = Sxx n e s Bs * dx ^ 2 + 2 * Sxy n e s Bs * dx * dy + Syy n e s Bs * dy ^ 2 - (Mx n e s Bs * dx + My n e s Bs * dy) ^ 2.
Proof.
  intros N L LB LC FB FC S. pose proof (filled_inner n Bs s LB FB) as HB. pose proof (filled_inner n Cs s LC FC) as HC.
  destruct (avg_best_offset n _ _ e s N L HB HC) as (r & b0 & E & R0 & R1 & R2). exists r. split; [exact E|]. split; [exact R0|].
  set (q := Sxx n e s Bs * dx ^ 2 + 2 * Sxy n e s Bs * dx * dy + Syy n e s Bs * dy ^ 2). set (m := Mx n e s Bs * dx + My n e s Bs * dy).
  assert (M : forall b', mse n (inner_of n Bs) (inner_of n Cs) e s b' = q + 2 * (b + b') * m + (b + b') ^ 2).
  { intros b'. rewrite mse_LT by auto.
    set (X := fun l => gx n (bordered Bs l)). set (Y := fun l => gy n (bordered Bs l)).
    rewrite (LT_ext n e s _ (fun l x y => (dx ^ 2 * (/ 4 ^ l * (X l x y * X l x y)) + (2 * dx * dy * (/ 4 ^ l * (X l x y * Y l x y)) + dy ^ 2 * (/ 4 ^ l * (Y l x y * Y l x y))))
       + ((2 * (b + b') * dx) * (/ 2 ^ l * X l x y) + (2 * (b + b') * dy) * (/ 2 ^ l * Y l x y)) + (b + b') ^ 2)).
    2: { intros l x y Hl Hx Hy. rewrite (S l x y Hl Hx Hy), pow42. unfold X, Y. field. apply pow_nonzero; lra. }
    rewrite !LT_plus, !LT_scale, LT_const by auto.
    rewrite (LT_mean n e s (fun l x y => X l x y * X l x y) (fun l => 4 ^ l)), (LT_mean n e s (fun l x y => X l x y * Y l x y) (fun l => 4 ^ l)),
      (LT_mean n e s (fun l x y => Y l x y * Y l x y) (fun l => 4 ^ l)), (LT_mean n e s X (fun l => 2 ^ l)), (LT_mean n e s Y (fun l => 2 ^ l)) by auto.
    unfold q, m, Sxx, Sxy, Syy, Mx, My, mean4, mean2, sxx, sxy, syy. cbv beta. unfold X, Y. ring. }
  pose proof (R2 (- m - b)) as A. rewrite M in A. rewrite R1, M in A. rewrite R1, M.
  replace (b + (- m - b)) with (- m) in A by ring. set (c := b + b0) in *. pose proof (pow2_ge_0 (c + m)). replace ((c + m) ^ 2) with (c ^ 2 + 2 * c * m + m ^ 2) in * by ring.
  replace (2 * - m * m + (- m) ^ 2) with (- m ^ 2) in * by ring. fold q. lra.
Qed.
(** ** eigenvalues *)
Lemma eig_char a b c k : eigenvalue a b c k -> k ^ 2 - (a + c) * k + (a * c - b * b) = 0.
Proof.
  intros (v & w & NZ & E1 & E2). 
  assert (H1 : (k ^ 2 - (a + c) * k + (a * c - b * b)) * v = 0) by (replace ((k ^ 2 - (a + c) * k + (a * c - b * b)) * v) with ((c - k) * (a * v + b * w - k * v) - b * (b * v + c * w - k * w)) by ring; rewrite E1, E2; ring).
  assert (H2 : (k ^ 2 - (a + c) * k + (a * c - b * b)) * w = 0) by (replace ((k ^ 2 - (a + c) * k + (a * c - b * b)) * w) with ((a - k) * (b * v + c * w - k * w) - b * (a * v + b * w - k * v)) by ring; rewrite E1, E2; ring).
  destruct (Rmult_integral _ _ H1) as [|V]; [auto|]. destruct (Rmult_integral _ _ H2) as [|W]; [auto|]. tauto.
Qed.
Lemma eig_largest a b c e0 e1 : eigenvalue a b c e1 -> e0 <= e1 -> e0 + e1 = a + c ->
  largest_eigenvalue a b c e1 /\ (forall x y, a * x ^ 2 + 2 * b * x * y + c * y ^ 2 <= e1 * (x ^ 2 + y ^ 2)).
Proof.
  intros E L T. pose proof (eig_char _ _ _ _ E) as D. split.
  - split; [exact E|]. intros k K. apply eig_char in K. assert ((k - e0) * (k - e1) = 0) by nra. destruct (Rmult_integral _ _ H); lra.
  - intros x y. assert (P : (e1 - a) * (e1 - c) = b * b) by nra. assert (0 <= e1 - a).
    { destruct (Rle_or_lt 0 (e1 - a)); [auto|]. assert (0 <= e1 - c) by nra. exfalso. nra. }
    assert (0 <= e1 - c) by (destruct (Rle_or_lt 0 (e1 - c)); [auto|]; exfalso; nra).
    assert (Q : 0 <= (e1 - a) * x ^ 2 - 2 * b * x * y + (e1 - c) * y ^ 2).
    { destruct (Req_dec (e1 - a) 0) as [Z|Z].
      - assert (b = 0) by nra. subst b. rewrite Z. nra.
      - assert (0 < e1 - a) by lra. apply Rmult_le_reg_l with (e1 - a); [auto|]. rewrite Rmult_0_r.
        replace ((e1 - a) * ((e1 - a) * x ^ 2 - 2 * b * x * y + (e1 - c) * y ^ 2)) with (((e1 - a) * x - b * y) ^ 2 + ((e1 - a) * (e1 - c) - b * b) * y ^ 2) by ring.
        rewrite P. pose proof (pow2_ge_0 ((e1 - a) * x - b * y)). lra. }
    lra.
Qed.
Lemma score_some n junk Bs e s : (0 < n)%nat -> (e <= s < length Bs)%nat -> squares n Bs ->
  exists g, ml_score n (as_patch n junk Bs) e s = Some g /\ 0 <= g_e1 g /\ largest_eigenvalue (Sxx n e s Bs) (Sxy n e s Bs) (Syy n e s Bs) (g_e1 g) /\
    (forall x y, Sxx n e s Bs * x ^ 2 + 2 * Sxy n e s Bs * x * y + Syy n e s Bs * y ^ 2 <= g_e1 g * (x ^ 2 + y ^ 2)).
Proof.
  intros N L F. set (Fs := map (fun B => (map Q2R B, true)) Bs).
  assert (EQ : as_patch n junk Bs = fresh_mlp n junk Fs) by (unfold as_patch, fresh_mlp, Fs; rewrite map_map; reflexivity).
  assert (LF : length Fs = length Bs) by (unfold Fs; now rewrite map_length).
  destruct (ml_score_spec n junk Fs e s N ltac:(lia)) as (g & E & _ & H).
  { intros bv HB _. unfold Fs in HB. apply in_map_iff in HB as (B & <- & HB). cbn. rewrite map_length. now apply (proj1 (Forall_forall _ _) F). }
  assert (NTH : forall i, (i < length Bs)%nat -> nth i Fs (nil, false) = (bordered Bs i, true)).
  { intros i Hi. unfold Fs, bordered. rewrite (nth_indep _ _ (map Q2R nil, true)) by (now rewrite map_length). now rewrite (map_nth (fun B => (map Q2R B, true))). }
  assert (V : valid_levels Fs e s = INR (s + 1 - e)).
  { unfold valid_levels, lvl_ok. rewrite (sum_ext _ _ (fun _ => 1)); [rewrite sum_const; lra|]. intros j Hj. rewrite NTH by lia. reflexivity. }
  assert (M : forall f, level_mean Fs e s f = mean4 e s (fun l => f (bordered Bs l))).
  { intros f. unfold level_mean, mean4. rewrite V. f_equal. apply sum_ext. intros j Hj. unfold lvl_ok, lvl. rewrite NTH by lia. reflexivity. }
  specialize (H e ltac:(lia)). unfold lvl_ok in H. rewrite NTH in H by lia. specialize (H eq_refl). cbv zeta in H. rewrite !M in H.
  destruct H as (E0 & E1 & (P0 & P1) & P2 & P3). exists g. rewrite EQ. split; [exact E|]. split; [lra|].
  unfold Sxx, Sxy, Syy. eapply eig_largest; [exact E1|exact P1|]. lra.
Qed.
Lemma exceeds_iff err m th : 0 <= th -> 0 <= err -> 0 <= m -> exceeds err m th = true <-> th * sqrt m < err.
Proof.
  intros HT HE HM. unfold exceeds. destruct (Req_EM_T m 0) as [->|NZ].
  - rewrite sqrt_0, Rmult_0_r. destruct (Rlt_dec 0 err); split; intros; auto; try discriminate; lra.
  - assert (P : 0 < sqrt m) by (apply sqrt_lt_R0; lra). 
    destruct (Rlt_dec th (err / sqrt m)) as [Y|Y]; split; intros H; auto; try discriminate.
    + apply (Rmult_lt_compat_r (sqrt m)) in Y; [|auto]. unfold Rdiv in Y. rewrite Rmult_assoc, Rinv_l, Rmult_1_r in Y by lra. exact Y.
    + exfalso. apply Y. apply Rmult_lt_reg_r with (sqrt m); [auto|]. unfold Rdiv. rewrite Rmult_assoc, Rinv_l, Rmult_1_r by lra. exact H.
Qed.
(** what one visit computes *)
Lemma visit_some near n e s th junk prev cur front q Bs Cs : Nat.Even n -> (0 < n)%nat -> (e <= s)%nat -> 0 <= th ->
  ml_in_frame near n prev front (upright q) s true = true ->
  ml_extract near n prev (upright q) s true = Some Bs -> ml_extract near n cur (upright q) s true = Some Cs ->
  exists m r v, visit near n e s th junk prev cur front q = Some (Some v) /\ 0 <= m /\
    largest_eigenvalue (Sxx n e s Bs) (Sxy n e s Bs) (Syy n e s Bs) m /\
    (forall x y, Sxx n e s Bs * x ^ 2 + 2 * Sxy n e s Bs * x * y + Syy n e s Bs * y ^ 2 <= m * (x ^ 2 + y ^ 2)) /\
    average_difference n (inner_of n Bs) (inner_of n Cs) e s = Some r /\ 0 <= r /\ (v = true <-> th * sqrt m < r).
Proof.
  intros EN N L T F E1 E2. destruct (extract_squares _ _ _ _ _ _ EN E1) as (LB & FB). destruct (extract_squares _ _ _ _ _ _ EN E2) as (LC & FC).
  destruct (score_some n junk Bs e s N ltac:(lia) FB) as (g & G1 & G2 & G3 & G4).
  destruct (avg_best_offset n _ _ e s N L (filled_inner n Bs s ltac:(lia) FB) (filled_inner n Cs s ltac:(lia) FC)) as (r & b0 & A & R0 & _).
  exists (g_e1 g), r, (exceeds r (g_e1 g) th). split.
  - unfold visit. rewrite F, E1. cbn [bind]. rewrite G1. cbn [bind]. rewrite E2. cbn [bind]. rewrite A. reflexivity.
  - split; [exact G2|]. split; [exact G3|]. split; [exact G4|]. split; [exact A|]. split; [exact R0|]. now apply exceeds_iff.
Qed.

(** ** the count *)
Lemma count_add near n e s th junk prev cur sl : forall c, 
  count_motion near n e s th junk prev cur sl c = option_map (fun d => (fst c + fst d, snd c + snd d)%nat) (count_motion near n e s th junk prev cur sl (0, 0)%nat).
Proof.
  induction sl as [|f r IH]; intros c; cbn [count_motion]; [destruct c; cbn; now rewrite !Nat.add_0_r|].
  destruct (sl_valid f); [|apply IH]. destruct (visit _ _ _ _ _ _ _ _ _ _) as [v|]; [|reflexivity]. cbn [bind].
  destruct v as [[]|]; cbn [fst snd]; rewrite IH; [rewrite (IH (1, 1)%nat)|rewrite (IH (1, 0)%nat)|reflexivity];
    destruct (count_motion near n e s th junk prev cur r (0, 0)%nat) as [d|]; cbn; auto; do 2 f_equal; lia.
Qed.
Lemma rate_below_iff rate f m : 0 <= rate -> (m <= f)%nat -> rate_below rate f m = true <-> rate * INR f < INR m.
Proof.
  intros R0 L. unfold rate_below. destruct m as [|k].
  - destruct (Rlt_dec rate 0); [lra|]. split; [discriminate|]. intros H. cbn [INR] in H. pose proof (pos_INR f). nra.
  - assert (P : 0 < INR (S k)) by (apply lt_0_INR; lia).
    replace (rate / INR (S k) * INR f) with (rate * INR f / INR (S k)) by (field; lra).
    destruct (Rlt_dec (rate * INR f / INR (S k)) 1) as [Y|Y]; split; intros H; auto; try discriminate.
    + apply (Rmult_lt_compat_r (INR (S k))) in Y; [|auto]. unfold Rdiv in Y. rewrite Rmult_assoc, Rinv_l, Rmult_1_r, Rmult_1_l in Y by lra. exact Y.
    + exfalso. apply Y. apply Rmult_lt_reg_r with (INR (S k)); [auto|]. unfold Rdiv. rewrite Rmult_assoc, Rinv_l, Rmult_1_r, Rmult_1_l by lra. exact H.
Qed.

(** ** timers along a history *)
Lemma mrun_app near junk cf a : forall m b, mrun near junk cf m (a ++ b) = bind (mrun near junk cf m a) (fun m' => mrun near junk cf m' b).
Proof. induction a as [|e a IH]; intros m b; cbn; [reflexivity|]. destruct (mstep near junk cf m e); cbn; auto. Qed.
Lemma elapsed_app a b : elapsed (a ++ b) = elapsed a + elapsed b.
Proof. induction a as [|[dt i|p sl] a IH]; cbn; rewrite ?IH; lra. Qed.
Lemma last_image_app a b acc : last_image (a ++ b) acc = last_image b (last_image a acc).
Proof. revert acc. induction a as [|[dt i|p sl] a IH]; intros acc; cbn; auto. Qed.
Lemma last_image_some a : forall x, last_image a (Some x) <> None.
Proof. induction a as [|[dt i|p sl] a IH]; intros x; cbn; auto. discriminate. Qed.
Lemma run_images near junk cf none h m : mrun near junk cf (mstart none) h = Some m ->
  match last_image h None with Some p => (1 <= t_images m)%nat /\ t_prev m = p | None => t_images m = 0%nat end.
Proof.
  revert m. induction h as [|e h IH] using rev_ind; intros m H; [cbn in H; injection H as <-; reflexivity|].
  rewrite mrun_app in H. destruct (mrun near junk cf (mstart none) h) as [m1|] eqn:E; [|discriminate]. cbn [bind] in H. specialize (IH m1 eq_refl).
  rewrite last_image_app. cbn [mrun bind] in H. destruct e as [dt i|p sl]; cbn [last_image].
  - cbn in H. injection H as <-. cbn. exact IH.
  - cbn [mstep] in H. destruct (c_visual cf && (1 <? S (t_images m1))%nat).
    + destruct (image_motion near junk cf (t_prev m1) p sl); [|discriminate]. cbn in H. injection H as <-. cbn. split; [lia|reflexivity].
    + cbn in H. injection H as <-. cbn. split; [lia|reflexivity].
Qed.
Lemma snoc_split {A} (h pre post : list A) e x : h ++ [e] = pre ++ x :: post -> (post = [] /\ h = pre /\ e = x) \/ exists post', post = post' ++ [e] /\ h = pre ++ x :: post'.
Proof.
  intros H. destruct post as [|y post] using rev_ind.
  - left. apply app_inj_tail in H as [-> ->]. auto.
  - right. exists post. rewrite app_comm_cons, app_assoc in H. apply app_inj_tail in H as [-> ->]. auto.
Qed.
Lemma elapsed_nonneg h : forward h -> 0 <= elapsed h.
Proof.
  induction h as [|[dt i|p sl] h IH]; intros F; cbn; [lra| |].
  - assert (0 <= dt) by (apply (F dt i); now left). assert (0 <= elapsed h) by (apply IH; intros d b H'; apply (F d b); now right). lra.
  - apply IH. intros d b H'. apply (F d b). now right.
Qed.
Lemma timers near junk cf none h m : c_visual cf = true -> forward h -> mrun near junk cf (mstart none) h = Some m ->
  0 <= t_visual m <= elapsed h /\ 0 <= t_inertial m <= elapsed h /\
  (forall T, 0 <= T -> T < t_visual m <-> T < elapsed h /\ quiet_visual near junk cf h T) /\ (forall T, 0 <= T -> T < t_inertial m <-> T < elapsed h /\ quiet_inertial h T).
Proof.
  intros CV. revert m. induction h as [|e h IH] using rev_ind; intros m F H.
  - cbn in H. injection H as <-. cbn. split; [lra|]. split; [lra|]. split; intros T HT; split; intros H; try lra.
  - rewrite mrun_app in H. destruct (mrun near junk cf (mstart none) h) as [m1|] eqn:E; [|discriminate]. cbn [bind] in H.
    assert (F1 : forward h) by (intros d b Hd; apply (F d b), in_or_app; now left).
    specialize (IH m1 F1 eq_refl). destruct IH as (V0 & I0 & V & I). rewrite elapsed_app.
    assert (Q0 := elapsed_nonneg h F1).
    cbn [mrun bind] in H. destruct e as [dt i|p sl].
    + assert (D : 0 <= dt) by (apply (F dt i), in_or_app; right; now left). cbn in H. injection H as <-. cbn [t_visual t_inertial elapsed].
      split; [lra|]. split; [destruct i; lra|]. split; intros T HT.
      * split.
        -- intros L. split; [lra|]. intros pre cur sl post ES SM. apply snoc_split in ES as [(_ & _ & ?)|(post' & -> & ->)]; [discriminate|].
           rewrite elapsed_app. cbn [elapsed].
           destruct (Rle_or_lt (T - dt) 0) as [N|N].
           { pose proof (elapsed_nonneg post' ltac:(intros d b Hd; apply (F1 d b), in_or_app; right; now right)) as EP.
             destruct (Rle_or_lt (t_visual m1) 0) as [Z|Z]; [lra|].
             assert (P : 0 < elapsed post').
             { apply (proj1 (V 0 ltac:(lra)) Z) with (pre := pre) (cur := cur) (sl := sl) (post := post'); auto. }
             lra. }
           destruct (proj1 (V (T - dt) ltac:(lra)) ltac:(lra)) as [_ QQ].
           specialize (QQ pre cur sl post' eq_refl SM). lra.
        -- intros [L Q]. destruct (Rle_or_lt (T - dt) 0) as [N|N].
           { destruct (Rlt_or_le T (t_visual m1 + dt)) as [Y|Y]; [exact Y|]. exfalso.
             assert (TV : t_visual m1 = 0 /\ T = dt) by lra. destruct TV as [TV TD].
             assert (Z : ~ (0 < elapsed h /\ quiet_visual near junk cf h 0)) by (intros C; apply (V 0 ltac:(lra)) in C; lra).
             apply Z. split; [lra|]. intros pre cur sl' post ES SM.
             specialize (Q pre cur sl' (post ++ [Predict dt i]) ltac:(rewrite ES, <- app_assoc; reflexivity) SM). rewrite elapsed_app in Q. cbn in Q. lra. }
           assert (T - dt < t_visual m1); [|lra]. apply V; [lra|]. split; [lra|]. intros pre cur sl' post ES SM.
           specialize (Q pre cur sl' (post ++ [Predict dt i]) ltac:(rewrite ES, <- app_assoc; reflexivity) SM). rewrite elapsed_app in Q. cbn in Q. lra.
      * destruct i.
        -- split; [lra|]. intros [L Q]. specialize (Q h dt [] eq_refl). cbn in Q. lra.
        -- split.
           ++ intros L. split; [lra|]. intros pre dt' post ES. apply snoc_split in ES as [(_ & _ & ?)|(post' & -> & ->)]; [discriminate|].
              rewrite elapsed_app. cbn [elapsed]. destruct (Rle_or_lt (T - dt) 0) as [N|N].
              { pose proof (elapsed_nonneg post' ltac:(intros d b Hd; apply (F1 d b), in_or_app; right; now right)) as EP.
                destruct (Rle_or_lt (t_inertial m1) 0) as [Z|Z]; [lra|].
                assert (P : 0 < elapsed post') by (apply (proj1 (I 0 ltac:(lra)) Z) with (pre := pre) (dt := dt') (post := post'); auto). lra. }
              destruct (proj1 (I (T - dt) ltac:(lra)) ltac:(lra)) as [_ QQ]. specialize (QQ pre dt' post' eq_refl). lra.
           ++ intros [L Q]. destruct (Rle_or_lt (T - dt) 0) as [N|N].
              { destruct (Rlt_or_le T (t_inertial m1 + dt)) as [Y|Y]; [exact Y|]. exfalso.
                assert (TV : t_inertial m1 = 0 /\ T = dt) by lra. destruct TV as [TV TD].
                assert (Z : ~ (0 < elapsed h /\ quiet_inertial h 0)) by (intros C; apply (I 0 ltac:(lra)) in C; lra).
                apply Z. split; [lra|]. intros pre dt' post ES.
                specialize (Q pre dt' (post ++ [Predict dt false]) ltac:(rewrite ES, <- app_assoc; reflexivity)). rewrite elapsed_app in Q. cbn in Q. lra. }
              assert (T - dt < t_inertial m1); [|lra]. apply I; [lra|]. split; [lra|]. intros pre dt' post ES.
              specialize (Q pre dt' (post ++ [Predict dt false]) ltac:(rewrite ES, <- app_assoc; reflexivity)). rewrite elapsed_app in Q. cbn in Q. lra.
    + pose proof (run_images near junk cf none h m1 E) as RI. cbn [elapsed]. rewrite Rplus_0_r.
      assert (MI : exists b, m = {| t_inertial := t_inertial m1; t_visual := if b : bool then 0 else t_visual m1; t_images := S (t_images m1); t_prev := p |} /\
                 (b = true <-> shows_motion near junk cf h p sl)).
      { cbn [mstep] in H. rewrite CV in H. cbn [andb] in H. unfold shows_motion. destruct (last_image h None) as [pr|].
        - destruct RI as [R1 R2]. assert (K : (1 <? S (t_images m1))%nat = true) by (apply Nat.ltb_lt; lia). rewrite K in H.
          destruct (image_motion near junk cf (t_prev m1) p sl) as [b|] eqn:IM; [|discriminate]. cbn in H. injection H as <-. exists b. split; [reflexivity|].
          split; [intros ->; exists pr; rewrite <- R2; auto|]. intros (pr' & X & Y). injection X as <-. rewrite <- R2 in Y. rewrite IM in Y. now injection Y.
        - assert (K : (1 <? S (t_images m1))%nat = false) by (rewrite RI; reflexivity). rewrite K in H. cbn in H. injection H as <-. exists false. split; [reflexivity|].
          split; [discriminate|]. intros (pr' & X & _). discriminate. }
      destruct MI as (b & -> & SM). cbn [t_visual t_inertial]. split; [destruct b; lra|]. split; [lra|]. split; intros T HT.
      * destruct b.
        -- split; [lra|]. intros [L Q]. specialize (Q h p sl [] eq_refl (proj1 SM eq_refl)). cbn in Q. lra.
        -- rewrite (V T HT). split; intros [L Q]; split; auto.
           ++ intros pre cur sl' post ES S'. apply snoc_split in ES as [(-> & -> & X)|(post' & -> & ->)].
              ** injection X as <- <-. apply SM in S'. discriminate.
              ** rewrite elapsed_app. cbn. specialize (Q pre cur sl' post' eq_refl S'). lra.
           ++ intros pre cur sl' post ES S'. specialize (Q pre cur sl' (post ++ [Image p sl]) ltac:(rewrite ES, <- app_assoc; reflexivity) S').
              rewrite elapsed_app in Q. cbn in Q. lra.
      * rewrite (I T HT). split; intros [L Q]; split; auto.
        -- intros pre dt' post ES. apply snoc_split in ES as [(_ & _ & X)|(post' & -> & ->)]; [discriminate|].
           rewrite elapsed_app. cbn. specialize (Q pre dt' post' eq_refl). lra.
        -- intros pre dt' post ES. specialize (Q pre dt' (post ++ [Image p sl]) ltac:(rewrite ES, <- app_assoc; reflexivity)). rewrite elapsed_app in Q. cbn in Q. lra.
Qed.
