(** How far the bearing returned by the back-projection reprojects from the pixel. *)
From Coq Require Import Reals Lra Psatz.
From Verif Require Import CamModel CamSpec CamReSpec CamProofs CamUndist.
Local Open Scope R_scope.

Lemma quad_up (f f' : R -> R) C : (forall t, 0 <= t <= 1 -> derivable_pt_lim f t (f' t)) -> (forall t, 0 <= t <= 1 -> f' t - f' 0 <= C * t) -> f 1 - f 0 - f' 0 <= C / 2.
Proof.
  intros D B. set (h := fun t => f t - f' 0 * t - C / 2 * (t * t)). set (h' := fun t => f' t - f' 0 * 1 - C / 2 * (1 * t + t * 1)).
  assert (Dh : forall t, 0 <= t <= 1 -> derivable_pt_lim h t (h' t)).
  { intros t Ht. unfold h, h'. apply derivable_pt_lim_minus; [apply derivable_pt_lim_minus; [now apply D|]|].
    - apply (derivable_pt_lim_scal id (f' 0) t 1). apply derivable_pt_lim_id.
    - apply (derivable_pt_lim_scal (fun t => t * t) (C / 2) t (1 * t + t * 1)). apply (derivable_pt_lim_mult id id t 1 1); apply derivable_pt_lim_id. }
  destruct (MVT_cor2 h h' 0 1 Rlt_0_1 Dh) as (c & E & Hc). specialize (B c ltac:(lra)). unfold h, h' in E. lra.
Qed.
Lemma quad (f f' : R -> R) C : (forall t, 0 <= t <= 1 -> derivable_pt_lim f t (f' t)) -> (forall t, 0 <= t <= 1 -> Rabs (f' t - f' 0) <= C * t) -> Rabs (f 1 - f 0 - f' 0) <= C / 2.
Proof.
  intros D B. assert (U : f 1 - f 0 - f' 0 <= C / 2). { apply quad_up; [exact D|]. intros t Ht. specialize (B t Ht). unfold Rabs in B; destruct (Rcase_abs _) in B; lra. }
  assert (Lo : - f 1 - - f 0 - - f' 0 <= C / 2). { apply (quad_up (fun t => - f t) (fun t => - f' t)). { intros t Ht. apply derivable_pt_lim_opp. now apply D. } intros t Ht. specialize (B t Ht). unfold Rabs in B; destruct (Rcase_abs _) in B; lra. }
  apply Rabs_le. lra.
Qed.

Lemma newton_remainder k (g du : vec2) L : 0 <= L -> (forall t, 0 <= t <= 1 -> regular k (on_segment g du t) /\
    let '(a, b, c, d) := snd (distort_J k g) in let '(a', b', c', d') := snd (distort_J k (on_segment g du t)) in
    let w := L * t * (Rabs (fst du) + Rabs (snd du)) in Rabs (a' - a) <= w /\ Rabs (b' - b) <= w /\ Rabs (c' - c) <= w /\ Rabs (d' - d) <= w) ->
  let '(a, b, c, d) := snd (distort_J k g) in let z := distort k (fst g + fst du, snd g + snd du) in let w := L / 2 * (Rabs (fst du) + Rabs (snd du)) ^ 2 in
  Rabs (fst z - fst (distort k g) - (a * fst du + b * snd du)) <= w /\ Rabs (snd z - snd (distort k g) - (c * fst du + d * snd du)) <= w.
Proof.
  intros HL H. destruct (snd (distort_J k g)) as [[[a b] c] d] eqn:EJ. set (D := Rabs (fst du) + Rabs (snd du)) in *.
  set (A := fun t => let '(a', _, _, _) := snd (distort_J k (on_segment g du t)) in a'). set (B := fun t => let '(_, b', _, _) := snd (distort_J k (on_segment g du t)) in b').
  set (Cc := fun t => let '(_, _, c', _) := snd (distort_J k (on_segment g du t)) in c'). set (Dd := fun t => let '(_, _, _, d') := snd (distort_J k (on_segment g du t)) in d').
  assert (Z0 : on_segment g du 0 = g) by (unfold on_segment; rewrite !Rmult_0_l, !Rplus_0_r; now destruct g).
  assert (Z1 : on_segment g du 1 = (fst g + fst du, snd g + snd du)) by (unfold on_segment; now rewrite !Rmult_1_l).
  assert (A0 : A 0 = a /\ B 0 = b /\ Cc 0 = c /\ Dd 0 = d) by (unfold A, B, Cc, Dd; rewrite Z0, EJ; auto). destruct A0 as (A0 & B0 & C0 & D0).
  assert (Der : forall t, 0 <= t <= 1 -> derivable_pt_lim (fun s => fst (distort k (on_segment g du s))) t (A t * fst du + B t * snd du) /\ derivable_pt_lim (fun s => snd (distort k (on_segment g du s))) t (Cc t * fst du + Dd t * snd du)).
  { intros t Ht. destruct (H t Ht) as [Rg _]. pose proof (distort_jac k _ Rg) as J. unfold A, B, Cc, Dd. destruct (snd (distort_J k (on_segment g du t))) as [[[a' b'] c'] d'].
    assert (Lin : forall p q, derivable_pt_lim (fun s => p + s * q) t q). { intros p q. assert (X : derivable_pt_lim (fun s => p + s * q) t (0 + (1 * q + t * 0))). { apply (derivable_pt_lim_plus (fun _ => p) (fun s => s * q)); [apply derivable_pt_lim_const|]. apply (derivable_pt_lim_mult id (fun _ => q)); [apply derivable_pt_lim_id|apply derivable_pt_lim_const]. }
      replace (0 + (1 * q + t * 0)) with q in X by ring. exact X. }
    exact (J (fun s => fst g + s * fst du) (fun s => snd g + s * snd du) t (fst du) (snd du) eq_refl eq_refl (Lin _ _) (Lin _ _)). }
  assert (Bd : forall t, 0 <= t <= 1 -> Rabs (A t - a) <= L * t * D /\ Rabs (B t - b) <= L * t * D /\ Rabs (Cc t - c) <= L * t * D /\ Rabs (Dd t - d) <= L * t * D).
  { intros t Ht. destruct (H t Ht) as [_ X]. unfold A, B, Cc, Dd. destruct (snd (distort_J k (on_segment g du t))) as [[[a' b'] c'] d']. exact X. }
  assert (Comb : forall p q w, Rabs p <= w -> Rabs q <= w -> Rabs (p * fst du + q * snd du) <= w * D).
  { intros p q w Hp Hq. eapply Rle_trans; [apply Rabs_triang|]. rewrite !Rabs_mult. unfold D. pose proof (Rabs_pos (fst du)). pose proof (Rabs_pos (snd du)). nra. }
  cbn zeta. rewrite <- Z1. replace (fst (distort k g)) with (fst (distort k (on_segment g du 0))) by now rewrite Z0. replace (snd (distort k g)) with (snd (distort k (on_segment g du 0))) by now rewrite Z0.
  replace (L / 2 * D ^ 2) with (L * D * D / 2) by field. split.
  - replace (a * fst du + b * snd du) with (A 0 * fst du + B 0 * snd du) by now rewrite A0, B0.
    apply (quad (fun s => fst (distort k (on_segment g du s))) (fun t => A t * fst du + B t * snd du)); [intros t Ht; exact (proj1 (Der t Ht))|].
    intros t Ht. destruct (Bd t Ht) as (X & Y & _). rewrite A0, B0. replace (A t * fst du + B t * snd du - (a * fst du + b * snd du)) with ((A t - a) * fst du + (B t - b) * snd du) by ring.
    eapply Rle_trans; [exact (Comb _ _ _ X Y)|]. right. ring.
  - replace (c * fst du + d * snd du) with (Cc 0 * fst du + Dd 0 * snd du) by now rewrite C0, D0.
    apply (quad (fun s => snd (distort k (on_segment g du s))) (fun t => Cc t * fst du + Dd t * snd du)); [intros t Ht; exact (proj2 (Der t Ht))|].
    intros t Ht. destruct (Bd t Ht) as (_ & _ & X & Y). rewrite C0, D0. replace (Cc t * fst du + Dd t * snd du - (c * fst du + d * snd du)) with ((Cc t - c) * fst du + (Dd t - d) * snd du) by ring.
    eapply Rle_trans; [exact (Comb _ _ _ X Y)|]. right. ring.
Qed.

(** ** Radial-tangential: the Jacobian of the distortion is Lipschitz on the square *)

Lemma mul_lip a a0 b b0 A B al be : Rabs a <= A -> Rabs b0 <= B -> Rabs (a - a0) <= al -> Rabs (b - b0) <= be -> Rabs (a * b - a0 * b0) <= A * be + B * al.
Proof.
  intros Ha Hb Da Db. replace (a * b - a0 * b0) with (a * (b - b0) + b0 * (a - a0)) by ring. eapply Rle_trans; [apply Rabs_triang|]. rewrite !Rabs_mult.
  pose proof (Rabs_pos a). pose proof (Rabs_pos b0). pose proof (Rabs_pos (a - a0)). pose proof (Rabs_pos (b - b0)). nra.
Qed.
Lemma abs_mul a b A B : Rabs a <= A -> Rabs b <= B -> Rabs (a * b) <= A * B.
Proof. intros. rewrite Rabs_mult. pose proof (Rabs_pos a). pose proof (Rabs_pos b). nra. Qed.
Lemma abs_add a b A B : Rabs a <= A -> Rabs b <= B -> Rabs (a + b) <= A + B.
Proof. intros. eapply Rle_trans; [apply Rabs_triang|lra]. Qed.
Lemma coef c n x w : Rabs x <= n * w -> 0 <= w -> Rabs (c * x) <= Rabs c * (n * w).
Proof. intros H W. rewrite Rabs_mult. pose proof (Rabs_pos c). nra. Qed.

Lemma radtan_lip k x y x0 y0 w : in_square (x, y) -> in_square (x0, y0) -> Rabs (x - x0) + Rabs (y - y0) <= w ->
  let '(a, b, c, d) := snd (distort_radtan_J k (x0, y0)) in let '(a', b', c', d') := snd (distort_radtan_J k (x, y)) in
  let v := 120 * coefficients k * w in Rabs (a' - a) <= v /\ Rabs (b' - b) <= v /\ Rabs (c' - c) <= v /\ Rabs (d' - d) <= v.
Proof.
  intros [Sx Sy] [Sx0 Sy0] W. cbn [fst snd] in *. cbn [distort_radtan_J snd]. pose proof (Rabs_pos (x - x0)) as Px. pose proof (Rabs_pos (y - y0)) as Py.
  assert (Ax : Rabs x <= 1) by (apply Rabs_le; lra). assert (Ay : Rabs y <= 1) by (apply Rabs_le; lra). assert (Ax0 : Rabs x0 <= 1) by (apply Rabs_le; lra). assert (Ay0 : Rabs y0 <= 1) by (apply Rabs_le; lra).
  assert (W0 : 0 <= w) by lra. set (u := Rabs (x - x0)) in *. set (v := Rabs (y - y0)) in *.
  pose proof (mul_lip x x0 x x0 1 1 u u Ax Ax0 (Rle_refl _) (Rle_refl _)) as X2. pose proof (mul_lip y y0 y y0 1 1 v v Ay Ay0 (Rle_refl _) (Rle_refl _)) as Y2.
  pose proof (mul_lip x x0 y y0 1 1 u v Ax Ay0 (Rle_refl _) (Rle_refl _)) as XY.
  assert (BX2 : Rabs (x * x) <= 1) by (eapply Rle_trans; [apply (abs_mul x x 1 1 Ax Ax)|lra]). assert (BY2 : Rabs (y * y) <= 1) by (eapply Rle_trans; [apply (abs_mul y y 1 1 Ay Ay)|lra]). assert (BXY : Rabs (x * y) <= 1) by (eapply Rle_trans; [apply (abs_mul x y 1 1 Ax Ay)|lra]).
  assert (BX20 : Rabs (x0 * x0) <= 1) by (eapply Rle_trans; [apply (abs_mul x0 x0 1 1 Ax0 Ax0)|lra]). assert (BY20 : Rabs (y0 * y0) <= 1) by (eapply Rle_trans; [apply (abs_mul y0 y0 1 1 Ay0 Ay0)|lra]).
  assert (BR : Rabs (x * x + y * y) <= 2) by (eapply Rle_trans; [apply (abs_add _ _ 1 1 BX2 BY2)|lra]). assert (BR0 : Rabs (x0 * x0 + y0 * y0) <= 2) by (eapply Rle_trans; [apply (abs_add _ _ 1 1 BX20 BY20)|lra]).
  assert (R2 : Rabs ((x * x + y * y) - (x0 * x0 + y0 * y0)) <= 2 * w). { replace (x * x + y * y - (x0 * x0 + y0 * y0)) with ((x * x - x0 * x0) + (y * y - y0 * y0)) by ring. eapply Rle_trans; [apply (abs_add _ _ _ _ X2 Y2)|lra]. }
  set (r := x * x + y * y) in *. set (r0 := x0 * x0 + y0 * y0) in *. set (a := x * x) in *. set (a0 := x0 * x0) in *. set (b := y * y) in *. set (b0 := y0 * y0) in *. set (m := x * y) in *. set (m0 := x0 * y0) in *.
  assert (Da : Rabs (a - a0) <= 2 * w) by lra. assert (Db : Rabs (b - b0) <= 2 * w) by lra. assert (Dm : Rabs (m - m0) <= 1 * w) by lra.
  pose proof (mul_lip r r0 r r0 2 2 _ _ BR BR0 R2 R2) as RR. assert (BRR : Rabs (r * r) <= 4) by (eapply Rle_trans; [apply (abs_mul r r 2 2 BR BR)|lra]). assert (BRR0 : Rabs (r0 * r0) <= 4) by (eapply Rle_trans; [apply (abs_mul r0 r0 2 2 BR0 BR0)|lra]).
  pose proof (mul_lip (r * r) (r0 * r0) r r0 4 2 _ _ BRR BR0 RR R2) as RRR.
  pose proof (mul_lip a a0 r r0 1 2 _ _ BX2 BR0 Da R2) as AR. pose proof (mul_lip b b0 r r0 1 2 _ _ BY2 BR0 Db R2) as BRx. pose proof (mul_lip m m0 r r0 1 2 _ _ BXY BR0 Dm R2) as MR.
  pose proof (mul_lip a a0 (r * r) (r0 * r0) 1 4 _ _ BX2 BRR0 Da RR) as ARR. pose proof (mul_lip b b0 (r * r) (r0 * r0) 1 4 _ _ BY2 BRR0 Db RR) as BRRx. pose proof (mul_lip m m0 (r * r) (r0 * r0) 1 4 _ _ BXY BRR0 Dm RR) as MRR.
  assert (P : forall c1 c2 c3 q1 q2 e1 e2 e3 f1 f2, c1 = k1 k -> c2 = k2 k -> c3 = k3 k -> q1 = p1 k -> q2 = p2 k -> Rabs e1 <= 120 * w -> Rabs e2 <= 120 * w -> Rabs e3 <= 120 * w -> Rabs f1 <= 120 * w -> Rabs f2 <= 120 * w ->
     Rabs (c1 * e1 + c2 * e2 + c3 * e3 + q1 * f1 + q2 * f2) <= 120 * coefficients k * w).
  { intros c1 c2 c3 q1 q2 e1 e2 e3 f1 f2 -> -> -> -> -> H1 H2 H3 H4 H5. pose proof (coef (k1 k) _ _ _ H1 W0). pose proof (coef (k2 k) _ _ _ H2 W0). pose proof (coef (k3 k) _ _ _ H3 W0). pose proof (coef (p1 k) _ _ _ H4 W0). pose proof (coef (p2 k) _ _ _ H5 W0).
    eapply Rle_trans; [repeat (eapply abs_add; [|eassumption]); eassumption|]. unfold coefficients. right. ring. }
  assert (Lin : forall n z, Rabs z <= w -> 0 <= n <= 120 -> Rabs (n * z) <= 120 * w). { intros n z Hz Hn. rewrite Rabs_mult, (Rabs_pos_eq n) by lra. pose proof (Rabs_pos z). nra. }
  assert (Dx : Rabs (x - x0) <= w) by (fold u; lra). assert (Dy : Rabs (y - y0) <= w) by (fold v; lra).
  assert (Sum : forall p q al be n, Rabs p <= al -> Rabs q <= be -> 0 <= n -> al + n * be <= 120 * w -> Rabs (p + n * q) <= 120 * w). { intros p q al be n Hp Hq Hn Hs. eapply Rle_trans; [apply Rabs_triang|]. rewrite Rabs_mult, (Rabs_pos_eq n) by lra. pose proof (Rabs_pos q). nra. }
  assert (One : forall q be n, Rabs q <= be -> 0 <= n -> n * be <= 120 * w -> Rabs (n * q) <= 120 * w). { intros q be n Hq Hn Hs. rewrite Rabs_mult, (Rabs_pos_eq n) by lra. pose proof (Rabs_pos q). nra. }
  split; [|split; [|split]].
  - replace (_ - _) with (k1 k * ((r - r0) + 2 * (a - a0)) + k2 k * ((r * r - r0 * r0) + 4 * (a * r - a0 * r0)) + k3 k * ((r * r * r - r0 * r0 * r0) + 6 * (a * (r * r) - a0 * (r0 * r0))) + p1 k * (2 * (y - y0)) + p2 k * (6 * (x - x0))) by ring.
    apply P; auto; try (eapply Sum; eauto; lra); apply Lin; auto; lra.
  - replace (_ - _) with (k1 k * (2 * (m - m0)) + k2 k * (4 * (m * r - m0 * r0)) + k3 k * (6 * (m * (r * r) - m0 * (r0 * r0))) + p1 k * (2 * (x - x0)) + p2 k * (2 * (y - y0))) by ring.
    apply P; auto; try (eapply One; eauto; lra); apply Lin; auto; lra.
  - replace (_ - _) with (k1 k * (2 * (m - m0)) + k2 k * (4 * (m * r - m0 * r0)) + k3 k * (6 * (m * (r * r) - m0 * (r0 * r0))) + p1 k * (2 * (x - x0)) + p2 k * (2 * (y - y0))) by ring.
    apply P; auto; try (eapply One; eauto; lra); apply Lin; auto; lra.
  - replace (_ - _) with (k1 k * ((r - r0) + 2 * (b - b0)) + k2 k * ((r * r - r0 * r0) + 4 * (b * r - b0 * r0)) + k3 k * ((r * r * r - r0 * r0 * r0) + 6 * (b * (r * r) - b0 * (r0 * r0))) + p1 k * (6 * (y - y0)) + p2 k * (2 * (x - x0))) by ring.
    apply P; auto; try (eapply Sum; eauto; lra); apply Lin; auto; lra.
Qed.

(** ** The returned bearing *)
Lemma at_pixel k v lam g du : 0 < lam -> scale3 lam v = (fst g + fst du, snd g + snd du, 1) ->
  let z := distort k (fst g + fst du, snd g + snd du) in bearing_to_pixel k v = Some (fx k * fst z + cx k, fy k * snd z + cy k) /\
  (let '(x, y, w) := v in x / w = fst g + fst du /\ y / w = snd g + snd du).
Proof.
  intros Hl E. split.
  - rewrite <- (project_scale k v lam Hl), E. unfold bearing_to_pixel. destruct (Rle_dec 1 0); [lra|]. replace ((fst g + fst du) / 1) with (fst g + fst du) by field. replace ((snd g + snd du) / 1) with (snd g + snd du) by field. destruct (distort k _) as [dx dy]. reflexivity.
  - destruct v as [[x y] w]. unfold scale3 in E. injection E as E1 E2 E3. assert (w <> 0) by (intros ->; lra). split; [rewrite <- E1|rewrite <- E2]; replace lam with (/ w) by (field_simplify_eq; [lra|assumption]); field; assumption.
Qed.
Lemma reproject k c v lam g du L : fx k <> 0 -> fy k <> 0 -> 0 < lam -> scale3 lam v = (fst g + fst du, snd g + snd du, 1) -> last_guess k c g du -> 0 <= L ->
  (forall t, 0 <= t <= 1 -> regular k (on_segment g du t) /\ entries_at_most (L * t * (Rabs (fst du) + Rabs (snd du))) (minus2 (snd (distort_J k (on_segment g du t))) (snd (distort_J k g)))) ->
  exists c', bearing_to_pixel k v = Some c' /\ Rabs (fst c' - fst c) <= Rabs (fx k) * (L / 2 * (Rabs (fst du) + Rabs (snd du)) ^ 2) /\ Rabs (snd c' - snd c) <= Rabs (fy k) * (L / 2 * (Rabs (fst du) + Rabs (snd du)) ^ 2).
Proof.
  intros Fx Fy Hl E (_ & G) HL H. destruct (at_pixel k v lam g du Hl E) as [P _]. eexists. split; [exact P|]. cbn [fst snd].
  pose proof (newton_remainder k g du L HL) as N. destruct (snd (distort_J k g)) as [[[a b] p] q]. cbn [fst snd] in G. destruct G as [G1 G2].
  destruct N as [N1 N2]. { intros t Ht. destruct (H t Ht) as [Rg Em]. split; [exact Rg|]. destruct (snd (distort_J k (on_segment g du t))) as [[[a' b'] c'] d']. exact Em. }
  rewrite G1 in N1. rewrite G2 in N2. set (z := distort k (fst g + fst du, snd g + snd du)) in *. split.
  - replace (fx k * fst z + cx k - fst c) with (fx k * (fst z - fst (distort k g) - ((fst c - cx k) / fx k - fst (distort k g)))) by (field; assumption). rewrite Rabs_mult. apply Rmult_le_compat_l; [apply Rabs_pos|exact N1].
  - replace (fy k * snd z + cy k - snd c) with (fy k * (snd z - snd (distort k g) - ((snd c - cy k) / fy k - snd (distort k g)))) by (field; assumption). rewrite Rabs_mult. apply Rmult_le_compat_l; [apply Rabs_pos|exact N2].
Qed.
Lemma success k n c v : pixel_to_bearing_n n k c = BOk v -> exists g du lam, last_guess k c g du /\ 0 < lam /\ scale3 lam v = (fst g + fst du, snd g + snd du, 1).
Proof. intros H. destruct (backproject_success n k c v H) as (_ & _ & g & du & lam & A & B & C & D). exists g, du, lam. split; [split; assumption|auto]. Qed.

Lemma small e0 e1 : e0 * e0 + e1 * e1 <= tolerance -> Rabs e0 <= / 100000 /\ Rabs e1 <= / 100000.
Proof. unfold tolerance. intros H. split; apply Rabs_le; split; nra. Qed.
Lemma step_bound k c g du M d : last_guess k c g du -> entries_at_most M (snd (distort_J k g)) -> 0 < d -> d <= Rabs (det2 (snd (distort_J k g))) ->
  Rabs (fst du) + Rabs (snd du) <= M / (25000 * d).
Proof.
  intros (T & G) Em Hd Dt. apply small in T as [T1 T2]. destruct (snd (distort_J k g)) as [[[a b] p] q]. cbn [fst snd] in *. destruct G as [G1 G2]. destruct Em as (A & B & P & Q). cbn [det2] in Dt.
  set (e0 := (fst c - cx k) / fx k - fst (distort k g)) in *. set (e1 := (snd c - cy k) / fy k - snd (distort k g)) in *.
  assert (X : (a * q - b * p) * fst du = q * e0 - b * e1) by (rewrite <- G1, <- G2; ring). assert (Y : (a * q - b * p) * snd du = a * e1 - p * e0) by (rewrite <- G1, <- G2; ring).
  assert (Bd : forall z u w m1 m2, (a * q - b * p) * z = m1 * u - m2 * w -> Rabs m1 <= M -> Rabs m2 <= M -> Rabs u <= / 100000 -> Rabs w <= / 100000 -> d * Rabs z <= M / 50000).
  { intros z u w m1 m2 E H1 H2 H3 H4. apply (f_equal Rabs) in E. rewrite Rabs_mult in E. pose proof (Rabs_pos z). assert (Rabs (m1 * u - m2 * w) <= M * / 100000 + M * / 100000).
    { eapply Rle_trans; [apply Rabs_triang|]. rewrite Rabs_Ropp. apply Rplus_le_compat; now apply abs_mul. } nra. }
  pose proof (Bd _ _ _ _ _ X Q B T1 T2) as B1. pose proof (Bd _ _ _ _ _ Y A P T2 T1) as B2. apply (Rmult_le_reg_l d _ _ Hd). replace (d * (M / (25000 * d))) with (M / 25000) by (field; lra). lra.
Qed.
Lemma square_segment g du t : in_square g -> in_square (fst g + fst du, snd g + snd du) -> 0 <= t <= 1 -> in_square (on_segment g du t).
Proof. unfold in_square, on_segment. cbn [fst snd]. intros [A B] [C D] T. repeat split; nra. Qed.
Lemma reproject_radtan k c v lam g du M d : ctype k = RADTAN -> fx k <> 0 -> fy k <> 0 -> 0 < lam -> scale3 lam v = (fst g + fst du, snd g + snd du, 1) -> last_guess k c g du ->
  in_square g -> (let '(x, y, w) := v in in_square (x / w, y / w)) -> entries_at_most M (snd (distort_J k g)) -> 0 < d -> d <= Rabs (det2 (snd (distort_J k g))) ->
  exists c', bearing_to_pixel k v = Some c' /\ Rabs (fst c' - fst c) <= Rabs (fx k) * (60 * coefficients k * (M / (25000 * d)) ^ 2) /\ Rabs (snd c' - snd c) <= Rabs (fy k) * (60 * coefficients k * (M / (25000 * d)) ^ 2).
Proof.
  intros Ty Fx Fy Hl E G Sg Sv Em Hd Dt. assert (Sd : in_square (fst g + fst du, snd g + snd du)). { pose proof (proj2 (at_pixel k v lam g du Hl E)) as Q. destruct v as [[x y] w]. destruct Q as [-> ->] in Sv. exact Sv. }
  assert (K0 : 0 <= coefficients k) by (unfold coefficients; repeat apply Rplus_le_le_0_compat; apply Rabs_pos).
  destruct (reproject k c v lam g du (120 * coefficients k) Fx Fy Hl E G ltac:(lra)) as (c' & P & A & B).
  { intros t Ht. split; [unfold regular; now rewrite Ty|]. unfold distort_J. rewrite Ty. destruct g as [x0 y0]. pose proof (radtan_lip k _ _ x0 y0 (t * (Rabs (fst du) + Rabs (snd du))) (square_segment (x0, y0) du t Sg Sd Ht) Sg) as Lp. cbn [fst snd] in Lp.
    destruct (snd (distort_radtan_J k (x0, y0))) as [[[a b] p] q]. unfold on_segment. cbn [fst snd]. destruct (snd (distort_radtan_J k (x0 + t * fst du, y0 + t * snd du))) as [[[a' b'] p'] q'].
    assert (W : Rabs (x0 + t * fst du - x0) + Rabs (y0 + t * snd du - y0) <= t * (Rabs (fst du) + Rabs (snd du))).
    { replace (x0 + t * fst du - x0) with (t * fst du) by ring. replace (y0 + t * snd du - y0) with (t * snd du) by ring. rewrite !Rabs_mult, !(Rabs_pos_eq t) by lra. lra. }
    specialize (Lp W). cbn zeta in Lp. unfold entries_at_most, minus2. replace (120 * coefficients k * t * (Rabs (fst du) + Rabs (snd du))) with (120 * coefficients k * (t * (Rabs (fst du) + Rabs (snd du)))) by ring. exact Lp. }
  exists c'. split; [exact P|]. pose proof (step_bound k c g du M d G Em Hd Dt) as Sb. pose proof (Rabs_pos (fst du)). pose proof (Rabs_pos (snd du)).
  assert (Sq : 120 * coefficients k / 2 * (Rabs (fst du) + Rabs (snd du)) ^ 2 <= 60 * coefficients k * (M / (25000 * d)) ^ 2).
  { replace (120 * coefficients k / 2) with (60 * coefficients k) by field. apply Rmult_le_compat_l; [lra|]. apply pow_incr. lra. }
  split; (eapply Rle_trans; [eassumption|]; apply Rmult_le_compat_l; [apply Rabs_pos|exact Sq]).
Qed.
