From Coq Require Import List ZArith Bool Reals Arith Lia Lra Psatz.
From Flocq Require Import Core BinarySingleNaN.
From Verif Require Import PatchModel GradModel GradSpec GradProofs IeeeModel IeeeReal IeeeProofs IeeeAcc IeeePos IeeeSpec IpyrProofs IscoreModel IscoreSpec IscoreReal IscoreEig.
Import ListNotations.
Local Open Scope R_scope.

(** ** gradients *)
Definition gnear (g : f32 * f32) (G : R * R) : Prop :=
  F (fst g) /\ F (snd g) /\ Rabs (B2R (fst g) - fst G) <= 31 / 10 * u * Rabs (fst G) + 2 * eta /\ Rabs (B2R (snd g) - snd G) <= 31 / 10 * u * Rabs (snd G) + 2 * eta /\
  Rabs (fst G) <= 256 /\ Rabs (snd G) <= 256.
Lemma central (r l : f32) : F r -> F l -> Rabs (B2R r) <= 256 -> Rabs (B2R l) <= 256 ->
  F (half32 (sub32 r l)) /\ Rabs (B2R (half32 (sub32 r l)) - (B2R r - B2R l) / 2) <= 31 / 10 * u * Rabs ((B2R r - B2R l) / 2) + 2 * eta /\ Rabs ((B2R r - B2R l) / 2) <= 256.
Proof.
  intros Fr Fl Hr Hl. pose proof eta_pos. pose proof eta_small. apply Rabs_le_inv in Hr, Hl.
  destruct (sub_err r l Fr Fl) as [F1 V1]; [apply Rabs_le; lra|]. destruct (half_err _ F1) as [F2 H2]. split; [exact F2|].
  split; [|apply Rabs_le; lra]. pose proof (rerr (B2R r - B2R l)) as R1. rewrite <- V1 in R1. set (d := B2R r - B2R l) in *.
  assert (E : Rabs (d / 2) = Rabs d / 2) by (unfold Rdiv; rewrite Rabs_mult, (Rabs_pos_eq (/ 2)) by lra; reflexivity). rewrite E.
  assert (B : Rabs (B2R (sub32 r l)) <= Rabs d + (u * Rabs d + eta)).
  { replace (B2R (sub32 r l)) with (d + (B2R (sub32 r l) - d)) by ring. eapply Rle_trans; [apply Rabs_triang|]. lra. }
  pose proof (Rabs_pos d). apply Rabs_le_inv in R1, H2. apply Rabs_le. lra.
Qed.
Lemma prod_near x y X Y : Rabs (x - X) <= 31 / 10 * u * Rabs X + 2 * eta -> Rabs (y - Y) <= 31 / 10 * u * Rabs Y + 2 * eta -> Rabs X <= 256 -> Rabs Y <= 256 ->
  Rabs (x * y - X * Y) <= 13 / 2 * u * Rabs (X * Y) + 524288 * eta.
Proof.
  intros Hx Hy BX BY. pose proof eta_pos. pose proof eta_small.
  replace (x * y - X * Y) with ((x - X) * Y + (y - Y) * X + (x - X) * (y - Y)) by ring.
  rewrite Rabs_mult. pose proof (Rabs_pos X). pose proof (Rabs_pos Y). set (p := Rabs X) in *. set (q := Rabs Y) in *.
  assert (P1 : Rabs ((x - X) * Y) <= (31 / 10 * u * p + 2 * eta) * q) by (apply abs_mult_le; [assumption|apply Rle_refl]).
  assert (P2 : Rabs ((y - Y) * X) <= (31 / 10 * u * q + 2 * eta) * p) by (apply abs_mult_le; [assumption|apply Rle_refl]).
  assert (P3 : Rabs ((x - X) * (y - Y)) <= (31 / 10 * u * p + 2 * eta) * (31 / 10 * u * q + 2 * eta)) by (apply abs_mult_le; assumption).
  assert (Q1 : 0 <= eta * p <= eta * 256) by (split; [apply Rmult_le_pos|apply Rmult_le_compat_l]; lra).
  assert (Q2 : 0 <= eta * q <= eta * 256) by (split; [apply Rmult_le_pos|apply Rmult_le_compat_l]; lra).
  assert (Q3 : 0 <= eta * eta <= eta * 1) by (split; [apply Rmult_le_pos|apply Rmult_le_compat_l]; lra).
  assert (Q4 : 0 <= p * q) by (apply Rmult_le_pos; lra).
  apply Rabs_le_inv in P1, P2, P3. apply Rabs_le. lra.
Qed.
Lemma half_sum X Y : Rabs (X * Y) <= (X * X + Y * Y) / 2.
Proof. apply Rabs_le. pose proof (Rle_0_sqr (X - Y)). pose proof (Rle_0_sqr (X + Y)). unfold Rsqr in *. lra. Qed.

(** ** accumulated entries *)
Definition near (e t N : R) (h : fhess) (A C B : R) : Prop :=
  (F (fxx h) /\ F (fxy h) /\ F (fyy h)) /\ (0 <= A <= 65536 * N /\ 0 <= B <= 65536 * N /\ Rabs C <= (A + B) / 2) /\
  Rabs (B2R (fxx h) - A) <= e * A + t /\ Rabs (B2R (fyy h) - B) <= e * B + t /\ Rabs (B2R (fxy h) - C) <= e * ((A + B) / 2) + t.
Lemma near_step fuse e t N h A C B e1 t' m (x1 y1 x2 y2 x3 y3 : f32) p1 p2 p3 :
  near e t N h A C B -> F x1 -> F y1 -> F x2 -> F y2 -> F x3 -> F y3 ->
  0 <= p1 <= 65536 * m -> 0 <= p3 <= 65536 * m -> Rabs p2 <= (p1 + p3) / 2 ->
  Rabs (B2R x1 * B2R y1 - p1) <= e1 * p1 + t' -> Rabs (B2R x2 * B2R y2 - p2) <= e1 * ((p1 + p3) / 2) + t' -> Rabs (B2R x3 * B2R y3 - p3) <= e1 * p3 + t' ->
  0 <= e1 -> e1 + u <= e -> e <= / 1024 -> 0 <= t <= 1 -> 0 <= t' <= 1 -> N <= 1048576 -> m <= 1048576 ->
  near (e + 2 * u) ((1 + 3 * u) * (t + t') + 3 * eta) (N + m)
    {| fxx := acc32 fuse (fxx h) x1 y1; fxy := acc32 fuse (fxy h) x2 y2; fyy := acc32 fuse (fyy h) x3 y3 |} (A + p1) (C + p2) (B + p3).
Proof.
  intros ((F1 & F2 & F3) & (HA & HB & HC) & H1 & H2 & H3) X1 Y1 X2 Y2 X3 Y3 P1 P3 P2 Q1 Q2 Q3 E0 E1 E2 T1 T2 HN Hm.
  assert (AA : Rabs A <= A) by (rewrite Rabs_pos_eq; lra). assert (BB : Rabs B <= B) by (rewrite Rabs_pos_eq; lra).
  assert (PP1 : Rabs p1 <= p1) by (rewrite Rabs_pos_eq; lra). assert (PP3 : Rabs p3 <= p3) by (rewrite Rabs_pos_eq; lra).
  destruct (acc_err fuse _ _ _ A p1 A p1 e e1 t t' F1 X1 Y1 AA PP1 ltac:(lra) ltac:(lra) H1 Q1 E0 E1 E2 T1 T2) as [G1 R1].
  destruct (acc_err fuse _ _ _ B p3 B p3 e e1 t t' F3 X3 Y3 BB PP3 ltac:(lra) ltac:(lra) H2 Q3 E0 E1 E2 T1 T2) as [G3 R3].
  destruct (acc_err fuse _ _ _ C p2 _ _ e e1 t t' F2 X2 Y2 HC P2 ltac:(lra) ltac:(lra) H3 Q2 E0 E1 E2 T1 T2) as [G2 R2].
  unfold near. cbn [fxx fxy fyy]. repeat split; try assumption; try lra.
  - apply Rabs_le_inv in HC, P2. apply Rabs_le. lra.
Qed.
Lemma near_le e t N h A C B e' t' N' : near e t N h A C B -> e <= e' -> t <= t' -> N <= N' -> near e' t' N' h A C B.
Proof.
  intros (Fs & (HA & HB & HC) & H1 & H2 & H3) He Ht HN.
  assert (e * A <= e' * A) by (apply Rmult_le_compat_r; lra). assert (e * B <= e' * B) by (apply Rmult_le_compat_r; lra).
  assert (e * ((A + B) / 2) <= e' * ((A + B) / 2)) by (apply Rmult_le_compat_r; lra). unfold near. repeat split; try tauto; lra.
Qed.
Lemma near_zero e t : 0 <= t -> near e t 0 fzero 0 0 0.
Proof. intros Ht. unfold near, fzero, zero32. cbn. rewrite Rminus_0_r, Rabs_R0. repeat split; lra. Qed.

Definition pxx (G : R * R) := fst G * fst G.
Definition pxy (G : R * R) := fst G * snd G.
Definition pyy (G : R * R) := snd G * snd G.
Lemma near_fold fuse : forall gs Gs k h A C B, Forall2 gnear gs Gs -> (k + length gs <= 256)%nat ->
  near ((8 + 2 * INR k) * u) (INR k * (2097152 * eta)) (INR k) h A C B ->
  near ((8 + 2 * INR (k + length gs)) * u) (INR (k + length gs) * (2097152 * eta)) (INR (k + length gs)) (fold_left (fadd_outer fuse) gs h)
    (A + lsum pxx Gs) (C + lsum pxy Gs) (B + lsum pyy Gs).
Proof.
  induction gs as [|g gs IH]; intros Gs k h A C B HF Hk Hn; inversion HF as [|? G ? Gs' Hg HF']; subst; clear HF.
  - cbn. now rewrite Nat.add_0_r, !Rplus_0_r.
  - cbn [fold_left lsum length] in *. rewrite <- !Rplus_assoc. rewrite <- Nat.add_succ_comm in *. apply IH; [exact HF'|lia|]. clear IH HF'.
    destruct g as [x y], G as [X Y]. destruct Hg as (Fx & Fy & Hx & Hy & BX & BY). cbn [fst snd] in *. unfold pxx, pxy, pyy, fadd_outer. cbn [fst snd].
    pose proof eta_pos. pose proof eta_small. assert (K : (k <= 255)%nat) by lia. apply le_INR in K. rewrite (INR_IZR_INZ 255) in K. cbn in K. pose proof (pos_INR k).
    assert (ek : 0 <= INR k * eta <= 255 * eta) by (split; [apply Rmult_le_pos|apply Rmult_le_compat_r]; lra).
    assert (XX : X * X <= 65536) by (rewrite <- (Rabs_pos_eq (X * X)) by apply Rle_0_sqr; replace 65536 with (256 * 256) by ring; apply abs_mult_le; assumption).
    assert (YY : Y * Y <= 65536) by (rewrite <- (Rabs_pos_eq (Y * Y)) by apply Rle_0_sqr; replace 65536 with (256 * 256) by ring; apply abs_mult_le; assumption).
    pose proof (Rle_0_sqr X) as X0. pose proof (Rle_0_sqr Y) as Y0. unfold Rsqr in *. pose proof (half_sum X Y) as HS.
    eapply near_le; [eapply (near_step fuse _ _ _ h A C B (13 / 2 * u) (524288 * eta) 1); [exact Hn|..]|..]; try assumption; try lra.
    + pose proof (prod_near _ _ _ _ Hx Hx BX BX) as PP. rewrite (Rabs_pos_eq (X * X)) in PP by lra. exact PP.
    + pose proof (prod_near _ _ _ _ Hx Hy BX BY) as PP. eapply Rle_trans; [exact PP|]. lra.
    + pose proof (prod_near _ _ _ _ Hy Hy BY BY) as PP. rewrite (Rabs_pos_eq (Y * Y)) in PP by lra. exact PP.
    + rewrite S_INR. lra.
    + rewrite S_INR. lra.
    + rewrite S_INR. lra.
Qed.

(** ** the loop over the pixels *)
Lemma collect_some {A} (l : list A) : collect (map Some l) = Some l.
Proof. induction l as [|a l IH]; cbn; [reflexivity|]. now rewrite IH. Qed.
Definition g32 (n : nat) (B : list f32) (x y : nat) : f32 * f32 :=
  let p i j := nth (j * (n + 2) + i) B zero32 in
  (half32 (sub32 (p (x + 2)%nat (y + 1)%nat) (p x (y + 1)%nat)), half32 (sub32 (p (x + 1)%nat (y + 2)%nat) (p (x + 1)%nat y))).
Lemma grad32_ok n B x y : length B = ((n + 2) * (n + 2))%nat -> (x < n)%nat -> (y < n)%nat -> grad32_at n B x y = Some (g32 n B x y).
Proof.
  intros L Hx Hy. unfold grad32_at, g32. cbv zeta.
  assert (K : forall i, (i < length B)%nat -> nth_error B i = Some (nth i B zero32)) by (intros; now apply nth_error_nth').
  rewrite !K by (rewrite L; nia). cbn [obind]. do 3 f_equal; f_equal; f_equal; lia.
Qed.
Lemma grads32_ok n B : length B = ((n + 2) * (n + 2))%nat ->
  grads32 n B = Some (flat_map (fun y => map (fun x => g32 n B x y) (seq 0 n)) (seq 0 n)).
Proof.
  intros L. unfold grads32. rewrite <- collect_some. f_equal. rewrite map_flat. apply flat_ext_in. intros y Hy. apply in_seq in Hy. rewrite map_map.
  apply map_ext_in. intros x Hx. apply in_seq in Hx. apply grad32_ok; auto; lia.
Qed.
Lemma F2_flat {A B C} (P : B -> C -> Prop) (f : A -> list B) (g : A -> list C) l : (forall a, In a l -> Forall2 P (f a) (g a)) -> Forall2 P (flat_map f l) (flat_map g l).
Proof. induction l as [|a l IH]; intros H; cbn; [constructor|]. apply Forall2_app; [apply H; now left|apply IH; intros; apply H; now right]. Qed.
Lemma F2_map {A B C} (P : B -> C -> Prop) (f : A -> B) (g : A -> C) l : (forall a, In a l -> P (f a) (g a)) -> Forall2 P (map f l) (map g l).
Proof. induction l as [|a l IH]; intros H; cbn; [constructor|]. constructor; [apply H; now left|apply IH; intros; apply H; now right]. Qed.
Lemma flat_len {A B} (f : A -> list B) l k : (forall a, In a l -> length (f a) = k) -> length (flat_map f l) = (length l * k)%nat.
Proof. induction l as [|a l IH]; intros H; cbn; [reflexivity|]. rewrite app_length, IH, H; auto; [now left|intros; apply H; now right]. Qed.
Lemma nth_real B i : nth i (map real B) 0 = B2R (nth i B zero32).
Proof. change 0 with (real zero32) at 1. rewrite map_nth. reflexivity. Qed.
Lemma nth_intens B i : intensities B -> F (nth i B zero32) /\ Rabs (B2R (nth i B zero32)) <= 256.
Proof.
  intros H. destruct (nth_in_or_default i B zero32) as [K| ->]; [apply H, K|]. split; [reflexivity|]. cbn. rewrite Rabs_R0. lra.
Qed.
Lemma grads_near n B : length B = ((n + 2) * (n + 2))%nat -> intensities B ->
  exists gs, grads32 n B = Some gs /\ length gs = (n * n)%nat /\ Forall2 gnear gs (inner_grads n (map real B)).
Proof.
  intros L HB. eexists. split; [apply grads32_ok, L|]. split.
  - rewrite (flat_len _ _ n); [now rewrite seq_length|]. intros. now rewrite map_length, seq_length.
  - apply F2_flat. intros y Hy. apply F2_map. intros x Hx. unfold gnear, g32, gx, gy, px. cbv zeta. cbn [fst snd]. rewrite !nth_real.
    destruct (nth_intens B ((y + 1) * (n + 2) + (x + 2)) HB) as [Fr Hr]. destruct (nth_intens B ((y + 1) * (n + 2) + x) HB) as [Fl Hl].
    destruct (nth_intens B ((y + 2) * (n + 2) + (x + 1)) HB) as [Fd Hd]. destruct (nth_intens B (y * (n + 2) + (x + 1)) HB) as [Fu Hu].
    destruct (central _ _ Fr Fl Hr Hl) as (A1 & A2 & A3). destruct (central _ _ Fd Fu Hd Hu) as (B1 & B2 & B3). repeat split; assumption.
Qed.
Lemma hess_near fuse n B : (n <= 16)%nat -> length B = ((n + 2) * (n + 2))%nat -> intensities B ->
  exists h, hess32 fuse n B = Some h /\
    near (520 * u) (536870912 * eta) (INR (n * n)) h (hxx (hess_of n (map real B))) (hxy (hess_of n (map real B))) (hyy (hess_of n (map real B))).
Proof.
  intros Hn L HB. destruct (grads_near n B L HB) as (gs & E & Lg & H2). unfold hess32. rewrite E. cbn [obind]. eexists. split; [reflexivity|].
  assert (K : (n * n <= 256)%nat) by nia. pose proof (near_fold fuse gs _ 0 fzero 0 0 0 H2) as N. rewrite Lg in N. cbn [Nat.add INR] in N.
  specialize (N K). rewrite !inner_total in N. cbn [hess_of hxx hxy hyy].
  apply le_INR in K. rewrite (INR_IZR_INZ 256) in K. cbn in K. pose proof (pos_INR (n * n)). pose proof eta_pos.
  assert (INR (n * n) * eta <= 256 * eta) by (apply Rmult_le_compat_r; lra).
  replace (total n (fun x y : nat => gx n (map real B) x y * gx n (map real B) x y)) with (0 + total n (fun x y => pxx (gx n (map real B) x y, gy n (map real B) x y))) by apply Rplus_0_l.
  replace (total n (fun x y : nat => gx n (map real B) x y * gy n (map real B) x y)) with (0 + total n (fun x y => pxy (gx n (map real B) x y, gy n (map real B) x y))) by apply Rplus_0_l.
  replace (total n (fun x y : nat => gy n (map real B) x y * gy n (map real B) x y)) with (0 + total n (fun x y => pyy (gx n (map real B) x y, gy n (map real B) x y))) by apply Rplus_0_l.
  eapply near_le; [apply N|lra|lra|lra]. eapply near_le; [apply (near_zero 0 0); lra|lra|lra|lra].
Qed.

(** ** averaging and eigenvalues *)
Lemma entry_div (x : f32) X S k e : F x -> (0 < k <= 1048576)%Z -> Rabs X <= S -> S <= 65536 * IZR k -> Rabs (B2R x - X) <= e * S + 17179869184 * eta -> 0 <= e -> e <= 554 * u ->
  F (div32 x (f32_of_Z k)) /\ Rabs (B2R (div32 x (f32_of_Z k)) - X / IZR k) <= 560 * u * (S / IZR k) + tau.
Proof.
  intros Fx Hk HX HS H He0 He. pose proof eta_pos. pose proof eta_small. destruct (of_Z32 k ltac:(lia)) as [Fk Vk].
  assert (K : 1 <= IZR k) by (apply IZR_le; lia). pose proof (Rabs_pos X) as S0.
  assert (I : 0 < / IZR k <= 1) by (split; [apply Rinv_0_lt_compat; lra|rewrite <- Rinv_1; apply Rinv_le_contravar; lra]).
  set (i := / IZR k) in *. assert (SI : 0 <= S * i <= 65536).
  { split; [apply Rmult_le_pos; lra|]. replace 65536 with (65536 * IZR k * i) by (unfold i; field; lra). apply Rmult_le_compat_r; lra. }
  assert (HI : Rabs (B2R x * i - X * i) <= 554 * u * (S * i) + 17179869184 * eta).
  { replace (B2R x * i - X * i) with ((B2R x - X) * i) by ring. rewrite Rabs_mult, (Rabs_pos_eq i) by lra.
    apply Rle_trans with ((e * S + 17179869184 * eta) * i); [apply Rmult_le_compat_r; lra|].
    assert (e * (S * i) <= 554 * u * (S * i)) by (apply Rmult_le_compat_r; lra). assert (eta * i <= eta * 1) by (apply Rmult_le_compat_l; lra). lra. }
  assert (XI : Rabs (X * i) <= S * i) by (rewrite Rabs_mult, (Rabs_pos_eq i) by lra; apply Rmult_le_compat_r; lra).
  apply Rabs_le_inv in HI. pose proof XI as XI'. apply Rabs_le_inv in XI'.
  assert (B : Rabs (B2R x * i) <= S * i + 554 * u * (S * i) + 17179869184 * eta) by (apply Rabs_le; lra).
  destruct (div_err x (f32_of_Z k) Fx) as [F1 V1]; [rewrite Vk; lra|rewrite Vk; unfold Rdiv; fold i; apply Rabs_le_inv in B; apply Rabs_le; lra|].
  split; [exact F1|]. rewrite V1, Vk. unfold Rdiv. fold i. pose proof (rerr (B2R x * i)) as R. apply Rabs_le_inv in R. unfold tau. apply Rabs_le. lra.
Qed.
Lemma params_near kc0 kc1 h A C B k e : (0 < k <= 1048576)%Z -> 0 <= e -> e <= 554 * u -> near e (17179869184 * eta) (IZR k) h A C B -> psd2 A C B ->
  accurate (A / IZR k) (C / IZR k) (B / IZR k) (params32 kc0 kc1 h k).
Proof.
  intros Hk He0 He ((F1 & F2 & F3) & (HA & HB & HC) & H1 & H2 & H3) P.
  assert (K : 1 <= IZR k) by (apply IZR_le; lia).
  assert (AA : Rabs A <= A) by (rewrite Rabs_pos_eq; lra). assert (BB : Rabs B <= B) by (rewrite Rabs_pos_eq; lra).
  destruct (entry_div (fxx h) A A k e F1 Hk AA ltac:(lra) H1 He0 He) as [G1 R1].
  destruct (entry_div (fyy h) B B k e F3 Hk BB ltac:(lra) H2 He0 He) as [G3 R3].
  destruct (entry_div (fxy h) C ((A + B) / 2) k e F2 Hk HC ltac:(lra) H3 He0 He) as [G2 R2].
  assert (K0 : 0 < IZR k) by lra. pose proof (psd_div _ _ _ _ K0 P) as P'. destruct (eig_props _ _ _ P') as (V0 & V1 & V2 & V3). destruct (psd_det _ _ _ P') as (D1 & D2 & D3).
  assert (I : 0 < / IZR k) by (apply Rinv_0_lt_compat; lra).
  assert (B1 : A / IZR k <= 65536) by (apply Rmult_le_reg_r with (IZR k); [lra|]; unfold Rdiv; rewrite Rmult_assoc, Rinv_l by lra; lra).
  assert (B2 : B / IZR k <= 65536) by (apply Rmult_le_reg_r with (IZR k); [lra|]; unfold Rdiv; rewrite Rmult_assoc, Rinv_l by lra; lra).
  replace ((A + B) / 2 / IZR k) with ((A / IZR k + B / IZR k) / 2) in R2 by (field; lra).
  set (a := A / IZR k) in *. set (b := B / IZR k) in *. set (c := C / IZR k) in *.
  destruct (eig_near _ _ _ a b c G1 G3 G2 ltac:(lra) ltac:(lra) D3 R1 R3 R2 kc0 kc1) as [E1 E2].
  exists (eig0 a b c), (eig1 a b c). split; [exact V0|]. split; [exact V1|]. split; [exact V2|]. split; [exact V3|]. split; [replace (2 ^ 17) with 131072 by ring; lra|].
  unfold eig0, eig1 in *. replace ((a + b) * (a + b) - 4 * (a * b - c * c)) with ((a - b) * (a - b) + 4 * (c * c)) in * by ring.
  set (q := sqrt ((a - b) * (a - b) + 4 * (c * c))) in *. unfold params32. cbv zeta. cbn [f_e0 f_e1 f_s]. replace (2 ^ 30) with 1073741824 by ring.
  replace (/ 2 * (a + b - q)) with ((a + b - q) / 2) by field. replace (/ 2 * (a + b + q)) with ((a + b + q) / 2) by field.
  split; [exact E1|]. intros Q1 Q2. apply E2; lra.
Qed.
Theorem compute_accurate fuse kc0 kc1 n B : (0 < n <= 16)%nat -> length B = ((n + 2) * (n + 2))%nat -> intensities B ->
  exists g, compute32 fuse kc0 kc1 n B = Some g /\ accurate (sxx n (map real B)) (sxy n (map real B)) (syy n (map real B)) g.
Proof.
  intros Hn L HB. destruct (hess_near fuse n B ltac:(lia) L HB) as (h & E & N). unfold compute32. rewrite E. cbn [obind]. eexists. split; [reflexivity|].
  pose proof eta_pos. assert (K : (0 < n * n <= 256)%nat) by nia. unfold sxx, sxy, syy, mean. rewrite INR_IZR_INZ in *. 
  apply (params_near kc0 kc1 h _ _ _ _ (520 * u)); [lia|lra|lra| |apply psd_total]. eapply near_le; [exact N|lra|lra|lra].
Qed.

(** ** several levels *)
Lemma quarter_val i : (i <= 15)%nat -> F (quarter32 i) /\ B2R (quarter32 i) = (/ 4) ^ i.
Proof.
  intros Hi. pose proof (norm_fwd 24 128 p24 p128 1 (- 2 * Z.of_nat i) false) as N.
  assert (E : F2R (Float radix2 1 (- 2 * Z.of_nat i)) = pw (- 2 * Z.of_nat i)) by (unfold F2R; cbn [Fnum Fexp]; ring). rewrite E, fmt_pw in N by lia.
  assert (P : pw (- 2 * Z.of_nat i) = (/ 4) ^ i).
  { clear. induction i as [|i IH]; [reflexivity|]. rewrite Nat2Z.inj_succ. replace (- 2 * Z.succ (Z.of_nat i))%Z with (-2 + - 2 * Z.of_nat i)%Z by lia.
    rewrite bpow_plus, IH. cbn [pow]. f_equal. }
  rewrite P in N. apply N. rewrite <- P. rewrite Rabs_pos_eq by apply bpow_ge_0. apply bpow_lt. lia.
Qed.
Lemma quarter_range i : 0 <= (/ 4) ^ i <= 1.
Proof. induction i as [|i IH]; cbn [pow]; lra. Qed.
Lemma real_lvl Bs i : (i < length Bs)%nat -> lvl (real_levels Bs) i = map real (fst (nth i Bs (nil, false))) /\ lvl_ok (real_levels Bs) i = snd (nth i Bs (nil, false)).
Proof.
  intros H. unfold lvl, lvl_ok, real_levels. change (@nil R, false) with ((fun bv : list f32 * bool => (map real (fst bv), snd bv)) (nil, false)). rewrite map_nth. split; reflexivity.
Qed.
Lemma mloop fuse fuse' n Bs : (n <= 16)%nat ->
  (forall bv, In bv Bs -> snd bv = true -> length (fst bv) = ((n + 2) * (n + 2))%nat /\ intensities (fst bv)) ->
  forall cnt i h count A C B, (i + cnt <= length Bs)%nat -> (i + cnt <= 16)%nat -> (count <= i)%nat ->
  near ((521 + 2 * INR count) * u) (INR count * (1073741824 * eta)) (INR (count * n * n)) h A C B ->
  exists H c, ml_loop32 fuse fuse' n Bs i cnt h count = Some (H, c) /\ (c <= 16)%nat /\
    INR c = INR count + sum cnt (fun j => if lvl_ok (real_levels Bs) (i + j) then 1 else 0) /\
    near ((521 + 2 * INR c) * u) (INR c * (1073741824 * eta)) (INR (c * n * n)) H
      (A + hlevels n (real_levels Bs) i cnt hxx) (C + hlevels n (real_levels Bs) i cnt hxy) (B + hlevels n (real_levels Bs) i cnt hyy).
Proof.
  intros Hn LB. induction cnt as [|cnt IH]; intros i h count A C B Hi H16 Hc N; cbn [ml_loop32].
  - exists h, count. split; [reflexivity|]. split; [lia|]. unfold hlevels; cbn [sum]. rewrite !Rplus_0_r. auto.
  - assert (NE : nth_error Bs i = Some (nth i Bs (nil, false))) by (apply nth_error_nth'; lia). rewrite NE. cbn [obind].
    destruct (real_lvl Bs i ltac:(lia)) as [EL EV]. rewrite <- EV.
    assert (CS : sum (S cnt) (fun j => if lvl_ok (real_levels Bs) (i + j) then 1 else 0) = (if lvl_ok (real_levels Bs) i then 1 else 0) + sum cnt (fun j => if lvl_ok (real_levels Bs) (S i + j) then 1 else 0)).
    { rewrite sum_first. replace (i + 0)%nat with i by lia. f_equal. apply sum_ext. intros j _. replace (i + S j)%nat with (S i + j)%nat by lia. reflexivity. }
    rewrite CS, !hlev_S. rewrite EL. destruct (lvl_ok (real_levels Bs) i) eqn:V.
    + destruct (LB (nth i Bs (nil, false)) ltac:(apply nth_In; lia) ltac:(congruence)) as [L HB].
      destruct (hess_near fuse n _ Hn L HB) as (g & Eg & Ng). rewrite Eg. cbn [obind].
      destruct (quarter_val i ltac:(lia)) as [Fq Vq]. pose proof (quarter_range i) as Rq. rewrite <- Vq in *. rewrite <- !Rplus_assoc.
      set (AB := hess_of n (map real (fst (nth i Bs (nil, false))))) in *.
      destruct (IH (S i) (fadd_scaled fuse' h (quarter32 i) g) (S count) (A + hxx AB * B2R (quarter32 i)) (C + hxy AB * B2R (quarter32 i)) (B + hyy AB * B2R (quarter32 i)) ltac:(lia) ltac:(lia) ltac:(lia)) as (H & c & E & C16 & Ec & Nc).
      * clear IH. destruct Ng as ((F1 & F2 & F3) & (HA & HB' & HC) & H1 & H2 & H3). pose proof eta_pos. pose proof eta_small.
        assert (Kn : (n * n <= 256)%nat) by nia. pose proof (le_INR _ _ Kn) as Kn'. rewrite (INR_IZR_INZ 256) in Kn'. cbn in Kn'. pose proof (pos_INR (n * n)).
        assert (Kc : (count <= 15)%nat) by lia. pose proof (le_INR _ _ Kc) as Kc'. rewrite (INR_IZR_INZ 15) in Kc'. cbn in Kc'. pose proof (pos_INR count).
        assert (En : INR (count * n * n) = INR count * INR (n * n)) by (rewrite <- mult_INR; f_equal; lia).
        assert (En' : INR (S count * n * n) = INR (count * n * n) + INR (n * n)) by (rewrite <- plus_INR; f_equal; lia).
        assert (INR count * INR (n * n) <= 15 * 256) by (apply Rmult_le_compat; lra).
        assert (INR count * eta <= 15 * eta) by (apply Rmult_le_compat_r; lra). assert (0 <= INR count * eta) by (apply Rmult_le_pos; lra).
        set (q := B2R (quarter32 i)) in *. rewrite S_INR.
        assert (SC : forall (x : f32) X S, Rabs (B2R x - X) <= 520 * u * S + 536870912 * eta -> Rabs (q * B2R x - X * q) <= 520 * u * (S * q) + 536870912 * eta).
        { intros x X S Hx. replace (q * B2R x - X * q) with ((B2R x - X) * q) by ring. rewrite Rabs_mult, (Rabs_pos_eq q) by lra.
          apply Rle_trans with ((520 * u * S + 536870912 * eta) * q); [apply Rmult_le_compat_r; lra|].
          assert (eta * q <= eta * 1) by (apply Rmult_le_compat_l; lra). lra. }
        assert (PQ : forall X, 0 <= X <= 65536 * INR (n * n) -> 0 <= X * q <= 65536 * INR (n * n)).
        { intros X HX. split; [apply Rmult_le_pos; lra|]. apply Rle_trans with (X * 1); [apply Rmult_le_compat_l; lra|lra]. }
        eapply near_le; [unfold fadd_scaled; eapply (near_step fuse' _ _ _ h A C B (520 * u) (536870912 * eta) (INR (n * n))); [exact N|..]|..]; try assumption; try lra.
        -- apply PQ, HA.
        -- apply PQ, HB'.
        -- rewrite Rabs_mult, (Rabs_pos_eq q) by lra. replace ((hxx AB * q + hyy AB * q) / 2) with ((hxx AB + hyy AB) / 2 * q) by field. apply Rmult_le_compat_r; lra.
        -- apply SC, H1.
        -- replace ((hxx AB * q + hyy AB * q) / 2) with ((hxx AB + hyy AB) / 2 * q) by field. apply SC, H3.
        -- apply SC, H2.
      * exists H, c. split; [exact E|]. split; [exact C16|]. rewrite S_INR in Ec. split; [lra|exact Nc].
    + destruct (IH (S i) h count A C B ltac:(lia) ltac:(lia) ltac:(lia) N) as (H & c & E & C16 & Ec & Nc).
      exists H, c. split; [exact E|]. split; [exact C16|]. rewrite !Rplus_0_l. split; [exact Ec|exact Nc].
Qed.
Theorem levels_accurate fuse fuse' kc0 kc1 n Bs l1 l2 : (0 < n <= 16)%nat -> (l1 <= l2 < length Bs)%nat -> (l2 <= 15)%nat ->
  (forall bv, In bv Bs -> snd bv = true -> length (fst bv) = ((n + 2) * (n + 2))%nat /\ intensities (fst bv)) ->
  exists g, ml_score32 fuse fuse' kc0 kc1 n Bs l1 l2 = Some g /\
  ((forall i, (l1 <= i <= l2)%nat -> lvl_ok (real_levels Bs) i = false) -> finite (f_s g) /\ real (f_s g) = -1) /\
  forall i, (l1 <= i <= l2)%nat -> lvl_ok (real_levels Bs) i = true ->
    accurate (level_mean (real_levels Bs) l1 l2 (sxx n)) (level_mean (real_levels Bs) l1 l2 (sxy n)) (level_mean (real_levels Bs) l1 l2 (syy n)) g.
Proof.
  intros Hn L12 L15 LB. unfold ml_score32. pose proof eta_pos as Ep.
  destruct (mloop fuse fuse' n Bs ltac:(lia) LB (l2 + 1 - l1) l1 fzero 0%nat 0 0 0 ltac:(lia) ltac:(lia) ltac:(lia)) as (H & c & E & C16 & Ec & N).
  { eapply near_le; [apply (near_zero 0 0); lra|..]; cbn; lra. }
  rewrite E. cbn [obind]. cbn [INR] in Ec. rewrite !Rplus_0_l in *. set (Rs := real_levels Bs) in *.
  destruct (Nat.ltb_spec 0 c) as [CP|CZ].
  - eexists. split; [reflexivity|]. split.
    + intros AllF. exfalso. rewrite (sum_ext _ _ (fun _ => 0)) in Ec. 2: { intros i Hi. rewrite AllF by lia. reflexivity. }
      rewrite sum_const in Ec. apply lt_0_INR in CP. lra.
    + intros i Hi V.
      assert (KP : (0 < c * n * n)%nat) by nia. assert (KB : (c * n * n <= 4096)%nat) by (assert ((c * n <= 256)%nat) by nia; nia).
      assert (CPos : INR c <> 0) by (apply not_0_INR; lia).
      assert (NPos : INR (n * n) <> 0) by (apply not_0_INR; nia).
      assert (M : forall f h, (forall B, f B = h (hess_of n B) / INR (n * n)) -> level_mean Rs l1 l2 f = hlevels n Rs l1 (l2 + 1 - l1) h / INR (c * n * n)).
      { intros f h FE. unfold level_mean, valid_levels. rewrite <- Ec. unfold hlevels.
        replace (INR (c * n * n)) with (INR c * INR (n * n)) by (rewrite !mult_INR; lra).
        transitivity (sum (l2 + 1 - l1) (fun j => / INR (n * n) * (if lvl_ok Rs (l1 + j) then h (hess_of n (lvl Rs (l1 + j))) * (/ 4) ^ (l1 + j) else 0)) / INR c).
        - f_equal. apply sum_ext. intros j _. destruct (lvl_ok Rs (l1 + j)); [|lra]. rewrite FE, pow_inv. field. split; [apply pow_nonzero; lra|auto].
        - rewrite sum_scale. field. auto. }
      rewrite (M (sxx n) hxx), (M (sxy n) hxy), (M (syy n) hyy) by (intros; reflexivity).
      rewrite (INR_IZR_INZ (c * n * n)) in *. pose proof (le_INR _ _ C16) as C16'. rewrite (INR_IZR_INZ 16) in C16'. cbn in C16'. pose proof (pos_INR c).
      assert (INR c * eta <= 16 * eta) by (apply Rmult_le_compat_r; lra).
      apply (params_near kc0 kc1 H _ _ _ _ ((521 + 2 * INR c) * u)); [lia|lra|lra| |apply psd_levels]. eapply near_le; [exact N|lra|lra|lra].
  - eexists. split; [reflexivity|]. split; [intros _; cbn [f_s]; destruct (of_Z32 (-1) ltac:(lia)) as [F1 V1]; split; [exact F1|exact V1]|]. intros i Hi V. exfalso.
    assert (c = 0%nat) by lia. subst c. cbn [INR] in Ec.
    assert (K : forall k, (l1 + k <= l2 + 1)%nat -> (i < l1 + k)%nat -> 1 <= sum k (fun j => if lvl_ok Rs (l1 + j) then 1 else 0)).
    { induction k as [|k IH]; intros K1 K2; [lia|]. cbn [sum].
      destruct (Nat.eq_dec i (l1 + k)) as [->|Ne].
      - rewrite V. assert (0 <= sum k (fun j => if lvl_ok Rs (l1 + j) then 1 else 0)); [|lra].
        apply sum_nonneg. intros j _. destruct (lvl_ok Rs (l1 + j)); lra.
      - specialize (IH ltac:(lia) ltac:(lia)). destruct (lvl_ok Rs (l1 + k)); lra. }
    specialize (K (l2 + 1 - l1)%nat ltac:(lia) ltac:(lia)). lra.
Qed.
