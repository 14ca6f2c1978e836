(** Accuracy of the sampled positions and of whole patches in single precision. *)
From Coq Require Import List ZArith Bool Reals Lia Lra.
From Flocq Require Import Core BinarySingleNaN.
From Verif Require Import IeeeModel IeeeSpec IeeeReal IeeeProofs IeeeAcc.
Import ListNotations.
Local Open Scope R_scope.

Lemma fx32 k : (-100 <= k)%Z -> (SpecFloat.fexp 24 128 (k + 1) <= k)%Z.
Proof. unfold SpecFloat.fexp, SpecFloat.emin. lia. Qed.
Lemma fx64 k : (-100 <= k)%Z -> (SpecFloat.fexp 53 1024 (k + 1) <= k)%Z.
Proof. unfold SpecFloat.fexp, SpecFloat.emin. lia. Qed.
Lemma r32_lt k x : (-100 <= k)%Z -> r32 x < bpow radix2 k -> x < bpow radix2 k.
Proof. intros H. apply (rndf_lt_pow 24 128 p24). apply fx32; exact H. Qed.
Lemma r64_lt k x : (-100 <= k)%Z -> r64 x < bpow radix2 k -> x < bpow radix2 k.
Proof. intros H. apply (rndf_lt_pow 53 1024 q53). apply fx64; exact H. Qed.
Lemma r32_gt k x : (-100 <= k)%Z -> - bpow radix2 k < r32 x -> - bpow radix2 k < x.
Proof. intros H L. assert (- x < bpow radix2 k); [|lra]. apply r32_lt; [exact H|]. rewrite rndf_opp. lra. Qed.
Lemma r64_gt k x : (-100 <= k)%Z -> - bpow radix2 k < r64 x -> - bpow radix2 k < x.
Proof. intros H L. assert (- x < bpow radix2 k); [|lra]. apply r64_lt; [exact H|]. rewrite rndf_opp. lra. Qed.

(** a sampled position in an image of at most 4096 pixels *)
Lemma place_sum k a b c X Y : 0 <= placeR k a b c X Y < 4096 -> -1 < c + dotR k a X b Y < 8192.
Proof.
  intros [L U]. unfold placeR, midR in *. set (g := c + dotR k a X b Y) in *. clearbody g.
  assert (B0 : bpow radix2 0 = 1) by reflexivity. assert (B12 : bpow radix2 12 = 4096) by reflexivity. assert (B13 : bpow radix2 13 = 8192) by reflexivity.
  split.
  - assert (H : - bpow radix2 0 < r32 (r64 (r64 (r32 g) - / 2))) by (rewrite B0; lra).
    apply r32_gt in H; [|lia]. apply r64_gt in H; [|lia]. rewrite B0 in H.
    assert (H' : - bpow radix2 0 < r64 (r32 g)) by (rewrite B0; lra). apply r64_gt in H'; [|lia]. apply r32_gt in H'; [|lia]. rewrite B0 in H'. lra.
  - rewrite <- B12 in U. apply r32_lt in U; [|lia]. apply r64_lt in U; [|lia]. rewrite B12 in U.
    assert (H' : r64 (r32 g) < bpow radix2 13) by (rewrite B13; lra). apply r64_lt in H'; [|lia]. apply r32_lt in H'; [|lia]. rewrite B13 in H'. lra.
Qed.
Lemma dotR_opp k a X b Y : dotR k a (- X) b (- Y) = - dotR k a X b Y.
Proof.
  destruct k; cbn [dotR]; rewrite <- (rndf_opp 24 128); f_equal; rewrite !Ropp_mult_distr_r_reverse, !rndf_opp; ring.
Qed.
(** the two products as they enter the sum *)
Definition leftR (k : contraction) (a X : R) : R := match k with FuseFirst => a * X | _ => r32 (a * X) end.
Definition rightR (k : contraction) (b Y : R) : R := match k with FuseSecond => b * Y | _ => r32 (b * Y) end.
Lemma dotR_parts k a X b Y : dotR k a X b Y = r32 (leftR k a X + rightR k b Y).
Proof. destruct k; cbn; [reflexivity|reflexivity|f_equal; ring]. Qed.
Lemma leftR_opp k a X : leftR k a (- X) = - leftR k a X.
Proof. destruct k; cbn [leftR]; rewrite Ropp_mult_distr_r_reverse; try apply rndf_opp; reflexivity. Qed.
Lemma rightR_opp k a X : rightR k a (- X) = - rightR k a X.
Proof. destruct k; cbn [rightR]; rewrite Ropp_mult_distr_r_reverse; try apply rndf_opp; reflexivity. Qed.
Lemma leftR_lt k a X : Rabs (leftR k a X) < 8192 -> Rabs (a * X) < 8192.
Proof.
  assert (B13 : bpow radix2 13 = 8192) by reflexivity. rewrite <- B13.
  destruct k; cbn [leftR]; auto; intros H; apply Rabs_def2 in H as [H1 H2]; apply Rabs_def1; [apply r32_lt|apply r32_gt|apply r32_lt|apply r32_gt]; auto; lia.
Qed.
Lemma rightR_lt k a X : Rabs (rightR k a X) < 8192 -> Rabs (a * X) < 8192.
Proof.
  assert (B13 : bpow radix2 13 = 8192) by reflexivity. rewrite <- B13.
  destruct k; cbn [rightR]; auto; intros H; apply Rabs_def2 in H as [H1 H2]; apply Rabs_def1; [apply r32_lt|apply r32_gt|apply r32_lt|apply r32_gt]; auto; lia.
Qed.
Lemma r32_err13 x : Rabs x <= 8192 -> Rabs (r32 x - x) <= / 2048.
Proof. intros H. change (/ 2048) with (bpow radix2 (13 - 24)). apply r32_err; [lia|exact H]. Qed.
Lemma r32_err14 x : Rabs x <= 16384 -> Rabs (r32 x - x) <= / 1024.
Proof. intros H. change (/ 1024) with (bpow radix2 (14 - 24)). apply r32_err; [lia|exact H]. Qed.
Lemma r64_err14 x : Rabs x <= 16384 -> Rabs (r64 x - x) <= / 549755813888.
Proof.
  intros H. change (/ 549755813888) with (bpow radix2 (14 - 53)). apply (rndf_err 53 1024 q53); [exact H|]. unfold SpecFloat.fexp, SpecFloat.emin. lia.
Qed.
Lemma leftR_err k a X : Rabs (a * X) <= 8192 -> Rabs (leftR k a X - a * X) <= / 2048.
Proof. intros H. destruct k; cbn [leftR]; try (apply r32_err13; exact H). rewrite Rminus_diag_eq, Rabs_R0 by reflexivity. lra. Qed.
Lemma rightR_err k a X : Rabs (a * X) <= 8192 -> Rabs (rightR k a X - a * X) <= / 2048.
Proof. intros H. destruct k; cbn [rightR]; try (apply r32_err13; exact H). rewrite Rminus_diag_eq, Rabs_R0 by reflexivity. lra. Qed.

Lemma corner_bounds k a b c X Y :
  0 <= placeR k a b c X Y < 4096 -> 0 <= placeR k a b c (- X) (- Y) < 4096 ->
  0 <= placeR k a b c X (- Y) < 4096 -> 0 <= placeR k a b c (- X) Y < 4096 ->
  Rabs (a * X) < 8192 /\ Rabs (b * Y) < 8192.
Proof.
  intros H1 H2 H3 H4. apply place_sum in H1, H2, H3, H4. rewrite dotR_opp in H2.
  replace (dotR k a (- X) b Y) with (- dotR k a X b (- Y)) in H4 by (rewrite <- dotR_opp, Ropp_involutive; reflexivity).
  assert (D1 : -8192 < dotR k a X b Y < 8192) by lra. assert (D2 : -8192 < dotR k a X b (- Y) < 8192) by lra.
  rewrite dotR_parts in D1, D2. rewrite rightR_opp in D2.
  assert (B13 : bpow radix2 13 = 8192) by reflexivity. rewrite <- B13 in D1, D2.
  destruct D1 as [D1 D1']. destruct D2 as [D2 D2'].
  replace (-8192) with (- bpow radix2 13) in D1, D2 by (rewrite B13; lra).
  apply r32_gt in D1; [|lia]. apply r32_lt in D1'; [|lia]. apply r32_gt in D2; [|lia]. apply r32_lt in D2'; [|lia]. rewrite B13 in *.
  split; [apply (leftR_lt k)|apply (rightR_lt k)]; apply Rabs_def1; lra.
Qed.
Lemma r32_abs13 x : Rabs x <= 8192 -> Rabs (r32 x) <= 8192.
Proof. intros H. change 8192 with (bpow radix2 13). apply (rndf_abs_le_pow 24 128 p24); [apply fx32; lia|exact H]. Qed.
Lemma leftR_abs k a X : Rabs (a * X) <= 8192 -> Rabs (leftR k a X) <= 8192.
Proof. intros H. destruct k; cbn [leftR]; auto using r32_abs13. Qed.
Lemma rightR_abs k a X : Rabs (a * X) <= 8192 -> Rabs (rightR k a X) <= 8192.
Proof. intros H. destruct k; cbn [rightR]; auto using r32_abs13. Qed.
Lemma place_error k a b c X Y : Rabs (a * X) <= 8192 -> Rabs (b * Y) <= 8192 -> 0 <= placeR k a b c X Y < 4096 ->
  Rabs (placeR k a b c X Y - (c + (a * X + b * Y) - / 2)) <= / 256.
Proof.
  intros HA HB HP. pose proof (place_sum _ _ _ _ _ _ HP) as HS. unfold placeR, midR in *.
  pose proof (leftR_err k a X HA) as EA. pose proof (rightR_err k b Y HB) as EB.
  pose proof (leftR_abs k a X HA) as AA. pose proof (rightR_abs k b Y HB) as AB. rewrite dotR_parts in *.
  apply Rabs_le_inv in EA, EB, HA, HB, AA, AB.
  set (s := leftR k a X + rightR k b Y) in *.
  assert (Es : Rabs (r32 s - s) <= / 1024) by (apply r32_err14; apply Rabs_le; unfold s; lra).
  set (g := c + r32 s) in *.
  assert (Eg : Rabs (r32 g - g) <= / 2048) by (apply r32_err13; apply Rabs_le; lra).
  apply Rabs_le_inv in Es, Eg.
  assert (Eh : Rabs (r64 (r32 g) - r32 g) <= / 549755813888) by (apply r64_err14; apply Rabs_le; lra).
  apply Rabs_le_inv in Eh. set (h := r64 (r32 g)) in *.
  assert (Ei : Rabs (r64 (h - / 2) - (h - / 2)) <= / 549755813888) by (apply r64_err14; apply Rabs_le; lra).
  apply Rabs_le_inv in Ei. set (i := r64 (h - / 2)) in *.
  assert (Ej : Rabs (r32 i - i) <= / 1024) by (apply r32_err14; apply Rabs_le; lra).
  apply Rabs_le_inv in Ej. apply Rabs_le. unfold g, s in *. lra.
Qed.

(** patch pixels inside have smaller offsets than the corners *)
Lemma offset_abs half x a : (0 < half)%Z -> (0 <= x < 2 * half)%Z -> Rabs (a * (IZR (x - half) + / 2)) <= Rabs (a * (IZR half - / 2)).
Proof.
  intros Hh Hx. rewrite !Rabs_mult. apply Rmult_le_compat_l; [apply Rabs_pos|].
  assert (IZR half >= 1) by (apply IZR_ge; lia). rewrite (Rabs_pos_eq (IZR half - / 2)) by lra.
  assert (- IZR half <= IZR (x - half)) by (rewrite <- opp_IZR; apply IZR_le; lia).
  assert (IZR (x - half) <= IZR half - 1) by (rewrite <- minus_IZR; apply IZR_le; lia). apply Rabs_le. lra.
Qed.
Lemma axis_position k a b c half size : (0 < half <= 4194304)%Z -> (size <= 4096)%Z ->
  (forall x y, on_corner half x -> on_corner half y ->
     exists z, floor32 (place32 k a b c half x y) = Some z /\ (0 <= z < size - 1)%Z) ->
  forall x y, (0 <= x < 2 * half)%Z -> (0 <= y < 2 * half)%Z ->
  let u := place32 k a b c half x y in
  F u /\ 0 <= B2R u < IZR (size - 1) /\
  Rabs (B2R u - (B2R c + (B2R a * (IZR (x - half) + / 2) + B2R b * (IZR (y - half) + / 2)) - / 2)) <= / 256 /\
  floor32 u = Some (Zfloor (B2R u)).
Proof.
  intros Hh Hs HC x y Hx Hy u.
  assert (S : IZR (size - 1) < 4096) by (apply IZR_lt; lia).
  destruct (inside k a b c half size Hh HC x y Hx Hy) as (_ & Fu & Eu & Ru & z & Ez & _). fold u in Fu, Eu, Ru, Ez.
  split; [exact Fu|]. split; [exact Ru|]. split.
  - assert (cr : forall x y, on_corner half x -> on_corner half y ->
       0 <= placeR k (B2R a) (B2R b) (B2R c) (IZR (x - half) + / 2) (IZR (y - half) + / 2) < 4096).
    { intros x' y' Hx' Hy'. destruct (corner_in k a b c half size Hh HC x' y' Hx' Hy') as (_ & _ & _ & _ & R & _). lra. }
    set (m := IZR half - / 2).
    assert (E0 : IZR (0 - half) + / 2 = - m) by (rewrite minus_IZR; unfold m; lra).
    assert (E1 : IZR (2 * half - 1 - half) + / 2 = m) by (replace (2 * half - 1 - half)%Z with (half - 1)%Z by lia; rewrite minus_IZR; unfold m; lra).
    pose proof (cr _ _ (or_intror eq_refl) (or_intror eq_refl)) as C1. pose proof (cr _ _ (or_introl eq_refl) (or_introl eq_refl)) as C2.
    pose proof (cr _ _ (or_intror eq_refl) (or_introl eq_refl)) as C3. pose proof (cr _ _ (or_introl eq_refl) (or_intror eq_refl)) as C4.
    rewrite E1 in C1. rewrite E0 in C2. rewrite E0, E1 in C3. rewrite E0, E1 in C4. destruct (corner_bounds _ _ _ _ _ _ C1 C2 C3 C4) as [BA BB].
    rewrite Eu. apply place_error.
    + eapply Rle_trans; [apply (offset_abs half); [lia|exact Hx]|]. apply Rlt_le. exact BA.
    + eapply Rle_trans; [apply (offset_abs half); [lia|exact Hy]|]. apply Rlt_le. exact BB.
    + rewrite <- Eu. lra.
  - apply floor32_spec in Ez as Ez'. destruct Ez' as (_ & -> & _). exact Ez.
Qed.

(** patch pixel (x,y) is element y*edge+x *)
Lemma collect_nth {A} (l : list (option A)) r i : collect l = Some r -> forall o, nth_error l i = Some o -> exists a, o = Some a /\ nth_error r i = Some a.
Proof.
  revert r i. induction l as [|o l IH]; cbn [collect]; intros r i H o' Hn; [destruct i; discriminate|].
  destruct o as [a|]; [|discriminate]. apply obind_some in H as (b & Hb & H). injection H as <-.
  destruct i as [|i]; cbn [nth_error] in *; [injection Hn as <-; eauto|eauto].
Qed.
Lemma nth_zupto k x : (x < Z.to_nat k)%nat -> nth_error (zupto k) x = Some (Z.of_nat x).
Proof.
  intros H. unfold zupto. rewrite nth_error_map. rewrite (nth_error_nth' _ 0%nat) by (rewrite seq_length; exact H). rewrite seq_nth by exact H. reflexivity.
Qed.
Lemma nth_flat {A B} (f : A -> list B) c l y x a : (forall z, length (f z) = c) -> (x < c)%nat -> nth_error l y = Some a ->
  nth_error (flat_map f l) (y * c + x) = nth_error (f a) x.
Proof.
  intros Hc Hx. revert y. induction l as [|b l IH]; intros y H; [destruct y; discriminate|].
  destruct y as [|y]; cbn [flat_map nth_error] in *.
  - injection H as ->. rewrite nth_error_app1 by (rewrite Hc; lia). f_equal.
  - rewrite nth_error_app2 by (rewrite Hc; lia). rewrite Hc. rewrite <- (IH y H). f_equal. lia.
Qed.
Lemma extracts_nth k fuse n im (ident : bool) w cx cy border l x y :
  let half := half_edge n border in let e := Z.to_nat (2 * half) in
  extracts k fuse n im ident w cx cy border = Some l -> (x < e)%nat -> (y < e)%nat ->
  exists r, nth_error l (y * e + x) = Some r /\
    (if ident then pixel_id fuse im half cx cy (Z.of_nat x) (Z.of_nat y) else pixel_warp k fuse im w half cx cy (Z.of_nat x) (Z.of_nat y)) = Some r.
Proof.
  intros half e H Hx Hy. unfold extracts in H. fold half in H.
  eapply collect_nth with (i := (y * e + x)%nat) in H.
  2:{ rewrite (nth_flat _ e _ y x (Z.of_nat y)); [|intros z; rewrite map_length; apply zupto_len|exact Hx|apply nth_zupto; exact Hy].
      rewrite nth_error_map, nth_zupto by exact Hx. cbn [option_map]. reflexivity. }
  destruct H as (a & E & N). exists a. split; [exact N|exact E].
Qed.

Lemma even_edge n border : Nat.Even n -> Z.to_nat (2 * half_edge n border) = patch_edge n border.
Proof. intros [m ->]. unfold half_edge, patch_edge. rewrite Nat.div2_double. destruct border; lia. Qed.
Lemma edge_real n border : Nat.Even n -> IZR (half_edge n border) = INR (patch_edge n border) / 2.
Proof.
  intros H. rewrite <- (even_edge n border H), INR_IZR_INZ, Z2Nat.id; [rewrite mult_IZR; lra|]. unfold half_edge. destruct border; lia.
Qed.

Lemma shift_floor x z : Zfloor (x + IZR z) = (Zfloor x + z)%Z.
Proof. apply Zfloor_imp. rewrite !plus_IZR. pose proof (Zfloor_lb x). pose proof (Zfloor_ub x). lra. Qed.

Lemma patch_accurate k fuse n im (ident : bool) w cx cy border l x y :
  Nat.Even n -> (Z.of_nat n <= 4194304)%Z -> image_within 4096 im -> bytes im ->
  (ident = true -> number cx /\ number cy) ->
  accepts k n im ident w cx cy border = Some true ->
  extracts k fuse n im ident w cx cy border = Some l ->
  (x < patch_edge n border)%nat -> (y < patch_edge n border)%nat ->
  exists r u v, nth_error l (y * patch_edge n border + x) = Some r /\ finite r /\
    Rabs (real r - interp im u v) <= / 1024 /\
    Rabs (u - fst (spot ident w cx cy (patch_edge n border) x y)) <= / 256 /\
    Rabs (v - snd (spot ident w cx cy (patch_edge n border) x y)) <= / 256 /\
    (ident = true -> (u, v) = spot ident w cx cy (patch_edge n border) x y) /\
    0 <= u <= IZR (bcols im - 1) /\ 0 <= v <= IZR (brows im - 1).
Proof.
  intros Ev Hn [Hc Hr] Hb Hnan HA HE Hx Hy.
  pose proof (half_edge_range n border Hn) as Hh.
  pose proof (extracts_nth k fuse n im ident w cx cy border l x y) as N. cbv zeta in N. rewrite (even_edge n border Ev) in N.
  destruct (N HE Hx Hy) as (r & Nr & Pr). clear N. exists r.
  pose proof (even_edge n border Ev) as Ee. pose proof (edge_real n border Ev) as Er.
  unfold accepts in HA. set (half := half_edge n border) in *. clearbody half.
  assert (Hx' : (0 <= Z.of_nat x < 2 * half)%Z) by lia. assert (Hy' : (0 <= Z.of_nat y < 2 * half)%Z) by lia.
  set (e := patch_edge n border) in *. clearbody e.
  assert (OX : IZR (Z.of_nat x - half) + / 2 = INR x - (INR e - 1) / 2) by (rewrite minus_IZR, <- INR_IZR_INZ; lra).
  assert (OY : IZR (Z.of_nat y - half) + / 2 = INR y - (INR e - 1) / 2) by (rewrite minus_IZR, <- INR_IZR_INZ; lra).
  destruct ident.
  - destruct (Hnan eq_refl) as [N1 N2]. injection HA as H. unfold accept_id in H. apply negb_true_iff in H.
    apply orb_false_iff in H as [H H4]. apply orb_false_iff in H as [H H3]. apply orb_false_iff in H as [H1 H2].
    destruct (id_axis half (bcols im) cx Hh ltac:(lia) N1 H1 H3) as (Fcx & Rcx & ur & Eu & Zu & Lu & Uu & _).
    destruct (id_axis half (brows im) cy Hh ltac:(lia) N2 H2 H4) as (Fcy & Rcy & vr & Ev' & Zv & Lv & Uv & _).
    unfold pixel_id in Pr. rewrite Eu, Ev' in Pr. cbn [obind] in Pr.
    assert (PH : 0 <= IZR half) by (apply IZR_le; lia).
    destruct (frac_val cx ur Fcx ltac:(lra) Zu ltac:(lia)) as (Fs & Es & Rs). destruct (frac_val cy vr Fcy ltac:(lra) Zv ltac:(lia)) as (Ft & Et & Rt).
    assert (Rs' := Rs). assert (Rt' := Rt). rewrite <- Es in Rs'. rewrite <- Et in Rt'.
    pose proof (blend_acc fuse im _ _ _ _ r Hb Fs Ft (conj (proj1 Rs') (Rlt_le _ _ (proj2 Rs'))) (conj (proj1 Rt') (Rlt_le _ _ (proj2 Rt'))) Pr) as [Fr Ar]. rewrite Es, Et in Ar.
    set (u := B2R cx + IZR (Z.of_nat x - half)). set (v := B2R cy + IZR (Z.of_nat y - half)). exists u, v.
    assert (SP : spot true w cx cy e x y = (u, v)).
    { unfold spot, real, u, v. cbv zeta. f_equal; lra. }
    rewrite SP. cbn [fst snd].
    assert (Z0 : forall t, Rabs (t - t) <= / 256) by (intros t; rewrite Rminus_diag_eq, Rabs_R0 by reflexivity; lra).
    split; [exact Nr|]. split; [exact Fr|]. split.
    + unfold real. rewrite (interp_eq im u v (ur - half + Z.of_nat x) (vr + Z.of_nat y - half) (B2R cx - IZR ur) (B2R cy - IZR vr)); [exact Ar| | | | ].
      * unfold u. rewrite shift_floor, <- Zu. lia.
      * unfold v. rewrite shift_floor, <- Zv. lia.
      * unfold u. rewrite plus_IZR, !minus_IZR. lra.
      * unfold v. rewrite !minus_IZR, plus_IZR. lra.
    + split; [apply Z0|]. split; [apply Z0|]. split; [reflexivity|].
      assert (BX : - IZR half <= IZR (Z.of_nat x - half) <= IZR half - 1) by (rewrite <- opp_IZR, <- minus_IZR; split; apply IZR_le; lia).
      assert (BY : - IZR half <= IZR (Z.of_nat y - half) <= IZR half - 1) by (rewrite <- opp_IZR, <- minus_IZR; split; apply IZR_le; lia).
      rewrite minus_IZR in Rcx, Rcy. rewrite !minus_IZR. unfold u, v. lra.
  - assert (Hp : (0 < half)%Z) by lia.
    pose proof (corners_true _ _ _ _ _ _ Hp HA) as C.
    destruct (axis_position k (fw00 w) (fw01 w) cx half (bcols im)) with (x := Z.of_nat x) (y := Z.of_nat y) as (Fu & Ru & Au & Eu); auto; [lia|lia|intros; apply C; assumption|].
    destruct (axis_position k (fw10 w) (fw11 w) cy half (brows im)) with (x := Z.of_nat x) (y := Z.of_nat y) as (Fv & Rv & Av & Ev'); auto; [lia|lia|intros; apply C; assumption|].
    rewrite OX, OY in Au, Av. unfold pixel_warp in Pr.
    set (u := place32 k (fw00 w) (fw01 w) cx half (Z.of_nat x) (Z.of_nat y)) in *. set (v := place32 k (fw10 w) (fw11 w) cy half (Z.of_nat x) (Z.of_nat y)) in *.
    rewrite Eu, Ev' in Pr. cbn [obind] in Pr.
    assert (Zu : (Zfloor (B2R u) <= 16777216)%Z).
    { apply le_IZR. eapply Rle_trans; [apply Zfloor_lb|]. apply Rle_trans with (IZR (bcols im - 1)); [lra|apply IZR_le; lia]. }
    assert (Zv : (Zfloor (B2R v) <= 16777216)%Z).
    { apply le_IZR. eapply Rle_trans; [apply Zfloor_lb|]. apply Rle_trans with (IZR (brows im - 1)); [lra|apply IZR_le; lia]. }
    destruct (frac_val u _ Fu ltac:(lra) eq_refl Zu) as (Fs & Es & Rs). destruct (frac_val v _ Fv ltac:(lra) eq_refl Zv) as (Ft & Et & Rt).
    assert (Rs' := Rs). assert (Rt' := Rt). rewrite <- Es in Rs'. rewrite <- Et in Rt'.
    pose proof (blend_acc fuse im _ _ _ _ r Hb Fs Ft (conj (proj1 Rs') (Rlt_le _ _ (proj2 Rs'))) (conj (proj1 Rt') (Rlt_le _ _ (proj2 Rt'))) Pr) as [Fr Ar]. rewrite Es, Et in Ar.
    exists (B2R u), (B2R v). split; [exact Nr|]. split; [exact Fr|]. split; [exact Ar|].
    unfold spot, real. cbn [fst snd]. replace (1 / 2) with (/ 2) by lra.
    split; [exact Au|]. split; [exact Av|]. split; [discriminate|]. lra.
Qed.
