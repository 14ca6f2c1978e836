From Coq Require Import List ZArith QArith Qround Qabs Qpower Bool Lia Lqa.
From Verif Require Import PatchModel PatchSpec PatchProofs PyrModel PyrSpec.
Import ListNotations.
Local Open Scope Q_scope.

(** ** powers of two *)
Definition p2 (l : nat) : Q := inject_Z (2 ^ Z.of_nat l).
Lemma p2_pos l : 0 < p2 l.
Proof. unfold p2. change 0 with (inject_Z 0). rewrite <- Zlt_Qlt. apply Z.pow_pos_nonneg; lia. Qed.
Lemma p2_nz l : ~ p2 l == 0.
Proof. pose proof (p2_pos l). intros E. lra. Qed.
Lemma p2_S l : p2 (S l) == 2 * p2 l.
Proof. unfold p2. rewrite Nat2Z.inj_succ, Z.pow_succ_r by lia. rewrite inject_Z_mult. reflexivity. Qed.
Lemma p2_0 : p2 0 == 1. Proof. reflexivity. Qed.
Lemma p2_mono i l : (i <= l)%nat -> p2 i <= p2 l.
Proof. intros H. unfold p2. rewrite <- Zle_Qle. apply Z.pow_le_mono_r; lia. Qed.
Lemma p2_ge1 l : 1 <= p2 l. Proof. rewrite <- p2_0. apply p2_mono. lia. Qed.
Lemma half_pow_nat l : half_pow (Z.of_nat l) == / p2 l.
Proof.
  unfold half_pow. induction l as [|l IH]; [reflexivity|]. rewrite Nat2Z.inj_succ. unfold Z.succ.
  rewrite Qpower_plus by discriminate. rewrite IH, p2_S. change ((1 # 2) ^ 1) with (1 # 2). field. apply p2_nz.
Qed.
Lemma half_pow_diff a b : half_pow (Z.of_nat a - Z.of_nat b) == p2 b / p2 a.
Proof.
  unfold half_pow. unfold Z.sub. rewrite Qpower_plus by discriminate. rewrite Qpower_opp. fold (half_pow (Z.of_nat a)) (half_pow (Z.of_nat b)).
  rewrite !half_pow_nat. field. split; apply p2_nz.
Qed.
Lemma half_pow_2 i : half_pow (2 - Z.of_nat i) == p2 i / 4.
Proof. change 2%Z with (Z.of_nat 2). rewrite half_pow_diff. reflexivity. Qed.

(** ** one dimension *)
Definition tr1 (ct : nat -> Q) (c : Q) (l1 l2 : nat) : Q :=
  (ct l1 - ct l2) * half_pow (Z.of_nat l2) + c * half_pow (Z.of_nat l2 - Z.of_nat l1).
Lemma tr1_eq ct c l1 l2 : tr1 ct c l1 l2 == (ct l1 - ct l2 + c * p2 l1) / p2 l2.
Proof. unfold tr1. rewrite half_pow_nat, half_pow_diff. field. apply p2_nz. Qed.
Lemma level_c_fst ct c l1 l2 : fst (level_c ct c l1 l2) = tr1 (fun l => fst (ct l)) (fst c) l1 l2. Proof. reflexivity. Qed.
Lemma level_c_snd ct c l1 l2 : snd (level_c ct c l1 l2) = tr1 (fun l => snd (ct l)) (snd c) l1 l2. Proof. reflexivity. Qed.

Lemma tr1_compose ct c l1 l2 l3 : tr1 ct (tr1 ct c l1 l2) l2 l3 == tr1 ct c l1 l3.
Proof.
  rewrite (tr1_eq ct (tr1 ct c l1 l2)), (tr1_eq ct c l1 l3), (tr1_eq ct c l1 l2). field. split; apply p2_nz.
Qed.
Lemma tr1_same ct c l : tr1 ct c l l == c.
Proof. rewrite tr1_eq. field. apply p2_nz. Qed.
Lemma level_compose ct c l1 l2 l3 : peq (level_c ct (level_c ct c l1 l2) l2 l3) (level_c ct c l1 l3).
Proof. split; rewrite ?level_c_fst, ?level_c_snd; apply tr1_compose. Qed.
Lemma level_same ct c l : peq (level_c ct c l l) c.
Proof. split; rewrite ?level_c_fst, ?level_c_snd; apply tr1_same. Qed.
Lemma level_inverse ct c l1 l2 : peq (level_c ct (level_c ct c l1 l2) l2 l1) c.
Proof. split; rewrite ?level_c_fst, ?level_c_snd, tr1_compose; apply tr1_same. Qed.

(** ** sizes *)
Lemma size_S n l : size_at n (S l) = (size_at n l / 2)%Z.
Proof. unfold size_at. rewrite Nat2Z.inj_succ, Z.pow_succ_r by lia. rewrite Z.mul_comm. rewrite Z.div_div by lia. reflexivity. Qed.
Lemma size_mul n i l : (i <= l)%nat -> inject_Z (size_at n l) * p2 l <= inject_Z (size_at n i) * p2 i.
Proof.
  intros H. replace l with (i + (l - i))%nat by lia. generalize (l - i)%nat as k. clear H l. induction k as [|k IH].
  - rewrite Nat.add_0_r. apply Qle_refl.
  - apply Qle_trans with (2 := IH). replace (i + S k)%nat with (S (i + k)) by lia. rewrite p2_S, size_S.
    pose proof (Z.mul_div_le (size_at n (i + k)) 2 ltac:(lia)) as D. rewrite Zle_Qle, inject_Z_mult in D. change (inject_Z 2) with 2 in D.
    pose proof (p2_pos (i + k)). nra.
Qed.
Lemma size_nonneg n l : (0 <= n)%Z -> (0 <= size_at n l)%Z.
Proof. intros. unfold size_at. apply Z.div_pos; auto. apply Z.pow_pos_nonneg; lia. Qed.

(** ** centres *)
Definition kap (usecv : bool) : Q := if usecv then 2 else 1.
Lemma shift_bounds usecv n i : 0 <= shift usecv n (S i) /\ shift usecv n (S i) <= kap usecv * (p2 (S i) - p2 i) / 2.
Proof.
  unfold shift. cbn [pred]. rewrite half_pow_2. pose proof (Z.mod_pos_bound (size_at n i) 2 ltac:(lia)) as M.
  set (o := (size_at n i mod 2 + (if usecv then 1 else 0))%Z).
  assert (O : 0 <= inject_Z o /\ inject_Z o <= kap usecv).
  { unfold o, kap. split; [change 0 with (inject_Z 0)|destruct usecv; [change 2 with (inject_Z 2)|change 1 with (inject_Z 1)]]; rewrite <- Zle_Qle; try destruct usecv; lia. }
  rewrite p2_S. pose proof (p2_pos i). generalize dependent (inject_Z o). intros z [Z1 Z2]. split.
  - assert (0 <= 2 * p2 i / 4 * z); [|auto]. apply Qmult_le_0_compat; [|auto]. apply Qle_shift_div_l; lra.
  - assert (E : 2 * p2 i / 4 * z == p2 i * z / 2) by field. rewrite E.
    assert (E2 : kap usecv * (2 * p2 i - p2 i) / 2 == p2 i * kap usecv / 2) by field. rewrite E2.
    apply Qmult_le_compat_r; [|discriminate]. nra.
Qed.
Lemma center_bounds usecv n i l : (i <= l)%nat ->
  0 <= center1 usecv n i - center1 usecv n l /\ center1 usecv n i - center1 usecv n l <= kap usecv * (p2 l - p2 i) / 2.
Proof.
  intros H. replace l with (i + (l - i))%nat by lia. generalize (l - i)%nat as k. clear H l. induction k as [|k [IH1 IH2]].
  - rewrite Nat.add_0_r. split; [lra|]. assert (E : kap usecv * (p2 i - p2 i) / 2 == 0) by field. lra.
  - replace (i + S k)%nat with (S (i + k)) by lia. cbn [center1]. destruct (shift_bounds usecv n (i + k)) as [S1 S2].
    split; [lra|]. assert (E : kap usecv * (p2 (S (i + k)) - p2 i) / 2 == kap usecv * (p2 (i + k) - p2 i) / 2 + kap usecv * (p2 (S (i + k)) - p2 (i + k)) / 2) by field. lra.
Qed.
(** with even sizes: exactly 0 for half-sampling and (p2 l - p2 i)/2 for pyrDown *)
Lemma even_mod z : Z.even z = true -> (z mod 2 = 0)%Z.
Proof. intros H. apply Z.even_spec in H as [k ->]. rewrite Z.mul_comm. apply Z.mod_mul. lia. Qed.
Lemma center_even usecv n l : even_below n l -> forall i, (i <= l)%nat -> center1 usecv n i == if usecv then (1 - p2 i) / 2 else 0.
Proof.
  intros E. induction i as [|i IH]; intros H.
  - destruct usecv; reflexivity.
  - cbn [center1]. rewrite IH by lia. unfold shift. cbn [pred]. rewrite half_pow_2, (even_mod _ (E i ltac:(lia))).
    destruct usecv; rewrite !p2_S; cbn [Z.add]; [change (inject_Z 1) with 1|change (inject_Z 0) with 0]; field.
Qed.

(** ** C28 *)
Lemma halfsampled_even w h l c : even_below w l -> even_below h l -> peq (level_c (centers false w h) c 0 l) (sampled_at l c).
Proof.
  intros W H. split; [rewrite level_c_fst|rewrite level_c_snd]; rewrite tr1_eq; unfold centers, sampled_at; cbn [fst snd];
  fold (p2 l).
  - rewrite (center_even false h l H 0), (center_even false h l H l) by lia. rewrite p2_0. field. apply p2_nz.
  - rewrite (center_even false w l W 0), (center_even false w l W l) by lia. rewrite p2_0. field. apply p2_nz.
Qed.
Lemma pyrdown_even w h l c : even_below w l -> even_below h l -> peq (level_c (centers true w h) c 0 l) (pyrdown_at l c).
Proof.
  intros W H. split; [rewrite level_c_fst|rewrite level_c_snd]; rewrite tr1_eq; unfold centers, pyrdown_at; cbn [fst snd];
  fold (p2 l).
  - rewrite (center_even true h l H 0), (center_even true h l H l) by lia. rewrite p2_0. field. apply p2_nz.
  - rewrite (center_even true w l W 0), (center_even true w l W l) by lia. rewrite p2_0. field. apply p2_nz.
Qed.
Lemma err1 n l c : 0 <= tr1 (center1 false n) c 0 l - c / p2 l /\ tr1 (center1 false n) c 0 l - c / p2 l < 1 # 2.
Proof.
  rewrite tr1_eq. destruct (center_bounds false n 0 l ltac:(lia)) as [A B]. rewrite p2_0 in *. unfold kap in B.
  assert (E : (center1 false n 0 - center1 false n l + c * 1) / p2 l - c / p2 l == (center1 false n 0 - center1 false n l) / p2 l) by (field; apply p2_nz).
  rewrite E. pose proof (p2_pos l). split; [apply Qle_shift_div_l; lra|]. apply Qlt_shift_div_r; [lra|].
  assert (1 * (p2 l - 1) / 2 == (p2 l - 1) * (1 # 2)) by field. lra.
Qed.
Lemma halfsampled_error w h l c : 
  let e := level_c (centers false w h) c 0 l in let t := sampled_at l c in
  (0 <= fst e - fst t /\ fst e - fst t < 1 # 2) /\ (0 <= snd e - snd t /\ snd e - snd t < 1 # 2).
Proof. split; [apply (err1 h)|apply (err1 w)]. Qed.
Lemma err1cv n l c : 0 <= tr1 (center1 true n) c 0 l - ((c - (1 # 2)) / p2 l + (1 # 2)) /\ tr1 (center1 true n) c 0 l - ((c - (1 # 2)) / p2 l + (1 # 2)) < 1 # 2.
Proof.
  assert (L : forall l, (p2 l - 1) / 2 <= center1 true n 0 - center1 true n l).
  { induction l0 as [|k IH]; [cbn [center1]; rewrite p2_0; discriminate|]. cbn [center1]. 
    assert (S : p2 k / 2 <= shift true n (S k)).
    { unfold shift. cbn [pred]. rewrite half_pow_2, p2_S. pose proof (Z.mod_pos_bound (size_at n k) 2 ltac:(lia)) as M.
      assert (O : 1 <= inject_Z (size_at n k mod 2 + 1)) by (change 1 with (inject_Z 1) at 1; rewrite <- Zle_Qle; lia).
      pose proof (p2_pos k). generalize dependent (inject_Z (size_at n k mod 2 + 1)). intros z Z1.
      assert (E : 2 * p2 k / 4 * z == p2 k * z / 2) by field. rewrite E. apply Qmult_le_compat_r; [nra|discriminate]. }
    rewrite p2_S. assert (E : (2 * p2 k - 1) / 2 == (p2 k - 1) / 2 + p2 k / 2) by field. cbn [center1] in IH. lra. }
  rewrite tr1_eq. destruct (center_bounds true n 0 l ltac:(lia)) as [A B]. specialize (L l). rewrite p2_0 in *. unfold kap in B.
  assert (E : (center1 true n 0 - center1 true n l + c * 1) / p2 l - ((c - (1 # 2)) / p2 l + (1 # 2)) == (center1 true n 0 - center1 true n l - (p2 l - 1) / 2) / p2 l) by (field; apply p2_nz).
  rewrite E. pose proof (p2_pos l). split; [apply Qle_shift_div_l; lra|]. apply Qlt_shift_div_r; [lra|].
  assert (2 * (p2 l - 1) / 2 == p2 l - 1) by field. assert ((p2 l - 1) / 2 == (p2 l - 1) * (1 # 2)) by field. lra.
Qed.
Lemma pyrdown_error w h l c : 
  let e := level_c (centers true w h) c 0 l in let t := pyrdown_at l c in
  (0 <= fst e - fst t /\ fst e - fst t < 1 # 2) /\ (0 <= snd e - snd t /\ snd e - snd t < 1 # 2).
Proof. split; [apply (err1cv h)|apply (err1cv w)]. Qed.

(** ** C29, one axis. [x i] is the coordinate on level i. *)
Section Axis.
Variables (usecv : bool) (ns nw : Z).   (* size used for the offsets / size of the axis itself *)
Hypothesis (Hw : (0 <= nw)%Z).
Variables (c : Q) (i l : nat).
Hypothesis (Hil : (i <= l)%nat).
Let xi := tr1 (center1 usecv ns) c 0 i.
Let xl := tr1 (center1 usecv ns) c 0 l.

Lemma axis_rel : exists d, 0 <= d /\ d <= kap usecv * (p2 l - p2 i) / 2 /\ p2 i * xi == p2 l * xl - d.
Proof.
  exists (center1 usecv ns i - center1 usecv ns l). destruct (center_bounds usecv ns i l Hil) as [A B].
  split; [auto|]. split; [auto|]. unfold xi, xl. rewrite !tr1_eq, p2_0. field. split; apply p2_nz.
Qed.

Lemma axis_identity (h : Z) : (1 <= h)%Z -> inject_Z h <= xl -> xl <= inject_Z (size_at nw l - h) ->
  inject_Z h <= xi /\ xi <= inject_Z (size_at nw i - h).
Proof.
  intros H1 L U. destruct axis_rel as (d&D0&D1&E). pose proof (p2_pos i). pose proof (p2_mono i l Hil). pose proof (size_mul nw i l Hil).
  rewrite Zle_Qle in H1. change (inject_Z 1) with 1 in H1.
  assert (K : kap usecv <= 2) by (unfold kap; destruct usecv; lra).
  assert (D2 : d <= p2 l - p2 i).
  { assert (kap usecv * (p2 l - p2 i) / 2 == kap usecv * (p2 l - p2 i) * (1 # 2)) by field. nra. }
  unfold Z.sub in *. rewrite inject_Z_plus, inject_Z_opp in *. 
  set (W := inject_Z (size_at nw l)) in *. set (V := inject_Z (size_at nw i)) in *. set (hh := inject_Z h) in *.
  clearbody W V hh. split.
  - assert (p2 i * hh <= p2 i * xi); [|apply (Qmult_le_l _ _ (p2 i)); auto]. nra.
  - assert (p2 i * xi <= p2 i * (V + - hh)); [|apply (Qmult_le_l _ _ (p2 i)); auto]. nra.
Qed.

(** [E]: extent of the warped patch; all sample offsets are within [-E,E] *)
Lemma axis_warp (E e : Q) : Qabs e <= E -> (usecv = false \/ even_below ns l \/ 1 # 2 <= E) ->
  (0 <= Qfloor (xl - E - (1 # 2)))%Z -> (Qfloor (xl + E - (1 # 2)) < size_at nw l - 1)%Z ->
  (0 <= Qfloor (xi + e - (1 # 2)) < size_at nw i - 1)%Z.
Proof.
  intros He Hc L U. apply Qabs_Qle_condition in He as [He1 He2].
  assert (L' : E + (1 # 2) <= xl).
  { rewrite Zle_Qle in L. pose proof (floor_le (xl - E - (1 # 2))). change (inject_Z 0) with 0 in L. lra. }
  assert (U' : xl + E < inject_Z (size_at nw l) - (1 # 2)).
  { pose proof (floor_lt (xl + E - (1 # 2))) as FL.
    assert (Q1 : (Qfloor (xl + E - (1 # 2)) + 1 <= size_at nw l - 1)%Z) by lia.
    rewrite Zle_Qle in Q1. unfold Z.sub in Q1. rewrite !inject_Z_plus in Q1. change (inject_Z 1) with 1 in Q1. change (inject_Z (-(1))) with (-(1)) in Q1. lra. }
  assert (EN : 0 <= E) by lra.
  destruct axis_rel as (d&D0&D1&ER). pose proof (p2_pos i). pose proof (p2_mono i l Hil) as PM. pose proof (size_mul nw i l Hil) as SM.
  set (W := inject_Z (size_at nw l)) in *. set (V := inject_Z (size_at nw i)) in *.
  assert (DD : d <= (p2 l - p2 i) * ((1 # 2) + E)).
  { assert (KE : kap usecv * (p2 l - p2 i) / 2 == kap usecv * (1 # 2) * (p2 l - p2 i)) by field. rewrite KE in D1.
    destruct Hc as [-> | [Ev | Hc]].
    - unfold kap in D1. nra.
    - assert (DE : d == if usecv then (p2 l - p2 i) / 2 else 0).
      { pose proof (center_even usecv ns l Ev i Hil) as C1. pose proof (center_even usecv ns l Ev l ltac:(lia)) as C2.
        assert (X : p2 i * xi == p2 l * xl - (center1 usecv ns i - center1 usecv ns l)).
        { unfold xi, xl. rewrite !tr1_eq, p2_0. field. split; apply p2_nz. }
        rewrite C1, C2 in X. destruct usecv.
        - assert ((p2 l - p2 i) / 2 == (1 - p2 i) / 2 - (1 - p2 l) / 2) by field. lra.
        - lra. }
      destruct usecv; [assert ((p2 l - p2 i) / 2 == (p2 l - p2 i) * (1 # 2)) by field; nra|nra].
    - assert (kap usecv <= 2) by (unfold kap; destruct usecv; lra). nra. }
  clearbody xi xl. split.
  - apply floor_ge. change (inject_Z 0) with 0.
    assert (0 <= p2 i * (xi + e - (1 # 2))); [nra|]. apply (Qmult_le_l _ _ (p2 i)); auto. lra.
  - apply floor_lt_z. unfold Z.sub. rewrite inject_Z_plus. change (inject_Z (-(1))) with (-(1)). fold V.
    assert (p2 i * (xi + e - (1 # 2)) < p2 i * (V + -(1))).
    2: { apply (Qmult_lt_l _ _ (p2 i)); auto. }
    destruct (Nat.eq_dec i l) as [EQ|NE].
    + subst i. assert (d <= 0) by lra. assert (V = W) by reflexivity. nra.
    + assert (P1 : 2 * p2 i <= p2 l).
      { rewrite <- p2_S. apply p2_mono. lia. }
      nra.
Qed.
End Axis.

(** ** C29, both axes *)
Definition off (a b : Q) (half x y : Z) : Q := a * (inject_Z (x - half) + (1 # 2)) + b * (inject_Z (y - half) + (1 # 2)).
Definition ext (a b : Q) (half : Z) : Q := (Qabs a + Qabs b) * (inject_Z half - (1 # 2)).
Definition corner (half x : Z) : Prop := x = 0%Z \/ x = (2 * half - 1)%Z.

Lemma corner_off half x : corner half x -> 
  (inject_Z (x - half) + (1 # 2) == - (inject_Z half - (1 # 2))) \/ (inject_Z (x - half) + (1 # 2) == inject_Z half - (1 # 2)).
Proof.
  intros [-> | ->].
  - left. unfold Z.sub. rewrite inject_Z_plus, inject_Z_opp. change (inject_Z 0) with 0. ring.
  - right. replace (2 * half - 1 - half)%Z with (half + -(1))%Z by lia. rewrite inject_Z_plus. change (inject_Z (-(1))) with (-(1)). ring.
Qed.
Lemma off_le a b half x y : (1 <= half)%Z -> corner half x -> corner half y -> Qabs (off a b half x y) <= ext a b half.
Proof.
  intros H Hx Hy. rewrite Zle_Qle in H. change (inject_Z 1) with 1 in H.
  unfold off, ext. pose proof (Qabs_triangle (a * (inject_Z (x - half) + (1 # 2))) (b * (inject_Z (y - half) + (1 # 2)))) as T.
  rewrite !Qabs_Qmult in T.
  assert (A : forall z, corner half z -> Qabs (inject_Z (z - half) + (1 # 2)) == inject_Z half - (1 # 2)).
  { intros z Hz. destruct (corner_off half z Hz) as [-> | ->]; [rewrite Qabs_opp|]; apply Qabs_pos; lra. }
  rewrite (A x Hx), (A y Hy) in T. lra.
Qed.
Lemma ext_hi a b half : exists x y, corner half x /\ corner half y /\ off a b half x y == ext a b half.
Proof.
  assert (S : forall a, exists x, corner half x /\ a * (inject_Z (x - half) + (1 # 2)) == Qabs a * (inject_Z half - (1 # 2))).
  { intros c. destruct (Qlt_le_dec c 0) as [L|L].
    - exists 0%Z. split; [now left|]. rewrite Qabs_neg by lra. unfold Z.sub. rewrite inject_Z_plus, inject_Z_opp. change (inject_Z 0) with 0. ring.
    - exists (2 * half - 1)%Z. split; [now right|]. rewrite Qabs_pos by lra.
      replace (2 * half - 1 - half)%Z with (half + -(1))%Z by lia. rewrite inject_Z_plus. change (inject_Z (-(1))) with (-(1)). ring. }
  destruct (S a) as (x&Hx&Ex), (S b) as (y&Hy&Ey). exists x, y. split; [auto|]. split; [auto|]. unfold off, ext. rewrite Ex, Ey. ring.
Qed.
Lemma ext_lo a b half : exists x y, corner half x /\ corner half y /\ off a b half x y == - ext a b half.
Proof.
  destruct (ext_hi (- a) (- b) half) as (x&y&Hx&Hy&E). exists x, y. split; [auto|]. split; [auto|].
  unfold off, ext in *. rewrite !Qabs_opp in E. rewrite <- E. ring.
Qed.

(** corner tests of one axis *)
Lemma corners_extent a b half c W : 
  (forall x y, corner half x -> corner half y -> (0 <= Qfloor (c + off a b half x y - (1 # 2)) < W)%Z) ->
  (0 <= Qfloor (c - ext a b half - (1 # 2)))%Z /\ (Qfloor (c + ext a b half - (1 # 2)) < W)%Z.
Proof.
  intros H. split.
  - destruct (ext_lo a b half) as (x&y&Hx&Hy&E). specialize (H x y Hx Hy).
    rewrite (Qfloor_comp (c - ext a b half - (1 # 2)) (c + off a b half x y - (1 # 2))); [lia|]. rewrite E. ring.
  - destruct (ext_hi a b half) as (x&y&Hx&Hy&E). specialize (H x y Hx Hy).
    rewrite (Qfloor_comp (c + ext a b half - (1 # 2)) (c + off a b half x y - (1 # 2))); [lia|]. rewrite E. ring.
Qed.
Lemma corner_ok_iff im w cx cy half x y : corner_ok (fun x => x) im w cx cy half x y = true <->
  (0 <= Qfloor (cx + off (w00 w) (w01 w) half x y - (1 # 2)) < cols im - 1)%Z /\
  (0 <= Qfloor (cy + off (w10 w) (w11 w) half x y - (1 # 2)) < rows im - 1)%Z.
Proof.
  unfold corner_ok. rewrite negb_true_iff, !orb_false_iff, !Z.ltb_ge, !Z.leb_gt. 
  change (sample_x (fun x => x) w cx half x y) with (cx + off (w00 w) (w01 w) half x y - (1 # 2)).
  change (sample_y (fun x => x) w cy half x y) with (cy + off (w10 w) (w11 w) half x y - (1 # 2)).
  split; [intros [[[A B] C] D]; repeat split; auto|]. intros [[A B] [C D]]. repeat split; auto.
Qed.
Lemma in_frame_warp_iff im w cx cy half : in_frame_warp (fun x => x) im w cx cy half = true <->
  forall x y, corner half x -> corner half y -> corner_ok (fun x => x) im w cx cy half x y = true.
Proof.
  unfold in_frame_warp. rewrite !andb_true_iff. split.
  - intros [[[A B] C] D] x y [-> | ->] [-> | ->]; auto.
  - intros H. repeat split; apply H; unfold corner; auto.
Qed.
Lemma in_frame_id_iff im half cx cy : in_frame_id im half (Some cx) (Some cy) = true <->
  (inject_Z half <= cx /\ cx <= inject_Z (cols im - half)) /\ (inject_Z half <= cy /\ cy <= inject_Z (rows im - half)).
Proof.
  unfold in_frame_id. cbn [ltn gtn]. rewrite negb_true_iff, !orb_false_iff, !Qltb_false. tauto.
Qed.

Section Levels.
Variables (near : warp -> bool) (n : nat) (py : pyramid) (usecv : bool) (b : bool) (q : coord) (l : nat).
Variables (w h : Z).
Hypothesis (Hw : (0 <= w)%Z) (Hh : (0 <= h)%Z) (Hn : (2 <= n)%nat).
Hypothesis (Himg : forall l, cols (py_img py l) = size_at w l /\ rows (py_img py l) = size_at h l).
Hypothesis (Hct : forall l, py_ct py l = centers usecv w h l).

Lemma half_pos : (1 <= half_size n b)%Z.
Proof. unfold half_size. assert (1 <= Nat.div2 n)%nat; [|destruct b; lia]. destruct n as [|[|k]]; [lia|lia|]. cbn. lia. Qed.

Lemma level_x i : fst (q_c (level_transform (py_ct py) q 0 i)) = tr1 (center1 usecv h) (fst (q_c q)) 0 i.
Proof. unfold level_transform, level_c, tr1. destruct (q_cam q), (q_warp q); cbn [q_c fst]; rewrite !Hct; reflexivity. Qed.
Lemma level_y i : snd (q_c (level_transform (py_ct py) q 0 i)) = tr1 (center1 usecv w) (snd (q_c q)) 0 i.
Proof. unfold level_transform, level_c, tr1. destruct (q_cam q), (q_warp q); cbn [q_c fst snd]; rewrite !Hct; reflexivity. Qed.
Lemma level_near i j : near_id near (level_transform (py_ct py) q 0 i) = near_id near (level_transform (py_ct py) q 0 j).
Proof. unfold level_transform. destruct (q_cam q), (q_warp q); reflexivity. Qed.
Lemma level_warp i j : warp_of (level_transform (py_ct py) q 0 i) = warp_of (level_transform (py_ct py) q 0 j).
Proof. unfold level_transform. destruct (q_cam q), (q_warp q); reflexivity. Qed.

Lemma lower_levels i : (i <= l)%nat ->
  (usecv = false \/ near_id near (level_transform (py_ct py) q 0 0) = true \/ (even_below w l /\ even_below h l) \/ 
   (1 # 2 <= ext (w00 (warp_of (level_transform (py_ct py) q 0 0))) (w01 (warp_of (level_transform (py_ct py) q 0 0))) (half_size n b) /\
    1 # 2 <= ext (w10 (warp_of (level_transform (py_ct py) q 0 0))) (w11 (warp_of (level_transform (py_ct py) q 0 0))) (half_size n b))) ->
  level_in_frame near n py q l b = true -> level_in_frame near n py q i b = true.
Proof.
  intros Hi Hc H. unfold level_in_frame, in_frame in *. rewrite (level_near l 0), (level_warp l 0) in H. rewrite (level_near i 0), (level_warp i 0).
  set (W := warp_of (level_transform (py_ct py) q 0 0)) in *. clearbody W.
  rewrite level_x, level_y in *. pose proof half_pos as HP. set (hf := half_size n b) in *. clearbody hf.
  destruct (near_id near (level_transform (py_ct py) q 0 0)).
  - rewrite in_frame_id_iff in *. destruct (Himg l) as [El1 El2], (Himg i) as [Ei1 Ei2]. rewrite El1, El2 in H. rewrite Ei1, Ei2.
    destruct H as [[X1 X2] [Y1 Y2]]. split; [exact (axis_identity usecv h w (fst (q_c q)) i l Hi hf HP X1 X2)|exact (axis_identity usecv w h (snd (q_c q)) i l Hi hf HP Y1 Y2)].
  - rewrite in_frame_warp_iff in *. destruct (Himg l) as [El1 El2], (Himg i) as [Ei1 Ei2].
    assert (H1 : forall x y, corner hf x -> corner hf y -> (0 <= Qfloor (tr1 (center1 usecv h) (fst (q_c q)) 0 l + off (w00 W) (w01 W) hf x y - (1 # 2)) < size_at w l - 1)%Z).
    { intros x y Hx Hy. specialize (H x y Hx Hy). rewrite corner_ok_iff, El1 in H. apply H. }
    assert (H2 : forall x y, corner hf x -> corner hf y -> (0 <= Qfloor (tr1 (center1 usecv w) (snd (q_c q)) 0 l + off (w10 W) (w11 W) hf x y - (1 # 2)) < size_at h l - 1)%Z).
    { intros x y Hx Hy. specialize (H x y Hx Hy). rewrite corner_ok_iff, El2 in H. apply H. }
    apply corners_extent in H1 as [L1 U1]. apply corners_extent in H2 as [L2 U2].
    intros x y Hx Hy. rewrite corner_ok_iff, Ei1, Ei2. split.
    + apply (axis_warp usecv h w (fst (q_c q)) i l Hi (ext (w00 W) (w01 W) hf)); auto using off_le.
      destruct Hc as [C|[C|[C|C]]]; [auto|discriminate|tauto|tauto].
    + apply (axis_warp usecv w h (snd (q_c q)) i l Hi (ext (w10 W) (w11 W) hf)); auto using off_le.
      destruct Hc as [C|[C|[C|C]]]; [auto|discriminate|tauto|tauto].
Qed.
End Levels.

Lemma ext_edge a c n b : Nat.Even n -> ext a c (half_size n b) == (Qabs a + Qabs c) * (inject_Z (Z.of_nat (edge n b)) - 1) / 2.
Proof.
  intros E. unfold ext. rewrite <- (half_edge n b E). rewrite Z2Nat.id by (pose proof (half_nonneg n b); lia). rewrite inject_Z_mult.
  change (inject_Z 2) with 2. field.
Qed.
Lemma top_level_suffices near n py usecv b q l w h front :
  (0 <= w)%Z -> (0 <= h)%Z -> (forall l, cols (py_img py l) = size_at w l /\ rows (py_img py l) = size_at h l) ->
  (forall l, py_ct py l = centers usecv w h l) ->
  Nat.Even n -> (0 < n)%nat ->
  (usecv = false \/ near_id near (level_transform (py_ct py) q 0 0) = true \/ (even_below w l /\ even_below h l) \/ 
   wide (edge n b) (warp_of (level_transform (py_ct py) q 0 0))) ->
  ml_in_frame near n py front q l b = true ->
  (forall i, (i <= l)%nat -> level_in_frame near n py q i b = true) /\
  exists ps, ml_extract near n py q l b = Some ps /\ length ps = S l /\ Forall (fun p => length p = (edge n b * edge n b)%nat) ps.
Proof.
  intros Hw Hh Himg Hct He Hn Hc H. unfold ml_in_frame in H. destruct (front && _); [|discriminate].
  assert (N2 : (2 <= n)%nat) by (destruct He as [k ->]; lia).
  assert (A : forall i, (i <= l)%nat -> level_in_frame near n py q i b = true).
  { intros i Hi. apply (lower_levels near n py usecv b q l w h); auto.
    destruct Hc as [C|[C|[C|[C1 C2]]]]; [auto|auto|auto|]. right. right. right. rewrite !ext_edge by auto.
    split; apply Qle_shift_div_l; lra. }
  split; [exact A|]. unfold ml_extract.
  destruct (seqo_some (map (fun i => level_extract near n py q i b) (seq 0 (S l)))) as [ps P].
  { intros o Ho. apply in_map_iff in Ho as (i&<-&Hi). apply in_seq in Hi. specialize (A i ltac:(lia)). 
    destruct (in_frame_safe (fun x => x) n _ _ _ _ _ b (conj (fun a b H => H) (Qeq_refl _)) A) as [r R]. unfold level_extract. rewrite R. discriminate. }
  exists ps. split; [exact P|]. apply seqo_map in P. split.
  - rewrite <- (map_length Some), <- P, map_length, seq_length. reflexivity.
  - apply Forall_forall. intros p Hp. assert (In (Some p) (map Some ps)) as I by (apply in_map; auto). rewrite <- P in I.
    apply in_map_iff in I as (i&E&_). apply (extract_length _ _ _ _ _ _ _ _ _ He) in E. exact E.
Qed.

(** ** C27 *)
Local Open Scope Z_scope.
Lemma level_size im l : gc (level_image im l) = size_at (gc im) l /\ gr (level_image im l) = size_at (gr im) l.
Proof.
  induction l as [|l [IH1 IH2]].
  - unfold size_at. cbn. now rewrite !Z.div_1_r.
  - rewrite !size_S, <- IH1, <- IH2. split; reflexivity.
Qed.
Lemma grd_in im u v : 0 <= u < gc im -> 0 <= v < gr im -> grd im u v = Some (gp im u v).
Proof.
  intros Hu Hv. unfold grd. destruct (Z.leb_spec 0 u), (Z.ltb_spec u (gc im)), (Z.leb_spec 0 v), (Z.ltb_spec v (gr im)); cbn; try lia. reflexivity.
Qed.
Lemma half_pixel_in im x y : 0 <= x < gc im / 2 -> 0 <= y < gr im / 2 ->
  half_pixel im x y = Some ((gp im (2 * x) (2 * y) + gp im (2 * x + 1) (2 * y) + gp im (2 * x) (2 * y + 1) + gp im (2 * x + 1) (2 * y + 1)) / 4).
Proof.
  intros Hx Hy. pose proof (Z.mul_div_le (gc im) 2 ltac:(lia)). pose proof (Z.mul_div_le (gr im) 2 ltac:(lia)).
  unfold half_pixel. rewrite !grd_in by lia. reflexivity.
Qed.
Lemma reads_in_range im l x y : 0 <= x < size_at (gc im) (S l) -> 0 <= y < size_at (gr im) (S l) -> half_pixel (level_image im l) x y <> None.
Proof.
  intros Hx Hy. destruct (level_size im l) as [E1 E2]. rewrite size_S in Hx, Hy. rewrite <- E1 in Hx. rewrite <- E2 in Hy. rewrite half_pixel_in by assumption. discriminate.
Qed.
Lemma level_step im l x y : 0 <= x < size_at (gc im) (S l) -> 0 <= y < size_at (gr im) (S l) ->
  let g := gp (level_image im l) in
  gp (level_image im (S l)) x y = (g (2 * x) (2 * y) + g (2 * x + 1) (2 * y) + g (2 * x) (2 * y + 1) + g (2 * x + 1) (2 * y + 1)) / 4.
Proof.
  intros Hx Hy g. destruct (level_size im l) as [E1 E2]. rewrite size_S in Hx, Hy. rewrite <- E1 in Hx. rewrite <- E2 in Hy.
  cbn [level_image half_sample gp]. now rewrite half_pixel_in.
Qed.
Lemma zsum_ext k f g : (forall i, 0 <= i < Z.of_nat k -> f i = g i) -> zsum k f = zsum k g.
Proof. induction k as [|k IH]; intros H; cbn [zsum]; [reflexivity|]. rewrite IH, H by (intros; try apply H; lia). reflexivity. Qed.
Lemma zsum_app a b f : zsum (a + b) f = zsum a f + zsum b (fun i => f (Z.of_nat a + i)).
Proof.
  induction b as [|b IH]; [rewrite Nat.add_0_r; cbn; lia|]. rewrite Nat.add_succ_r. cbn [zsum]. rewrite IH.
  replace (Z.of_nat (a + b)) with (Z.of_nat a + Z.of_nat b) by lia. lia.
Qed.
Lemma zsum_plus k f g : zsum k (fun i => f i + g i) = zsum k f + zsum k g.
Proof. induction k as [|k IH]; cbn [zsum]; [reflexivity|]. rewrite IH. lia. Qed.
Lemma block_S l : block (S l) = (block l + block l)%nat.
Proof. unfold block. cbn. lia. Qed.
Lemma block_pos l : (1 <= block l)%nat.
Proof. unfold block. induction l; cbn; lia. Qed.
Lemma block_z l : Z.of_nat (block l) = 2 ^ Z.of_nat l.
Proof. unfold block. rewrite Nat2Z.inj_pow. reflexivity. Qed.
Lemma block_split im l x y : 
  block_sum im (S l) x y = block_sum im l (2 * x) (2 * y) + block_sum im l (2 * x + 1) (2 * y) + block_sum im l (2 * x) (2 * y + 1) + block_sum im l (2 * x + 1) (2 * y + 1).
Proof.
  unfold block_sum. rewrite block_S. set (k := block l). rewrite zsum_app.
  assert (R : forall j, zsum (k + k) (fun i => gp im (x * Z.of_nat (k + k) + i) j) =
     zsum k (fun i => gp im (2 * x * Z.of_nat k + i) j) + zsum k (fun i => gp im ((2 * x + 1) * Z.of_nat k + i) j)).
  { intros j. rewrite zsum_app. f_equal; apply zsum_ext; intros i _; f_equal; lia. }
  rewrite (zsum_ext k (fun j => zsum (k + k) _) (fun j => zsum k (fun i => gp im (2 * x * Z.of_nat k + i) (2 * y * Z.of_nat k + j)) + zsum k (fun i => gp im ((2 * x + 1) * Z.of_nat k + i) (2 * y * Z.of_nat k + j)))).
  2: { intros j _. replace (y * Z.of_nat (k + k) + j) with (2 * y * Z.of_nat k + j) by lia. apply R. }
  rewrite (zsum_ext k (fun j => zsum (k + k) _) (fun j => zsum k (fun i => gp im (2 * x * Z.of_nat k + i) ((2 * y + 1) * Z.of_nat k + j)) + zsum k (fun i => gp im ((2 * x + 1) * Z.of_nat k + i) ((2 * y + 1) * Z.of_nat k + j)))).
  2: { intros j _. replace (y * Z.of_nat (k + k) + (Z.of_nat k + j)) with ((2 * y + 1) * Z.of_nat k + j) by lia. apply R. }
  rewrite !zsum_plus. lia.
Qed.
Lemma child_range n l x : 0 <= x < size_at n (S l) -> 0 <= 2 * x < size_at n l /\ 0 <= 2 * x + 1 < size_at n l.
Proof. intros H. rewrite size_S in H. pose proof (Z.mul_div_le (size_at n l) 2 ltac:(lia)). lia. Qed.
Lemma level_average im l : forall x y, 0 <= x < size_at (gc im) l -> 0 <= y < size_at (gr im) l ->
  let v := gp (level_image im l) x y in
  4 ^ Z.of_nat l * v <= block_sum im l x y /\ 4 * (block_sum im l x y - 4 ^ Z.of_nat l * v) <= 3 * Z.of_nat l * 4 ^ Z.of_nat l.
Proof.
  induction l as [|l IH]; intros x y Hx Hy v.
  - assert (E : block_sum im 0 x y = gp im x y).
    { unfold block_sum, block. cbn [Nat.pow zsum]. change (Z.of_nat 1) with 1. change (Z.of_nat 0) with 0. rewrite !Z.mul_1_r, !Z.add_0_r. reflexivity. }
    unfold v. cbn [level_image]. rewrite E. change (4 ^ Z.of_nat 0) with 1. lia.
  - apply child_range in Hx as Hx'. apply child_range in Hy as Hy'. destruct Hx' as [X1 X2], Hy' as [Y1 Y2].
    pose proof (IH _ _ X1 Y1) as [A1 B1]. pose proof (IH _ _ X2 Y1) as [A2 B2]. pose proof (IH _ _ X1 Y2) as [A3 B3]. pose proof (IH _ _ X2 Y2) as [A4 B4].
    pose proof (level_step im l x y Hx Hy) as E. cbv zeta in E. unfold v. rewrite E. rewrite block_split.
    set (a := gp (level_image im l) (2 * x) (2 * y)) in *. set (b := gp (level_image im l) (2 * x + 1) (2 * y)) in *.
    set (c := gp (level_image im l) (2 * x) (2 * y + 1)) in *. set (d := gp (level_image im l) (2 * x + 1) (2 * y + 1)) in *.
    clearbody a b c d. rewrite Nat2Z.inj_succ, Z.pow_succ_r by lia.
    assert (P : 0 < 4 ^ Z.of_nat l) by (apply Z.pow_pos_nonneg; lia). 
    pose proof (Z.mul_div_le (a + b + c + d) 4 ltac:(lia)) as D1. pose proof (Z.mul_succ_div_gt (a + b + c + d) 4 ltac:(lia)) as D2.
    set (s := (a + b + c + d) / 4) in *. clearbody s. set (p := 4 ^ Z.of_nat l) in *. clearbody p. 
    assert (D1' : p * (4 * s) <= p * (a + b + c + d)) by (apply Z.mul_le_mono_nonneg_l; lia).
    assert (D2' : p * (a + b + c + d) <= p * (4 * s + 3)) by (apply Z.mul_le_mono_nonneg_l; lia).
    split; nia.
Qed.
Lemma level_between im l lo hi : forall x y, 0 <= x < size_at (gc im) l -> 0 <= y < size_at (gr im) l ->
  (forall i j, x * Z.of_nat (block l) <= i < (x + 1) * Z.of_nat (block l) -> y * Z.of_nat (block l) <= j < (y + 1) * Z.of_nat (block l) -> lo <= gp im i j <= hi) ->
  lo <= gp (level_image im l) x y <= hi.
Proof.
  induction l as [|l IH]; intros x y Hx Hy H.
  - apply H; cbn [block Nat.pow]; lia.
  - apply child_range in Hx as Hx'. apply child_range in Hy as Hy'. destruct Hx' as [X1 X2], Hy' as [Y1 Y2].
    rewrite (level_step im l x y Hx Hy). rewrite block_S in H.
    pose proof (IH _ _ X1 Y1 ltac:(intros; apply H; lia)). pose proof (IH _ _ X2 Y1 ltac:(intros; apply H; lia)).
    pose proof (IH _ _ X1 Y2 ltac:(intros; apply H; lia)). pose proof (IH _ _ X2 Y2 ltac:(intros; apply H; lia)).
    split; [apply Z.div_le_lower_bound; lia|]. apply Z.div_le_upper_bound; lia.
Qed.
Lemma block_inside n l x : 0 <= x < size_at n l -> 0 <= x * Z.of_nat (block l) /\ (x + 1) * Z.of_nat (block l) <= n.
Proof.
  intros H. rewrite block_z. unfold size_at in H. assert (0 < 2 ^ Z.of_nat l) by (apply Z.pow_pos_nonneg; lia).
  pose proof (Z.mul_div_le n (2 ^ Z.of_nat l) ltac:(lia)). nia.
Qed.

(** ** C50 *)
Lemma square_cells k s z : 0 < s -> (exists x j, 0 <= x < k /\ 0 <= j < s /\ z = x * s + j) <-> 0 <= z < k * s.
Proof.
  intros Hs. split.
  - intros (x&j&Hx&Hj&->). nia.
  - intros H. exists (z / s), (z mod s). pose proof (Z.mod_pos_bound z s Hs). pose proof (Z.div_mod z s ltac:(lia)).
    repeat split; try lia; [apply Z.div_pos; lia|apply Z.div_lt_upper_bound; nia].
Qed.
Lemma draw_patch_square n b cx cy s p : 0 < s ->
  In p (draw_patch n b cx cy s) <-> in_square cx cy ((Z.of_nat (if b then (n + 2)%nat else n)) * s) p.
Proof.
  intros Hs. unfold draw_patch, in_square. set (k := Z.of_nat n + 2 * (if b then 1 else 0)).
  replace (Z.of_nat (if b then (n + 2)%nat else n)) with k by (unfold k; destruct b; lia). split.
  - intros H. apply in_flat_map in H as (y&Hy&H). apply in_flat_map in H as (x&Hx&H). apply in_flat_map in H as (i&Hi&H).
    apply in_map_iff in H as (j&<-&Hj). rewrite in_zrange in *. cbn [fst snd].
    assert (0 <= x * s + j < k * s) by (apply square_cells; eauto 10). assert (0 <= y * s + i < k * s) by (apply square_cells; eauto 10). lia.
  - destruct p as [u v]. cbn [fst snd]. intros [Hu Hv].
    assert (U : 0 <= u - cx < k * s) by lia. assert (V : 0 <= v - cy < k * s) by lia.
    apply square_cells in U as (x&j&Hx&Hj&U); [|auto]. apply square_cells in V as (y&i&Hy&Hi&V); [|auto].
    apply in_flat_map. exists y. rewrite in_zrange. split; [lia|]. apply in_flat_map. exists x. rewrite in_zrange. split; [lia|].
    apply in_flat_map. exists i. rewrite in_zrange. split; [lia|]. apply in_map_iff. exists j. rewrite in_zrange. split; [f_equal; lia|lia].
Qed.
Lemma pow_le l L : (l < L)%nat -> 1 <= 2 ^ Z.of_nat l <= 2 ^ Z.of_nat (L - 1).
Proof.
  intros H. split; [assert (0 < 2 ^ Z.of_nat l) by (apply Z.pow_pos_nonneg; lia); lia|]. apply Z.pow_le_mono_r; lia.
Qed.
Definition kk (n : nat) (b : bool) : Z := Z.of_nat (if b then (n + 2)%nat else n).
Lemma draw_level_square n b L l cx cy s p : 0 < s -> 
  In p (draw_level n b L l cx cy s) <-> in_square (cx + draw_corner n b L l) (cy + draw_corner n b L l) (kk n b * (s * 2 ^ Z.of_nat l)) p.
Proof.
  intros Hs. unfold draw_level. apply draw_patch_square. assert (0 < 2 ^ Z.of_nat l) by (apply Z.pow_pos_nonneg; lia). nia.
Qed.
Lemma half_kk n (b : bool) : Nat.Even n -> 2 * (Z.of_nat (Nat.div2 n) + (if b then 1 else 0)) = kk n b.
Proof. intros [m ->]. rewrite Nat.div2_double. unfold kk. destruct b; lia. Qed.
Lemma draw_inside n b valid L cx cy s p : Nat.Even n -> 0 < s -> In p (draw_multilevel n b valid L cx cy s) ->
  in_square cx cy (kk n b * s * 2 ^ Z.of_nat (L - 1)) p.
Proof.
  intros He Hs H. unfold draw_multilevel in H. apply in_flat_map in H as (l&Hl&H). apply in_rev, in_seq in Hl.
  destruct (valid l); [|destruct H]. apply draw_level_square in H; [|auto]. unfold in_square, draw_corner in *.
  pose proof (half_kk n b He) as K. pose proof (pow_le l L ltac:(lia)) as P. 
  set (hf := Z.of_nat (Nat.div2 n) + (if b then 1 else 0)) in *. 
  assert (0 <= hf) by (unfold hf; destruct b; lia). clearbody hf.
  set (a := 2 ^ Z.of_nat l) in *. set (t := 2 ^ Z.of_nat (L - 1)) in *. clearbody a t. rewrite <- K in *.
  assert (hf * (t - a) + 2 * hf * (s * a) <= 2 * hf * s * t).
  { assert (0 <= hf * (t - a) * (2 * s - 1)) by (apply Z.mul_nonneg_nonneg; nia). nia. }
  assert (0 <= hf * (t - a)) by nia. lia.
Qed.
(** the largest valid level is drawn completely unless overdrawn by finer ones: all its pixels are in the list *)
Lemma draw_covers n b valid L l cx cy s p : 0 < s -> (l < L)%nat -> valid l = true ->
  in_square (cx + draw_corner n b L l) (cy + draw_corner n b L l) (kk n b * (s * 2 ^ Z.of_nat l)) p ->
  In p (draw_multilevel n b valid L cx cy s).
Proof.
  intros Hs Hl V H. unfold draw_multilevel. apply in_flat_map. exists l. split; [apply -> in_rev; apply in_seq; lia|].
  rewrite V. now apply draw_level_square.
Qed.
(** distance from the corner of the level square to the middle, times two *)
Lemma concentric n b L l : Nat.Even n -> (l < L)%nat ->
  2 * draw_corner n b L l + kk n b * (1 * 2 ^ Z.of_nat l) = kk n b * 2 ^ Z.of_nat (L - 1).
Proof. intros He Hl. unfold draw_corner. rewrite <- (half_kk n b He). nia. Qed.
