From Coq Require Import List ZArith Bool Reals Arith Lia Lra.
From Flocq Require Import Core BinarySingleNaN.
From Verif Require Import IeeeModel IeeeReal IeeeProofs IeeePos IeeeSpec IpyrProofs IscoreModel IscoreSpec IscoreReal NanModel NanProofs StampProofs IavgModel IavgSpec.
Import ListNotations.
Local Open Scope R_scope.

Notation px P l i := (nth i (nth l P nil) (B754_zero false : f32)).
Definition dl (n : nat) (P P' : list (list f32)) (l1 l2 : nat) : list f32 :=
  flat_map (fun l => map (fun i => sub32 (px P l i) (px P' l i)) (seq 0 (n * n))) (seq l1 (l2 + 1 - l1)).
Lemma collect_map {A} (l : list A) : collect (map Some l) = Some l.
Proof. induction l as [|a l IH]; cbn; [reflexivity|]. now rewrite IH. Qed.
Lemma flat_map_map {A B C} (f : A -> list B) (g : B -> C) l : flat_map (fun a => map g (f a)) l = map g (flat_map f l).
Proof. induction l as [|a l IH]; cbn; [reflexivity|]. now rewrite map_app, IH. Qed.
Lemma flat_map_eq {A B} (f g : A -> list B) l : (forall a, In a l -> f a = g a) -> flat_map f l = flat_map g l.
Proof. induction l as [|a l IH]; cbn; intros H; [reflexivity|]. rewrite (H a), IH; auto. Qed.
Lemma pixel_some n P l1 l2 l i : grey_patch n P l1 l2 -> (l1 <= l <= l2)%nat -> (i < n * n)%nat -> pixel32 P l i = Some (px P l i).
Proof.
  intros (L & H) Hl Hi. unfold pixel32. rewrite (nth_error_nth' P nil) by lia. cbn [obind]. apply nth_error_nth'. destruct (H l Hl) as [-> _]. exact Hi.
Qed.
Lemma diffs n P P' l1 l2 : grey_patch n P l1 l2 -> grey_patch n P' l1 l2 -> differences32 n P P' l1 l2 = Some (dl n P P' l1 l2).
Proof.
  intros H H'. unfold differences32. rewrite <- collect_map. f_equal. unfold dl. rewrite <- flat_map_map. apply flat_map_eq. intros l Hl. apply in_seq in Hl. rewrite map_map.
  apply map_ext_in. intros i Hi. apply in_seq in Hi. rewrite (pixel_some n P l1 l2), (pixel_some n P' l1 l2) by (auto; lia). reflexivity.
Qed.
Lemma dl_len n P P' l1 l2 : (l1 <= l2)%nat -> length (dl n P P' l1 l2) = (n * n * (l2 - l1 + 1))%nat.
Proof.
  intros L. unfold dl. rewrite (flat_map_len _ (n * n)) by (intros; now rewrite map_length, seq_length). rewrite seq_length. rewrite Nat.mul_comm. f_equal. lia.
Qed.
Lemma dl_in n P P' l1 l2 d : In d (dl n P P' l1 l2) -> exists l i, (l1 <= l <= l2)%nat /\ (i < n * n)%nat /\ d = sub32 (px P l i) (px P' l i).
Proof.
  intros H. unfold dl in H. apply in_flat_map in H as (l & Hl & H). apply in_map_iff in H as (i & <- & Hi). apply in_seq in Hl, Hi. exists l, i. repeat split; lia.
Qed.
Lemma px_ok n P l1 l2 l i : grey_patch n P l1 l2 -> (l1 <= l <= l2)%nat -> (i < n * n)%nat -> F (px P l i) /\ Rabs (B2R (px P l i)) <= 256.
Proof. intros (_ & H) Hl Hi. destruct (H l Hl) as [E I]. apply I. apply nth_In. lia. Qed.
(** a number rounded between two representable integers stays there *)
Lemma r32_int z : (Z.abs z <= 16777216)%Z -> r32 (IZR z) = IZR z.
Proof. intros H. apply (rndf_int 24 128); lia. Qed.
Lemma r32_abs_le z x : (0 <= z <= 16777216)%Z -> Rabs x <= IZR z -> Rabs (r32 x) <= IZR z.
Proof.
  intros Hz H. apply Rabs_le_inv in H. pose proof (r32_mono (- IZR z) x ltac:(lra)) as A. pose proof (r32_mono x (IZR z) ltac:(lra)) as B.
  rewrite (rndf_opp 24 128), r32_int in A by lia. rewrite r32_int in B by lia. apply Rabs_le. lra.
Qed.
Definition small (m : R) (d : f32) : Prop := F d /\ Rabs (B2R d) <= m.
Lemma sub_small (x y : f32) a b z : small a x -> small b y -> a + b <= IZR z -> (0 <= z <= 16777216)%Z -> small (IZR z) (sub32 x y) /\ B2R (sub32 x y) = r32 (B2R x - B2R y).
Proof.
  intros [Fx Hx] [Fy Hy] S Hz. assert (B : Rabs (B2R x - B2R y) <= IZR z) by (apply Rabs_le_inv in Hx; apply Rabs_le_inv in Hy; apply Rabs_le; lra).
  assert (IZR z <= 16777216) by (apply IZR_le; lia).
  destruct (sub_err x y Fx Fy) as [A V]; [lra|]. split; [|exact V]. split; [exact A|]. rewrite V. now apply r32_abs_le.
Qed.
Lemma dl_small n P P' l1 l2 : grey_patch n P l1 l2 -> grey_patch n P' l1 l2 -> Forall (small 512) (dl n P P' l1 l2).
Proof.
  intros H H'. apply Forall_forall. intros d Hd. destruct (dl_in _ _ _ _ _ _ Hd) as (l & i & Hl & Hi & ->).
  apply (sub_small _ _ 256 256 512); [exact (px_ok n P l1 l2 l i H Hl Hi)|exact (px_ok n P' l1 l2 l i H' Hl Hi)|lra|lia].
Qed.
(** sums *)
Lemma sum_small ds : Forall (small 512) ds -> forall k s, small (512 * IZR (Z.of_nat k)) s -> (Z.of_nat (k + length ds) <= 32768)%Z -> small (512 * IZR (Z.of_nat (k + length ds))) (fold_left add32 ds s).
Proof.
  induction 1 as [|d ds [Fd Hd] _ IH]; intros k s [Fs Hs] L; cbn [fold_left length] in *; [rewrite Nat.add_0_r; split; assumption|].
  replace (k + S (length ds))%nat with (S k + length ds)%nat in * by lia. apply IH; [|exact L].
  assert (E : 512 * IZR (Z.of_nat (S k)) = IZR (512 * Z.of_nat (S k))) by (rewrite mult_IZR; reflexivity).
  assert (B : Rabs (B2R s + B2R d) <= 512 * IZR (Z.of_nat (S k))).
  { rewrite Nat2Z.inj_succ, succ_IZR. eapply Rle_trans; [apply Rabs_triang|]. lra. }
  assert (IZR (512 * Z.of_nat (S k)) <= 16777216) by (apply IZR_le; lia).
  destruct (add_err s d Fs Fd) as [A V]; [lra|]. split; [exact A|]. rewrite V, E. apply r32_abs_le; [lia|lra].
Qed.
Lemma quot_small (x : f32) z k m : (0 < k <= 16777216)%Z -> F x -> (0 <= z <= 16777216)%Z -> m = IZR z -> Rabs (B2R x) <= m * IZR k -> small m (div32 x (f32_of_Z k)) /\ B2R (div32 x (f32_of_Z k)) = r32 (B2R x / IZR k).
Proof.
  intros Hk Fx Hz -> H. destruct (of_Z32 k ltac:(lia)) as [Fk Vk]. assert (K : 1 <= IZR k) by (apply IZR_le; lia). assert (IZR z <= 16777216) by (apply IZR_le; lia).
  assert (B : Rabs (B2R x / IZR k) <= IZR z).
  { unfold Rdiv. rewrite Rabs_mult, Rabs_inv, (Rabs_pos_eq (IZR k)) by lra. apply Rmult_le_reg_r with (IZR k); [lra|]. rewrite Rmult_assoc, Rinv_l by lra. lra. }
  destruct (div_err x (f32_of_Z k) Fx) as [A V]; [lra|rewrite Vk; lra|]. rewrite Vk in V. split; [|exact V]. split; [exact A|]. rewrite V. now apply r32_abs_le.
Qed.
(** squares *)
Lemma r64_sq (x : f32) : Rabs (B2R x) <= 1024 -> 0 <= r64 (B2R x * B2R x) <= 1048576.
Proof.
  intros H. apply Rabs_le_inv in H. assert (S : 0 <= B2R x * B2R x <= 1048576).
  { split; [apply Rle_0_sqr|]. replace (B2R x * B2R x) with (Rabs (B2R x) * Rabs (B2R x)) by (rewrite <- Rabs_mult; apply Rabs_pos_eq, Rle_0_sqr). replace 1048576 with (1024 * 1024) by ring.
    apply Rmult_le_compat; try apply Rabs_pos; apply Rabs_le; lra. }
  split; [rewrite <- (rndf_0 53 1024); apply r64_mono; lra|]. rewrite <- (r64_int 1048576) by lia. apply r64_mono. lra.
Qed.
Lemma add_square_val (e x : f32) k : (0 <= k < 16777215)%Z -> F e -> 0 <= B2R e <= 1048576 * IZR k -> small 1024 x ->
  F (add_square e x) /\ 0 <= B2R (add_square e x) <= 1048576 * IZR (k + 1) /\ B2R (add_square e x) = r32 (r64 (B2R e + r64 (B2R x * B2R x))).
Proof.
  intros Hk Fe He [Fx Hx]. destruct (widen_val e Fe) as [Fwe Ewe]. destruct (widen_val x Fx) as [Fwx Ewx]. pose proof (r64_sq x Hx) as Q.
  assert (K : 0 <= IZR k <= 16777215) by (split; apply IZR_le; lia). rewrite plus_IZR.
  unfold add_square. destruct (mul_fwd 53 1024 q53 q1024 (widen x) (widen x) Fwx Fwx) as [Fm Em].
  { rewrite Ewx. apply Rle_lt_trans with 1048576; [rewrite Rabs_pos_eq; lra|]. apply Rlt_trans with (pw 30); [change (pw 30) with 1073741824; lra|apply bpow_lt; lia]. }
  rewrite Ewx in Em. change (Bmult mode_NE (widen x) (widen x)) with (mul64 (widen x) (widen x)) in *. set (s := mul64 (widen x) (widen x)) in *. rewrite <- Em in Q |- *.
  assert (R0 : 0 <= r64 (B2R e + B2R s) <= 1048576 * (IZR k + 1)).
  { split; [rewrite <- (rndf_0 53 1024); apply r64_mono; lra|]. replace (1048576 * (IZR k + 1)) with (IZR (1048576 * (k + 1))) by (rewrite mult_IZR, plus_IZR; reflexivity).
    rewrite <- (r64_int (1048576 * (k + 1))) by lia. apply r64_mono. rewrite mult_IZR, plus_IZR. lra. }
  destruct (add_fwd 53 1024 q53 q1024 (widen e) s Fwe Fm) as [Fa Ea].
  { rewrite Ewe. apply Rle_lt_trans with 17592186044416; [rewrite Rabs_pos_eq; lra|]. apply Rlt_trans with (pw 50); [change (pw 50) with 1125899906842624; lra|apply bpow_lt; lia]. }
  rewrite Ewe in Ea. change (Bplus mode_NE (widen e) s) with (add64 (widen e) s) in *. set (t := add64 (widen e) s) in *.
  assert (R1 : 0 <= r32 (B2R t) <= 1048576 * (IZR k + 1)).
  { rewrite Ea. split; [rewrite <- (rndf_0 24 128); apply r32_mono; lra|]. assert (E : r32 (IZR (k + 1) * pw 20) = IZR (k + 1) * pw 20) by (apply fmt_dy; lia).
    change (pw 20) with 1048576 in E. rewrite plus_IZR in E. replace (1048576 * (IZR k + 1)) with ((IZR k + 1) * 1048576) in * by ring. rewrite <- E. apply r32_mono. lra. }
  destruct (conv_fwd 24 128 p24 p128 53 1024 t Fa) as [Fn En].
  { apply Rle_lt_trans with 17592186044416; [rewrite Rabs_pos_eq; lra|]. apply Rlt_trans with (pw 50); [change (pw 50) with 1125899906842624; lra|apply bpow_lt; lia]. }
  unfold narrow. split; [exact Fn|]. rewrite En. split; [exact R1|]. rewrite Ea. reflexivity.
Qed.
Lemma squares_small off : small 512 off -> forall ds, Forall (small 512) ds -> forall k e, F e -> 0 <= B2R e <= 1048576 * IZR (Z.of_nat k) -> (Z.of_nat (k + length ds) <= 32768)%Z ->
  let r := fold_left (fun e d => add_square e (sub32 d off)) ds e in F r /\ 0 <= B2R r <= 1048576 * IZR (Z.of_nat (k + length ds)).
Proof.
  intros Ho. induction 1 as [|d ds Hd _ IH]; intros k e Fe He L; cbn [fold_left length] in *; [cbv zeta; rewrite Nat.add_0_r; auto|].
  replace (k + S (length ds))%nat with (S k + length ds)%nat in * by lia.
  destruct (sub_small d off 512 512 1024 Hd Ho ltac:(lra) ltac:(lia)) as [Sd _].
  destruct (add_square_val e (sub32 d off) (Z.of_nat k) ltac:(lia) Fe He Sd) as (A & B & _). replace (Z.of_nat k + 1)%Z with (Z.of_nat (S k)) in B by lia. apply IH; auto.
Qed.
Lemma sqrt_ok (x : f32) : F x -> 0 <= B2R x <= 1048576 -> F (sqrt32 x) /\ 0 <= B2R (sqrt32 x) <= 1024 /\ B2R (sqrt32 x) = r32 (sqrt (B2R x)).
Proof.
  intros Fx Hx. destruct (Bsqrt_correct 24 128 p24 p128 mode_NE x) as (A & B & _). cbn [round_mode] in A. assert (A' : B2R (sqrt32 x) = r32 (sqrt (B2R x))) by exact A. clear A. rename A' into A.
  assert (Q : 0 <= sqrt (B2R x) <= 1024).
  { split; [apply sqrt_pos|]. rewrite <- (sqrt_square 1024) by lra. apply sqrt_le_1; lra. }
  split; [|split; [|exact A]].
  - unfold sqrt32. rewrite B. destruct x as [s|s| |[] m k h]; try discriminate; try reflexivity. exfalso. assert (B2R (B754_finite true m k h : f32) < 0) by (cbn [B2R]; apply F2R_lt_0; reflexivity). lra.
  - rewrite A. split; [rewrite <- (rndf_0 24 128); apply r32_mono; lra|]. rewrite <- (r32_int 1024) by lia. apply r32_mono. lra.
Qed.
Section Avg.
Variables (n l1 l2 : nat) (P P' : list (list f32)).
Hypothesis H : grey_patch n P l1 l2.
Hypothesis H' : grey_patch n P' l1 l2.
Hypothesis N : (0 < n)%nat.
Hypothesis L : (l1 <= l2)%nat.
Hypothesis C : (Z.of_nat (n * n * (l2 - l1 + 1)) <= 32768)%Z.
Let ds := dl n P P' l1 l2.
Let k := (n * n * (l2 - l1 + 1))%nat.
Lemma kpos : (0 < Z.of_nat k)%Z. Proof. unfold k. assert (0 < n * n)%nat by (apply Nat.mul_pos_pos; exact N). assert (0 < n * n * (l2 - l1 + 1))%nat by (apply Nat.mul_pos_pos; lia). lia. Qed.
Lemma kbound : (0 < Z.of_nat k <= 16777216)%Z. Proof. pose proof kpos. unfold k in *. lia. Qed.
Lemma off_ok : small 512 (div32 (fold_left add32 ds zero32) (count32 n l1 l2)).
Proof.
  pose proof kpos. pose proof (sum_small ds (dl_small n P P' l1 l2 H H') 0 zero32) as S. unfold ds in S. rewrite dl_len in S by exact L. fold k ds in S. cbn [Nat.add] in S.
  destruct S as [Fs Hs]; [split; [reflexivity|cbn; rewrite Rabs_R0; lra]|unfold k in *; lia|].
  apply (quot_small _ 512 (Z.of_nat k) 512); try assumption; try (unfold k in *; lia); try reflexivity.
Qed.
Lemma avg_ok : exists r, average_difference32 n P P' l1 l2 = Some r /\ F r /\ 0 <= B2R r <= 1024.
Proof.
  pose proof kpos. unfold average_difference32. rewrite (diffs n P P' l1 l2 H H'). cbn [obind]. fold ds. set (off := div32 (fold_left add32 ds zero32) (count32 n l1 l2)). eexists. split; [reflexivity|].
  pose proof (squares_small off off_ok ds (dl_small n P P' l1 l2 H H') 0 zero32 eq_refl) as S. cbv zeta in S. assert (Ek : length ds = k) by (unfold ds; apply dl_len; exact L). fold ds in S. rewrite Ek in S. cbn [Nat.add] in S.
  destruct S as [Fs Hs]; [cbn; lra|unfold k in *; lia|]. set (e := fold_left (fun e d => add_square e (sub32 d off)) ds zero32) in *.
  assert (X : small 1048576 (div32 e (f32_of_Z (Z.of_nat k))) /\ B2R (div32 e (f32_of_Z (Z.of_nat k))) = r32 (B2R e / IZR (Z.of_nat k))).
  { apply (quot_small e 1048576); [exact kbound|exact Fs|lia|reflexivity|]. rewrite Rabs_pos_eq; lra. }
  destruct X as [[Fq Hq] Vq].
  change (div32 e (count32 n l1 l2)) with (div32 e (f32_of_Z (Z.of_nat k))). 
  assert (Q0 : 0 <= B2R (div32 e (f32_of_Z (Z.of_nat k)))).
  { rewrite Vq, <- (rndf_0 24 128). apply r32_mono. unfold Rdiv. apply Rmult_le_pos; [lra|]. left. apply Rinv_0_lt_compat. apply IZR_lt. lia. }
  rewrite Rabs_pos_eq in Hq by exact Q0. destruct (sqrt_ok _ Fq (conj Q0 Hq)) as (A & B & _). split; assumption.
Qed.
(** a uniform difference *)
Variable c : Z.
Hypothesis Hc : (Z.abs c <= 512)%Z.
Hypothesis U : brighter_by (IZR c) n P P' l1 l2.
Lemma d_is d : In d ds -> F d /\ B2R d = IZR c.
Proof.
  intros Hd. destruct (dl_in _ _ _ _ _ _ Hd) as (l & i & Hl & Hi & ->). destruct (px_ok n P l1 l2 l i H Hl Hi) as [F1 B1]. destruct (px_ok n P' l1 l2 l i H' Hl Hi) as [F2 B2].
  destruct (sub_small _ _ 256 256 512 (conj F1 B1) (conj F2 B2) ltac:(lra) ltac:(lia)) as [[A _] V]. split; [exact A|]. rewrite V. specialize (U l i Hl Hi). unfold real in U. rewrite U. apply r32_int. lia.
Qed.
Lemma sum_is (l : list f32) : (forall d, In d l -> F d /\ B2R d = IZR c) -> forall j s, F s -> B2R s = IZR (c * Z.of_nat j) -> (Z.of_nat (j + length l) <= 32768)%Z ->
  F (fold_left add32 l s) /\ B2R (fold_left add32 l s) = IZR (c * Z.of_nat (j + length l)).
Proof.
  induction l as [|d l IH]; intros D j s Fs Es Lj; cbn [fold_left length] in *; [rewrite Nat.add_0_r; auto|]. destruct (D d ltac:(now left)) as [Fd Ed].
  replace (j + S (length l))%nat with (S j + length l)%nat in * by lia.
  assert (E : B2R s + B2R d = IZR (c * Z.of_nat (S j))) by (rewrite Es, Ed, <- plus_IZR; f_equal; lia).
  assert (B : (Z.abs (c * Z.of_nat (S j)) <= 16777216)%Z) by (rewrite Z.abs_mul; replace 16777216%Z with (512 * 32768)%Z by reflexivity; apply Z.mul_le_mono_nonneg; lia).
  destruct (add_err s d Fs Fd) as [A V].
  - rewrite E, <- abs_IZR. apply Rle_trans with (IZR 16777216); [apply IZR_le; exact B|lra].
  - apply IH; [intros; apply D; now right|exact A|rewrite V, E; apply r32_int; exact B|exact Lj].
Qed.
Lemma squares_zero off : F off -> B2R off = IZR c -> forall l : list f32, (forall d, In d l -> F d /\ B2R d = IZR c) -> forall e, F e -> B2R e = 0 ->
  F (fold_left (fun e d => add_square e (sub32 d off)) l e) /\ B2R (fold_left (fun e d => add_square e (sub32 d off)) l e) = 0.
Proof.
  intros Fo Eo. induction l as [|d l IH]; intros D e Fe Ee; cbn [fold_left]; [auto|]. destruct (D d ltac:(now left)) as [Fd Ed].
  assert (Hs : Rabs (IZR c) <= 512) by (rewrite <- abs_IZR; apply IZR_le; exact Hc).
  destruct (sub_small d off 512 512 1024) as [Sd Vd]; [split; [exact Fd|now rewrite Ed]|split; [exact Fo|now rewrite Eo]|lra|lia|].
  rewrite Ed, Eo, Rminus_diag_eq, (rndf_0 24 128) in Vd by reflexivity.
  destruct (add_square_val e (sub32 d off) 0 ltac:(lia) Fe ltac:(rewrite Ee; lra) Sd) as (A & _ & V). rewrite Vd, Ee, Rmult_0_l, (rndf_0 53 1024), Rplus_0_l, (rndf_0 53 1024), (rndf_0 24 128) in V.
  apply IH; auto. intros; apply D; now right.
Qed.
Lemma avg_zero : exists r, average_difference32 n P P' l1 l2 = Some r /\ F r /\ B2R r = 0.
Proof.
  pose proof kpos as K. assert (K' : 0 < IZR (Z.of_nat k)) by (apply IZR_lt; lia). unfold average_difference32. rewrite (diffs n P P' l1 l2 H H'). cbn [obind]. fold ds. eexists. split; [reflexivity|].
  assert (Ek : length ds = k) by (unfold ds; apply dl_len; exact L).
  destruct (sum_is ds d_is 0%nat zero32 eq_refl) as [Fs Es]; [cbn; now rewrite Z.mul_0_r|cbn [Nat.add]; rewrite Ek; exact C|]. cbn [Nat.add] in Es. rewrite Ek in Es.
  destruct off_ok as [Fo _]. destruct (quot_small (fold_left add32 ds zero32) 512 (Z.of_nat k) 512 kbound Fs) as [_ Vo]; [lia|reflexivity| |].
  { rewrite Es, mult_IZR, Rabs_mult, (Rabs_pos_eq (IZR (Z.of_nat k))) by lra. apply Rmult_le_compat_r; [lra|]. rewrite <- abs_IZR. apply IZR_le. exact Hc. }
  rewrite Es, mult_IZR in Vo. replace (IZR c * IZR (Z.of_nat k) / IZR (Z.of_nat k)) with (IZR c) in Vo by (field; lra). rewrite r32_int in Vo by lia.
  change (f32_of_Z (Z.of_nat k)) with (count32 n l1 l2) in Vo. 
  destruct (squares_zero _ Fo Vo ds d_is zero32 eq_refl eq_refl) as [Fe Ee]. set (e := fold_left (fun e d => add_square e (sub32 d _)) ds zero32) in *. 
  destruct (quot_small e 0 (Z.of_nat k) 0 kbound Fe) as [[Fq _] Vq]; [lia|reflexivity|rewrite Ee, Rabs_R0; lra|].
  change (div32 e (count32 n l1 l2)) with (div32 e (f32_of_Z (Z.of_nat k))). rewrite Ee in Vq. unfold Rdiv in Vq. rewrite Rmult_0_l, (rndf_0 24 128) in Vq.
  destruct (sqrt_ok _ Fq ltac:(rewrite Vq; lra)) as (A & _ & V). split; [exact A|]. rewrite V, Vq, sqrt_0. apply (rndf_0 24 128).
Qed.
End Avg.
(** nothing moved *)
Lemma zero_not_moving (r e1 th : f32) : F r -> B2R r = 0 -> threshold th -> moving32 r e1 th = false.
Proof.
  intros Fr Er T. assert (R0 : exists s, r = B754_zero s).
  { destruct r as [s|s| |s m k h]; try discriminate; [eauto|]. exfalso. revert Er. cbn [B2R]. intros Er. apply eq_0_F2R in Er. destruct s; discriminate. }
  destruct R0 as [s ->]. unfold moving32. assert (Q : forall y : f32, div32 (B754_zero s) y = B754_nan \/ exists t, div32 (B754_zero s) y = B754_zero t) by (intros [?|?| |? ? ? ?]; cbn; eauto).
  destruct (Q (sqrt32 e1)) as [->|[t ->]]; [apply lt_nan|]. unfold threshold in T. rewrite <- T. destruct th as [[]|[]| |[] ? ? ?]; destruct t; reflexivity.
Qed.
