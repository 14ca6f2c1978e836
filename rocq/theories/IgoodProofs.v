(** Lemmas for C01 and C04 in IEEE-754 arithmetic. *)
From Coq Require Import List ZArith Bool Reals Lia Lra Psatz.
From Flocq Require Import Core BinarySingleNaN.
From Verif Require Import Util StatFloat IeeeModel IeeeReal IeeeProofs IpyrProofs StampModel StampProofs IbuckProofs StatModel StatSpec StatProofs StatQual StatFilter IavgReal IgoodModel IgoodSpec.
Import ListNotations.
Local Open Scope R_scope.
Local Instance fxd2 : Valid_exp (SpecFloat.fexp 53 1024) := fxv 53 1024 q53.

Lemma r64_1 : r64 1 = 1. Proof. apply (r64_int 1). lia. Qed.
Lemma r64_0 : r64 0 = 0. Proof. apply (rndf_0 53 1024). Qed.
Lemma r64_un a : 0 <= a <= 1 -> 0 <= r64 a <= 1.
Proof. intros H. pose proof (r64_mono 0 a ltac:(lra)) as A. pose proof (r64_mono a 1 ltac:(lra)) as B. rewrite r64_0 in A. rewrite r64_1 in B. lra. Qed.
Lemma fits1 a : Rabs a <= 2 -> Rabs (r64 a) < M64.
Proof. intros H. apply r64_fits. lra. Qed.
Lemma tiny : pw (-54) = / 18014398509481984. Proof. reflexivity. Qed.
Lemma err1 a : Rabs a <= 1 -> Rabs (r64 a - a) <= / 18014398509481984.
Proof. intros H. rewrite <- tiny. apply (r64_err 0); [lia|exact H]. Qed.
(** one minus and one plus 2^-54 round to one *)
Definition t54 : g64 := binary_normalize 53 1024 q53 q1024 mode_NE 1 (-54) false.
Lemma t54_val : F t54 /\ B2R t54 = / 18014398509481984.
Proof.
  split; [vm_compute; reflexivity|]. rewrite <- SF2R_B2SF. replace (B2SF t54) with (SpecFloat.S754_finite false 4503599627370496 (-106)) by (vm_compute; reflexivity).
  unfold SF2R, F2R. cbn [Fnum Fexp cond_Zopp]. change (bpow radix2 (-106)) with (/ 81129638414606681695789005144064). lra.
Qed.
Lemma one_sf x : B2SF x = SpecFloat.S754_finite false 4503599627370496 (-52) -> B2R (x : g64) = 1.
Proof. intros E. rewrite <- SF2R_B2SF, E. unfold SF2R, F2R. cbn [Fnum Fexp cond_Zopp]. change (bpow radix2 (-52)) with (/ 4503599627370496). lra. Qed.
Lemma near_one a : Rabs (a - 1) <= / 18014398509481984 -> r64 a = 1.
Proof.
  intros H. apply Rabs_le_inv in H. destruct t54_val as [Ft Et]. destruct one64_val as [F1 E1].
  assert (D : r64 (1 - / 18014398509481984) = 1).
  { destruct (sub_fwd 53 1024 q53 q1024 one64 t54 F1 Ft) as [_ V]; [apply fits1; rewrite E1, Et, Rabs_pos_eq; lra|]. rewrite E1, Et in V. rewrite <- V. apply one_sf. vm_compute. reflexivity. }
  assert (U : r64 (1 + / 18014398509481984) = 1).
  { destruct (add_fwd 53 1024 q53 q1024 one64 t54 F1 Ft) as [_ V]; [apply fits1; rewrite E1, Et, Rabs_pos_eq; lra|]. rewrite E1, Et in V. rewrite <- V. apply one_sf. vm_compute. reflexivity. }
  apply Rle_antisym; [rewrite <- U|rewrite <- D]; apply r64_mono; lra.
Qed.

Lemma one_f1 : one64 = f1. Proof. apply B2SF_inj. vm_compute. reflexivity. Qed.
Section Range.
Variable r : Z.
Hypothesis Hr : (1 <= r)%Z.
Let iR := B2R (share64 r).
Let cR := r64 (1 - iR).
Lemma share_ok : F (share64 r) /\ 0 <= iR <= 1.
Proof. unfold iR, share64. rewrite one_f1. exact (finv_ok r Hr). Qed.
Lemma share_val : F (share64 r) /\ B2R (share64 r) = iR. Proof. split; [apply share_ok|reflexivity]. Qed.
Lemma i_un : 0 <= iR <= 1. Proof. apply share_ok. Qed.
Lemma c_un : 0 <= cR <= 1. Proof. apply r64_un. pose proof i_un. lra. Qed.
Lemma comp_val : F (sub64 one64 (share64 r)) /\ B2R (sub64 one64 (share64 r)) = cR.
Proof.
  destruct share_val as [Fi Ei]. destruct one64_val as [F1 E1]. pose proof i_un. destruct (sub_fwd 53 1024 q53 q1024 one64 (share64 r) F1 Fi) as [A B]; [apply fits1; rewrite E1, Ei, Rabs_pos_eq; lra|].
  rewrite E1, Ei in B. auto.
Qed.
Lemma ci_one : r64 (cR + iR) = 1.
Proof. apply near_one. pose proof i_un. replace (cR + iR - 1) with (cR - (1 - iR)) by ring. apply err1. rewrite Rabs_pos_eq; lra. Qed.
Lemma c_fix : r64 cR = cR. Proof. rewrite <- (proj2 comp_val). apply (rndf_B 53 1024). Qed.
Lemma dec_val q : proper q -> F (dec64 r q) /\ B2R (dec64 r q) = r64 (B2R q * cR).
Proof.
  intros [Fq Hq]. destruct comp_val as [Fc Ec]. pose proof c_un. destruct (mul_fwd 53 1024 q53 q1024 q (sub64 one64 (share64 r)) Fq Fc) as [A B]; [apply fits1; rewrite Ec, Rabs_pos_eq; nra|].
  rewrite Ec in B. auto.
Qed.
Lemma dec_le q : proper q -> 0 <= B2R (dec64 r q) <= cR.
Proof. intros Hq. destruct (dec_val q Hq) as [_ ->]. destruct Hq as [_ Hq]. pose proof c_un as U. assert (Q : 0 <= B2R q * cR <= cR) by nra. pose proof (r64_mono 0 _ (proj1 Q)) as A. pose proof (r64_mono _ _ (proj2 Q)) as B. rewrite r64_0 in A. rewrite c_fix in B. lra. Qed.
Lemma dec_proper q : proper q -> proper (dec64 r q).
Proof. intros Hq. split; [apply (dec_val q Hq)|]. pose proof (dec_le q Hq). pose proof c_un. lra. Qed.
Lemma rai_val fuse q : proper q -> F (rai64 fuse r q) /\ B2R (rai64 fuse r q) = r64 ((if fuse then B2R q * cR else r64 (B2R q * cR)) + iR).
Proof.
  intros Hq. destruct share_val as [Fi Ei]. destruct comp_val as [Fc Ec]. pose proof c_un. pose proof i_un. pose proof (dec_le q Hq) as D. destruct (dec_val q Hq) as [Fd Ed]. unfold rai64. destruct fuse.
  - destruct Hq as [Fq Hq]. destruct (fma_fwd 53 1024 q53 q1024 q _ _ Fq Fc Fi) as [A B]; [apply fits1; rewrite Ec, Ei, Rabs_pos_eq; nra|]. rewrite Ec, Ei in B. auto.
  - destruct (add_fwd 53 1024 q53 q1024 _ _ Fd Fi) as [A B]; [apply fits1; rewrite Ei, Rabs_pos_eq; lra|]. rewrite Ei, Ed in B. auto.
Qed.
Lemma rai_proper fuse q : proper q -> proper (rai64 fuse r q).
Proof.
  intros Hq. destruct (rai_val fuse q Hq) as [Fx Ex]. split; [exact Fx|]. rewrite Ex. pose proof (dec_le q Hq) as D. destruct (dec_val q Hq) as [_ Ed]. rewrite Ed in D. destruct Hq as [_ Hq]. pose proof c_un. pose proof i_un.
  assert (Q : 0 <= (if fuse then B2R q * cR else r64 (B2R q * cR)) <= cR) by (destruct fuse; nra). pose proof (r64_mono 0 _ (Rplus_le_le_0_compat _ _ (proj1 Q) (proj1 H0))) as A. rewrite r64_0 in A. split; [exact A|]. rewrite <- ci_one. apply r64_mono; lra.
Qed.
Lemma rai_one fuse q : proper q -> B2R q = 1 -> B2R (rai64 fuse r q) = 1.
Proof. intros Hq E. destruct (rai_val fuse q Hq) as [_ ->]. rewrite E, Rmult_1_l, c_fix. destruct fuse; exact ci_one. Qed.
(** decay *)
Hypothesis Hi : (r <= 2147483647)%Z.
Lemma r_pos : 1 <= IZR r <= 2147483647. Proof. split; apply IZR_le; assumption. Qed.
Lemma inv_un : 0 < 1 / IZR r <= 1.
Proof. pose proof r_pos. unfold Rdiv. rewrite Rmult_1_l. split; [apply Rinv_0_lt_compat; lra|]. rewrite <- Rinv_1. apply Rinv_le; lra. Qed.
Lemma share_is : iR = r64 (1 / IZR r).
Proof.
  pose proof r_pos as P. destruct one64_val as [F1 E1]. destruct (of_Z64' r ltac:(lia)) as [F2 E2].
  pose proof (Bdiv_correct 53 1024 q53 q1024 mode_NE one64 (g64_of_Z r) ltac:(rewrite E2; lra)) as C. cbn [round_mode] in C. rewrite E1, E2 in C. fold (r64 (1 / IZR r)) in C.
  rewrite Rlt_bool_true in C by (apply fits1; pose proof inv_un; rewrite Rabs_pos_eq; lra). destruct C as (A & _). exact A.
Qed.
Lemma c_small : cR <= 1 - / (2 * IZR r).
Proof.
  pose proof r_pos as P. pose proof inv_un as I. pose proof (err1 (1 / IZR r) ltac:(rewrite Rabs_pos_eq; lra)) as A. rewrite <- share_is in A. pose proof i_un. pose proof (err1 (1 - iR) ltac:(rewrite Rabs_pos_eq; lra)) as B. fold cR in B.
  apply Rabs_le_inv in A, B. assert (J : / 4294967294 <= / (2 * IZR r)) by (apply Rinv_le; lra). replace (/ (2 * IZR r)) with (1 / IZR r / 2) in * by (field; lra). lra.
Qed.
Lemma dec_decay q : proper q -> B2R (dec64 r q) <= B2R q * (1 - / (4 * IZR r)) + w.
Proof.
  intros Hq. destruct (dec_val q Hq) as [_ ->]. destruct Hq as [_ Hq]. pose proof c_small as C. pose proof c_un as U. pose proof (rerr64 (B2R q * cR)) as E. rewrite (Rabs_pos_eq (B2R q * cR)) in E by (apply Rmult_le_pos; lra). apply Rabs_le_inv in E.
  pose proof r_pos as P. set (h := / (4 * IZR r)) in *. assert (Hh : / (2 * IZR r) = 2 * h) by (unfold h; field; lra). rewrite Hh in C. assert (J : / 8589934588 <= h) by (apply Rinv_le; lra).
  assert (X : cR * (1 + v) <= 1 - h). { assert (h <= 1). { unfold h. rewrite <- Rinv_1. apply Rinv_le; lra. } apply Rle_trans with ((1 - 2 * h) * (1 + v)); [apply Rmult_le_compat_r; lra|]. lra. }
  assert (B2R q * (cR * (1 + v)) <= B2R q * (1 - h)) by (apply Rmult_le_compat_l; lra). lra.
Qed.
Fixpoint decs (n : nat) : g64 := match n with O => one64 | S k => dec64 r (decs k) end.
Lemma one_proper : proper one64. Proof. destruct one64_val as [A B]. split; [exact A|rewrite B; lra]. Qed.
Lemma decs_proper n : proper (decs n). Proof. induction n as [|n IH]; [exact one_proper|]. cbn [decs]. now apply dec_proper. Qed.
Lemma decs_bound n : B2R (decs n) <= (1 - / (4 * IZR r)) ^ n + 4 * IZR r * w.
Proof.
  pose proof r_pos as P. set (h := / (4 * IZR r)). assert (Hh : 4 * IZR r * h = 1) by (unfold h; field; lra). assert (J : 0 < h <= 1). { unfold h. split; [apply Rinv_0_lt_compat; lra|]. rewrite <- Rinv_1. apply Rinv_le; lra. }
  induction n as [|n IH]; [cbn [decs pow]; rewrite (proj2 one64_val); nra|]. cbn [decs pow]. eapply Rle_trans; [apply dec_decay, decs_proper|]. fold h. set (x := (1 - h) ^ n) in *. set (y := B2R (decs n)) in *. clearbody x y.
  assert (y * (1 - h) <= (x + 4 * IZR r * w) * (1 - h)) by (apply Rmult_le_compat_r; lra). assert ((x + 4 * IZR r * w) * (1 - h) = (1 - h) * x + 4 * IZR r * w - (4 * IZR r * h) * w) by ring. rewrite Hh in *. lra.
Qed.
Lemma decs_small eps : 1 / 10000000000 <= eps -> exists N, forall n, (N <= n)%nat -> B2R (decs n) <= eps.
Proof.
  intros He. pose proof r_pos as P. assert (J : 0 < / (4 * IZR r) <= 1). { split; [apply Rinv_0_lt_compat; lra|]. rewrite <- Rinv_1. apply Rinv_le; lra. }
  destruct (pow_lt_1_zero (1 - / (4 * IZR r))) with (y := eps / 2) as [N HN]; [rewrite Rabs_pos_eq; lra|lra|].
  exists N. intros n Hn. specialize (HN n Hn). apply Rabs_def2 in HN. pose proof (decs_bound n). lra.
Qed.
End Range.
(** global quality and threshold *)
Lemma ratio_val a b : (0 <= a <= 2147483647)%Z -> positive_int b -> F (div64 (g64_of_Z a) (g64_of_Z b)) /\ B2R (div64 (g64_of_Z a) (g64_of_Z b)) = r64 (IZR a / IZR b) /\ 0 <= IZR a / IZR b.
Proof.
  intros Ha [Hb Hb']. destruct (of_Z64' a ltac:(lia)) as [F1 E1]. destruct (of_Z64' b ltac:(lia)) as [F2 E2]. assert (A : 0 <= IZR a <= 2147483647) by (split; apply IZR_le; lia). assert (B : 1 <= IZR b) by (apply IZR_le; lia).
  assert (Q : 0 <= IZR a / IZR b <= 2147483647).
  { unfold Rdiv. split; [apply Rmult_le_pos; [lra|left; apply Rinv_0_lt_compat; lra]|]. apply Rmult_le_reg_r with (IZR b); [lra|]. rewrite Rmult_assoc, Rinv_l, Rmult_1_r by lra. assert (2147483647 * 1 <= 2147483647 * IZR b) by (apply Rmult_le_compat_l; lra). lra. }
  pose proof (Bdiv_correct 53 1024 q53 q1024 mode_NE (g64_of_Z a) (g64_of_Z b) ltac:(rewrite E2; lra)) as C. cbn [round_mode] in C. rewrite E1, E2 in C. fold (r64 (IZR a / IZR b)) in C.
  rewrite Rlt_bool_true in C by (apply r64_fits; rewrite Rabs_pos_eq; lra). destruct C as (V & W & _). unfold div64. rewrite V, W. repeat split; [exact F1|lra].
Qed.
Lemma min_proper x : F x -> 0 <= B2R x -> proper (min64 x one64).
Proof.
  intros Fx Hx. destruct one64_val as [F1 E1]. unfold min64. rewrite (Bltb_correct 53 1024 one64 x F1 Fx), E1. case Rlt_bool_spec; intros L; [exact one_proper|]. split; [exact Fx|lra].
Qed.
Lemma mul_proper x y : proper x -> proper y -> proper (mul64 x y) /\ B2R (mul64 x y) = r64 (B2R x * B2R y) /\ B2R (mul64 x y) <= B2R x /\ B2R (mul64 x y) <= B2R y.
Proof.
  intros [Fx Hx] [Fy Hy]. assert (Q : 0 <= B2R x * B2R y <= 1) by nra. destruct (mul_fwd 53 1024 q53 q1024 x y Fx Fy) as [A B]; [apply fits1; rewrite Rabs_pos_eq; lra|].
  assert (L1 : B2R (mul64 x y) <= B2R x) by (unfold mul64; rewrite B; rewrite <- (rndf_B 53 1024 x) at 2; apply r64_mono; nra).
  assert (L2 : B2R (mul64 x y) <= B2R y) by (unfold mul64; rewrite B; rewrite <- (rndf_B 53 1024 y) at 2; apply r64_mono; nra).
  split; [|auto]. split; [exact A|]. split; [|lra]. unfold mul64; rewrite B. apply r64_un. exact Q.
Qed.
Lemma global_proper (s : stat g64) : (0 <= count_tracked s <= count_tot s)%Z -> positive_int (count_tot s) -> positive_int (s_rg s) -> proper (global_quality64 s).
Proof.
  intros Ht Hc Hg. unfold global_quality64. assert (0 < IZR (count_tot s)) by (apply IZR_lt; destruct Hc; lia). assert (0 <= IZR (count_tracked s) <= IZR (count_tot s)) by (split; apply IZR_le; lia).
  destruct (ratio_val (count_tracked s) (count_tot s) ltac:(destruct Hc; lia) Hc) as (A1 & A2 & A3). destruct (ratio_val (count_tot s) (s_rg s) ltac:(destruct Hc; lia) Hg) as (B1 & B2 & B3).
  apply mul_proper.
  - split; [exact A1|]. rewrite A2. apply r64_un. split; [exact A3|]. apply Rmult_le_reg_r with (IZR (count_tot s)); [lra|]. unfold Rdiv. rewrite Rmult_assoc, Rinv_l; lra.
  - apply min_proper; [exact B1|]. rewrite B2, <- r64_0. apply r64_mono. rewrite ?r64_0. exact B3.
Qed.
Section Threshold.
Variables (fuse : bool) (s : stat g64) (u l : g64).
Hypothesis G : proper (global_quality64 s).
Hypothesis Fu : F u.
Hypothesis Fl : F l.
Hypothesis L : 0 <= B2R l <= B2R u.
Hypothesis U : B2R u <= 1.
Let d := sub64 u l.
Lemma gap_ok : proper d /\ B2R d = r64 (B2R u - B2R l).
Proof.
  destruct (sub_fwd 53 1024 q53 q1024 u l Fu Fl) as [A B]; [apply fits1; rewrite Rabs_pos_eq; lra|]. split; [|exact B]. split; [exact A|]. unfold d, sub64. rewrite B. apply r64_un. lra.
Qed.
Lemma thr_val : exists m, 0 <= m <= B2R d /\ F (threshold64 fuse s u l) /\ B2R (threshold64 fuse s u l) = r64 (B2R u - m) /\
  m = (if fuse then B2R d * B2R (global_quality64 s) else r64 (B2R d * B2R (global_quality64 s))).
Proof.
  destruct gap_ok as [D _]. unfold threshold64. fold d. cbv zeta. exists (if fuse then B2R d * B2R (global_quality64 s) else r64 (B2R d * B2R (global_quality64 s))). destruct fuse.
  - destruct D as [Fd Hd]. destruct G as [Fg Hg]. assert (Q : 0 <= B2R d * B2R (global_quality64 s) <= B2R d) by nra.
    destruct (fma_fwd 53 1024 q53 q1024 (Bopp d) (global_quality64 s) u) as [A B]; [rewrite is_finite_Bopp; exact Fd|exact Fg|exact Fu|rewrite B2R_Bopp; apply fits1; apply Rabs_le; lra|].
    rewrite B2R_Bopp in B. replace (- B2R d * B2R (global_quality64 s) + B2R u) with (B2R u - B2R d * B2R (global_quality64 s)) in B by ring. repeat split; [| |exact A|exact B]; lra.
  - destruct (mul_proper d (global_quality64 s) D G) as ([Fm Hm] & Em & Lm & _). destruct (sub_fwd 53 1024 q53 q1024 u _ Fu Fm) as [A B]; [apply fits1; apply Rabs_le; lra|].
    rewrite <- Em. split; [lra|]. split; [exact A|]. split; [exact B|reflexivity].
Qed.
Lemma thr_le : F (threshold64 fuse s u l) /\ B2R (threshold64 fuse s u l) <= B2R u.
Proof. destruct thr_val as (m & Hm & A & B & _). split; [exact A|]. rewrite B. rewrite <- (rndf_B 53 1024 u) at 2. apply r64_mono. lra. Qed.
Lemma thr_ge : / 1000000000 <= B2R l -> B2R l / 4 <= B2R (threshold64 fuse s u l).
Proof.
  intros Hl. destruct thr_val as (m & Hm & _ & B & _). rewrite B. destruct gap_ok as [_ D]. pose proof (err1 (B2R u - B2R l) ltac:(rewrite Rabs_pos_eq; lra)) as E. rewrite <- D in E. apply Rabs_le_inv in E.
  pose proof (err1 (B2R u - m) ltac:(apply Rabs_le; lra)) as E'. apply Rabs_le_inv in E'. lra.
Qed.
End Threshold.
(** lowering the lower threshold *)
Lemma thr_mono fuse s u l l' : proper (global_quality64 s) -> F u -> F l -> F l' -> 0 <= B2R l' <= B2R l -> B2R l <= B2R u -> B2R u <= 1 ->
  B2R (threshold64 fuse s u l') <= B2R (threshold64 fuse s u l).
Proof.
  intros G Fu Fl Fl' A B U. destruct (thr_val fuse s u l G Fu Fl ltac:(lra) U) as (m & _ & _ & -> & Em). destruct (thr_val fuse s u l' G Fu Fl' ltac:(lra) U) as (m' & _ & _ & -> & Em').
  apply r64_mono. destruct (gap_ok u l Fu Fl ltac:(lra) U) as [_ D]. destruct (gap_ok u l' Fu Fl' ltac:(lra) U) as [_ D']. rewrite D in Em. rewrite D' in Em'.
  assert (X : r64 (B2R u - B2R l) <= r64 (B2R u - B2R l')) by (apply r64_mono; lra). destruct G as [_ Hg]. assert (Y : r64 (B2R u - B2R l) * B2R (global_quality64 s) <= r64 (B2R u - B2R l') * B2R (global_quality64 s)) by (apply Rmult_le_compat_r; lra).
  assert (m <= m'); [|lra]. rewrite Em, Em'. destruct fuse; [exact Y|]. apply r64_mono. exact Y.
Qed.
(** the loop *)
Lemma good_iff64 fuse s u l : is_good_feature64 fuse s u l = true <-> exists c, In c (s_cams s) /\ good_cam64 fuse s u l c = true.
Proof.
  unfold is_good_feature64. assert (X : forall cs b, fold_left (fun g c => g || good_cam64 fuse s u l c) cs b = true <-> b = true \/ exists c, In c cs /\ good_cam64 fuse s u l c = true).
  { induction cs as [|c cs IH]; intros b; cbn [fold_left]; [split; [auto|intros [|(? & [] & _)]; auto]|]. rewrite IH, orb_true_iff. split.
    - intros [[H|H]|(x & A & B)]; [auto|right; exists c; split; [now left|exact H]|right; exists x; split; [now right|exact B]].
    - intros [H|(x & [->|A] & B)]; [auto|auto|right; exists x; auto]. }
  rewrite X. split; [intros [|]; [discriminate|assumption]|auto].
Qed.
Lemma good_cam_val fuse s u l c : F (threshold64 fuse s u l) -> proper (cam_local_quality (ops64 fuse) s c) -> proper (cam_local_visibility (ops64 fuse) s c) ->
  (good_cam64 fuse s u l c = true <-> B2R (threshold64 fuse s u l) < r64 (B2R (cam_local_quality (ops64 fuse) s c) * B2R (cam_local_visibility (ops64 fuse) s c))).
Proof.
  intros Ft Q V. destruct (mul_proper _ _ Q V) as ([Fm _] & Em & _). unfold good_cam64. rewrite (Bltb_correct 53 1024 _ _ Ft Fm), Em. case Rlt_bool_spec; intros L; split; try easy. lra.
Qed.
(** histories *)
Section Run.
Variables (fuse : bool) (ncam : nat).
Notation O := (ops64 fuse).
Lemma int_ok o : int_ranges o -> ranges_ok o.
Proof. destruct o; cbn; auto. unfold positive_int. lia. Qed.
Lemma run_rg os s s' : positive_int (s_rg s) -> Forall int_ranges os -> run O s os = Some s' -> positive_int (s_rg s').
Proof.
  revert s. induction os as [|o os IH]; cbn [run]; intros s Hs Ho Hr; [congruence|]. apply Forall_cons_iff in Ho as [H1 H2]. destruct (step O s o) as [s1|] eqn:E; [|discriminate]. apply (IH s1); auto.
  destruct o; cbn in E; [injection E as <-; exact Hs| |injection E as <-; exact Hs|injection E as <-; cbn in *; tauto].
  unfold set_status in E. destruct (Nat.ltb _ _); [|discriminate]. injection E as <-. exact Hs.
Qed.
Lemma run_proper s os s' : stat_ok proper s -> Forall ranges_ok os -> run O s os = Some s' -> stat_ok proper s'.
Proof. apply run_ok; [exact one_proper|intros r q Hr; apply rai_proper; exact Hr|intros r q Hr; apply dec_proper; exact Hr]. Qed.
Lemma cams_proper s c : stat_ok proper s -> In c (s_cams s) -> proper (cam_local_quality O s c) /\ proper (cam_local_visibility O s c).
Proof.
  intros (Hc & _ & _ & Hq & Hv & _) Hin. rewrite Forall_forall in Hc. destruct (Hc c Hin) as [A B]. unfold cam_local_quality, cam_local_visibility. split.
  - apply (upd_quality_ok O proper); auto; intros; [apply rai_proper|apply dec_proper]; assumption.
  - apply (upd_visibility_ok O proper); auto; intros; [apply rai_proper|apply dec_proper]; assumption.
Qed.
Lemma getters s : stat_ok proper s -> (forall i q, local_quality O s i = Some q -> proper q) /\ (forall i q, local_visibility O s i = Some q -> proper q) /\ proper (average_local_quality O s) /\ proper (joint_local_visibility O s).
Proof. apply (getters_ok O proper); intros; [apply rai_proper|apply dec_proper]; assumption. Qed.
Lemma max_ok s cs q : proper q -> (forall c, In c cs -> proper (cam_local_quality O s c)) ->
  let m := fold_left (fun q c => if Bltb q (cam_local_quality O s c) then cam_local_quality O s c else q) cs q in
  proper m /\ B2R q <= B2R m /\ (forall c, In c cs -> B2R (cam_local_quality O s c) <= B2R m) /\ (m = q \/ exists c, In c cs /\ m = cam_local_quality O s c).
Proof.
  revert q. induction cs as [|c cs IH]; intros q Hq Hc; cbn [fold_left]; cbv zeta; [split; [exact Hq|split; [apply Rle_refl|split; [intros c []|now left]]]|].
  pose proof (Hc c (or_introl eq_refl)) as C. set (q' := if Bltb q (cam_local_quality O s c) then cam_local_quality O s c else q).
  assert (A : proper q' /\ B2R q <= B2R q' /\ B2R (cam_local_quality O s c) <= B2R q' /\ (q' = q \/ q' = cam_local_quality O s c)).
  { unfold q'. destruct Hq as [Fq Hq]. destruct C as [Fc Hc']. rewrite (Bltb_correct 53 1024 _ _ Fq Fc). case Rlt_bool_spec; intros L; cbv iota; (split; [split; assumption|]); (split; [lra|]); (split; [lra|]); auto. }
  destruct A as (P & A1 & A2 & A3). destruct (IH q' P (fun d Hd => Hc d (or_intror Hd))) as (B1 & B2 & B3 & B4). split; [exact B1|]. split; [exact (Rle_trans _ _ _ A1 B2)|]. split.
  - intros d [<-|Hd]; [exact (Rle_trans _ _ _ A2 B2)|exact (B3 d Hd)].
  - destruct B4 as [B4|(d & Hd & B4)]; [|right; exists d; split; [now right|exact B4]]. destruct A3 as [A3|A3]; [left; exact (eq_trans B4 A3)|right; exists c; split; [now left|exact (eq_trans B4 A3)]].
Qed.
(** constant ranges *)
Variables (rq rv rg t0 : Z).
Hypothesis Hq : positive_int rq.
Hypothesis Hv : positive_int rv.
Hypothesis Hg : positive_int rg.
Let start := set_ranges rq rv rg (init O ncam t0).
Variables (os : list op) (s : stat g64).
Hypothesis NR : Forall no_ranges os.
Hypothesis R : run O start os = Some s.
Let fs := frames (log_run ncam t0 os).
Hypothesis Cnt : (Z.of_nat (length fs) <= 2147483647)%Z.
Lemma s_ok : stat_ok proper s.
Proof.
  apply (run_proper start os); [| |exact R].
  - pose proof (init_ok O proper one_proper ncam t0) as (A & B & C & _). unfold positive_int in *. split; [exact A|]. split; [exact B|]. split; [exact C|]. cbn. lia.
  - eapply Forall_impl; [|exact NR]. intros [] H; cbn in *; auto; contradiction.
Qed.
Lemma s_abs : abs_ok ncam s (log_run ncam t0 os).
Proof. apply (run_abs_gen O ncam os start); [apply abs_init|exact R]. Qed.
Lemma s_global : proper (global_quality64 s).
Proof.
  destruct (tracked_ok ncam s _ s_abs) as [_ T]. apply global_proper; [exact T| |].
  - unfold count_tot. rewrite (ab_tot _ _ _ s_abs). unfold fs, frames in Cnt. cbn [length] in Cnt. unfold positive_int. lia.
  - rewrite (proj2 (proj2 (run_ranges O os start s NR R))). exact Hg.
Qed.
Lemma low_pass_down (r : Z) up (fs' : list frame) : Forall (fun f => up f = false) fs' -> low_pass O r up (fun _ => true) fs' = decs r (length fs').
Proof. induction 1 as [|f l E _ IH]; [reflexivity|]. cbn [low_pass fold_right length decs]. rewrite E. unfold low_pass in IH. now rewrite IH. Qed.
Lemma low_pass_down' (r : Z) up down (fs' : list frame) : Forall (fun f => up f = false /\ down f = true) fs' -> low_pass O r up down fs' = decs r (length fs').
Proof. induction 1 as [|f l [E D] _ IH]; [reflexivity|]. cbn [low_pass fold_right length decs]. rewrite E, D. unfold low_pass in IH. now rewrite IH. Qed.
Lemma low_pass_up (r : Z) up down (fs' : list frame) : positive_int r -> Forall (fun f => up f = true) fs' -> proper (low_pass O r up down fs') /\ B2R (low_pass O r up down fs') = 1.
Proof.
  intros Hr. induction 1 as [|f l E _ [P1 P2]]; [split; [exact one_proper|apply one64_val]|]. cbn [low_pass fold_right]. rewrite E. unfold low_pass in P1, P2. destruct Hr as [Hr _].
  split; [apply rai_proper; assumption|apply rai_one; assumption].
Qed.
Lemma in_cam c : In c (s_cams s) -> exists i, (i < ncam)%nat /\ nth_error (s_cams s) i = Some c.
Proof. intros H. apply In_nth_error in H as [i E]. exists i. split; [|exact E]. rewrite <- (ab_len _ _ _ s_abs). apply nth_error_Some. congruence. Qed.
Lemma q_is i c : (i < ncam)%nat -> nth_error (s_cams s) i = Some c ->
  cam_local_quality O s c = low_pass O rq (seen_as i TRACKED) (failed_in i) fs /\ cam_local_visibility O s c = low_pass O rv (visible_in i) (fun _ => true) fs.
Proof.
  intros Hi E. destruct (filters O ncam rq rv rg t0 os s NR R) as [A _]. destruct (A i Hi) as [B C]. unfold local_quality in B. unfold local_visibility in C. rewrite E in B, C. cbn [option_map] in B, C. split; [injection B as B; exact B|injection C as C; exact C].
Qed.
Variables (u l : g64).
Hypothesis Fu : F u.
Hypothesis Fl : F l.
Hypothesis Ll : 0 <= B2R l <= B2R u.
Lemma tracked_good i : (i < ncam)%nat -> Forall (fun f => seen_as i TRACKED f = true) fs -> B2R u < 1 -> is_good_feature64 fuse s u l = true.
Proof.
  intros Hi T U. destruct (nth_error (s_cams s) i) as [c|] eqn:E; [|apply nth_error_None in E; rewrite (ab_len _ _ _ s_abs) in E; lia].
  destruct (q_is i c Hi E) as [A B]. apply nth_error_In in E. apply good_iff64. exists c. split; [exact E|].
  destruct (thr_le fuse s u l s_global Fu Fl Ll ltac:(lra)) as [Ft Ht]. destruct (cams_proper s c s_ok E) as [P Q]. apply (good_cam_val fuse s u l c Ft P Q). rewrite A, B.
  rewrite (proj2 (low_pass_up rq _ _ fs Hq T)). rewrite (proj2 (low_pass_up rv (visible_in i) _ fs Hv ltac:(eapply Forall_impl; [|exact T]; intros f H; unfold visible_in; now rewrite H))). rewrite Rmult_1_l, r64_1. lra.
Qed.
Lemma lost_bad : / 1000000000 <= B2R l -> B2R u <= 1 -> (forall c, In c (s_cams s) -> B2R (cam_local_quality O s c) <= B2R l / 4 \/ B2R (cam_local_visibility O s c) <= B2R l / 4) -> is_good_feature64 fuse s u l = false.
Proof.
  intros Hl U H. destruct (is_good_feature64 fuse s u l) eqn:E; [|reflexivity]. apply good_iff64 in E as (c & Hc & E). destruct (thr_le fuse s u l s_global Fu Fl Ll ltac:(lra)) as [Ft _].
  pose proof (thr_ge fuse s u l s_global Fu Fl Ll U Hl) as T. destruct (cams_proper s c s_ok Hc) as [P Q]. apply (good_cam_val fuse s u l c Ft P Q) in E. destruct (mul_proper _ _ P Q) as (_ & Em & L1 & L2). rewrite <- Em in E. destruct (H c Hc); lra.
Qed.
End Run.
Lemma failed_not_tracked i f : failed_in i f = true -> seen_as i TRACKED f = false.
Proof. unfold failed_in, seen_as. destruct (nth_error f i) as [[]|]; cbn; congruence. Qed.
Lemma unseen_not_visible i f : unseen_in i f = true -> visible_in i f = false.
Proof. unfold unseen_in, visible_in, failed_in, seen_as. destruct (nth_error f i) as [[]|]; cbn; congruence. Qed.
