(** C49: what a subscriber of the point cloud reads in float precision. *)
From Coq Require Import ZArith Reals List String Bool Lia Lra.
From Flocq Require Import Core Binary Bits.
From Verif Require Import Geo DistModel OutModel MsgModel MsgSpec MsgProofs MsgMore MsgProps ImsgModel ImsgSpec ImsgProofs.
Import ListNotations.
Local Open Scope R_scope.

Lemma bits32_pattern : pattern bits32.
Proof. intros r. apply bits_range. Qed.
Lemma reads_published n m ss : kept_pcl bits32 n m -> List.length ss = n ->
  exists m', write_pcl bits32 m ss = Some m' /\ kept_pcl bits32 n m' /\
  (forall i v name r, nth_error ss i = Some (Some v) -> In (name, r) (published v) -> reads m' i name = Some (float_of r)) /\
  forall i, nth_error ss i = Some None -> forall name, In name (map f_name (m_fields m')) -> name <> "id"%string -> get m' i name 0 = Some nan_bits.
Proof.
  intros K N. destruct (C49_point_cloud bits32 n m ss bits32_pattern K N) as (m' & W & K' & _ & _ & R). exists m'. split; [exact W|]. split; [exact K'|]. split.
  - intros i v name r I P. specialize (R i (Some v) I). cbv iota beta in R.
    destruct R as (_ & _ & _ & _ & (X1 & X2 & X3) & (B1 & B2 & B3) & D & DC & C1 & C2 & C3 & C4 & C5 & C6).
    cbn [published In] in P. unfold reads, bits32 in *.
    repeat (destruct P as [[= <- <-]|P]; [match goal with H : get m' i ?a 0 = _ |- context[get m' i ?a 0] => rewrite H end; cbn [option_map]; f_equal; apply decode|]). destruct P.
  - intros i I. exact (proj2 (R i None I)).
Qed.

(** Every floating point field of a tracked feature reads as the nearest float of its value, never as NaN, and every
    field but the id of an unused slot reads as NaN; so subscribers can tell them apart. *)
Theorem C49_ieee_point_cloud : forall n m ss, kept_pcl bits32 n m -> List.length ss = n ->
  exists m', write_pcl bits32 m ss = Some m' /\
  (forall i v name r, nth_error ss i = Some (Some v) -> In (name, r) (published v) ->
     exists f, reads m' i name = Some f /\ ~ not_a_number f /\ (Rabs r <= largest -> close f r)) /\
  (forall i name, nth_error ss i = Some None -> In name (map f_name (m_fields m')) -> name <> "id"%string ->
     exists f, reads m' i name = Some f /\ not_a_number f).
Proof.
  intros n m ss K N. destruct (reads_published n m ss K N) as (m' & W & _ & R & U). exists m'. split; [exact W|]. split.
  - intros i v name r I P. exists (float_of r). split; [exact (R i v name r I P)|]. split; [|apply close_float].
    unfold not_a_number. rewrite float_of_nan. discriminate.
  - intros i name I M Ne. unfold reads. rewrite (U i I name M Ne). cbn [option_map]. eexists. split; [reflexivity|]. vm_compute. reflexivity.
Qed.
Print Assumptions C49_ieee_point_cloud.

(** The order of distances (or of any field) is kept, and distances from the smallest float on stay positive. *)
Theorem C49_ieee_order : forall n m ss, kept_pcl bits32 n m -> List.length ss = n ->
  exists m', write_pcl bits32 m ss = Some m' /\
  forall name i v r j w q, nth_error ss i = Some (Some v) -> In (name, r) (published v) -> nth_error ss j = Some (Some w) -> In (name, q) (published w) ->
    Rabs r <= largest -> Rabs q <= largest -> exists f g, reads m' i name = Some f /\ reads m' j name = Some g /\ (r <= q -> value f <= value g) /\ (/ 2 ^ 149 <= r -> 0 < value f).
Proof.
  intros n m ss K N. destruct (reads_published n m ss K N) as (m' & W & _ & R & U). exists m'. split; [exact W|].
  intros name i v r j w q I P J Q Hr Hq. exists (float_of r), (float_of q). split; [exact (R i v name r I P)|]. split; [exact (R j w name q J Q)|].
  rewrite !value_float by assumption. split; [apply rnd_le|]. intros H. apply rnd_pos in H. assert (0 < / 2 ^ 149) by (apply Rinv_0_lt_compat, pow_lt; lra). lra.
Qed.
Print Assumptions C49_ieee_order.

Lemma exp_nat k : exp (INR k) = exp 1 ^ k.
Proof. induction k as [|k IH]; [apply exp_0|]. rewrite S_INR, exp_plus, IH. cbn. ring. Qed.
(** With the logarithmic distance parameter -200 the distance is positive but the published distance is zero. *)
Theorem C49_ieee_positive_distance_refuted : exists n ss m' v f, write_pcl bits32 (pcl_cloud n) ss = Some m' /\ List.length ss = n /\ nth_error ss 0 = Some (Some v) /\
  v_dis v = get_distance {| fd_type := LOG; fd_p := -200 |} /\ 0 < v_dis v /\ reads m' 0 "d" = Some f /\ value f = 0.
Proof.
  set (v := {| v_id := 0; v_cam := 0; v_status := 0; v_pos := v0; v_bea := (0, 0, 1); v_dis := exp (-200); v_cov := mzero3; v_dcov := 0 |}).
  destruct (reads_published 1 (pcl_cloud 1) [Some v] (kept_new _ _ _) eq_refl) as (m' & W & _ & R & _).
  exists 1%nat, [Some v], m', v, (float_of (exp (-200))). split; [exact W|]. split; [reflexivity|]. split; [reflexivity|]. split; [reflexivity|]. split; [apply exp_pos|].
  split; [apply (R 0%nat v); [reflexivity|]; cbn; tauto|].
  assert (P : 0 < exp (-200) < / 2 ^ 150).
  { split; [apply exp_pos|]. replace (-200) with (- INR 200) by (rewrite INR_IZR_INZ; reflexivity). rewrite exp_Ropp, exp_nat.
    apply Rinv_lt_contravar; [apply Rmult_lt_0_compat; [apply pow_lt; lra|apply pow_lt, exp_pos]|].
    apply Rlt_le_trans with (2 ^ 200); [apply Rlt_pow; [lra|lia]|]. apply pow_incr. pose proof (exp_ineq1 1 ltac:(lra)). lra. }
  rewrite value_float; [exact (rnd_tiny _ P)|]. rewrite Rabs_pos_eq by lra. apply Rle_trans with 1.
  - apply Rlt_le, Rlt_le_trans with (1 := proj2 P). rewrite <- Rinv_1. apply Rinv_le_contravar; [lra|]. apply pow_R1_Rle. lra.
  - unfold largest. assert (1 <= powerRZ 2 104) by (change 104%Z with (Z.of_nat 104); rewrite <- pow_powerRZ; apply pow_R1_Rle; lra). lra.
Qed.
Print Assumptions C49_ieee_positive_distance_refuted.

(** The landmark covariance stays positive semidefinite when its smallest eigenvalue exceeds three times the rounding error of the largest entry. *)
Theorem C49_ieee_covariance : forall n m ss, kept_pcl bits32 n m -> List.length ss = n ->
  exists m', write_pcl bits32 m ss = Some m' /\
  forall i v b, nth_error ss i = Some (Some v) -> mt (v_cov v) = v_cov v -> entries_bounded (v_cov v) b -> b <= largest ->
    (forall u, 3 * Rmax (b / 2 ^ 24) (/ 2 ^ 150) * dot u u <= dot u (mv (v_cov v) u)) -> exists c, read_cov m' i = Some c /\ semidefinite3 c.
Proof.
  intros n m ss K N. destruct (reads_published n m ss K N) as (m' & W & _ & R & U). exists m'. split; [exact W|].
  intros i v b I S B L H. unfold read_cov.
  rewrite (R i v "c_00"%string (vx (r0 (v_cov v))) I), (R i v "c_01"%string (vy (r0 (v_cov v))) I), (R i v "c_02"%string (vz (r0 (v_cov v))) I), (R i v "c_11"%string (vy (r1 (v_cov v))) I),
    (R i v "c_12"%string (vz (r1 (v_cov v))) I), (R i v "c_22"%string (vz (r2 (v_cov v))) I) by (cbn; tauto).
  eexists. split; [reflexivity|].
  pose proof (B 0 0)%nat as B00. pose proof (B 0 1)%nat as B01. pose proof (B 0 2)%nat as B02. pose proof (B 1 1)%nat as B11. pose proof (B 1 2)%nat as B12. pose proof (B 2 2)%nat as B22.
  destruct (v_cov v) as [[[[a b1] c] [[a2 d] f]] [[a3 d3] g]]. cbn in B00, B01, B02, B11, B12, B22, S. cbv [mt r0 r1 r2 vx vy vz fst snd] in S. assert (Q1 : a2 = b1) by congruence. assert (Q2 : a3 = c) by congruence. assert (Q3 : d3 = f) by congruence. clear S. subst a2 a3 d3.
  cbn [r0 r1 r2 vx vy vz fst snd]. rewrite !value_float by lra. intros [[x y] z]. specialize (H (x, y, z)).
  assert (ER : forall r, Rabs r <= b -> Rabs (rnd32 r - r) <= Rmax (b / 2 ^ 24) (/ 2 ^ 150)).
  { intros r Hr. eapply Rle_trans; [apply rnd_error|]. apply Rle_max_compat_r. apply Rmult_le_compat_r; [|exact Hr]. apply Rlt_le, Rinv_0_lt_compat, pow_lt. lra. }
  pose proof (perturbed a b1 c d f g _ _ _ _ _ _ _ x y z (ER a B00) (ER b1 B01) (ER c B02) (ER d B11) (ER f B12) (ER g B22)) as P. apply Rabs_le_inv in P.
  change (dot (x, y, z) (x, y, z)) with (x * x + y * y + z * z) in H. cbv [from_upper dot mv r0 r1 r2 vx vy vz fst snd] in *. lra.
Qed.
Print Assumptions C49_ieee_covariance.

(** Otherwise a positive semidefinite covariance may be published as one that is not. *)
Theorem C49_ieee_covariance_refuted : exists n ss m' v c, write_pcl bits32 (pcl_cloud n) ss = Some m' /\ List.length ss = n /\ nth_error ss 0 = Some (Some v) /\
  semidefinite3 (v_cov v) /\ read_cov m' 0 = Some c /\ ~ semidefinite3 c.
Proof.
  set (a := 8193 / 8192).
  set (v := {| v_id := 0; v_cam := 0; v_status := 0; v_pos := v0; v_bea := (0, 0, 1); v_dis := 1; v_cov := from_upper 1 a 0 (a * a) 0 0; v_dcov := 0 |}).
  destruct (reads_published 1 (pcl_cloud 1) [Some v] (kept_new _ _ _) eq_refl) as (m' & W & _ & R & _).
  exists 1%nat, [Some v], m', v, (from_upper 1 a 0 (4097 / 4096) 0 0). split; [exact W|]. split; [reflexivity|]. split; [reflexivity|]. split.
  { intros [[x y] z]. cbn [v v_cov]. replace (dot (x, y, z) (mv (from_upper 1 a 0 (a * a) 0 0) (x, y, z))) with ((x + a * y) * (x + a * y)) by (cbv [dot mv from_upper r0 r1 r2 vx vy vz fst snd]; ring). apply Rle_0_sqr. }
  assert (L : 2 <= largest).
  { unfold largest. assert (1 <= powerRZ 2 104) by (change 104%Z with (Z.of_nat 104); rewrite <- pow_powerRZ; apply pow_R1_Rle; lra). lra. }
  assert (F1 : rnd32 1 = 1) by (rewrite (rnd_by 1 1 8388608); cbn; [lra|lia|lra|rewrite Rabs_pos_eq; lra]).
  assert (Fa : rnd32 a = a) by (unfold a; rewrite (rnd_by _ 1 8389632); cbn; [lra|lia|lra|rewrite Rabs_pos_eq; lra]).
  assert (Faa : rnd32 (a * a) = 4097 / 4096) by (unfold a; rewrite (rnd_by _ 1 8390656); cbn; [lra|lia|lra|rewrite Rabs_pos_eq; lra]).
  split.
  - unfold read_cov.
    rewrite (R 0%nat v "c_00"%string 1 eq_refl), (R 0%nat v "c_01"%string a eq_refl), (R 0%nat v "c_02"%string 0 eq_refl), (R 0%nat v "c_11"%string (a * a) eq_refl),
      (R 0%nat v "c_12"%string 0 eq_refl), (R 0%nat v "c_22"%string 0 eq_refl) by (cbn; tauto).
    rewrite !value_float by (unfold a; rewrite Rabs_pos_eq; lra). now rewrite F1, Fa, Faa, rnd_0.
  - intros H. specialize (H (a, -1, 0)). unfold a in H. cbv [dot mv from_upper r0 r1 r2 vx vy vz fst snd] in H. lra.
Qed.
Print Assumptions C49_ieee_covariance_refuted.
Example C49_ieee_ex : let c := from_upper 1 0 0 4 0 9 in mt c = c /\ entries_bounded c 9 /\ 9 <= largest /\ forall u, 3 * Rmax (9 / 2 ^ 24) (/ 2 ^ 150) * dot u u <= dot u (mv c u).
Proof.
  cbv zeta. split; [reflexivity|]. split.
  { intros [|[|i]] [|[|j]]; cbn; rewrite Rabs_pos_eq; lra. }
  split.
  { unfold largest. assert (1 <= powerRZ 2 104) by (change 104%Z with (Z.of_nat 104); rewrite <- pow_powerRZ; apply pow_R1_Rle; lra). lra. }
  assert (B : 0 < 3 * Rmax (9 / 2 ^ 24) (/ 2 ^ 150) <= 1).
  { assert (P : 0 < / 2 ^ 150) by (apply Rinv_0_lt_compat, pow_lt; lra). assert (Q : / 2 ^ 150 <= / 2 ^ 24) by (apply Rinv_le_contravar; [apply pow_lt; lra|apply Rle_pow; [lra|lia]]).
    rewrite Rmax_left by (unfold Rdiv; lra). lra. }
  intros [[x y] z]. revert B. generalize (3 * Rmax (9 / 2 ^ 24) (/ 2 ^ 150)). intros k K. cbv [from_upper dot mv r0 r1 r2 vx vy vz fst snd].
  assert (X := Rle_0_sqr x). assert (Y := Rle_0_sqr y). assert (Z := Rle_0_sqr z). unfold Rsqr in *. nra.
Qed.
