(** 3-vectors and 3x3 matrices over R. Rotations (kindr::RotationQuaternionPD in the program, not part
    of the repository) are represented by their rotation matrices: rotate = matrix-vector product,
    composition = matrix product, inverted = transpose. *)
From Coq Require Import Reals Lra Psatz.
Local Open Scope R_scope.

Definition V3 := (R * R * R)%type.
Definition vx (v : V3) := fst (fst v).
Definition vy (v : V3) := snd (fst v).
Definition vz (v : V3) := snd v.
Definition v0 : V3 := (0, 0, 0).
Definition vadd (a b : V3) : V3 := (vx a + vx b, vy a + vy b, vz a + vz b).
Definition vsub (a b : V3) : V3 := (vx a - vx b, vy a - vy b, vz a - vz b).
Definition vneg (a : V3) : V3 := (- vx a, - vy a, - vz a).
Definition vscale (s : R) (a : V3) : V3 := (s * vx a, s * vy a, s * vz a).
Definition dot (a b : V3) : R := vx a * vx b + vy a * vy b + vz a * vz b.
Definition cross (a b : V3) : V3 :=
  (vy a * vz b - vz a * vy b, vz a * vx b - vx a * vz b, vx a * vy b - vy a * vx b).
Definition norm (a : V3) : R := sqrt (dot a a).

(** rows *)
Definition M3 := (V3 * V3 * V3)%type.
Definition r0 (m : M3) := fst (fst m).
Definition r1 (m : M3) := snd (fst m).
Definition r2 (m : M3) := snd m.
Definition mv (m : M3) (v : V3) : V3 := (dot (r0 m) v, dot (r1 m) v, dot (r2 m) v).
Definition mt (m : M3) : M3 :=
  ((vx (r0 m), vx (r1 m), vx (r2 m)), (vy (r0 m), vy (r1 m), vy (r2 m)), (vz (r0 m), vz (r1 m), vz (r2 m))).
Definition mm (a b : M3) : M3 :=
  let c := mt b in
  ((dot (r0 a) (r0 c), dot (r0 a) (r1 c), dot (r0 a) (r2 c)),
   (dot (r1 a) (r0 c), dot (r1 a) (r1 c), dot (r1 a) (r2 c)),
   (dot (r2 a) (r0 c), dot (r2 a) (r1 c), dot (r2 a) (r2 c))).
Definition m1 : M3 := ((1, 0, 0), (0, 1, 0), (0, 0, 1)).
Definition madd (a b : M3) : M3 := (vadd (r0 a) (r0 b), vadd (r1 a) (r1 b), vadd (r2 a) (r2 b)).
Definition mneg (a : M3) : M3 := (vneg (r0 a), vneg (r1 a), vneg (r2 a)).
Definition mscale (s : R) (a : M3) : M3 := (vscale s (r0 a), vscale s (r1 a), vscale s (r2 a)).
(** skew-symmetric matrix of the cross product (gSM of kindr) *)
Definition skew (v : V3) : M3 := ((0, - vz v, vy v), (vz v, 0, - vx v), (- vy v, vx v, 0)).
Definition outer (a b : V3) : M3 := (vscale (vx a) b, vscale (vy a) b, vscale (vz a) b).
Definition det3 (m : M3) : R := dot (r0 m) (cross (r1 m) (r2 m)).

Definition is_rot (m : M3) : Prop := mm m (mt m) = m1 /\ mm (mt m) m = m1 /\ det3 m = 1.

Ltac geo := repeat match goal with v : V3 |- _ => destruct v as [[? ?] ?] | m : M3 |- _ => destruct m as [[[[? ?] ?] [[? ?] ?]] [[? ?] ?]] end;
  cbv [vx vy vz v0 vadd vsub vneg vscale dot cross r0 r1 r2 mv mt mm m1 madd mneg mscale skew outer det3 fst snd] in *.
Ltac veq := geo; repeat (match goal with |- (_, _) = (_, _) => f_equal end); ring.

Lemma mv_mm a b v : mv (mm a b) v = mv a (mv b v). Proof. veq. Qed.
Lemma mv_m1 v : mv m1 v = v. Proof. veq. Qed.
Lemma mm_assoc a b c : mm a (mm b c) = mm (mm a b) c. Proof. veq. Qed.
Lemma mm_1_l a : mm m1 a = a. Proof. veq. Qed.
Lemma mm_1_r a : mm a m1 = a. Proof. veq. Qed.
Lemma mt_mt a : mt (mt a) = a. Proof. veq. Qed.
Lemma mt_mm a b : mt (mm a b) = mm (mt b) (mt a). Proof. veq. Qed.
Lemma mt_1 : mt m1 = m1. Proof. reflexivity. Qed.
Lemma mv_add m a b : mv m (vadd a b) = vadd (mv m a) (mv m b). Proof. veq. Qed.
Lemma mv_sub m a b : mv m (vsub a b) = vsub (mv m a) (mv m b). Proof. veq. Qed.
Lemma mv_scale m s a : mv m (vscale s a) = vscale s (mv m a). Proof. veq. Qed.
Lemma mv_neg m a : mv m (vneg a) = vneg (mv m a). Proof. veq. Qed.
Lemma mv_dot m a b : dot (mv m a) b = dot a (mv (mt m) b). Proof. geo; ring. Qed.
Lemma dot_comm a b : dot a b = dot b a. Proof. geo; ring. Qed.
Lemma dot_nonneg a : 0 <= dot a a. Proof. geo; nra. Qed.
Lemma dot_scale_l s a b : dot (vscale s a) b = s * dot a b. Proof. geo; ring. Qed.
Lemma dot_scale_r s a b : dot a (vscale s b) = s * dot a b. Proof. geo; ring. Qed.
Lemma dot_add_l a b c : dot (vadd a b) c = dot a c + dot b c. Proof. geo; ring. Qed.
Lemma dot_add_r a b c : dot a (vadd b c) = dot a b + dot a c. Proof. geo; ring. Qed.
Lemma dot_sub_r a b c : dot a (vsub b c) = dot a b - dot a c. Proof. geo; ring. Qed.
Lemma dot_sub_l a b c : dot (vsub a b) c = dot a c - dot b c. Proof. geo; ring. Qed.
Lemma dot_zero a : dot a a = 0 -> a = v0.
Proof. geo. intros H. repeat f_equal; nra. Qed.
Lemma vscale_scale s t a : vscale s (vscale t a) = vscale (s * t) a. Proof. veq. Qed.
Lemma vscale_1 a : vscale 1 a = a. Proof. veq. Qed.
Lemma vadd_comm a b : vadd a b = vadd b a. Proof. veq. Qed.
Lemma vadd_assoc a b c : vadd a (vadd b c) = vadd (vadd a b) c. Proof. veq. Qed.
Lemma vsub_add a b : vsub (vadd a b) b = a. Proof. veq. Qed.
Lemma vadd_sub a b : vadd (vsub a b) b = a. Proof. veq. Qed.
Lemma vadd_0_r a : vadd a v0 = a. Proof. veq. Qed.
Lemma vadd_0_l a : vadd v0 a = a. Proof. veq. Qed.
Lemma vsub_diag a : vsub a a = v0. Proof. veq. Qed.
Lemma skew_cross v w : mv (skew v) w = cross v w. Proof. veq. Qed.
Lemma mv_outer a b v : mv (outer a b) v = vscale (dot b v) a. Proof. veq. Qed.
Lemma cauchy a b : dot a b * dot a b <= dot a a * dot b b.
Proof.
  assert (E : dot a a * dot b b - dot a b * dot a b = dot (cross a b) (cross a b)) by (geo; ring).
  pose proof (dot_nonneg (cross a b)). lra.
Qed.

Lemma rot_tr m : is_rot m -> is_rot (mt m).
Proof.
  intros (A&B&C). split; [rewrite mt_mt; auto|]. split; [rewrite mt_mt; auto|]. revert C. clear. geo. intros <-. ring. Qed.
Lemma rot_inv_l m v : is_rot m -> mv (mt m) (mv m v) = v.
Proof. intros (_&H&_). now rewrite <- mv_mm, H, mv_m1. Qed.
Lemma rot_inv_r m v : is_rot m -> mv m (mv (mt m) v) = v.
Proof. intros (H&_). now rewrite <- mv_mm, H, mv_m1. Qed.
Lemma rot_mm a b : is_rot a -> is_rot b -> is_rot (mm a b).
Proof.
  intros (A1&A2&A3) (B1&B2&B3). split; [|split].
  - rewrite mt_mm, mm_assoc, <- (mm_assoc a b (mt b)), B1, mm_1_r; auto.
  - rewrite mt_mm, mm_assoc, <- (mm_assoc (mt b) (mt a) a), A2, mm_1_r; auto.
  - replace (det3 (mm a b)) with (det3 a * det3 b) by (geo; ring). rewrite A3, B3. ring.
Qed.
Lemma rot_1 : is_rot m1.
Proof. split; [|split]; cbv [m1 mm mt det3 dot cross r0 r1 r2 vx vy vz fst snd]; repeat (match goal with |- (_, _) = (_, _) => f_equal end); ring. Qed.
Lemma rot_dot m a b : is_rot m -> dot (mv m a) (mv m b) = dot a b.
Proof. intros H. rewrite mv_dot. now rewrite rot_inv_l. Qed.
Lemma rot_norm m a : is_rot m -> norm (mv m a) = norm a.
Proof. intros H. unfold norm. now rewrite rot_dot. Qed.

Lemma norm_nonneg a : 0 <= norm a. Proof. apply sqrt_pos. Qed.
Lemma norm_sq a : norm a * norm a = dot a a. Proof. apply sqrt_sqrt, dot_nonneg. Qed.
Lemma norm_scale s a : norm (vscale s a) = Rabs s * norm a.
Proof.
  unfold norm. rewrite dot_scale_l, dot_scale_r. replace (s * (s * dot a a)) with (Rsqr s * dot a a) by (unfold Rsqr; ring).
  rewrite sqrt_mult_alt by apply Rle_0_sqr. now rewrite sqrt_Rsqr_abs.
Qed.
Lemma norm_zero a : norm a = 0 -> a = v0.
Proof. intros H. apply dot_zero. rewrite <- norm_sq, H. ring. Qed.
Lemma norm_unit a : norm a = 1 <-> dot a a = 1.
Proof.
  split; intros H.
  - rewrite <- norm_sq, H. ring.
  - unfold norm. rewrite H. apply sqrt_1.
Qed.
