(** Lemmas for C11-C13. *)
From Coq Require Import Reals Lra Psatz.
From Verif Require Import DistModel DistSpec.
Local Open Scope R_scope.

Lemma eps_pos : 0 < eps. Proof. unfold eps. lra. Qed.

Lemma inv_eps : / eps = 1000000. Proof. unfold eps. field. Qed.

Lemma mnz_out p : eps <= Rabs p -> make_non_zero p = p.
Proof.
  intros H. unfold make_non_zero, Rabs in *. pose proof eps_pos.
  destruct (Rlt_dec p eps); [|auto]. destruct (Rle_dec 0 p); [destruct (Rcase_abs p); lra|].
  destruct (Rlt_dec (- eps) p); [|auto]. destruct (Rcase_abs p); lra.
Qed.
Lemma mnz_pos p : 0 <= p < eps -> make_non_zero p = eps.
Proof.
  intros H. unfold make_non_zero. destruct (Rlt_dec p eps); [|lra]. destruct (Rle_dec 0 p); [auto|lra].
Qed.
Lemma mnz_neg p : - eps < p < 0 -> make_non_zero p = - eps.
Proof.
  intros H. unfold make_non_zero. pose proof eps_pos. destruct (Rlt_dec p eps); [|lra]. destruct (Rle_dec 0 p); [lra|].
  destruct (Rlt_dec (- eps) p); [auto|lra].
Qed.
Lemma mnz_bound p : eps <= Rabs (make_non_zero p).
Proof.
  pose proof eps_pos as H0.
  destruct (Rle_dec eps (Rabs p)) as [H|H]; [rewrite mnz_out; auto|].
  apply Rnot_le_lt in H. apply Rabs_def2 in H. destruct (Rle_dec 0 p).
  - rewrite mnz_pos by lra. rewrite Rabs_pos_eq; lra.
  - rewrite mnz_neg by lra. rewrite Rabs_Ropp, Rabs_pos_eq; lra.
Qed.
Lemma mnz_nz p : make_non_zero p <> 0.
Proof. pose proof (mnz_bound p). pose proof eps_pos. intros E. rewrite E, Rabs_R0 in H. lra. Qed.

Lemma round_trip t d : representable t d ->
  exists p, param_of t d = Some p /\ dist_of t p = d.
Proof.
  destruct t; cbn; intros H.
  - eauto.
  - eexists; split; [reflexivity|]. fold eps in H. rewrite (mnz_out d) by apply H.
    assert (Hd : d <> 0). { intros ->. rewrite Rabs_R0 in H. pose proof eps_pos. lra. }
    rewrite mnz_out.
    + field; auto.
    + unfold Rdiv. rewrite Rmult_1_l, Rabs_inv. unfold eps.
      apply Rinv_le_contravar; [|apply H]. pose proof eps_pos. lra.
  - destruct (Rlt_dec 0 d); [|lra]. eexists; split; [reflexivity|]. apply exp_ln; auto.
  - eexists; split; [reflexivity|]. apply sinh_arcsinh.
Qed.

(** the saturation *)
Lemma inverse_saturates_small d : Rabs d < / 1000000 ->
  exists p, param_of INVERSE d = Some p /\
    dist_of INVERSE p = (if Rle_dec 0 d then / 1000000 else - / 1000000).
Proof.
  intros H. fold eps in *. apply Rabs_def2 in H. pose proof eps_pos as H0.
  eexists; split; [reflexivity|]. cbn. destruct (Rle_dec 0 d).
  - rewrite (mnz_pos d) by lra. rewrite mnz_out; [unfold eps; field|].
    unfold Rdiv. rewrite Rmult_1_l, inv_eps, Rabs_pos_eq; unfold eps; lra.
  - rewrite (mnz_neg d) by lra. rewrite mnz_out; [unfold eps; field|].
    replace (1 / - eps) with (- (/ eps)) by (field; lra). rewrite Rabs_Ropp, inv_eps, Rabs_pos_eq; unfold eps; lra.
Qed.

Lemma inverse_saturates_large d : 1000000 < Rabs d ->
  exists p, param_of INVERSE d = Some p /\
    dist_of INVERSE p = (if Rle_dec 0 d then 1000000 else - 1000000).
Proof.
  intros H. pose proof eps_pos as H0. eexists; split; [reflexivity|]. cbn.
  rewrite (mnz_out d) by (unfold eps; lra).
  unfold Rabs in H. destruct (Rcase_abs d) as [Hd|Hd]; destruct (Rle_dec 0 d); try lra.
  - rewrite mnz_neg; [unfold eps; field|].
    replace (1 / d) with (- (/ - d)) by (field; lra). unfold eps.
    assert (0 < / - d) by (apply Rinv_0_lt_compat; lra).
    assert (/ - d < / 1000000) by (apply Rinv_lt_contravar; nra). lra.
  - rewrite mnz_pos; [unfold eps; field|]. unfold Rdiv; rewrite Rmult_1_l. unfold eps.
    assert (0 < / d) by (apply Rinv_0_lt_compat; lra).
    assert (/ d < / 1000000) by (apply Rinv_lt_contravar; nra). lra.
Qed.

(** every read distance of the inverse parametrisation is non-zero and at most 1e6 in size, whatever the parameter *)
Lemma inverse_distance_bounded p : 0 < Rabs (dist_of INVERSE p) <= 1000000.
Proof.
  cbn. pose proof (mnz_bound p) as H. pose proof eps_pos as H0. unfold Rdiv. rewrite Rmult_1_l, Rabs_inv. split.
  - apply Rinv_0_lt_compat. lra.
  - replace 1000000 with (/ eps) by (unfold eps; field). apply Rinv_le_contravar; lra.
Qed.

(** parameters round trip the other way *)
Lemma param_round_trip t p :
  match t with INVERSE => / 1000000 <= Rabs p <= 1000000 | _ => True end ->
  param_of t (dist_of t p) = Some p.
Proof.
  destruct t; cbn; intros H; auto.
  - fold eps in H. rewrite (mnz_out p) by apply H. pose proof eps_pos as H0.
    assert (Hp : p <> 0). { intros ->. rewrite Rabs_R0 in H. lra. }
    rewrite mnz_out; [f_equal; field; auto|]. unfold Rdiv. rewrite Rmult_1_l, Rabs_inv.
    unfold eps. apply Rinv_le_contravar; lra.
  - destruct (Rlt_dec 0 (exp p)) as [_|H1]; [|destruct H1; apply exp_pos]. rewrite ln_exp; auto.
  - rewrite arcsinh_sinh; auto.
Qed.

(** ** derivatives *)
Lemma open_abs_gt e p : e < Rabs p -> exists del : posreal, forall h, Rabs h < del -> e < Rabs (p + h).
Proof.
  intros H. assert (Hd : 0 < Rabs p - e) by lra. exists (mkposreal _ Hd). cbn. intros h Hh.
  pose proof (Rabs_triang_inv p (- h)) as T. rewrite Rabs_Ropp in T. replace (p - - h) with (p + h) in T by ring. lra.
Qed.

Lemma dpl_local f g x l : (exists del : posreal, forall h, Rabs h < del -> f (x + h) = g (x + h)) ->
  derivable_pt_lim g x l -> derivable_pt_lim f x l.
Proof.
  intros [del E] H e He. destruct (H e He) as [d1 H1].
  assert (Hm : 0 < Rmin del d1) by (apply Rmin_pos; apply cond_pos).
  exists (mkposreal _ Hm). cbn. intros h Hh Hd.
  pose proof (Rmin_l del d1). pose proof (Rmin_r del d1).
  assert (E0 : f x = g x). { rewrite <- (Rplus_0_r x). apply E. rewrite Rabs_R0. apply cond_pos. }
  rewrite E by lra. rewrite E0. apply H1; auto. lra.
Qed.

Lemma dpl_ext f g x l : (forall y, f y = g y) -> derivable_pt_lim g x l -> derivable_pt_lim f x l.
Proof. intros E. apply dpl_local. exists (mkposreal 1 Rlt_0_1). intros; apply E. Qed.

Lemma dpl_eq f x l l' : l = l' -> derivable_pt_lim f x l -> derivable_pt_lim f x l'.
Proof. intros ->; auto. Qed.

Lemma dpl_inv x : x <> 0 -> derivable_pt_lim (fun y => / y) x (- 1 / (x * x)).
Proof.
  intros H. apply (dpl_ext _ (fun y => 1 / y)%R); [intros; unfold Rdiv; ring|].
  apply dpl_eq with ((0 * x - 1 * 1) / Rsqr x); [unfold Rsqr; field; auto|].
  apply (derivable_pt_lim_div (fun _ => 1) (fun y => y)); auto.
  - apply derivable_pt_lim_const.
  - apply derivable_pt_lim_id.
Qed.

Lemma dpl_sinh x : derivable_pt_lim sinh x (cosh x).
Proof. apply derivable_pt_lim_sinh. Qed.

Lemma smooth_nz p : / 1000000 < Rabs p -> p <> 0.
Proof. intros H ->. rewrite Rabs_R0 in H. lra. Qed.

Lemma inv_local p : / 1000000 < Rabs p ->
  exists del : posreal, forall h, Rabs h < del -> make_non_zero (p + h) = p + h.
Proof.
  intros H. destruct (open_abs_gt _ _ H) as [del D]. exists del. intros h Hh. apply mnz_out.
  unfold eps. specialize (D h Hh). lra.
Qed.

Lemma mnz_self p : / 1000000 < Rabs p -> make_non_zero p = p.
Proof. intros H. apply mnz_out. unfold eps. lra. Qed.

Lemma distance_derivative_ok t p : smooth_param t p ->
  derivable_pt_lim (fun q => get_distance {| fd_type := t; fd_p := q |}) p
                   (distance_derivative {| fd_type := t; fd_p := p |}).
Proof.
  destruct t; cbn; intros H; unfold get_distance; cbn.
  - apply derivable_pt_lim_id.
  - destruct (inv_local p H) as [del D]. rewrite mnz_self by auto.
    apply (dpl_local _ (fun y => / y)).
    + exists del. intros h Hh. rewrite D by auto. unfold Rdiv; ring.
    + apply dpl_inv, smooth_nz, H.
  - apply derivable_pt_lim_exp.
  - apply derivable_pt_lim_sinh.
Qed.

Lemma sinh2_cosh x : sinh x ^ 2 + 1 = cosh x ^ 2.
Proof.
  unfold sinh, cosh. assert (E : exp x * exp (- x) = 1) by (rewrite <- exp_plus; replace (x + - x) with 0 by ring; apply exp_0).
  nra.
Qed.
Lemma cosh_pos x : 0 < cosh x.
Proof. unfold cosh. pose proof (exp_pos x). pose proof (exp_pos (- x)). lra. Qed.
Lemma sqrt_sinh x : sqrt (sinh x ^ 2 + 1) = cosh x.
Proof. rewrite sinh2_cosh. apply sqrt_pow2. pose proof (cosh_pos x). lra. Qed.

Lemma parameter_derivative_ok t p : smooth_dist t p ->
  (exists del : posreal, forall h, Rabs h < del ->
     param_of t (dist_of t p + h) = Some (param_fun t (dist_of t p + h))) /\
  derivable_pt_lim (param_fun t) (dist_of t p) (parameter_derivative {| fd_type := t; fd_p := p |}).
Proof.
  destruct t; cbn -[pow]; intros H.
  - split; [exists (mkposreal 1 Rlt_0_1); auto|]. apply derivable_pt_lim_id.
  - rewrite mnz_self by apply H. assert (Hp := smooth_nz p (proj1 H)).
    assert (Hd : / 1000000 < Rabs (1 / p)).
    { unfold Rdiv. rewrite Rmult_1_l, Rabs_inv. apply Rinv_lt_contravar; [|lra].
      apply Rmult_lt_0_compat; lra. }
    split.
    + destruct (inv_local _ Hd) as [del D]. exists del. intros h Hh. rewrite D by auto. f_equal. unfold Rdiv. ring.
    + replace (1 / p) with (/ p) by (unfold Rdiv; ring).
      apply dpl_eq with (- 1 / (/ p * / p)); [field; auto|]. apply dpl_inv. apply Rinv_neq_0_compat; auto.
  - split.
    + exists (mkposreal _ (exp_pos p)). cbn. intros h Hh. apply Rabs_def2 in Hh.
      destruct (Rlt_dec 0 (exp p + h)); [auto|lra].
    + rewrite exp_Ropp. apply derivable_pt_lim_ln, exp_pos.
  - split; [exists (mkposreal 1 Rlt_0_1); auto|].
    apply dpl_eq with (/ sqrt (sinh p ^ 2 + 1)); [unfold Rdiv; ring|]. apply derivable_pt_lim_arcsinh.
Qed.

Lemma reciprocal f : distance_derivative f * parameter_derivative f = 1.
Proof.
  destruct f as [t p]; destruct t; cbn -[pow].
  - ring.
  - pose proof (mnz_nz p). field; auto.
  - rewrite <- exp_plus. replace (p + - p) with 0 by ring. apply exp_0.
  - rewrite sqrt_sinh. pose proof (cosh_pos p). field. lra.
Qed.

Lemma Rpower_cube y : 0 < y -> Rpower (y ^ 2) (3 / 2) = y ^ 3.
Proof.
  intros H. rewrite <- (Rpower_pow 2 y H). rewrite Rpower_mult.
  replace (INR 2 * (3 / 2)) with (INR 3) by (cbn; field). apply Rpower_pow; auto.
Qed.

Lemma combined_ok t p : smooth_param t p ->
  derivable_pt_lim (fun q => parameter_derivative {| fd_type := t; fd_p := q |}) p
                   (parameter_derivative_combined {| fd_type := t; fd_p := p |}).
Proof.
  destruct t; cbn -[pow]; intros H.
  - apply derivable_pt_lim_const.
  - destruct (inv_local p H) as [del D]. rewrite mnz_self by auto.
    apply (dpl_local _ (fun y => - (y * y))).
    + exists del. intros h Hh. rewrite D by auto. ring.
    + apply dpl_eq with (- (1 * p + p * 1)); [ring|].
      apply (derivable_pt_lim_opp (fun y => y * y)). apply (derivable_pt_lim_mult (fun y => y) (fun y => y)); apply derivable_pt_lim_id.
  - apply dpl_eq with (exp (- p) * - (1)); [ring|].
    apply (derivable_pt_lim_comp (fun y => - y) exp).
    + apply (derivable_pt_lim_opp (fun y => y)). apply derivable_pt_lim_id.
    + apply derivable_pt_lim_exp.
  - pose proof (cosh_pos p) as Hc.
    apply (dpl_ext _ (fun q => 1 / cosh q)); [intros y; rewrite sqrt_sinh; auto|].
    rewrite sinh2_cosh, Rpower_cube by auto.
    apply dpl_eq with ((0 * cosh p - sinh p * 1) / Rsqr (cosh p)); [unfold Rsqr; field; lra|].
    apply (derivable_pt_lim_div (fun _ => 1) cosh).
    + apply derivable_pt_lim_const.
    + apply derivable_pt_lim_cosh.
    + lra.
Qed.

(** inside the clamped zone the map is constant, so the true derivative is 0 but a large one is reported *)
Lemma clamp_derivative p : 0 < p < / 1000000 ->
  derivable_pt_lim (fun q => get_distance {| fd_type := INVERSE; fd_p := q |}) p 0 /\
  distance_derivative {| fd_type := INVERSE; fd_p := p |} = - (1000000 * 1000000).
Proof.
  intros H. split.
  - apply (dpl_local _ (fun _ => 1 / eps)); [|apply derivable_pt_lim_const].
    assert (Hd : 0 < Rmin p (eps - p)) by (apply Rmin_pos; unfold eps; lra).
    exists (mkposreal _ Hd). cbn. intros h Hh. pose proof (Rmin_l p (eps - p)). pose proof (Rmin_r p (eps - p)).
    apply Rabs_def2 in Hh. unfold get_distance; cbn. rewrite mnz_pos; auto. lra.
  - cbn. rewrite mnz_pos by (unfold eps; lra). unfold eps. field.
Qed.

(** ** conversion *)
Lemma convert_preserves f other :
  representable (fd_type f) (get_distance other) ->
  exists f', convert f other = Some f' /\ fd_type f' = fd_type f /\ get_distance f' = get_distance other.
Proof.
  intros H. destruct (round_trip _ _ H) as [p [E1 E2]]. unfold convert, set_parameter. rewrite E1.
  eexists; split; [reflexivity|]. split; auto.
Qed.

Lemma set_type_changes :
  get_distance (set_type LOG {| fd_type := REGULAR; fd_p := 0 |}) <> get_distance {| fd_type := REGULAR; fd_p := 0 |}.
Proof. cbn. unfold get_distance; cbn. rewrite exp_0. lra. Qed.

(** where [param_fun] and [dist_fun] are inverse to each other, so the reported maps are the documented ones *)
Lemma dist_of_fun t p : smooth_param t p -> dist_of t p = dist_fun t p.
Proof.
  destruct t; cbn; intros H; auto. rewrite mnz_self by auto. unfold Rdiv; ring.
Qed.
