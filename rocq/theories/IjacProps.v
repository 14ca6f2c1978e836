(** C107: the Jacobians of the distortion in double precision. *)
From Coq Require Import ZArith Bool Reals Lia Lra Psatz.
From Coquelicot Require Import Coquelicot.
From Flocq Require Import Core BinarySingleNaN.
From Verif Require Import IeeeModel IeeeSpec IeeeReal StampModel IcamModel IcamSpec IcamAccSpec IcamProofs IcamAcc IcamSph IcamEqui IcamProps IcamAccProps IbackModel IbjacModel IjacSpec IjacProofs IjacEqui.
Local Open Scope R_scope.

Lemma any_jac cz at64 c x y : usual c -> usual_model c -> accurate_atan at64 -> at_most 2 x -> at_most 2 y -> c_model c = Radtan64 \/ off_centre x y ->
  jac_in (/ 2 ^ 32) (exact_of c) (val64 x) (val64 y) (snd (distort_jac64 cz at64 c x y)).
Proof.
  intros US [K4 DS] AT X Y OC. unfold distort_jac64.
  destruct (c_model c) eqn:M.
  - assert (E : exact_of c = exact_radtan c) by (unfold exact_of; now rewrite M). rewrite E. apply (jac_out (/ 2 ^ 36)); [now apply radtan_jac|lra].
  - assert (E : exact_of c = exact_equi c) by (unfold exact_of; now rewrite M). rewrite E. destruct OC as [OC|OC]; [discriminate|]. now apply equi_jac.
  - assert (E : exact_of c = exact_sphere c) by (unfold exact_of; now rewrite M). rewrite E. destruct OC as [OC|OC]; [discriminate|]. destruct (DS eq_refl). apply (jac_out (/ 2 ^ 35)); [now apply sphere_jac|lra].
Qed.
(** The Jacobian a usual camera of any of the three models computes at a point within two focal lengths of the centre is the
    matrix of partial derivatives of its exact distortion, up to 2^-32 in each entry. The double-sphere and the equidistant
    models are considered off the centre, where they take no short cut. *)
Theorem C107_jacobian_accuracy : forall cz at64 c x y, usual c -> usual_model c -> accurate_atan at64 -> at_most 2 x -> at_most 2 y -> c_model c = Radtan64 \/ off_centre x y ->
  jacobian_within (/ 2 ^ 32) (exact_of c) (val64 x) (val64 y) (snd (distort_jac64 cz at64 c x y)).
Proof. intros. now apply (jac_out (/ 2 ^ 32)); [apply any_jac|lra]. Qed.
(** The radial-tangential and double-sphere Jacobians are closer still. *)
Theorem C107_radtan_jacobian : forall cz at64 c x y, usual c -> c_model c = Radtan64 -> at_most 2 x -> at_most 2 y ->
  jacobian_within (/ 2 ^ 36) (exact_radtan c) (val64 x) (val64 y) (snd (distort_jac64 cz at64 c x y)).
Proof. intros cz at64 c x y US M X Y. unfold distort_jac64. rewrite M. apply (jac_out (/ 2 ^ 36)); [now apply radtan_jac|lra]. Qed.
Theorem C107_double_sphere_jacobian : forall cz at64 c x y, usual c -> usual_model c -> c_model c = DoubleSphere64 -> off_centre x y -> at_most 2 x -> at_most 2 y ->
  jacobian_within (/ 2 ^ 35) (exact_sphere c) (val64 x) (val64 y) (snd (distort_jac64 cz at64 c x y)).
Proof. intros cz at64 c x y US [_ DS] M OC X Y. destruct (DS M). unfold distort_jac64. rewrite M. apply (jac_out (/ 2 ^ 35)); [now apply sphere_jac|lra]. Qed.

(** a double-sphere camera whose spheres are one apart *)
Definition apart : camera64 :=
  {| c_model := DoubleSphere64; c_k1 := g 1 0; c_k2 := g 0 0; c_k3 := g 0 0; c_k4 := g 0 0; c_p1 := g 0 0; c_p2 := g 0 0; c_fx := g 400 0; c_fy := g 400 0; c_cx := g 376 0; c_cy := g 240 0 |}.
Lemma g_num m : (Z.abs m < 2 ^ 53)%Z -> val64 (g m 0) = IZR m.
Proof. intros H. unfold val64. rewrite (proj2 (g_val m 0 H ltac:(lia))). unfold F2R. cbn. lra. Qed.
Lemma apart_usual : usual apart /\ usual_model apart.
Proof. split; [repeat split; apply g_int; lia|]. split; [apply (g_int 0 1); lia|]. intros _. cbn [apart c_k1 c_k2]. rewrite !g_num by lia. lra. Qed.
(** At the centre the double-sphere model returns the identity as its Jacobian, although the model scales by one over one plus
    its first parameter there: half, for this camera. *)
Theorem C107_centre_jacobian_refuted : exists c x y, usual c /\ usual_model c /\ at_most 2 x /\ at_most 2 y /\
  forall cz at64, ~ jacobian_within (/ 4) (exact_of c) (val64 x) (val64 y) (snd (distort_jac64 cz at64 c x y)).
Proof.
  exists apart, (g 0 0), (g 0 0). split; [apply apart_usual|]. split; [apply apart_usual|]. split; [apply (g_int 0 2); lia|]. split; [apply (g_int 0 2); lia|].
  intros cz at64 ((_ & d & D & E) & _). rewrite !g_num in D by lia.
  assert (J : m00 (snd (distort_jac64 cz at64 apart (g 0 0) (g 0 0))) = one64).
  { unfold distort_jac64. cbn [apart c_model]. unfold sphere_jac64. cbv zeta.
    assert (B : Bltb (sop (cz 0%nat) (g 0 0) (g 0 0) (g 0 0) (g 0 0)) nano10_2 = true) by (destruct (cz 0%nat); vm_compute; reflexivity). rewrite B. reflexivity. }
  rewrite J in E. unfold val64 in E. rewrite (proj2 one_val) in E.
  assert (K1 : val64 (c_k1 apart) = 1) by (cbn [apart c_k1]; rewrite g_num by lia; reflexivity). assert (K2 : val64 (c_k2 apart) = 0) by (cbn [apart c_k2]; rewrite g_num by lia; reflexivity).
  pose proof (times_id _ 0 _ (sphere_slopes 1 0 0 0 ltac:(lra) ltac:(lra))) as T. cbv beta zeta in T. apply is_derive_Reals in T.
  assert (U : derivable_pt_lim (fun t => fst (exact_of apart t 0)) 0 (/ 2)).
  { match type of T with derivable_pt_lim ?f _ ?l => replace (/ 2) with l end.
    - apply is_derive_Reals. apply is_derive_Reals in T. eapply is_derive_ext; [|exact T]. intros t. unfold exact_of. cbn [apart c_model]. unfold exact_sphere. cbv zeta. rewrite K1, K2. reflexivity.
    - match goal with |- 1 * / ?n + 0 * ?z = _ => replace (1 * / n + 0 * z) with (/ n) by ring end. replace (0 * 0 + 0 * 0 + 1) with 1 by ring. rewrite sqrt_1. f_equal. ring. }
  pose proof (uniqueness_limite _ _ _ _ D U) as Q. subst d. revert E. rewrite Rabs_pos_eq by lra. lra.
Qed.
(** Cameras, arc tangents and points to which the theorems apply. *)
Example C107_ex : (forall m, usual (pinhole m) /\ usual_model (pinhole m)) /\ (usual apart /\ usual_model apart) /\ accurate_atan rounded_atan /\
  at_most 2 (g 1 0) /\ at_most 2 (g 0 0) /\ off_centre (g 1 0) (g 0 0).
Proof.
  split; [intros m; split; [apply pinhole_usual|]|].
  { split; [apply (g_int 0 1); lia|]. intros _. cbn [pinhole c_k1 c_k2]. rewrite !g_num by lia. lra. }
  split; [exact apart_usual|]. split; [exact rounded_atan_accurate|]. split; [apply (g_int 1 2); lia|]. split; [apply (g_int 0 2); lia|].
  left. rewrite g_num by lia. rewrite Rabs_pos_eq by lra. lra.
Qed.

Print Assumptions C107_jacobian_accuracy.
Print Assumptions C107_radtan_jacobian.
Print Assumptions C107_double_sphere_jacobian.
Print Assumptions C107_centre_jacobian_refuted.
