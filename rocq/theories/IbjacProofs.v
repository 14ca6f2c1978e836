(** Proofs: the principal point, and the double-sphere camera with zero coefficients. *)
From Coq Require Import ZArith Bool Reals Lia Lra Psatz.
From Flocq Require Import Core BinarySingleNaN.
From Verif Require Import IeeeModel IeeeSpec IeeeReal StampModel IcamModel IcamSpec IcamProofs IcamAcc IcamSph IcamEqui IbackModel IbackSpec IbackProofs IbackUnit IbjacModel.
Local Open Scope R_scope.
Local Notation fe := (SpecFloat.fexp 53 1024).
Local Notation rn := (round radix2 fe ZnearestE).

Lemma eye_unit : is_unit eye64.
Proof. unfold is_unit, eye64. cbn [m00 m01 m10 m11]. split; [exact one_is|]. assert (Z : is 0 (g64_of_Z 0)) by (split; vm_compute; reflexivity). split; [exact Z|]. split; [exact Z|exact one_is]. Qed.
(** any distortion that is the identity to first order at the starting point ends at once with it *)
Lemma undistort_id cz dist n x y : is_finite x = true -> is_finite y = true ->
  is (B2R x) (fst (fst (dist x y))) -> is (B2R y) (snd (fst (dist x y))) -> is_unit (snd (dist x y)) ->
  exists x' y', undistort64 cz dist (S n) x y x y = Some (x', y') /\ is (B2R x) x' /\ is (B2R y) y'.
Proof.
  intros FX FY A B J. cbn [undistort64]. destruct (dist x y) as [t j]. cbn [fst snd] in A, B, J.
  destruct A as [FA A], B as [FB B].
  assert (EX : is 0 (sub64 x (fst t))) by (apply is_sub; auto using ok0; rewrite A; ring). assert (EY : is 0 (sub64 y (snd t))) by (apply is_sub; auto using ok0; rewrite B; ring).
  destruct (unit_step cz j _ _ J EX EY) as [DX DY]. set (ex := sub64 x (fst t)) in *. set (ey := sub64 y (snd t)) in *. clearbody ex ey.
  assert (N : is 0 (sop (cz 51%nat) ex ex ey ey)) by (eapply is_eq; [eapply is_sop01; [eassumption..|ok01|ok01|ok01]|ring]).
  destruct N as [FN VN]. destruct tol_pos as [FT VT].
  assert (L : Bleb (sop (cz 51%nat) ex ex ey ey) tolerance64 = true) by (rewrite Bleb_correct by assumption; apply Rle_bool_true; rewrite VN; exact VT).
  rewrite L. eexists _, _. split; [reflexivity|]. destruct DX as [FD1 V1], DY as [FD2 V2].
  split; apply is_add; auto using ok_self; rewrite ?V1, ?V2; ring.
Qed.
Lemma sqrt_0 (x : g64) : is 0 x -> is 0 (sqrt64 x).
Proof.
  intros [F V]. destruct (sqrt_val 0 x) as [[FS _] VS]; [split; [exact F|rewrite V, Rabs_R0; apply bpow_ge_0]|lia|lra|]. split; [exact FS|]. rewrite VS, V, R_sqrt.sqrt_0. apply round_0. typeclasses eauto.
Qed.
Lemma below (x t : g64) : is 0 x -> is_finite t = true -> 0 < B2R t -> Bltb x t = true.
Proof. intros [F V] Ft P. rewrite Bltb_correct by assumption. apply Rlt_bool_true. now rewrite V. Qed.
Lemma nano_pos : is_finite nano10 = true /\ 0 < B2R nano10 /\ is_finite nano10_2 = true /\ 0 < B2R nano10_2.
Proof.
  assert (S1 : Bltb (B754_zero false) nano10 = true) by (vm_compute; reflexivity). assert (S2 : Bltb (B754_zero false) nano10_2 = true) by (vm_compute; reflexivity).
  rewrite Bltb_correct in S1 by (vm_compute; reflexivity). rewrite Bltb_correct in S2 by (vm_compute; reflexivity). cbn [B2R] in S1, S2.
  split; [vm_compute; reflexivity|]. split; [destruct (Rlt_bool_spec 0 (B2R nano10)); [assumption|discriminate S1]|]. split; [vm_compute; reflexivity|destruct (Rlt_bool_spec 0 (B2R nano10_2)); [assumption|discriminate S2]].
Qed.
Lemma b_z_mac k (a b z : g64) v : is_finite a = true -> is 0 b -> is v z -> is v (mac k a b z).
Proof. intros Fa [F V] [Fz <-]. apply (is_mac k a b z 0); auto using ok0, ok_self; [rewrite V; ring|ring]. Qed.
Lemma bd_fin e x : bd e x -> is_finite x = true. Proof. intros H. apply H. Qed.
Lemma radtan_zero cz c x y : moderate c -> is 0 x -> is 0 y ->
  is 0 (fst (fst (radtan_jac64 cz c x y))) /\ is 0 (snd (fst (radtan_jac64 cz c x y))) /\ is_unit (snd (radtan_jac64 cz c x y)).
Proof.
  intros (K1 & K2 & K3 & _ & P1 & P2 & _) X Y. apply (fun H => bd_val _ 100 _ H big) in K1, K2, K3, P1, P2.
  unfold radtan_jac64, radtan64. cbv zeta. cbn [fst snd].
  assert (M : forall n (a k : g64) , bd n a -> bd 100 k -> (0 <= n <= 10)%Z -> is_finite (mul64 a k) = true) by (intros n a k A K L; apply (bd_mul n 100 a k); auto; lia).
  assert (S6 : bd 3 six64) by (split; [vm_compute; reflexivity|]; rewrite <- SF2R_B2SF; replace (B2SF six64) with (SpecFloat.S754_finite false 6755399441055744 (-50)) by (vm_compute; reflexivity); unfold SF2R, F2R; cbn; rewrite Rabs_pos_eq; lra).
  assert (S4 : bd 2 four64) by (split; [vm_compute; reflexivity|]; rewrite <- SF2R_B2SF; replace (B2SF four64) with (SpecFloat.S754_finite false 4503599627370496 (-50)) by (vm_compute; reflexivity); unfold SF2R, F2R; cbn; rewrite Rabs_pos_eq; lra).
  pose proof (M 1%Z _ _ two_val K1 ltac:(lia)) as T1. pose proof (M 2%Z _ _ S4 K2 ltac:(lia)) as T2. pose proof (M 3%Z _ _ S6 K3 ltac:(lia)) as T3.
  pose proof (M 1%Z _ _ two_val P1 ltac:(lia)) as Q1. pose proof (M 1%Z _ _ two_val P2 ltac:(lia)) as Q2. pose proof (M 3%Z _ _ S6 P1 ltac:(lia)) as Q3. pose proof (M 3%Z _ _ S6 P2 ltac:(lia)) as Q4.
  assert (Q5 : is_finite (mul64 (c_p1 c) two64) = true) by (apply (bd_mul 100 1); auto using two_val; lia). assert (Q6 : is_finite (mul64 (c_p2 c) two64) = true) by (apply (bd_mul 100 1); auto using two_val; lia).
  apply bd_fin in K1, K2, K3, P1, P2. clear M S6 S4.
  pose proof (proj1 X) as FX. pose proof (proj1 Y) as FY.
  assert (R2 : is 0 (sop (cz 0%nat) x x y y)) by (eapply is_eq; [eapply is_sop01; [eassumption..|ok01|ok01|ok01]|ring]).
  assert (X2 : is 0 (mul64 x x)) by (apply z_mul; assumption). assert (Y2 : is 0 (mul64 y y)) by (apply z_mul; assumption). assert (XY : is 0 (mul64 x y)) by (apply z_mul; assumption).
  set (r2 := sop (cz 0%nat) x x y y) in *. set (x2 := mul64 x x) in *. set (y2 := mul64 y y) in *. set (xy := mul64 x y) in *. clearbody r2 x2 y2 xy.
  assert (M5 : is 0 (mac (cz 5%nat) two64 x2 r2)) by (apply b_z_mac; [exact two_fin|exact X2|exact R2]). assert (M8 : is 0 (mac (cz 8%nat) two64 y2 r2)) by (apply b_z_mac; [exact two_fin|exact Y2|exact R2]).
  assert (KR : is 1 (mac (cz 3%nat) (mac (cz 2%nat) (mac (cz 1%nat) (c_k3 c) r2 (c_k2 c)) r2 (c_k1 c)) r2 one64)).
  { apply b_z_mac; [|exact R2|exact one_is]. refine (proj1 (b_z_mac _ _ _ _ (B2R (c_k1 c)) _ R2 (conj K1 eq_refl))). refine (proj1 (b_z_mac _ _ _ _ (B2R (c_k2 c)) K3 R2 (conj K2 eq_refl))). }
  set (kr := mac (cz 3%nat) _ _ _) in *. clearbody kr.
  assert (ZS : forall k (a b d e : g64), is 0 a -> is_finite b = true -> is_finite d = true -> is 0 e -> is 0 (sop k a b d e)).
  { intros k a b d e [A A0] B D [E E0]. apply (is_sop _ _ _ _ _ 0 0); auto using ok0; [rewrite A0; ring|rewrite E0; ring|ring]. }
  pose proof (proj1 R2) as FR. pose proof (proj1 KR) as FK.
  split; [|split].
  - apply b_z_mac; [exact P2|exact M5|]. apply ZS; assumption.
  - apply b_z_mac; [exact Q6|exact XY|]. apply ZS; try assumption.
  - assert (Z4 : forall k, is_finite k = true -> forall w, is 0 w -> is 0 (mul64 k w)) by (intros k F w W; now apply mul_z).
    assert (J01 : is 0 (mac (cz 28%nat) (mul64 two64 (c_p2 c)) y (mac (cz 27%nat) (mul64 two64 (c_p1 c)) x (mac (cz 26%nat) (mul64 (mul64 (mul64 six64 (c_k3 c)) xy) r2) r2 (sop (cz 25%nat) (mul64 two64 (c_k1 c)) xy (mul64 (mul64 four64 (c_k2 c)) xy) r2))))).
    { apply b_z_mac; [exact Q2|exact Y|]. apply b_z_mac; [exact Q1|exact X|]. apply z_mac; [apply z_mul; [now apply Z4|exact FR]|exact FR|].
      destruct XY as [FXY VXY]. destruct (Z4 _ T2 xy (conj FXY VXY)) as [F6 V6]. apply (is_sop _ _ _ _ _ 0 0); auto using ok0; [rewrite VXY; ring|rewrite V6; ring|ring]. }
    unfold is_unit. cbn [m00 m01 m10 m11]. split; [|split; [exact J01|split; [exact J01|]]].
    + apply b_z_mac; [exact Q4|exact X|]. apply b_z_mac; [exact Q1|exact Y|]. apply z_mac; [apply z_mul; [now apply Z4|exact FR]|exact FR|]. apply z_mac; [now apply Z4|exact FR|]. now apply b_z_mac.
    + apply b_z_mac; [exact Q2|exact X|]. apply b_z_mac; [exact Q3|exact Y|]. apply z_mac; [apply z_mul; [now apply Z4|exact FR]|exact FR|]. apply z_mac; [now apply Z4|exact FR|]. now apply b_z_mac.
Qed.
Lemma distort_zero cz at64 c x y : moderate c -> is 0 x -> is 0 y ->
  is 0 (fst (fst (distort_jac64 cz at64 c x y))) /\ is 0 (snd (fst (distort_jac64 cz at64 c x y))) /\ is_unit (snd (distort_jac64 cz at64 c x y)).
Proof.
  intros M X Y. unfold distort_jac64. destruct nano_pos as (N1 & N2 & N3 & N4). 
  assert (R2 : is 0 (sop (cz 0%nat) x x y y)) by (eapply is_eq; [eapply is_sop01; [eassumption..|ok01|ok01|ok01]|ring]).
  destruct (c_model c).
  - now apply radtan_zero.
  - unfold equidist_jac64. cbv zeta. rewrite (below _ nano10 (sqrt_0 _ R2) N1 N2). cbn [fst snd]. split; [exact X|]. split; [exact Y|exact eye_unit].
  - unfold sphere_jac64. cbv zeta. rewrite (below _ nano10_2 R2 N3 N4). cbn [fst snd]. split; [exact X|]. split; [exact Y|exact eye_unit].
Qed.
(** the bearing of the point (0,0) is exactly (0,0,1) *)
Lemma normalized_zero cz (x y : g64) : is 0 x -> is 0 y -> let b := normalized64 cz x y in is 0 (fst (fst b)) /\ is 0 (snd (fst b)) /\ is 1 (snd b).
Proof.
  intros X Y. unfold normalized64. cbv zeta. cbn [fst snd].
  assert (S1 : is 1 (sop (cz 52%nat) y y one64 one64)) by (eapply is_eq; [eapply is_sop01; [exact Y|exact Y|exact one_is|exact one_is|ok01|ok01|ok01]|ring]).
  assert (S2 : is 1 (mac (cz 53%nat) x x (sop (cz 52%nat) y y one64 one64))) by (apply b_z_mac; [exact (proj1 X)|exact X|exact S1]). set (n2 := mac (cz 53%nat) _ _ _) in *. clearbody n2.
  assert (Q : is 1 (sqrt64 n2)).
  { destruct S2 as [F V]. destruct (sqrt_val 0 n2) as [[FS _] VS]; [split; [exact F|rewrite V, Rabs_R1; cbn; lra]|lia|lra|]. split; [exact FS|]. rewrite VS, V, sqrt_1. apply round_generic; [typeclasses eauto|exact fmt1]. }
  set (q := sqrt64 n2) in *. clearbody q. destruct Q as [FQ VQ].
  assert (D : forall (a : g64), is_finite a = true -> is (B2R a) (div64 a q)).
  { intros a Fa. pose proof (Bdiv_correct 53 1024 q53 q1024 mode_NE a q ltac:(rewrite VQ; lra)) as C. cbn [round_mode] in C. rewrite VQ in C. replace (B2R a / 1) with (B2R a) in C by field.
    destruct (ok_rn (B2R a) (ok_self a)) as [E1 E2]. rewrite E2 in C. destruct C as (E3 & F & _). unfold is, div64. rewrite F, E3. split; [exact Fa|exact E1]. }
  split; [apply (is_eq _ _ _ (D x (proj1 X))), X|]. split; [apply (is_eq _ _ _ (D y (proj1 Y))), Y|]. apply (is_eq _ _ _ (D one64 (proj1 one_is))). apply one_is.
Qed.
(** the double-sphere model with both coefficients zero *)
Lemma sphere_jac_unit cz c x y : at_most 0 (c_k1 c) -> at_most 0 (c_k2 c) -> bd 1 x -> bd 1 y ->
  is (B2R x) (fst (fst (sphere_jac64 cz c x y))) /\ is (B2R y) (snd (fst (sphere_jac64 cz c x y))) /\ is_unit (snd (sphere_jac64 cz c x y)).
Proof.
  intros K1 K2 X Y. apply at_most0 in K1, K2. unfold sphere_jac64. cbv zeta.
  assert (R2 : bd 3 (sop (cz 0%nat) x x y y)) by (apply (bd_sop _ 1 1 1 1 2); auto; lia).
  assert (RP : 0 <= B2R (sop (cz 0%nat) x x y y)) by (replace 0 with (0 + 0) by ring; apply (sop_ge _ 1 1 1 1 2); auto using fmt0; try lia; try nra; rewrite Rplus_0_r; apply fmt0).
  set (r2 := sop (cz 0%nat) x x y y) in *. clearbody r2. destruct (Bltb r2 nano10_2).
  { cbn [fst snd]. destruct X as [FX _], Y as [FY _]. split; [now split|]. split; [now split|exact eye_unit]. }
  destruct one_val as [O1 VO]. cbn [fst snd].
  destruct (add_val 3 r2 one64 R2 (bd_up 0 3 _ O1 ltac:(lia)) ltac:(lia)) as [D1 V1]. rewrite VO in V1. assert (G1 : 1 <= B2R (add64 r2 one64)) by (rewrite V1; apply rn_ge; [exact fmt1|lra]).
  set (a1 := add64 r2 one64) in *. clearbody a1.
  assert (SQ : forall a : g64, bd 4 a -> 1 <= B2R a -> bd 2 (sqrt64 a) /\ 1 <= B2R (sqrt64 a)).
  { intros a A G. destruct (sqrt_val 2 a A ltac:(lia) ltac:(lra)) as [S V]. split; [exact S|]. rewrite V. apply rn_ge; [exact fmt1|]. rewrite <- sqrt_1. now apply sqrt_le_1_alt. }
  destruct (SQ a1 D1 G1) as [B1 H1]. set (d1 := sqrt64 a1) in *. clearbody d1.
  assert (E : is 1 (mac (cz 1%nat) (c_k1 c) d1 one64)) by (apply z_mac; [exact K1|exact (proj1 B1)|exact one_is]). set (e := mac (cz 1%nat) _ _ _) in *. clearbody e.
  assert (BE : bd 0 e) by (destruct E as [F V]; split; [exact F|rewrite V, Rabs_R1; cbn; lra]).
  assert (B2 : bd 4 (mac (cz 2%nat) e e r2)) by (apply (bd_mac _ 0 0 3); auto; lia).
  assert (G2 : 1 <= B2R (mac (cz 2%nat) e e r2)).
  { assert (W : forall w, 1 + B2R r2 <= w + B2R r2 -> 1 <= rn (w + B2R r2)) by (intros w Hw; apply rn_ge; [exact fmt1|lra]). destruct E as [FE VE].
    destruct (mul_val 0 0 e e BE BE ltac:(lia)) as [PM VM]. rewrite VE, Rmult_1_r, round_generic in VM by (exact fmt1 || typeclasses eauto).
    assert (FU : 1 <= B2R (fma64 e e r2)) by (rewrite (proj2 (fma_val 0 0 3 _ _ _ BE BE R2 ltac:(lia) ltac:(lia))); apply W; rewrite VE; lra).
    destruct (cz 2%nat); cbn [mac]; [|exact FU..]. rewrite (proj2 (add_val 3 _ _ (bd_up _ 3 _ PM ltac:(lia)) R2 ltac:(lia))). apply W. rewrite VM. lra. }
  set (a2 := mac (cz 2%nat) _ _ _) in *. clearbody a2. destruct (SQ a2 B2 G2) as [BD2 H2]. set (d2 := sqrt64 a2) in *. clearbody d2.
  assert (OK2 : is 1 (sub64 one64 (c_k2 c))) by (destruct K2 as [F V]; apply is_sub; [exact (proj1 O1)|exact F|rewrite VO, V; ring|exact ok1]).
  assert (S : is 1 (sop (cz 3%nat) (c_k2 c) d2 (sub64 one64 (c_k2 c)) e)).
  { destruct K2 as [F V], OK2 as [F' V'], E as [F'' V'']. apply (is_sop _ _ _ _ _ 0 1); auto using ok0, ok1; [exact (proj1 BD2)|rewrite V; ring|rewrite V', V''; ring|ring]. }
  set (sd := sop (cz 3%nat) _ _ _ _) in *. clearbody sd.
  assert (SI : is 1 (div64 one64 sd)).
  { destruct S as [FD VD]. pose proof (Bdiv_correct 53 1024 q53 q1024 mode_NE one64 sd ltac:(rewrite VD; lra)) as C. cbn [round_mode] in C. rewrite VD, VO in C. replace (1 / 1) with 1 in C by field.
    destruct (ok_rn 1 ok1) as [E1 E2]. rewrite E2 in C. destruct C as (E3 & F & _). unfold is, div64. rewrite F, E3. split; [exact (proj1 O1)|exact E1]. }
  set (s := div64 one64 sd) in *. clearbody s. destruct SI as [FS VS].
  assert (DV : forall (a d : g64), bd 1 a -> is_finite d = true -> 1 <= B2R d -> is_finite (div64 a d) = true) by (intros a d A F H; apply (div_val 1 0 a d A F); [cbn; lra|lia]).
  assert (KM : forall a : g64, bd 1 a -> is 0 (mul64 (div64 a d1) (c_k1 c))) by (intros a A; apply mul_z; [apply DV; [exact A|exact (proj1 B1)|exact H1]|exact K1]).
  assert (D2 : forall k (a : g64), bd 1 a -> is_finite (div64 (mac k (mul64 (div64 a d1) (c_k1 c)) e a) d2) = true).
  { intros k a A. apply DV; [|exact (proj1 BD2)|exact H2]. destruct (z_mac k _ e a (B2R a) (KM a A) (proj1 BE) (conj (proj1 A) eq_refl)) as [F V]. split; [exact F|]. rewrite V. apply A. }
  assert (MK : is_finite (sub64 (c_k2 c) one64) = true) by (destruct K2 as [F V]; apply (is_sub _ _ (0 - 1) F (proj1 O1)); [rewrite V, VO; ring|]; replace (0 - 1) with (B2R (opp64 one64)); [apply ok_self|unfold opp64; rewrite B2R_Bopp, VO; ring]).
  assert (AX : forall k k' (a : g64), bd 1 a -> is 0 (dop k (div64 (mac k' (mul64 (div64 a d1) (c_k1 c)) e a) d2) (c_k2 c) (mul64 (div64 a d1) (c_k1 c)) (sub64 (c_k2 c) one64))).
  { intros k k' a A. destruct (KM a A) as [F V]. destruct K2 as [F2 V2]. apply (is_dop _ _ _ _ _ 0 0); auto using ok0; [rewrite V2; ring|rewrite V; ring|ring]. }
  split; [apply is_mul; auto using ok_self; [exact (proj1 X)|rewrite VS; ring]|]. split; [apply is_mul; auto using ok_self; [exact (proj1 Y)|rewrite VS; ring]|].
  assert (OP : forall a : g64, is_finite a = true -> is_finite (opp64 a) = true) by (intros a A; unfold opp64; now rewrite is_finite_Bopp).
  assert (SS : is_finite (mul64 (opp64 s) s) = true).
  { apply (is_mul _ _ (-1) (OP _ FS) FS); [unfold opp64; rewrite B2R_Bopp, VS; ring|]. replace (-1) with (B2R (opp64 one64)); [apply ok_self|unfold opp64; rewrite B2R_Bopp, VO; ring]. }
  assert (SX : forall a : g64, bd 1 a -> is_finite (mul64 (mul64 (opp64 s) s) a) = true).
  { intros a A. assert (BS : bd 0 (mul64 (opp64 s) s)).
    { assert (BO : bd 0 (opp64 s)) by (split; [now apply OP|]; unfold opp64; rewrite B2R_Bopp, VS, Rabs_Ropp, Rabs_R1; cbn; lra). assert (BSS : bd 0 s) by (split; [exact FS|rewrite VS, Rabs_R1; cbn; lra]). apply (bd_mul 0 0); auto; lia. }
    apply (bd_mul 0 1 _ a BS A). lia. }
  unfold is_unit. cbn [m00 m01 m10 m11]. split; [|split; [|split]].
  - apply z_mac; [|exact FS|split; assumption]. apply z_mul; [|exact FS]. apply mul_z; [apply OP, X|apply AX; exact X].
  - apply mul_z; [now apply SX|now apply AX].
  - apply mul_z; [now apply SX|now apply AX].
  - apply z_mac; [|exact FS|split; assumption]. apply z_mul; [|exact FS]. apply mul_z; [apply OP, Y|apply AX; exact Y].
Qed.
