(** Proofs about the double-precision back-projection. *)
From Coq Require Import ZArith Bool Reals Lia Lra Psatz.
From Flocq Require Import Core BinarySingleNaN Relative.
From Verif Require Import IeeeModel IeeeSpec IeeeReal StampModel IcamModel IcamSpec IcamProofs IcamAcc IcamSph IcamEqui IbackModel IbackSpec.
Local Open Scope R_scope.
Local Notation fe := (SpecFloat.fexp 53 1024).
Local Notation rn := (round radix2 fe ZnearestE).
Local Instance VE : Valid_exp fe := fexp_correct 53 1024 q53.

(** *** what is not finite is never accepted *)
Lemma nonfin k (e f : g64) : is_finite e = false -> Bleb (sop k e e f f) tolerance64 = false /\ Bleb (sop k f f e e) tolerance64 = false.
Proof.
  intros H. destruct e as [s|s| |s m q b]; try discriminate H.
  - assert (Q : mul64 (B754_infinity s) (B754_infinity s) = B754_infinity false) by (destruct s; reflexivity).
    split; destruct k; cbn [sop]; rewrite ?Q.
    + destruct (mul64 f f) as [[]|[]| |]; reflexivity.
    + destruct (mul64 f f) as [[]|[]| |], s; reflexivity.
    + destruct f as [[]|[]| |[]]; reflexivity.
    + destruct (mul64 f f) as [[]|[]| |]; reflexivity.
    + destruct f as [[]|[]| |[]]; reflexivity.
    + destruct (mul64 f f) as [[]|[]| |], s; reflexivity.
  - split; destruct k; cbn [sop].
    + destruct (mul64 f f); reflexivity.
    + destruct (mul64 f f); reflexivity.
    + destruct f; reflexivity.
    + destruct (mul64 f f); reflexivity.
    + destruct f; reflexivity.
    + destruct (mul64 f f); reflexivity.
Qed.
Lemma sub_nonfin (a b : g64) : is_finite a = false -> is_finite (sub64 a b) = false.
Proof. intros H. destruct a as [s|s| |s m q l]; try discriminate H; destruct b as [t|t| |t m' q' l']; try reflexivity. destruct s, t; reflexivity. Qed.
Lemma undistort_nonfin cz dist n yx yy : is_finite yx = false \/ is_finite yy = false -> forall bx b, undistort64 cz dist n yx yy bx b = None.
Proof.
  intros H. induction n as [|n IH]; intros bx b; [reflexivity|]. cbn [undistort64]. destruct (dist bx b) as [t j].
  assert (E : Bleb (sop (cz 51%nat) (sub64 yx (fst t)) (sub64 yx (fst t)) (sub64 yy (snd t)) (sub64 yy (snd t))) tolerance64 = false).
  { destruct H as [H|H]; [refine (proj1 (nonfin _ _ _ _))|refine (proj2 (nonfin _ _ _ _))]; now apply sub_nonfin. }
  rewrite E. apply IH.
Qed.

(** *** exact results *)
Definition is (v : R) (x : g64) : Prop := is_finite x = true /\ B2R x = v.
Definition ok (v : R) : Prop := generic_format radix2 fe v /\ Rabs v < bpow radix2 1024.
Lemma ok_rn v : ok v -> rn v = v /\ Rlt_bool (Rabs (rn v)) (bpow radix2 1024) = true.
Proof. intros [G L]. rewrite round_generic by (exact G || typeclasses eauto). split; [reflexivity|]. now apply Rlt_bool_true. Qed.
Lemma ok_self (x : g64) : ok (B2R x).
Proof. split; [apply generic_format_B2R|apply abs_B2R_lt_emax]. Qed.
Lemma ok0 : ok 0. Proof. exact (ok_self (B754_zero false)). Qed.
Lemma ok1 : ok 1. Proof. split; [exact fmt1|]. rewrite Rabs_pos_eq by lra. change 1 with (bpow radix2 0). apply bpow_lt. lia. Qed.
Lemma is_mul (x y : g64) v : is_finite x = true -> is_finite y = true -> B2R x * B2R y = v -> ok v -> is v (mul64 x y).
Proof.
  intros Fx Fy E O. pose proof (Bmult_correct 53 1024 q53 q1024 mode_NE x y) as C. cbn [round_mode] in C. rewrite E in C. destruct (ok_rn v O) as [E1 E2]. rewrite E2 in C.
  destruct C as (E3 & F & _). unfold is, mul64. rewrite F, Fx, Fy, E3. split; [reflexivity|exact E1].
Qed.
Lemma is_add (x y : g64) v : is_finite x = true -> is_finite y = true -> B2R x + B2R y = v -> ok v -> is v (add64 x y).
Proof.
  intros Fx Fy E O. pose proof (Bplus_correct 53 1024 q53 q1024 mode_NE x y Fx Fy) as C. cbn [round_mode] in C. rewrite E in C. destruct (ok_rn v O) as [E1 E2]. rewrite E2 in C.
  destruct C as (E3 & F & _). unfold is, add64. rewrite F, E3. split; [reflexivity|exact E1].
Qed.
Lemma is_sub (x y : g64) v : is_finite x = true -> is_finite y = true -> B2R x - B2R y = v -> ok v -> is v (sub64 x y).
Proof.
  intros Fx Fy E O. pose proof (Bminus_correct 53 1024 q53 q1024 mode_NE x y Fx Fy) as C. cbn [round_mode] in C. rewrite E in C. destruct (ok_rn v O) as [E1 E2]. rewrite E2 in C.
  destruct C as (E3 & F & _). unfold is, sub64. rewrite F, E3. split; [reflexivity|exact E1].
Qed.
Lemma is_fma (x y z : g64) v : is_finite x = true -> is_finite y = true -> is_finite z = true -> B2R x * B2R y + B2R z = v -> ok v -> is v (fma64 x y z).
Proof.
  intros Fx Fy Fz E O. pose proof (Bfma_correct 53 1024 q53 q1024 mode_NE x y z Fx Fy Fz) as C. cbv zeta in C. cbn [round_mode] in C. rewrite E in C. destruct (ok_rn v O) as [E1 E2]. rewrite E2 in C.
  destruct C as (E3 & F & _). unfold is, fma64. rewrite F, E3. split; [reflexivity|exact E1].
Qed.
Lemma is_mac k (a b z : g64) p v : is_finite a = true -> is_finite b = true -> is_finite z = true -> B2R a * B2R b = p -> ok p -> p + B2R z = v -> ok v -> is v (mac k a b z).
Proof.
  intros Fa Fb Fz E O E' O'. assert (is v (fma64 a b z)) by (apply is_fma; auto; now rewrite E). destruct k; [|assumption..]. cbn [mac].
  destruct (is_mul a b p Fa Fb E O) as [F M]. apply is_add; auto. now rewrite M.
Qed.
Lemma is_sop k (a x b y : g64) p q v : is_finite a = true -> is_finite x = true -> is_finite b = true -> is_finite y = true -> B2R a * B2R x = p -> B2R b * B2R y = q -> ok p -> ok q -> p + q = v -> ok v -> is v (sop k a x b y).
Proof.
  intros Fa Fx Fb Fy P Q Op Oq V O. destruct (is_mul a x p Fa Fx P Op) as [F M]. destruct (is_mul b y q Fb Fy Q Oq) as [F' M'].
  destruct k; cbn [sop]; [apply is_add; auto; now rewrite M, M'|apply is_fma; auto; now rewrite P, M'|apply is_fma; auto; rewrite Q, M; lra].
Qed.
Lemma opp_val (x : g64) v : is v x -> is (- v) (opp64 x).
Proof. intros [F V]. unfold is, opp64. rewrite is_finite_Bopp, B2R_Bopp, V. now split. Qed.
Lemma is_dop k (a x b y : g64) p q v : is_finite a = true -> is_finite x = true -> is_finite b = true -> is_finite y = true -> B2R a * B2R x = p -> B2R b * B2R y = q -> ok p -> ok q -> p - q = v -> ok v -> is v (dop k a x b y).
Proof.
  intros Fa Fx Fb Fy P Q Op Oq V O. destruct (is_mul a x p Fa Fx P Op) as [F M]. pose proof (is_mul b y q Fb Fy Q Oq) as I. destruct (opp_val _ _ I) as [Fo Mo]. destruct I as [F' M'].
  destruct (opp_val b (B2R b) (conj Fb eq_refl)) as [Fob Mob].
  destruct k; cbn [dop]; [apply is_sub; auto; now rewrite M, M'|apply is_fma; auto; rewrite P, Mo; lra|apply is_fma; auto; rewrite Mob, M; nra].
Qed.
Lemma z_mul (x y : g64) : is 0 x -> is_finite y = true -> is 0 (mul64 x y).
Proof. intros [F V] Fy. apply is_mul; auto using ok0. rewrite V. ring. Qed.
Lemma mul_z (x y : g64) : is_finite x = true -> is 0 y -> is 0 (mul64 x y).
Proof. intros Fx [F V]. apply is_mul; auto using ok0. rewrite V. ring. Qed.
Lemma z_mac k (a b z : g64) v : is 0 a -> is_finite b = true -> is v z -> is v (mac k a b z).
Proof. intros [F V] Fb [Fz <-]. apply (is_mac k a b z 0); auto using ok0, ok_self; [rewrite V; ring|ring]. Qed.
(** sums of products of zeros and ones *)
Lemma is_sop01 k (a x b y : g64) a' x' b' y' : is a' a -> is x' x -> is b' b -> is y' y -> ok (a' * x') -> ok (b' * y') -> ok (a' * x' + b' * y') -> is (a' * x' + b' * y') (sop k a x b y).
Proof. intros [A <-] [X <-] [B <-] [Y <-] O1 O2 O3. now apply (is_sop k a x b y _ _ _ A X B Y eq_refl eq_refl). Qed.

Definition is_unit (m : mat64) : Prop := is 1 (m00 m) /\ is 0 (m01 m) /\ is 0 (m10 m) /\ is 1 (m11 m).
Lemma is_eq v w x : is v x -> v = w -> is w x. Proof. intros H <-. exact H. Qed.
Ltac ok01 := first [exact ok0 | exact ok1 | (replace (1 * 1) with 1 by ring; exact ok1) | (replace (0 * 1) with 0 by ring; exact ok0) | (replace (1 * 0) with 0 by ring; exact ok0) | (replace (0 * 0) with 0 by ring; exact ok0)
  | match goal with |- ok ?e => first [replace e with 0 by ring; exact ok0 | replace e with 1 by ring; exact ok1] end].
Ltac sop01 H := eapply is_eq; [eapply is_sop01; [apply H..|ok01|ok01|ok01]|ring].
Lemma unit_mmul cz k a b : is_unit a -> is_unit b -> is_unit (mmul64 cz k a b).
Proof.
  intros (A0 & A1 & A2 & A3) (B0 & B1 & B2 & B3). unfold mmul64, is_unit. cbn [m00 m01 m10 m11].
  split; [|split; [|split]]; (eapply is_eq; [eapply is_sop01; [eassumption..|ok01|ok01|ok01]|ring]).
Qed.
Lemma unit_trans a : is_unit a -> is_unit (trans64 a).
Proof. intros (A0 & A1 & A2 & A3). unfold trans64, is_unit. cbn [m00 m01 m10 m11]. tauto. Qed.
Lemma one_is : is 1 one64. Proof. destruct one_val as [[F _] E]. now split. Qed.
Lemma unit_inv cz a : is_unit a -> is_unit (inv64 cz a).
Proof.
  intros ((F0 & A0) & (F1 & A1) & (F2 & A2) & (F3 & A3)). unfold inv64. cbv zeta.
  assert (D : is 1 (dop (cz 44%nat) (m00 a) (m11 a) (m10 a) (m01 a))) by (apply (is_dop _ _ _ _ _ 1 0); auto using ok0, ok1; try (rewrite ?A0, ?A1, ?A2, ?A3; ring); ring).
  set (dd := dop _ _ _ _ _) in *. clearbody dd. destruct D as [FD VD].
  assert (I : is 1 (div64 one64 dd)).
  { pose proof (Bdiv_correct 53 1024 q53 q1024 mode_NE one64 dd ltac:(rewrite VD; lra)) as C. cbn [round_mode] in C. rewrite VD in C. destruct one_is as [FO VO]. rewrite VO in C. replace (1 / 1) with 1 in C by field.
    destruct (ok_rn 1 ok1) as [E1 E2]. rewrite E2 in C. destruct C as (E3 & F & _). unfold is, div64. rewrite F, E3. split; [exact FO|exact E1]. }
  set (d := div64 one64 dd) in *. clearbody d. destruct I as [Fd Vd].
  destruct (opp_val (m01 a) 0 (conj F1 A1)) as [FO1 VO1]. destruct (opp_val (m10 a) 0 (conj F2 A2)) as [FO2 VO2].
  unfold is_unit. cbn [m00 m01 m10 m11]. split; [|split; [|split]]; apply is_mul; auto using ok0, ok1; rewrite ?A0, ?A3, ?VO1, ?VO2, Vd; ring.
Qed.
Lemma unit_step cz j ex ey : is_unit j -> is 0 ex -> is 0 ey -> is 0 (fst (step64 cz j ex ey)) /\ is 0 (snd (step64 cz j ex ey)).
Proof.
  intros J X Y. unfold step64. assert (U : is_unit (mmul64 cz 45%nat (inv64 cz (mmul64 cz 40%nat (trans64 j) j)) (trans64 j))) by (apply unit_mmul; [apply unit_inv, unit_mmul; [now apply unit_trans|exact J]|now apply unit_trans]).
  set (m := mmul64 cz 45%nat _ _) in *. clearbody m. destruct U as (A0 & A1 & A2 & A3). unfold mvec64. cbn [fst snd].
  split; (eapply is_eq; [eapply is_sop01; [eassumption..|ok01|ok01|ok01]|ring]).
Qed.
Lemma at_most0 x : at_most 0 x -> is 0 x.
Proof. intros [F H]. split; [exact F|]. unfold val64 in H. pose proof (Rabs_pos (B2R x)). destruct (Req_dec (B2R x) 0) as [E|E]; [exact E|]. apply Rabs_pos_lt in E. lra. Qed.
Lemma six_fin : is_finite six64 = true. Proof. vm_compute. reflexivity. Qed.
Lemma four_fin : is_finite four64 = true. Proof. vm_compute. reflexivity. Qed.
Lemma two_fin : is_finite two64 = true. Proof. vm_compute. reflexivity. Qed.
(** without distortion the distorted point is the point and the Jacobian the unit matrix *)
Lemma radtan_jac_unit cz c x y : undistorted c -> bd 100 x -> bd 100 y ->
  is (B2R x) (fst (fst (radtan_jac64 cz c x y))) /\ is (B2R y) (snd (fst (radtan_jac64 cz c x y))) /\ is_unit (snd (radtan_jac64 cz c x y)).
Proof.
  intros (_ & K1 & K2 & K3 & P1 & P2) X Y. apply at_most0 in K1, K2, K3, P1, P2.
  unfold radtan_jac64, radtan64. cbv zeta. cbn [fst snd].
  assert (R2 : bd 201 (sop (cz 0%nat) x x y y)) by (apply (bd_sop _ 100 100 100 100 200); auto; lia).
  assert (X2 : bd 200 (mul64 x x)) by (apply (bd_mul 100 100); auto; lia). assert (Y2 : bd 200 (mul64 y y)) by (apply (bd_mul 100 100); auto; lia). assert (XY : bd 200 (mul64 x y)) by (apply (bd_mul 100 100); auto; lia).
  assert (M5 : is_finite (mac (cz 5%nat) two64 (mul64 x x) (sop (cz 0%nat) x x y y)) = true) by (apply (bd_mac _ 1 200 201); auto using two_val; lia).
  assert (M8 : is_finite (mac (cz 8%nat) two64 (mul64 y y) (sop (cz 0%nat) x x y y)) = true) by (apply (bd_mac _ 1 200 201); auto using two_val; lia).
  set (m5 := mac (cz 5%nat) _ _ _) in *. set (m8 := mac (cz 8%nat) _ _ _) in *. clearbody m5 m8.
  set (r2 := sop (cz 0%nat) x x y y) in *. set (x2 := mul64 x x) in *. set (y2 := mul64 y y) in *. set (xy := mul64 x y) in *. clearbody r2 x2 y2 xy.
  destruct X as [FX _], Y as [FY _], R2 as [FR _], X2 as [FX2 _], Y2 as [FY2 _], XY as [FXY _].
  assert (KR : is 1 (mac (cz 3%nat) (mac (cz 2%nat) (mac (cz 1%nat) (c_k3 c) r2 (c_k2 c)) r2 (c_k1 c)) r2 one64)) by (apply z_mac; [|exact FR|exact one_is]; apply z_mac; [|exact FR|exact K1]; apply z_mac; [exact K3|exact FR|exact K2]).
  set (kr := mac (cz 3%nat) _ _ _) in *. clearbody kr.
  assert (T1 : is 0 (mul64 two64 (c_k1 c))) by (apply mul_z; [exact two_fin|exact K1]). set (tk1 := mul64 two64 (c_k1 c)) in *. clearbody tk1.
  assert (T2 : is 0 (mul64 four64 (c_k2 c))) by (apply mul_z; [exact four_fin|exact K2]). set (fk2 := mul64 four64 (c_k2 c)) in *. clearbody fk2.
  assert (T3 : is 0 (mul64 six64 (c_k3 c))) by (apply mul_z; [exact six_fin|exact K3]). set (sk3 := mul64 six64 (c_k3 c)) in *. clearbody sk3.
  assert (Q1 : is 0 (mul64 two64 (c_p1 c))) by (apply mul_z; [exact two_fin|exact P1]). assert (Q2 : is 0 (mul64 two64 (c_p2 c))) by (apply mul_z; [exact two_fin|exact P2]).
  assert (Q3 : is 0 (mul64 six64 (c_p1 c))) by (apply mul_z; [exact six_fin|exact P1]). assert (Q4 : is 0 (mul64 six64 (c_p2 c))) by (apply mul_z; [exact six_fin|exact P2]).
  assert (Q5 : is 0 (mul64 (c_p1 c) two64)) by (apply z_mul; [exact P1|exact two_fin]). assert (Q6 : is 0 (mul64 (c_p2 c) two64)) by (apply z_mul; [exact P2|exact two_fin]).
  destruct KR as [FK VK]. pose proof (conj FK VK : is 1 kr) as KR.
  split; [|split].
  - apply z_mac; [exact P2|exact M5|]. destruct Q5 as [F5 V5]. apply (is_sop _ _ _ _ _ (B2R x) 0); auto using ok0, ok_self; [rewrite VK; ring|rewrite V5; ring|ring].
  - apply z_mac; [exact Q6|exact FXY|]. destruct P1 as [F5 V5]. apply (is_sop _ _ _ _ _ (B2R y) 0); auto using ok0, ok_self; [rewrite VK; ring|rewrite V5; ring|ring].
  - assert (J01 : is 0 (mac (cz 28%nat) (mul64 two64 (c_p2 c)) y (mac (cz 27%nat) (mul64 two64 (c_p1 c)) x (mac (cz 26%nat) (mul64 (mul64 sk3 xy) r2) r2 (sop (cz 25%nat) tk1 xy (mul64 fk2 xy) r2))))).
    { apply z_mac; [exact Q2|exact FY|]. apply z_mac; [exact Q1|exact FX|]. apply z_mac; [apply z_mul; [now apply z_mul|exact FR]|exact FR|].
      destruct (z_mul fk2 xy T2 FXY) as [F6 V6]. destruct T1 as [F7 V7]. apply (is_sop _ _ _ _ _ 0 0); auto using ok0; [rewrite V7; ring|rewrite V6; ring|ring]. }
    unfold is_unit. cbn [m00 m01 m10 m11]. split; [|split; [exact J01|split; [exact J01|]]].
    + apply z_mac; [exact Q4|exact FX|]. apply z_mac; [exact Q1|exact FY|]. apply z_mac; [apply z_mul; [now apply z_mul|exact FR]|exact FR|]. apply z_mac; [now apply z_mul|exact FR|]. now apply z_mac.
    + apply z_mac; [exact Q2|exact FX|]. apply z_mac; [exact Q3|exact FY|]. apply z_mac; [apply z_mul; [now apply z_mul|exact FR]|exact FR|]. apply z_mac; [now apply z_mul|exact FR|]. now apply z_mac.
Qed.
Lemma tol_pos : is_finite tolerance64 = true /\ 0 <= B2R tolerance64.
Proof. split; [vm_compute; reflexivity|]. assert (S : Bleb (B754_zero false) tolerance64 = true) by (vm_compute; reflexivity). rewrite Bleb_correct in S by (vm_compute; reflexivity). cbn [B2R] in S. destruct (Rle_bool_spec 0 (B2R tolerance64)) as [H|H]; [exact H|discriminate S]. Qed.
Lemma undistort_pinhole cz c n x y : undistorted c -> bd 100 x -> bd 100 y ->
  exists x' y', undistort64 cz (radtan_jac64 cz c) (S n) x y x y = Some (x', y') /\ is (B2R x) x' /\ is (B2R y) y'.
Proof.
  intros U X Y. destruct (radtan_jac_unit cz c x y U X Y) as (A & B & J). cbn [undistort64]. destruct (radtan_jac64 cz c x y) as [t j]. cbn [fst snd] in A, B, J.
  destruct X as [FX _], Y as [FY _]. destruct A as [FA A], B as [FB B].
  assert (EX : is 0 (sub64 x (fst t))) by (apply is_sub; auto using ok0; rewrite A; ring). assert (EY : is 0 (sub64 y (snd t))) by (apply is_sub; auto using ok0; rewrite B; ring).
  destruct (unit_step cz j _ _ J EX EY) as [DX DY]. set (ex := sub64 x (fst t)) in *. set (ey := sub64 y (snd t)) in *. clearbody ex ey.
  assert (N : is 0 (sop (cz 51%nat) ex ex ey ey)) by (eapply is_eq; [eapply is_sop01; [eassumption..|ok01|ok01|ok01]|ring]).
  destruct N as [FN VN]. destruct tol_pos as [FT VT].
  assert (L : Bleb (sop (cz 51%nat) ex ex ey ey) tolerance64 = true) by (rewrite Bleb_correct by assumption; apply Rle_bool_true; rewrite VN; exact VT).
  rewrite L. eexists _, _. split; [reflexivity|]. destruct DX as [FD1 V1], DY as [FD2 V2].
  split; apply is_add; auto using ok_self; rewrite ?V1, ?V2; ring.
Qed.
