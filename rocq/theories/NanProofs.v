From Coq Require Import List ZArith Bool Reals Arith Lia Lra.
From Flocq Require Import Core BinarySingleNaN Plus_error.
From Verif Require Import IeeeModel IeeeReal IeeeProofs IeeeAcc IeeePos IeeeSpec IpyrProofs IscoreModel IscoreReal IscoreEig NanModel NanSpec.
Import ListNotations.
Local Open Scope R_scope.

Lemma nan_dec (s : f32) : s = B754_nan \/ number s.
Proof. destruct s; [right|right|left|right]; reflexivity. Qed.
Lemma fin_num (x : f32) : F x -> number x. Proof. destruct x; try discriminate; reflexivity. Qed.
Lemma lt_nan (x : f32) : Bltb x B754_nan = false. Proof. destruct x as [[]|[]| |[]]; reflexivity. Qed.
Lemma nan_lt (x : f32) : Bltb B754_nan x = false. Proof. destruct x as [[]|[]| |[]]; reflexivity. Qed.
Lemma le_nan (x : f32) : Bleb x B754_nan = false. Proof. destruct x as [[]|[]| |[]]; reflexivity. Qed.
Lemma nan_sub (x : f32) : sub32 B754_nan x = B754_nan. Proof. destruct x; reflexivity. Qed.
Lemma nan_div (x : f32) : div32 B754_nan x = B754_nan. Proof. destruct x; reflexivity. Qed.
Lemma div_nan (x : f32) : div32 x B754_nan = B754_nan. Proof. destruct x; reflexivity. Qed.
Lemma nan_sqrt : sqrt32 B754_nan = B754_nan. Proof. reflexivity. Qed.
Lemma blt (x y : f32) : F x -> F y -> (Bltb x y = true <-> B2R x < B2R y).
Proof. intros Fx Fy. rewrite Bltb_correct by assumption. split; [intros H; destruct (Rlt_bool_spec (B2R x) (B2R y)); [assumption|discriminate]|intros H; now apply Rlt_bool_true]. Qed.
Lemma ble (x y : f32) : F x -> F y -> (Bleb x y = true <-> B2R x <= B2R y).
Proof. intros Fx Fy. rewrite Bleb_correct by assumption. split; [intros H; destruct (Rle_bool_spec (B2R x) (B2R y)); [assumption|discriminate]|intros H; now apply Rle_bool_true]. Qed.

(** ** maximum *)
Lemma max_fold l : Forall score_like l -> forall m, F m ->
  let r := fold_left (fun m s => if Bltb m s then s else m) l m in
  F r /\ B2R m <= B2R r /\ (forall s, In s l -> number s -> B2R s <= B2R r) /\ (In r l \/ r = m).
Proof.
  induction l as [|s l IH]; intros HF m Fm; cbn [fold_left].
  - cbv zeta. repeat split; auto; [lra|intros s []].
  - inversion HF as [|? ? Hs HF']; subst. destruct (nan_dec s) as [->|Ns].
    + rewrite lt_nan. destruct (IH HF' m Fm) as (A & B & C & D). cbv zeta. repeat split; auto; [intros s [<-|I] N; [discriminate N|now apply C]|destruct D; [left; now right|now right]].
    + destruct (Hs Ns) as [Fs _]. assert (K : F (if Bltb m s then s else m) /\ B2R m <= B2R (if Bltb m s then s else m) /\ B2R s <= B2R (if Bltb m s then s else m)).
      { destruct (Bltb m s) eqn:E; [apply blt in E; [|assumption..]; repeat split; auto; lra|]. repeat split; auto; [lra|].
        destruct (Rle_dec (B2R s) (B2R m)) as [L|L]; [exact L|]. assert (Bltb m s = true) by (apply blt; auto; lra). congruence. }
      destruct K as (K1 & K2 & K3). destruct (IH HF' _ K1) as (A & B & C & D). cbv zeta. repeat split; auto; [lra| |].
      * intros x [<-|I] N; [lra|now apply C].
      * destruct D as [D|D]; [left; now right|]. rewrite D. destruct (Bltb m s); [left; now left|now right].
Qed.
Lemma max_best l : Forall score_like l -> best_number l (max_score32 l).
Proof.
  intros H. destruct (of_Z32 (-1) ltac:(lia)) as [F1 V1]. destruct (max_fold l H _ F1) as (A & B & C & D). fold (max_score32 l) in *. rewrite V1 in B.
  split; [exact A|]. split; [exact B|]. split; [exact C|]. destruct D as [D|D]; [now left|right]. unfold real. rewrite D. exact V1.
Qed.
Lemma max_filter l : max_score32 (filter (fun s => negb (is_nan s)) l) = max_score32 l.
Proof.
  unfold max_score32. generalize (f32_of_Z (-1)). induction l as [|s l IH]; intros m; cbn [filter fold_left]; [reflexivity|].
  destruct (nan_dec s) as [->|Ns]; [cbn [is_nan negb]; rewrite lt_nan; apply IH|]. unfold number in Ns. rewrite Ns. cbn [negb fold_left]. apply IH.
Qed.

(** ** relative score *)
Local Instance fx_ok : Valid_exp (SpecFloat.fexp 24 128) := fxv 24 128 p24.
Lemma diff_pos (x y : f32) : F x -> F y -> B2R y < B2R x -> 0 < r32 (B2R x - B2R y).
Proof.
  intros Fx Fy H. assert (0 <= r32 (B2R x - B2R y)) by (rewrite <- (rndf_0 24 128); apply r32_mono; lra).
  assert (r32 (B2R x + B2R (Bopp y)) <> 0).
  { unfold rndf. assert (NF : Exp_not_FTZ (SpecFloat.fexp 24 128)) by (apply monotone_exp_not_FTZ; [exact fx_ok|apply fexp_monotone]).
    apply (round_plus_neq_0 radix2 (SpecFloat.fexp 24 128) ZnearestE (B2R x) (B2R (Bopp y))); [apply generic_format_B2R..|]. rewrite B2R_Bopp. lra. }
  rewrite B2R_Bopp in *. unfold Rminus in *. lra.
Qed.
Section Rel.
Variables (mn : f32) (l : list f32).
Hypotheses (Fm : F mn) (Pm : 0 <= B2R mn) (HL : Forall score_like l).
Let mx := max_score32 l.
Lemma mx_bound : B2R mn < B2R mx -> F mx /\ B2R mx <= 262144 /\ In mx l.
Proof.
  intros H. destruct (max_best l HL) as (A & B & C & D). fold mx in A, B, C, D. split; [exact A|]. unfold real in *. destruct D as [D|D]; [|lra]. split; [|exact D].
  rewrite Forall_forall in HL. destruct (HL mx D) as [_ K]; [apply fin_num, A|]. apply Rabs_le_inv in K. unfold real in K. lra.
Qed.
Lemma go_on : Bleb mx mn = false <-> B2R mn < B2R mx.
Proof.
  destruct (max_best l HL) as (A & _). fold mx in A. pose proof (ble mx mn A Fm) as K. split; intros H.
  - apply Rnot_le_lt. intros L. apply K in L. congruence.
  - destruct (Bleb mx mn); [|reflexivity]. pose proof (proj1 K eq_refl). lra.
Qed.
Lemma picked_spec s : In s l -> picked mn l s = true ->
  finite s /\ B2R mn < B2R s <= B2R mx /\ finite (rel32 mn mx s) /\ 0 < B2R (rel32 mn mx s) <= 1 /\ (s = mx -> B2R (rel32 mn mx s) = 1).
Proof.
  intros I. unfold picked. fold mx. destruct (Bleb mx mn) eqn:G; [discriminate|]. apply go_on in G. intros H.
  destruct (nan_dec s) as [->|Ns]; [unfold rel32 in H; rewrite nan_sub, nan_div, lt_nan in H; discriminate|].
  pose proof (mx_bound G) as (Fx & Bx & Ix). rewrite Forall_forall in HL. destruct (HL s I Ns) as [Fs Bs]. unfold real in Bs. apply Rabs_le_inv in Bs.
  destruct (max_best l ltac:(apply Forall_forall; exact HL)) as (_ & _ & C & _). fold mx in C. specialize (C s I Ns). unfold real in C.
  destruct (sub_err mx mn Fx Fm ltac:(apply Rabs_le; lra)) as [Fd Vd]. pose proof (diff_pos mx mn Fx Fm G) as Dp. rewrite <- Vd in Dp.
  destruct (sub_err s mn Fs Fm ltac:(apply Rabs_le; lra)) as [Fn Vn].
  assert (ND : B2R (sub32 s mn) <= B2R (sub32 mx mn)) by (rewrite Vd, Vn; apply r32_mono; lra).
  set (d := B2R (sub32 mx mn)) in *. set (nn := B2R (sub32 s mn)) in *.
  assert (Q1 : nn / d <= 1) by (apply Rmult_le_reg_r with d; [exact Dp|]; unfold Rdiv; rewrite Rmult_assoc, Rinv_l by lra; lra).
  destruct (Rle_dec nn 0) as [Z|Z].
  - exfalso. assert (Q : nn / d <= 0) by (apply Rmult_le_reg_r with d; [exact Dp|]; unfold Rdiv; rewrite Rmult_assoc, Rinv_l by lra; lra).
    (* even a tiny negative quotient is not positive *)
    destruct (Bltb zero32 (rel32 mn mx s)) eqn:E; [|discriminate]. pose proof (Bdiv_correct 24 128 p24 p128 mode_NE (sub32 s mn) (sub32 mx mn) ltac:(fold d; lra)) as CD.
    cbn [round_mode] in CD. fold d nn in CD. destruct (Rlt_bool _ _) in CD.
    + destruct CD as (V & FF & _). assert (FR : F (rel32 mn mx s)) by (unfold rel32, div32; rewrite FF; exact Fn). apply blt in E; [|reflexivity|exact FR].
      assert (r32 (nn / d) <= 0) by (rewrite <- (rndf_0 24 128); apply r32_mono; lra). unfold rel32, div32 in E. rewrite V in E. change (B2R zero32) with 0 in E. fold (r32 (nn / d)) in E. lra.
    + destruct (Rlt_dec nn 0) as [Z'|Z'].
      * assert (SG : Bsign (sub32 s mn) = true) by (destruct (sub32 s mn) as [sg|sg| |sg m e h]; cbn in *; try discriminate; [unfold nn in Z'; cbn in Z'; lra|destruct sg; [reflexivity|exfalso; unfold nn in Z'; cbn in Z'; pose proof (F2R_gt_0 radix2 (Float radix2 (Z.pos m) e) eq_refl); lra]]).
        assert (SD : Bsign (sub32 mx mn) = false) by (destruct (sub32 mx mn) as [sg|sg| |sg m e h]; cbn in *; try discriminate; [unfold d in Dp; cbn in Dp; lra|destruct sg; [exfalso; unfold d in Dp; cbn in Dp; pose proof (F2R_lt_0 radix2 (Float radix2 (Z.neg m) e) eq_refl); lra|reflexivity]]).
        rewrite SG, SD in CD. unfold rel32, div32 in E. cbn in CD. destruct (Bdiv mode_NE (sub32 s mn) (sub32 mx mn)) as [[]|[]| |[]]; cbn in CD, E; try discriminate.
      * assert (N0 : nn = 0) by lra. unfold rel32, div32 in E. clear CD. destruct (sub32 s mn) as [sg|sg| |sg m e h]; cbn in *; try discriminate.
        -- destruct (sub32 mx mn) as [s2|s2| |s2 m2 e2 h2]; cbn in *; try discriminate. 
        -- exfalso. unfold nn in N0. cbn in N0. destruct sg; cbn in N0; [pose proof (F2R_lt_0 radix2 (Float radix2 (Z.neg m) e) eq_refl)|pose proof (F2R_gt_0 radix2 (Float radix2 (Z.pos m) e) eq_refl)]; lra.
  - assert (Q0 : 0 < nn / d) by (apply Rdiv_lt_0_compat; lra).
    destruct (div_err (sub32 s mn) (sub32 mx mn) Fn ltac:(fold d; lra)) as [FR VR]; [fold d nn; apply Rabs_le; lra|]. fold (rel32 mn mx s) in FR, VR. fold d nn in VR.
    apply blt in H; [|reflexivity|exact FR]. change (B2R zero32) with 0 in H. split; [exact Fs|].
    assert (SM : B2R mn < B2R s) by (apply Rnot_le_lt; intros L; apply Z; rewrite Vn, <- (rndf_0 24 128); apply r32_mono; lra).
    split; [lra|]. split; [exact FR|]. assert (R1 : r32 1 = 1) by (apply (r32_int 1); lia). split.
    + split; [exact H|]. rewrite VR, <- R1. apply r32_mono. exact Q1.
    + intros ->. rewrite VR. unfold nn, d. unfold Rdiv. rewrite Rinv_r; [exact R1|]. fold d. lra.
Qed.
(** a score clearly above the minimum is picked *)
Lemma picked_above s : In s l -> number s -> pw (-100) <= B2R s - B2R mn -> picked mn l s = true.
Proof.
  intros I Ns H. pose proof (bpow_gt_0 radix2 (-100)) as P0. pose proof HL as HL'. rewrite Forall_forall in HL'. destruct (HL' s I Ns) as [Fs Bs]. unfold real in Bs. apply Rabs_le_inv in Bs.
  destruct (max_best l HL) as (_ & _ & C & _). fold mx in C. specialize (C s I Ns). unfold real in C.
  assert (G : B2R mn < B2R mx) by lra. pose proof (mx_bound G) as (Fx & Bx & Ix).
  unfold picked. fold mx. rewrite (proj2 go_on G).
  destruct (sub_err mx mn Fx Fm ltac:(apply Rabs_le; lra)) as [Fd Vd]. pose proof (diff_pos mx mn Fx Fm G) as Dp. rewrite <- Vd in Dp.
  destruct (sub_err s mn Fs Fm ltac:(apply Rabs_le; lra)) as [Fn Vn].
  assert (ND : B2R (sub32 s mn) <= B2R (sub32 mx mn)) by (rewrite Vd, Vn; apply r32_mono; lra).
  assert (N0 : pw (-100) <= B2R (sub32 s mn)) by (rewrite Vn, <- (fmt_pw 24 128 (-100)) by lia; apply r32_mono; exact H).
  assert (D1 : B2R (sub32 mx mn) <= pw 18) by (rewrite Vd, <- (fmt_pw 24 128 18) by lia; apply r32_mono; change (pw 18) with 262144; lra).
  set (d := B2R (sub32 mx mn)) in *. set (nn := B2R (sub32 s mn)) in *.
  assert (Q1 : nn / d <= 1) by (apply Rmult_le_reg_r with d; [exact Dp|]; unfold Rdiv; rewrite Rmult_assoc, Rinv_l by lra; lra).
  assert (Q2 : pw (-118) <= nn / d).
  { apply Rmult_le_reg_r with d; [exact Dp|]. unfold Rdiv. rewrite Rmult_assoc, Rinv_l, Rmult_1_r by lra. apply Rle_trans with (pw (-118) * pw 18); [apply Rmult_le_compat_l; [apply bpow_ge_0|exact D1]|].
    rewrite <- bpow_plus. exact N0. }
  pose proof (bpow_gt_0 radix2 (-118)) as P1.
  destruct (div_err (sub32 s mn) (sub32 mx mn) Fn ltac:(fold d; lra)) as [FR VR]; [fold d nn; apply Rabs_le; lra|]. fold d nn in VR.
  unfold rel32. apply blt; [reflexivity|exact FR|]. rewrite VR. change (B2R zero32) with 0. apply Rlt_le_trans with (pw (-118)); [exact P1|].
  rewrite <- (fmt_pw 24 128 (-118)) by lia. apply r32_mono. exact Q2.
Qed.
End Rel.

(** ** histories *)
Lemma number_le (x y : f32) : F x -> Bleb x y = true -> number y.
Proof. intros _ H. destruct (nan_dec y) as [->|N]; [rewrite le_nan in H; discriminate|exact N]. Qed.
Lemma le_of_lt (x y : f32) : F x -> F y -> B2R x < B2R y -> Bleb x y = true.
Proof. intros. apply ble; auto. lra. Qed.
Definition above (mn : f32) (st : scores) : Prop := forall i s, st i = Some s -> Bleb mn s = true.
Lemma put_above mn st i v : above mn st -> (forall s, v = Some s -> Bleb mn s = true) -> above mn (put st i v).
Proof. intros H Hv j s. unfold put. destruct (Nat.eqb j i); auto. apply H. Qed.
Lemma adds_above mn l ch : F mn -> 0 <= B2R mn -> Forall score_like l -> forall st, above mn st -> above mn (fold_left (add_one mn l) ch st).
Proof.
  intros Fm Pm HL. induction ch as [|[i c] ch IH]; intros st H; cbn [fold_left]; [exact H|]. apply IH. unfold add_one. cbn [fst snd].
  destruct (nth_error l c) as [s|] eqn:E; [|exact H]. destruct (picked mn l s) eqn:P; [|exact H]. apply put_above; [exact H|].
  intros s' [= <-]. destruct (picked_spec mn l Fm Pm HL s (nth_error_In _ _ E) P) as (Fs & B & _). apply le_of_lt; [exact Fm|exact Fs|lra].
Qed.
Lemma run_above mn mr es : F mn -> 0 <= B2R mn -> Forall ev_like es -> above mn (nrun mn mr es).
Proof.
  intros Fm Pm. unfold nrun. assert (G : forall st, above mn st -> Forall ev_like es -> above mn (fold_left (nstep mn mr) es st)).
  { induction es as [|e es IH]; intros st H HF; cbn [fold_left]; [exact H|]. inversion HF as [|? ? He HF']; subst. apply IH; [|exact HF']. destruct e as [i|i s|l ch]; cbn [nstep].
    - apply put_above; [exact H|discriminate].
    - destruct (st i) as [old|] eqn:E; [|exact H]. destruct (refreshes mn mr old s) eqn:R; [|exact H]. apply andb_prop in R as [R _]. apply put_above; [exact H|]. intros s' [= <-]. exact R.
    - apply adds_above; auto. }
  apply G. intros i s. discriminate.
Qed.

(** ** average *)
Lemma neg_zero (x : f32) : Bsign x = true -> F x -> 0 <= B2R x -> x = B754_zero true.
Proof.
  destruct x as [s|s| |s m e h]; cbn; try discriminate; intros ->; [reflexivity|]. intros _ H. exfalso.
  pose proof (F2R_lt_0 radix2 (Float radix2 (Z.neg m) e) eq_refl). cbn in *. lra.
Qed.
Lemma add_num (a b : f32) : number a -> number b -> Bleb zero32 a = true -> Bleb zero32 b = true -> number (add32 a b) /\ Bleb zero32 (add32 a b) = true.
Proof.
  intros Na Nb Ha Hb. 
  assert (G : forall x : f32, number x -> Bleb zero32 x = true -> x = B754_infinity false \/ (F x /\ 0 <= B2R x)).
  { intros x Nx Hx. destruct x as [s|[]| |s m e h]; try discriminate; [right|left; reflexivity|right]; (split; [reflexivity|]); change 0 with (B2R zero32); (apply ble; [reflexivity|reflexivity|exact Hx]). }
  destruct (G a Na Ha) as [->|[Fa Pa]]; destruct (G b Nb Hb) as [->|[Fb Pb]].
  - split; reflexivity.
  - destruct b; try discriminate; split; reflexivity.
  - destruct a; try discriminate; split; reflexivity.
  - pose proof (Bplus_correct 24 128 p24 p128 mode_NE a b Fa Fb) as C. cbn [round_mode] in C. destruct (Rlt_bool _ _) in C.
    + destruct C as (V & FF & _). split; [apply fin_num; exact FF|]. apply ble; [reflexivity|exact FF|]. unfold add32. rewrite V. change (B2R zero32) with 0. rewrite <- (rndf_0 24 128). apply r32_mono. lra.
    + destruct C as (C & S). assert (SA : Bsign a = false).
      { destruct (Bsign a) eqn:SA; [exfalso|reflexivity]. apply neg_zero in SA as ->; [|assumption..]. symmetry in S. apply neg_zero in S as ->; [|assumption..]. discriminate C. }
      rewrite SA in C. unfold add32, number. destruct (Bplus mode_NE a b) as [[]|[]| |[]]; cbn in C; try discriminate; split; reflexivity.
Qed.
Lemma max0_num s : number s -> number (max0 s) /\ Bleb zero32 (max0 s) = true.
Proof.
  intros N. unfold max0. destruct (Bltb s zero32) eqn:E; [split; reflexivity|]. split; [exact N|]. destruct s as [[]|[]| |[] m e h]; try reflexivity; discriminate.
Qed.
Lemma div_num (x y : f32) : number x -> Bleb zero32 x = true -> F y -> 0 < B2R y -> number (div32 x y).
Proof.
  intros Nx Hx Fy Py. destruct x as [s|s| |s m e h]; try discriminate.
  - destruct y as [sy|sy| |sy my ey hy]; try discriminate; [cbn in Py; lra|reflexivity].
  - destruct y as [sy|sy| |sy my ey hy]; try discriminate; reflexivity.
  - set (x := B754_finite s m e h : f32) in *. pose proof (Bdiv_correct 24 128 p24 p128 mode_NE x y ltac:(lra)) as C. cbn [round_mode] in C. destruct (Rlt_bool _ _) in C.
    + destruct C as (_ & FF & _). apply fin_num. unfold div32. rewrite FF. reflexivity.
    + unfold div32, number. destruct (Bdiv mode_NE x y); cbn in C; try discriminate; reflexivity.
Qed.
Lemma average_num mn st n : F mn -> above mn st -> (Z.of_nat n <= 16777216)%Z -> number (average_score st n).
Proof.
  intros Fm H Hn. unfold average_score. 
  assert (G : forall is a, number (fst a) -> Bleb zero32 (fst a) = true -> (0 <= snd a)%Z ->
    let r := fold_left (fun a i => match st i with Some s => (add32 (fst a) (max0 s), (snd a + 1)%Z) | None => a end) is a in
    number (fst r) /\ Bleb zero32 (fst r) = true /\ (0 <= snd r <= snd a + Z.of_nat (length is))%Z).
  { induction is as [|i is IH]; intros a N L Z; cbn [fold_left].
    - cbv zeta. cbn [length]. repeat split; auto; lia.
    - cbn [length]. rewrite Nat2Z.inj_succ. destruct (st i) as [s|] eqn:E.
      + destruct (max0_num s (number_le mn s Fm (H i s E))) as [N0 L0]. destruct (add_num (fst a) (max0 s) N N0 L L0) as [N1 L1].
        specialize (IH (add32 (fst a) (max0 s), (snd a + 1)%Z) N1 L1 ltac:(cbn [snd]; lia)). cbv zeta in *. cbn [snd] in IH. destruct IH as (A & B & C). repeat split; auto; lia.
      + specialize (IH a N L Z). cbv zeta in *. destruct IH as (A & B & C). repeat split; auto; lia. }
  specialize (G (seq 0 n) (zero32, 0%Z) eq_refl eq_refl ltac:(cbn; lia)). cbv zeta in *. rewrite seq_length in G. set (r := fold_left _ _ _) in *. destruct G as (A & B & C). cbn [snd] in C.
  destruct (Z.ltb_spec 0 (snd r)) as [P|P]; [|exact A]. destruct (of_Z32 (snd r) ltac:(lia)) as [F1 V1]. apply div_num; auto. rewrite V1. apply IZR_lt. exact P.
Qed.

(** ** scores are score-like *)
From Verif Require Import GradSpec IscoreSpec IscoreProofs.
Lemma accurate_like a b c g : 0 <= a + c -> accurate a b c g -> score_like (f_s g).
Proof.
  intros P (e0 & e1 & _ & _ & _ & _ & L & H & _) N. destruct (H N) as (_ & _ & FS & _ & _ & E). split; [exact FS|].
  replace (2 ^ 17) with 131072 in L by ring. replace (2 ^ 30) with 1073741824 in E by ring. apply Rabs_le_inv in E. apply Rabs_le. lra.
Qed.
Lemma accurate_pos a b c g : accurate a b c g -> 0 <= a + c.
Proof. intros (e0 & e1 & _ & _ & O & E & _). lra. Qed.
Lemma ml_score_like fuse fuse' kc0 kc1 n Bs l1 l2 g : (0 < n <= 16)%nat -> (l1 <= l2 < length Bs)%nat -> (l2 <= 15)%nat ->
  (forall bv, In bv Bs -> snd bv = true -> length (fst bv) = ((n + 2) * (n + 2))%nat /\ intensities (fst bv)) ->
  ml_score32 fuse fuse' kc0 kc1 n Bs l1 l2 = Some g -> score_like (f_s g).
Proof.
  intros Hn L12 L15 LB E. destruct (levels_accurate fuse fuse' kc0 kc1 n Bs l1 l2 Hn L12 L15 LB) as (g' & E' & A & B). rewrite E in E'. injection E' as <-.
  assert (D : (forall i, (l1 <= i <= l2)%nat -> lvl_ok (real_levels Bs) i = false) \/ exists i, (l1 <= i <= l2)%nat /\ lvl_ok (real_levels Bs) i = true).
  { clear. assert (K : forall k, (forall i, (l1 <= i < l1 + k)%nat -> lvl_ok (real_levels Bs) i = false) \/ exists i, (l1 <= i < l1 + k)%nat /\ lvl_ok (real_levels Bs) i = true).
    { induction k as [|k [IH|(i & I & V)]]; [left; intros; lia| |right; exists i; split; [lia|exact V]].
      destruct (lvl_ok (real_levels Bs) (l1 + k)) eqn:V; [right; exists (l1 + k)%nat; split; [lia|exact V]|].
      left. intros i Hi. destruct (Nat.eq_dec i (l1 + k)) as [->|Ne]; [exact V|]. apply IH. lia. }
    destruct (K (l2 + 1 - l1)%nat) as [H|(i & I & V)]; [left; intros; apply H; lia|right; exists i; split; [lia|exact V]]. }
  destruct D as [D|(i & I & V)].
  - destruct (A D) as [FS VS]. intros _. split; [exact FS|]. rewrite VS. rewrite Rabs_left by lra. lra.
  - specialize (B i I V). eapply accurate_like; [eapply accurate_pos|]; exact B.
Qed.

(** ** the comparison of the grid variant *)
Lemma better_swo : strict_weak_order finite better.
Proof.
  unfold better. assert (L : forall a b : f32, finite a -> finite b -> (Bltb a b = true <-> B2R a < B2R b)) by (intros; now apply blt).
  assert (N : forall a b : f32, finite a -> finite b -> (Bltb a b = false <-> B2R b <= B2R a)).
  { intros a b Fa Fb. specialize (L a b Fa Fb). destruct (Bltb a b); split; intros H; try reflexivity; try discriminate.
    - assert (B2R a < B2R b) by now apply L. lra.
    - destruct (Rle_dec (B2R b) (B2R a)) as [K|K]; [exact K|]. assert (false = true) by (apply L; lra). discriminate. }
  split; [|split].
  - intros a Fa. apply N; auto. lra.
  - intros a b c Fa Fb Fc H1 H2. apply L in H1; [|assumption..]. apply L in H2; [|assumption..]. apply L; auto. lra.
  - intros a b c Fa Fb Fc [H1 H2] [H3 H4]. apply N in H1; [|assumption..]. apply N in H2; [|assumption..]. apply N in H3; [|assumption..]. apply N in H4; [|assumption..].
    split; apply N; auto; lra.
Qed.
