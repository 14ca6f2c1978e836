(** Independence of parts of the filter. *)
From Coq Require Import Reals ZArith List Bool Arith Lia Lra FunctionalExtensionality.
From Verif Require Import Geo Lie DistModel FiltModel OutModel CamModel InnoModel UpdModel CovModel BornModel SlotModel SlotSpec SlotProofs IsoSpec.
Import ListNotations.
Local Open Scope R_scope.

(** ** sums over segments some of which do not count *)
Section Gen.
Variable L : seg -> bool.
Definition agree (P1 P2 : bmat) : Prop := forall s t, L s = true -> L t = true -> P1 s t = P2 s t.
Definition sees (H : list row) : Prop := forall h, In h H -> forall t, L t = false -> h t = v0.

Lemma g_cong n J1 J2 P1 P2 : (forall s t, L s = true -> J1 s t = J2 s t) -> (forall s t, L s = true -> L t = false -> J1 s t = mzero) ->
  agree P1 P2 -> agree (cong n J1 P1) (cong n J2 P2).
Proof.
  intros HJ HZ HP s t Ls Lt. apply msum_ext. intros a _. apply msum_ext. intros b _. rewrite <- (HJ s a Ls), <- (HJ t b Lt).
  destruct (L a) eqn:La; [|now rewrite (HZ s a Ls La), !mm_0_l]. destruct (L b) eqn:Lb; [now rewrite (HP a b La Lb)|]. now rewrite (HZ t b Lt Lb), mt_0, !mm_0_r.
Qed.
Lemma g_cong_noise n J1 J2 Q : (forall s t, L s = true -> J1 s t = J2 s t) -> agree (cong n J1 Q) (cong n J2 Q).
Proof. intros HJ s t Ls Lt. apply msum_ext. intros a _. apply msum_ext. intros b _. now rewrite (HJ s a Ls), (HJ t b Lt). Qed.
Lemma g_pht n P1 P2 h : (forall t, L t = false -> h t = v0) -> agree P1 P2 -> forall s, L s = true -> PHt n P1 h s = PHt n P2 h s.
Proof. intros B HP s Ls. apply vsum_ext. intros t _. destruct (L t) eqn:Lt; [now rewrite (HP s t Ls Lt)|]. now rewrite (B t Lt), !mv_0_r. Qed.
Lemma g_inn n P1 P2 H Rn : sees H -> agree P1 P2 -> inn_cov n P1 H Rn = inn_cov n P2 H Rn.
Proof.
  intros B HP. unfold inn_cov. apply map_ext_in. intros [h r] Hh. apply map_ext_in. intros [g e] Hg. cbn [fst snd].
  apply in_combine_l in Hh. apply in_combine_l in Hg. f_equal. apply rsum_ext. intros s _.
  destruct (L s) eqn:Ls; [now rewrite (g_pht n P1 P2 g (B g Hg) HP s Ls)|]. now rewrite (B h Hh s Ls), !dot_0_l.
Qed.
Lemma nth_sees H i : sees H -> forall t, L t = false -> nth i H zrow t = v0.
Proof. intros B t Lt. destruct (nth_in_or_default i H zrow) as [I | E]; [now apply B|now rewrite E]. Qed.
Lemma g_gain n P1 P2 H W z : sees H -> agree P1 P2 -> forall s, L s = true -> gain_mul n P1 H W z s = gain_mul n P2 H W z s.
Proof. intros B HP s Ls. apply isum_ext. intros i. now rewrite (g_pht n P1 P2 _ (nth_sees H i B) HP s Ls). Qed.
Lemma g_update n P1 P2 H W : sees H -> agree P1 P2 -> agree (update_cov n P1 H W) (update_cov n P2 H W).
Proof.
  intros B HP s t Ls Lt. unfold update_cov. rewrite (HP s t Ls Lt). f_equal. f_equal. apply imsum_ext. intros i. apply imsum_ext. intros j.
  now rewrite (g_pht n P1 P2 _ (nth_sees H i B) HP s Ls), (g_pht n P1 P2 _ (nth_sees H j B) HP t Lt).
Qed.
Lemma g_hmul n H d1 d2 : sees H -> (forall s, L s = true -> d1 s = d2 s) -> hmul n H d1 = hmul n H d2.
Proof.
  intros B E. apply map_ext_in. intros h Hh. apply rsum_ext. intros s _. destruct (L s) eqn:Ls; [now rewrite (E s Ls)|]. now rewrite (B h Hh s Ls), !dot_0_l.
Qed.
Variables (n : dims) (inv : list (list R) -> list (list R)) (Rn : list (list R)) (P1 P2 : bmat) (f g : state -> option lin) (S : state -> state -> Prop).
Hypothesis HP : agree P1 P2.
Hypothesis HS : forall x y, S x y -> f x = g y.
Hypothesis Hb : forall x y z H, S x y -> f x = Some (z, H) -> sees H.
Hypothesis Hbox : forall x y d e, S x y -> (forall s, L s = true -> d s = e s) -> S (boxplus x d) (boxplus y e).
Lemma g_iterate k : forall x y d e, S x y -> (forall s, L s = true -> d s = e s) ->
  match iterate n inv Rn P1 f x k d, iterate n inv Rn P2 g y k e with
  | Some (d', Q1), Some (e', Q2) => (forall s, L s = true -> d' s = e' s) /\ agree Q1 Q2
  | None, None => True
  | _, _ => False
  end.
Proof.
  induction k as [|k IH]; intros x y d e Sxy E; cbn [iterate]; pose proof (Hbox _ _ _ _ Sxy E) as SB; pose proof (HS _ _ SB) as EF; rewrite <- EF.
  all: destruct (f (boxplus x d)) as [[z H]|] eqn:LL; [|exact I].
  all: pose proof (Hb _ _ _ _ SB LL) as B; rewrite (g_inn n P1 P2 H Rn B HP), (g_hmul n H d e B E).
  - split; [exact (g_gain n P1 P2 H _ _ B HP)|exact (g_update n P1 P2 H _ B HP)].
  - apply IH; [exact Sxy|exact (g_gain n P1 P2 H _ _ B HP)].
Qed.
End Gen.

(** ** states *)
Record st_but (xp xv : bool) (x y : state) : Prop := {
  b_pos : x_pos x = x_pos y; b_vel : x_vel x = x_vel y; b_acb : x_acb x = x_acb y; b_gyb : x_gyb x = x_gyb y; b_att : x_att x = x_att y;
  b_fea : x_fea x = x_fea y; b_aux : x_aux x = x_aux y;
  b_ext : xv = false -> x_vep x = x_vep y /\ x_vea x = x_vea y;
  b_pose : xp = false -> x_pop x = x_pop y /\ x_poa x = x_poa y;
  b_cal : xv = true -> a_calib (x_aux x) = false }.
Lemma but_split xp xv x y : st_but xp xv x y -> exists a b c d e f1 g1 f2 g2 u h1 i1 h2 i2 w1 w2 w3 cal q r t1 t2,
  x = Build_state a b c d e f1 g1 u h1 i1 (Build_aux w1 w2 w3 cal q r t1 t2) /\ y = Build_state a b c d e f2 g2 u h2 i2 (Build_aux w1 w2 w3 cal q r t1 t2) /\
  (xv = false -> f1 = f2 /\ g1 = g2) /\ (xp = false -> h1 = h2 /\ i1 = i2) /\ (xv = true -> cal = false).
Proof.
  intros [H1 H2 H3 H4 H5 H6 H7 H8 H9 H10]. destruct x as [p1 p2 p3 p4 p5 p6 p7 p8 p9 p10 p11], y as [q1 q2 q3 q4 q5 q6 q7 q8 q9 q10 q11].
  cbn [x_pos x_vel x_acb x_gyb x_att x_vep x_vea x_fea x_pop x_poa x_aux] in *. subst. destruct q11 as [w1 w2 w3 cal q r t1 t2]. cbn [a_calib] in H10.
  do 22 eexists. split; [reflexivity|]. split; [reflexivity|]. auto.
Qed.
Ltac bsplit H := destruct (but_split _ _ _ _ H) as (?p & ?v & ?ab & ?gb & ?q & ?ve1 & ?va1 & ?ve2 & ?va2 & ?fe & ?pp1 & ?pa1 & ?pp2 & ?pa2 & ?w1 & ?w2 & ?w3 & ?cal & ?qa & ?ra & ?t1 & ?t2 & -> & -> & ?Hv & ?Hp & ?Hc).
(** the four cases *)
Ltac cases xp xv Hv Hp Hc := destruct xv; [specialize (Hc eq_refl); subst; clear Hv|destruct (Hv eq_refl) as [? ?]; subst; clear Hv Hc]; (destruct xp; [clear Hp|destruct (Hp eq_refl) as [? ?]; subst; clear Hp]).

Lemma but_predict n P m dt xp xv x y : st_but xp xv x y -> st_but xp xv (predict n P m true no_noise dt x) (predict n P m true no_noise dt y).
Proof. intros H. bsplit H. cases xp xv Hv Hp Hc; constructor; try reflexivity; intros Z; try discriminate; try (split; reflexivity). Qed.
Lemma but_jac n P m dt xp xv x y : st_but xp xv x y -> forall s t, jac_state n P m x dt s t = jac_state n P m y dt s t.
Proof. intros H s t. bsplit H. cases xp xv Hv Hp Hc; destruct s; reflexivity. Qed.
Lemma but_noise n P m dt xp xv x y : st_but xp xv x y -> forall s t, FiltModel.jac_noise n P m x dt s t = FiltModel.jac_noise n P m y dt s t.
Proof. intros H s t. bsplit H. cases xp xv Hv Hp Hc; destruct s; reflexivity. Qed.
Lemma but_box xp xv x y d e : st_but xp xv x y -> (forall s, counts xp xv s = true -> d s = e s) -> st_but xp xv (boxplus x d) (boxplus y e).
Proof.
  intros H E. bsplit H. constructor; unfold boxplus; cbn [x_pos x_vel x_acb x_gyb x_att x_vep x_vea x_fea x_pop x_poa x_aux a_calib].
  1-5: now rewrite E.
  - apply functional_extensionality; intros k. now rewrite E.
  - reflexivity.
  - intros Z. destruct (Hv Z) as [-> ->]. split; apply functional_extensionality; intros k; (rewrite E; [reflexivity|cbn; now rewrite Z]).
  - intros Z. destruct (Hp Z) as [-> ->]. split; apply functional_extensionality; intros k; (rewrite E; [reflexivity|cbn; now rewrite Z]).
  - exact Hc.
Qed.
Lemma jac_aside n P m dt xp xv x s t : (xv = true -> a_calib (x_aux x) = false) -> counts xp xv s = true -> counts xp xv t = false -> jac_state n P m x dt s t = mzero.
Proof.
  intros C Cs Ct. destruct t; cbn [counts] in Ct; try discriminate.
  all: destruct s; cbn [counts] in Cs; try reflexivity; try congruence.
  all: cbn [jac_state]; destruct (cam_of n (x_fea x i)); try reflexivity.
  all: rewrite C by (destruct xv; [reflexivity|discriminate]); reflexivity.
Qed.
Lemma transfer_but frame xp xv k i dold x y : st_but xp xv x y -> transfer frame k x i dold = transfer frame k y i dold.
Proof. intros H. bsplit H. cases xp xv Hv Hp Hc; reflexivity. Qed.
Lemma transfer_jac_but frame xp xv g k i x y : st_but xp xv x y -> forall s, transfer_jac frame g k x i s = transfer_jac frame g k y i s.
Proof. intros H s. bsplit H. cases xp xv Hv Hp Hc; reflexivity. Qed.
Lemma transfer_jac_aside frame xp xv g k i x t : (xv = true -> a_calib (x_aux x) = false) -> counts xp xv t = false -> transfer_jac frame g k x i t = mzero.
Proof.
  intros C Ct. destruct t; cbn [counts] in Ct; try discriminate.
  all: unfold transfer_jac; destruct (_ =? _)%Z; try reflexivity.
  all: rewrite C by (destruct xv; [reflexivity|discriminate]); reflexivity.
Qed.
Section Lin.
Variables (cams : nat -> camera) (frame : V3 -> M3) (logm : M3 -> V3) (ign : bool).
Definition usable (xp : bool) (ms : meas) : Prop := match ms with MPose _ _ => xp = false | _ => True end.
Lemma lin_but xp xv u u' ms x y : usable xp ms -> (xp = false -> u = u') -> st_but xp xv x y -> linearise cams frame logm ign u ms x = linearise cams frame logm ign u' ms y.
Proof.
  intros A U H. destruct ms as [i k dold c|i k dold eqs|c m|q v|]; cbn [linearise].
  - unfold innovation_pix, jac_pix, predicted, pixel_jac. rewrite (transfer_but frame xp xv k i dold x y H).
    replace (fun (J : mat2) (s : seg) => neg_times J (transfer_jac frame ign k x i s)) with (fun (J : mat2) (s : seg) => neg_times J (transfer_jac frame ign k y i s)); [reflexivity|].
    apply functional_extensionality; intros J; apply functional_extensionality; intros s. now rewrite (transfer_jac_but frame xp xv ign k i x y H).
  - unfold innovation_direct, jac_direct, predicted, pixel_jac. rewrite (transfer_but frame xp xv k i dold x y H).
    destruct (transfer frame k y i dold) as [g|]; [|reflexivity]. destruct (bearing_to_pixel (cams k) (nor (ft_Q g))) as [c|]; [|reflexivity].
    destruct (option_map snd (bearing_to_pixel_M (cams k) (nor (ft_Q g)) (M1 (ft_Q g)) (M2c (ft_Q g)))) as [J|]; [|destruct (eqs k c) as [[? ?]|]; reflexivity].
    destruct (eqs k c) as [[Aq b]|]; [|reflexivity]. do 3 f_equal.
    apply functional_extensionality; intros s; now rewrite (transfer_jac_but frame xp xv ign k i x y H).
  - cbn [usable] in A. subst xp. rewrite (U eq_refl). bsplit H. destruct (Hp eq_refl) as [-> ->]. reflexivity.
  - bsplit H. reflexivity.
  - bsplit H. reflexivity.
Qed.
Lemma mrows_sees L J : (forall t, L t = false -> J t = mzero) -> sees L (mrows J).
Proof. intros Z h [<-|[<-|[<-|[]]]] t U; now rewrite (Z t U). Qed.
Lemma rows2_sees L (J : seg -> block2) : (forall t, L t = false -> J t = (v0, v0)) -> sees L (rows2 J).
Proof. intros Z h [<-|[<-|[]]] t U; now rewrite (Z t U). Qed.
Lemma sees_app L a b : sees L a -> sees L b -> sees L (a ++ b).
Proof. intros A B h I. apply in_app_or in I. destruct I; [now apply A|now apply B]. Qed.
(** the Jacobian vanishes where the measurement says nothing *)
Lemma lin_sees u ms x y H : linearise cams frame logm ign u ms x = Some (y, H) -> sees (informs x ms) H.
Proof.
  assert (T : forall k i t, match t with Fea j => (j =? i)%nat | Vep c | Vea c => a_calib (x_aux x) && negb (ft_cam (x_fea x i) =? Z.of_nat k)%Z && ((c =? k)%nat || (c =? fcam x i)%nat) | _ => false end = false ->
    transfer_jac frame ign k x i t = mzero).
  { intros k i t N. unfold transfer_jac. destruct (ft_cam (x_fea x i) =? Z.of_nat k)%Z; destruct t; try reflexivity; try now rewrite N.
    all: cbn [negb] in N; rewrite andb_true_r in N; destruct (a_calib (x_aux x)); [|reflexivity]; cbn [andb] in N; apply orb_false_elim in N; destruct N as [N1 N2]; now rewrite N1, N2. }
  intros E. destruct ms as [i k dold c|i k dold eqs|c m|q v|]; cbn [linearise] in E.
  - destruct (innovation_pix _ _ _ _ _ _ _ _); [|discriminate]. unfold jac_pix in E. destruct (pixel_jac _ _ _ _ _ _) as [J|]; cbn [option_map] in E; [|discriminate].
    apply (f_equal (fun o => match o with Some (_, h) => h | None => [] end)) in E. rewrite <- E. apply rows2_sees. intros t U. rewrite T by exact U. apply neg_times_0.
  - destruct (innovation_direct _ _ _ _ _ _ _ _) as [w [|]]; [discriminate|]. unfold jac_direct in E.
    destruct (predicted _ _ _ _ _ _) as [p|]; [|discriminate]. destruct (pixel_jac _ _ _ _ _ _) as [J|]; [|discriminate]. destruct (eqs k p) as [[Aq b]|]; [|discriminate].
    apply (f_equal (fun o => match o with Some (_, h) => h | None => [] end)) in E. rewrite <- E. apply rows2_sees. intros t U. rewrite T by exact U. apply neg_times_0.
  - apply (f_equal (fun o => match o with Some (_, h) => h | None => [] end)) in E. rewrite <- E. clear E T. apply sees_app; apply mrows_sees; intros t U; cbn [informs] in U.
    + unfold jac_pos. destruct (enPos c); [|reflexivity]. destruct t; try reflexivity; cbn [andb orb] in U.
      * destruct (noFb c); [reflexivity|discriminate].
      * destruct (noFb c); [reflexivity|discriminate].
      * change is_some with is_idx in U. apply orb_false_elim in U. destruct U as [U1 U2]. now rewrite U1, U2.
      * change is_some with is_idx in U. apply orb_false_elim in U. destruct U as [U1 U2]. now rewrite U2.
    + unfold jac_att. destruct (enAtt c); [|reflexivity]. rewrite orb_true_r in U. destruct t; try reflexivity; cbn [andb orb] in U.
      * destruct (noFb c); [reflexivity|discriminate].
      * change is_some with is_idx in U. apply orb_false_elim in U. destruct U as [U1 U2]. now rewrite U1, U2.
  - apply (f_equal (fun o => match o with Some (_, h) => h | None => [] end)) in E. rewrite <- E. apply mrows_sees. intros t U. destruct t; try reflexivity. discriminate.
  - apply (f_equal (fun o => match o with Some (_, h) => h | None => [] end)) in E. rewrite <- E. apply mrows_sees. intros t U. destruct t; try reflexivity. discriminate.
Qed.
Lemma sees_weaken (L M : seg -> bool) H : (forall t, M t = false -> L t = false) -> sees L H -> sees M H.
Proof. intros I A h Hh t Mt. apply A; [exact Hh|now apply I]. Qed.
Lemma informs_but xp xv ms x t : usable xp ms -> (xv = true -> a_calib (x_aux x) = false) -> counts xp xv t = false -> informs x ms t = false.
Proof.
  intros A C Ct. destruct t; cbn [counts] in Ct; try discriminate.
  all: destruct ms; cbn [informs]; try reflexivity; cbn [usable] in A.
  all: try (subst xp; discriminate).
  all: rewrite C by (destruct xv; [reflexivity|discriminate]); reflexivity.
Qed.
End Lin.

(** ** steps *)
Lemma but_st xp xv F G : same_but xp xv F G -> (xv = true -> a_calib (x_aux (k_x F)) = false) -> st_but xp xv (k_x F) (k_x G).
Proof. intros [H1 H2 H3 H4 H5 H6 H7 H8 H9 H10 H11] C. constructor; auto. intros Z. destruct (H10 Z) as (? & ? & _). now split. Qed.
Lemma but_build xp xv x y P1 P2 us u u' : st_but xp xv x y -> (xp = false -> u = u') -> agree (counts xp xv) P1 P2 ->
  same_but xp xv {| k_x := x; k_P := P1; k_used := us; k_u := u |} {| k_x := y; k_P := P2; k_used := us; k_u := u' |}.
Proof. intros [H1 H2 H3 H4 H5 H6 H7 H8 H9 H10] U A. constructor; cbn [k_x k_P k_used k_u]; auto. intros Z. destruct (H9 Z). auto. Qed.
Lemma reset_agree xp xv i B P1 P2 : agree (counts xp xv) P1 P2 -> agree (counts xp xv) (reset_slot i B P1) (reset_slot i B P2).
Proof.
  intros A s t Cs Ct. destruct (seg_fea s i) as [->|Ns], (seg_fea t i) as [->|Nt].
  - now rewrite !reset_diag.
  - now rewrite !reset_row.
  - now rewrite !reset_col.
  - rewrite !reset_off by assumption. now apply A.
Qed.
Lemma set_fea_but xp xv x y i f : st_but xp xv x y -> st_but xp xv (set_fea x i f) (set_fea y i f).
Proof. intros H. bsplit H. constructor; try reflexivity; assumption. Qed.
Lemma pre_but xv c u m x y : st_but false xv x y ->
  fst (pre_process c u m x) = fst (pre_process c u m y) /\ st_but false xv (snd (pre_process c u m x)) (snd (pre_process c u m y)).
Proof.
  intros H. pose proof H as S. bsplit H. destruct (Hp eq_refl) as [-> ->]. unfold pre_process. destruct (negb (u_did u) && doAlign c); [|split; [reflexivity|exact S]].
  split; [reflexivity|]. cbn [snd]. destruct (inertial c) as [i|]; [|exact S]. constructor; try reflexivity; try assumption. intros _. now split.
Qed.
Lemma seen_but n frame front dold k xp xv x y P1 P2 i : st_but xp xv x y -> agree (counts xp xv) P1 P2 ->
  seen_in n frame front dold k x P1 i = seen_in n frame front dold k y P2 i.
Proof.
  intros S HP. unfold seen_in. rewrite (transfer_but frame xp xv k i dold x y S). destruct (transfer frame k y i dold) as [g|]; [|reflexivity].
  f_equal. do 3 f_equal. apply rsum_ext. intros s _. apply rsum_ext. intros t _.
  destruct (counts xp xv s) eqn:Cs.
  - destruct (counts xp xv t) eqn:Ct; [now rewrite (HP s t Cs Ct), !(transfer_jac_but frame xp xv false k i x y S)|].
    rewrite <- !(transfer_jac_but frame xp xv false k i x y S), (transfer_jac_aside frame xp xv false k i x t (b_cal _ _ _ _ S) Ct). change (r2 mzero) with v0. now rewrite !mv_0_r, !dot_0_r.
  - rewrite <- !(transfer_jac_but frame xp xv false k i x y S), (transfer_jac_aside frame xp xv false k i x s (b_cal _ _ _ _ S) Cs). change (r2 mzero) with v0. now rewrite !dot_0_l.
Qed.
Lemma init_but xp xv x y cf cam ty p v se z : st_but xp xv x y -> init_feature cf x 3 0 cam ty p v se z = init_feature cf y 3 0 cam ty p v se z.
Proof. intros H. bsplit H. cases xp xv Hv Hp Hc; reflexivity. Qed.

Section Steps.
Variables (n : dims) (P : params) (cams : nat -> camera) (frame : V3 -> M3) (logm : M3 -> V3) (inv : list (list R) -> list (list R))
  (front : feat -> bool) (nth_elt : list R -> nat -> list R) (ign track : bool) (ic : icfg).
Notation step := (kstep n P cams frame logm inv front nth_elt ign track ic).
Variables (xp xv : bool).
Definition fine (o : kop) : Prop := match o with KMeas ms _ _ => usable xp ms | _ => True end.
(** the calibration switch is never touched *)
Lemma calib_predict m dt x : a_calib (x_aux (predict n P m true no_noise dt x)) = a_calib (x_aux x).
Proof. reflexivity. Qed.
Lemma calib_pre c u m x : x_aux (snd (pre_process c u m x)) = x_aux x.
Proof. unfold pre_process. destruct (_ && _); [|reflexivity]. cbn [snd]. destruct (inertial c); reflexivity. Qed.
Lemma calib_before F ms : x_aux (snd (before F ms)) = x_aux (k_x F).
Proof. destruct ms; cbn [before snd]; try reflexivity. apply calib_pre. Qed.
Lemma calib_use p F w G : use_slot track ic p F w = Some G -> x_aux (k_x G) = x_aux (k_x F).
Proof.
  unfold use_slot. destruct (k_used F (w_slot w)); [intros E; now injection E as <-|]. destruct (init_feature _ _ _ _ _ _ _ _ _ _) as [[d|] c]; [|discriminate].
  intros E. apply (f_equal (fun o => match o with Some K => x_aux (k_x K) | None => x_aux (k_x F) end)) in E. now rewrite <- E.
Qed.
Lemma uses_none p l : fold_left (fun o w => match o with Some K => use_slot track ic p K w | None => None end) l None = None.
Proof. induction l; [reflexivity|]. cbn [fold_left]. exact IHl. Qed.
Lemma calib_uses p l : forall F G, fold_left (fun o w => match o with Some K => use_slot track ic p K w | None => None end) l (Some F) = Some G -> x_aux (k_x G) = x_aux (k_x F).
Proof.
  induction l as [|w l IH]; intros F G; cbn [fold_left]; [intros E; now injection E as <-|].
  destruct (use_slot track ic p F w) as [K|] eqn:U; [|rewrite uses_none; discriminate]. intros E. rewrite (IH K G E). now apply (calib_use p F w).
Qed.
Lemma aux_meas F ms Rn k G : step F (KMeas ms Rn k) = Some G -> x_aux (k_x G) = x_aux (k_x F).
Proof.
  cbn [kstep]. destruct (concerns F ms); [|intros E; now injection E as <-]. pose proof (calib_before F ms) as C. destruct (before F ms) as [u x]. cbn [snd] in C.
  destruct (iterate _ _ _ _ _ _ _ _) as [[d P']|]; intros E; injection E as <-; exact C.
Qed.
Lemma aux_step F o G : match o with KPredict _ _ _ | KMotion => False | _ => True end -> step F o = Some G -> x_aux (k_x G) = x_aux (k_x F).
Proof.
  intros N. destruct o as [m dt Q|ms Rn k|i|l|i|]; [contradiction|apply aux_meas| |apply calib_uses| |contradiction].
  all: cbn [kstep]; destruct (k_used F i); intros E; injection E as <-; reflexivity.
Qed.
Lemma calib_step F o G : step F o = Some G -> a_calib (x_aux (k_x G)) = a_calib (x_aux (k_x F)).
Proof.
  destruct o as [m dt Q|ms Rn k|i|l|i|]; try (cbn [kstep]; intros E; injection E as <-; reflexivity); intros E; f_equal; revert E; apply aux_step; exact I.
Qed.

Lemma but_meas F G ms Rn k : (xv = true -> a_calib (x_aux (k_x F)) = false) -> usable xp ms -> same_but xp xv F G ->
  same_result_but xp xv (step F (KMeas ms Rn k)) (step G (KMeas ms Rn k)).
Proof.
  intros C A E. pose proof E as [Hu _ _ _ _ _ _ _ _ Hpose Hc]. pose proof (but_st _ _ _ _ E C) as S. cbn [kstep].
  assert (CC : concerns F ms = concerns G ms) by (destruct ms; cbn [concerns]; now rewrite ?Hu). rewrite <- CC. destruct (concerns F ms); [|exact E].
  assert (B : (xp = false -> fst (before F ms) = fst (before G ms)) /\ st_but xp xv (snd (before F ms)) (snd (before G ms))).
  { destruct ms; cbn [before fst snd]; try (split; [intros Z; now destruct (Hpose Z) as (_ & _ & ?)|exact S]).
    cbn [usable] in A. subst xp. destruct (Hpose eq_refl) as (_ & _ & <-). destruct (pre_but xv c (k_u F) m (k_x F) (k_x G) S). auto. }
  destruct B as [B1 B2]. destruct (before F ms) as [u x], (before G ms) as [u' y]. cbn [fst snd] in B1, B2.
  pose proof (g_iterate (counts xp xv) n inv Rn (k_P F) (k_P G) (linearise cams frame logm ign u ms) (linearise cams frame logm ign u' ms) (st_but xp xv) Hc
    (fun a b => lin_but cams frame logm ign xp xv u u' ms a b A B1)
    (fun a b z H Sab Lz => sees_weaken (informs a ms) (counts xp xv) H (fun t => informs_but xp xv ms a t A (b_cal _ _ _ _ Sab)) (lin_sees cams frame logm ign u ms a z H Lz))
    (but_box xp xv) k x y (fun _ => v0) (fun _ => v0) B2 (fun _ _ => eq_refl)) as I.
  rewrite Hu. destruct (iterate n inv Rn (k_P F) _ x k _) as [[d Q1]|], (iterate n inv Rn (k_P G) _ y k _) as [[e Q2]|]; try contradiction.
  - destruct I as [I1 I2]. apply but_build; auto. now apply but_box.
  - now apply but_build.
Qed.
Lemma but_use p F G w : (xv = true -> a_calib (x_aux (k_x F)) = false) -> same_but xp xv F G -> same_result_but xp xv (use_slot track ic p F w) (use_slot track ic p G w).
Proof.
  intros C E. pose proof E as [Hu _ _ _ _ _ _ _ _ Hpose Hc]. pose proof (but_st _ _ _ _ E C) as S. unfold use_slot. rewrite <- Hu. destruct (k_used F (w_slot w)); [exact E|].
  rewrite (init_but xp xv (k_x F) (k_x G) _ _ _ _ _ _ _ S). destruct (init_feature _ _ _ _ _ _ _ _ _ _) as [[d|] c]; [|exact I].
  apply but_build; [now apply set_fea_but|intros Z; now destruct (Hpose Z) as (_ & _ & ?)|now apply reset_agree].
Qed.
Lemma but_uses p l : forall F G, (xv = true -> a_calib (x_aux (k_x F)) = false) -> same_but xp xv F G ->
  same_result_but xp xv (fold_left (fun o w => match o with Some K => use_slot track ic p K w | None => None end) l (Some F))
              (fold_left (fun o w => match o with Some K => use_slot track ic p K w | None => None end) l (Some G)).
Proof.
  induction l as [|w l IH]; intros F G C E; [exact E|]. cbn [fold_left]. pose proof (but_use p F G w C E) as U.
  destruct (use_slot track ic p F w) as [K|] eqn:UF, (use_slot track ic p G w) as [K'|]; try contradiction.
  - apply IH; [|exact U]. intros Z. rewrite (calib_use p F w K UF). now apply C.
  - rewrite !uses_none. exact I.
Qed.
Lemma but_step F G o : (xv = true -> a_calib (x_aux (k_x F)) = false) -> fine o -> same_but xp xv F G -> same_result_but xp xv (step F o) (step G o).
Proof.
  intros C A E. pose proof E as [Hu _ _ _ _ _ _ _ _ Hpose Hc]. pose proof (but_st _ _ _ _ E C) as S. destruct o as [m dt Q|ms Rn k|i|l|i|].
  - cbn [kstep]. rewrite Hu. apply but_build; [now apply but_predict|intros Z; now destruct (Hpose Z) as (_ & _ & ?)|].
    intros s t Cs Ct. unfold predict_cov. f_equal.
    + apply (g_cong (counts xp xv)); auto; [intros; now apply (but_jac n P m dt xp xv)|]. intros a b Ca Cb. now apply (jac_aside n P m dt xp xv).
    + apply (g_cong_noise (counts xp xv)); auto. intros. now apply (but_noise n P m dt xp xv).
  - now apply but_meas.
  - cbn [kstep]. rewrite <- Hu. destruct (k_used F i); [|exact E]. apply but_build; [exact S|intros Z; now destruct (Hpose Z) as (_ & _ & ?)|now apply reset_agree].
  - cbn [kstep].
    assert (D : depths n frame front nth_elt ic F = depths n frame front nth_elt ic G).
    { apply functional_extensionality. intros k. unfold depths. destruct (Rlt_dec 0 (c_ratio ic)); [|reflexivity]. unfold median_of, median. rewrite <- Hu. do 2 f_equal.
      all: assert (M : map (fun i => (k_used F i, seen_in n frame front (c_dold ic) k (k_x F) (k_P F) i)) (seq 0 (d_max n)) = map (fun i => (k_used F i, seen_in n frame front (c_dold ic) k (k_x G) (k_P G) i)) (seq 0 (d_max n))) by (apply map_ext; intros i; now rewrite (seen_but n frame front (c_dold ic) k xp xv (k_x F) (k_x G) (k_P F) (k_P G) i S Hc)).
      all: now rewrite M. }
    rewrite D. now apply but_uses.
  - cbn [kstep]. rewrite <- Hu. destruct (k_used F i); [|exact E]. apply but_build; [|intros Z; now destruct (Hpose Z) as (_ & _ & ?)|exact Hc].
    rewrite (b_fea _ _ _ _ S). now apply set_fea_but.
  - cbn [kstep]. rewrite <- Hu. apply but_build; [|intros Z; now destruct (Hpose Z) as (_ & _ & ?)|exact Hc].
    bsplit S. constructor; try reflexivity; assumption.
Qed.
Lemma run_none l : fold_left (fun o s => match o with Some K => step K s | None => None end) l None = None.
Proof. induction l; [reflexivity|]. cbn [fold_left]. exact IHl. Qed.
Lemma but_run l : Forall fine l -> forall F G, (xv = true -> a_calib (x_aux (k_x F)) = false) -> same_but xp xv F G ->
  same_result_but xp xv (krun n P cams frame logm inv front nth_elt ign track ic F l) (krun n P cams frame logm inv front nth_elt ign track ic G l).
Proof.
  induction 1 as [|o l Ho _ IH]; intros F G C E; [exact E|]. unfold krun in *. cbn [fold_left]. pose proof (but_step F G o C Ho E) as U.
  destruct (step F o) as [K|] eqn:UF, (step G o) as [K'|]; try contradiction.
  - apply IH; [|exact U]. intros Z. rewrite (calib_step F o K UF). now apply C.
  - rewrite !run_none. exact I.
Qed.
End Steps.

(** ** separation of the external poses *)
Notation core := (counts true false).
Lemma core_pose t : core t = false -> (exists k, t = Pop k) \/ exists k, t = Poa k.
Proof. destruct t; cbn [counts negb]; try discriminate; eauto. Qed.
Lemma vsum_zero l f : (forall s, f s = v0) -> vsum l f = v0.
Proof.
  intros Z. induction l as [|s l IH]; [reflexivity|]. change (vadd (f s) (vsum l f) = v0). rewrite IH, Z. unfold v0, vadd, vx, vy, vz. cbn [fst snd]. repeat apply f_equal2; ring.
Qed.
Lemma msum_zero' l f : (forall s, f s = mzero) -> msum l f = mzero.
Proof. intros Z. induction l as [|s l IH]; [reflexivity|]. change (madd (f s) (msum l f) = mzero). rewrite IH, Z. apply madd_0. Qed.
Lemma cong_sep n J P : (forall s t, core s = true -> core t = false -> J s t = mzero /\ J t s = mzero) -> separated P -> separated (cong n J P).
Proof.
  intros HJ HP s t Cs Ct. split; unfold cong; apply msum_zero'; intros a; apply msum_zero'; intros b.
  - destruct (core a) eqn:Ca; [|now rewrite (proj1 (HJ s a Cs Ca)), !mm_0_l]. destruct (core b) eqn:Cb; [now rewrite (proj2 (HJ b t Cb Ct)), mt_0, mm_0_r|].
    now rewrite (proj1 (HP a b Ca Cb)), mm_0_r, mm_0_l.
  - destruct (core b) eqn:Cb; [|now rewrite (proj1 (HJ s b Cs Cb)), mt_0, mm_0_r]. destruct (core a) eqn:Ca; [now rewrite (proj2 (HJ a t Ca Ct)), !mm_0_l|].
    now rewrite (proj2 (HP b a Cb Ca)), mm_0_r, mm_0_l.
Qed.
Lemma jac_sep n P m x dt s t : core s = true -> core t = false -> jac_state n P m x dt s t = mzero /\ jac_state n P m x dt t s = mzero.
Proof.
  intros Cs Ct. split; [apply (jac_aside n P m dt true false x s t); [discriminate|assumption..]|].
  destruct (core_pose t Ct) as [[k ->]|[k ->]]; destruct s; cbn [counts] in Cs; try discriminate; reflexivity.
Qed.
Lemma noise_sep n P m x dt s t : core s = true -> core t = false -> FiltModel.jac_noise n P m x dt s t = mzero /\ FiltModel.jac_noise n P m x dt t s = mzero.
Proof.
  intros Cs Ct. destruct (core_pose t Ct) as [[k ->]|[k ->]]; destruct s; cbn [counts] in Cs; try discriminate; split; try reflexivity; cbn [FiltModel.jac_noise]; destruct (cam_of n (x_fea x i)); reflexivity.
Qed.
Lemma mv_0_l a : mv mzero a = v0. Proof. unfold mzero, v0. veq. Qed.
(** a direction the measurement is not correlated with *)
Lemma pht_zero n P h s : (forall t, P s t = mzero \/ h t = v0) -> PHt n P h s = v0.
Proof. intros Z. apply vsum_zero. intros t. destruct (Z t) as [-> | ->]; [apply mv_0_l|apply mv_0_r]. Qed.
Lemma imsum_zero k f : (forall i, f i = mzero) -> imsum k f = mzero.
Proof. intros Z. unfold imsum. induction (seq 0 k); [reflexivity|]. cbn [fold_right]. rewrite Z, IHl. apply madd_0. Qed.
Lemma isum_zero k f : (forall i, f i = v0) -> isum k f = v0.
Proof. intros Z. unfold isum. induction (seq 0 k); [reflexivity|]. cbn [fold_right]. rewrite Z, IHl. unfold v0, vadd, vx, vy, vz. cbn [fst snd]. repeat apply f_equal2; ring. Qed.
Lemma outer_0_l a : outer v0 a = mzero. Proof. unfold mzero, v0. veq. Qed.
Lemma outer_0_r a : outer a v0 = mzero. Proof. unfold mzero, v0. veq. Qed.
Lemma mscale_0 a : mscale a mzero = mzero. Proof. unfold mzero, v0. veq. Qed.
Lemma madd_neg0 a : madd a (mneg mzero) = a. Proof. unfold mzero, v0. veq. Qed.
Lemma vscale_0 a : vscale a v0 = v0. Proof. unfold v0. veq. Qed.
Lemma update_row n P H W s t : (forall i, PHt n P (nth i H zrow) s = v0) -> update_cov n P H W s t = P s t.
Proof. intros Z. unfold update_cov. rewrite imsum_zero; [apply madd_neg0|]. intros i. apply imsum_zero. intros j. now rewrite Z, outer_0_l, mscale_0. Qed.
Lemma update_col n P H W s t : (forall i, PHt n P (nth i H zrow) t = v0) -> update_cov n P H W s t = P s t.
Proof. intros Z. unfold update_cov. rewrite imsum_zero; [apply madd_neg0|]. intros i. apply imsum_zero. intros j. now rewrite Z, outer_0_r, mscale_0. Qed.
Lemma gain_zero n P H W z s : (forall i, PHt n P (nth i H zrow) s = v0) -> gain_mul n P H W z s = v0.
Proof. intros Z. unfold gain_mul. apply isum_zero. intros i. now rewrite Z, vscale_0. Qed.

(** what an iteration leaves alone *)
Lemma iterate_still n inv Rn P f x k (s : seg) : (forall d y H i, f (boxplus x d) = Some (y, H) -> PHt n P (nth i H zrow) s = v0) ->
  forall d, match iterate n inv Rn P f x k d with
            | Some (d', P') => d' s = v0 /\ forall t, P' s t = P s t /\ P' t s = P t s
            | None => True end.
Proof.
  intros Z. induction k as [|k IH]; intros d; cbn [iterate]; destruct (f (boxplus x d)) as [[y H]|] eqn:L; try exact I; pose proof (fun i => Z d y H i L) as Zi.
  - split; [now apply gain_zero|]. intros t. split; [now apply update_row|now apply update_col].
  - apply IH.
Qed.
Lemma nth_row_sees L H i : sees L H -> forall t, L t = false -> nth i H zrow t = v0.
Proof. exact (nth_sees L H i). Qed.
Lemma vadd_0 a : vadd a v0 = a. Proof. unfold v0. veq. Qed.
Lemma box_fea_0 f : box_fea f v0 = f.
Proof.
  destruct f as [c Q d tr w]. unfold box_fea. cbn [ft_cam ft_Q ft_d ft_track ft_warp]. destruct d as [ty p]. cbn [fd_type fd_p].
  assert (N : Nmul Q (vx v0) (vy v0) = v0) by (unfold Nmul; change (vx v0) with 0; change (vy v0) with 0; clear; generalize (M1 Q) (M2c Q); intros a b; unfold v0; veq).
  rewrite N, expm_0, mm_1_l. f_equal. f_equal. change (vz v0) with 0. ring.
Qed.
Lemma box_part x d s : d s = v0 -> same_part s (boxplus x d) x.
Proof. intros Z. destruct s; cbn [same_part boxplus x_pos x_vel x_acb x_gyb x_att x_vep x_vea x_fea x_pop x_poa]; rewrite Z; first [apply vadd_0|rewrite expm_0; apply mm_1_l|apply box_fea_0]. Qed.
Lemma informs_box x d ms s : informs (boxplus x d) ms s = informs x ms s.
Proof. destruct ms; reflexivity. Qed.

Section Poses.
Variables (n : dims) (P : params) (cams : nat -> camera) (frame : V3 -> M3) (logm : M3 -> V3) (inv : list (list R) -> list (list R))
  (front : feat -> bool) (nth_elt : list R -> nat -> list R) (ign track : bool) (ic : icfg).
Notation step := (kstep n P cams frame logm inv front nth_elt ign track ic).
(** a measurement leaves alone what is not correlated with what it is about *)
Lemma meas_still F ms Rn k G s : (forall t, informs (snd (before F ms)) ms t = true -> k_P F s t = mzero) -> step F (KMeas ms Rn k) = Some G -> concerns F ms = true ->
  same_part s (k_x G) (snd (before F ms)) /\ forall t, k_P G s t = k_P F s t /\ k_P G t s = k_P F t s.
Proof.
  intros Z. cbn [kstep]. intros E CC. rewrite CC in E. destruct (before F ms) as [u x]. cbn [snd] in *.
  pose proof (iterate_still n inv Rn (k_P F) (linearise cams frame logm ign u ms) x k s) as IS.
  assert (A : forall d y H i, linearise cams frame logm ign u ms (boxplus x d) = Some (y, H) -> PHt n (k_P F) (nth i H zrow) s = v0).
  { intros d y H i L. apply pht_zero. intros t. destruct (informs x ms t) eqn:N; [left; now apply Z|right].
    apply (nth_sees (informs (boxplus x d) ms)); [now apply (lin_sees cams frame logm ign u ms _ y)|]. now rewrite informs_box. }
  specialize (IS A (fun _ => v0)). destruct (iterate _ _ _ _ _ _ _ _) as [[d P']|]; injection E as <-; cbn [k_x k_P].
  - destruct IS as [D IS]. split; [now apply box_part|exact IS].
  - split; [destruct s; reflexivity|auto].
Qed.
Lemma pre_core c u m x : st_but true false (snd (pre_process c u m x)) x.
Proof.
  unfold pre_process. destruct (_ && _); [|constructor; auto; discriminate]. cbn [snd]. destruct (inertial c); [|constructor; auto; discriminate].
  constructor; cbn [set_pop x_pos x_vel x_acb x_gyb x_att x_vep x_vea x_fea x_pop x_poa x_aux]; auto; discriminate.
Qed.
Lemma separated_sym_core F ms c m : ms = MPose c m -> noFb c = true -> separated (k_P F) -> forall s, core s = true ->
  forall t, informs (snd (before F ms)) ms t = true -> k_P F s t = mzero.
Proof.
  intros -> N S s Cs t I. cbn [informs] in I. refine (proj1 (S s t Cs _)). destruct t; try discriminate; try reflexivity; rewrite N in I; cbn [negb] in I; rewrite ?andb_false_r in I; discriminate.
Qed.
(** without feedback, a pose touches the poses only *)
Lemma pose_step F G c m Rn k : noFb c = true -> separated (k_P F) -> same_but true false F G ->
  exists F', step F (KMeas (MPose c m) Rn k) = Some F' /\ same_but true false F' G /\ separated (k_P F').
Proof.
  intros N S E. destruct (step F (KMeas (MPose c m) Rn k)) as [F'|] eqn:ST.
  2: { exfalso. cbn [kstep concerns] in ST. destruct (before F (MPose c m)) as [u x]. destruct (iterate _ _ _ _ _ _ _ _) as [[d P']|]; discriminate. }
  exists F'. split; [reflexivity|].
  assert (ML : forall s, core s = true -> same_part s (k_x F') (snd (before F (MPose c m))) /\ forall t, k_P F' s t = k_P F s t /\ k_P F' t s = k_P F t s).
  { intros s Cs. apply (meas_still F (MPose c m) Rn k F' s); [|exact ST|reflexivity]. now apply (separated_sym_core F (MPose c m) c m). }
  pose proof (pre_core c (k_u F) m (k_x F)) as [Q1 Q2 Q3 Q4 Q5 Q6 Q7 Q8 _ _]. destruct (Q8 eq_refl) as [Q9 Q10].
  assert (AX : x_aux (k_x F') = x_aux (k_x F)) by (apply (aux_meas n P cams frame logm inv front nth_elt ign track ic F (MPose c m) Rn k F' ST)).
  assert (US : k_used F' = k_used F).
  { cbn [kstep concerns] in ST. destruct (before F (MPose c m)) as [u x]. destruct (iterate _ _ _ _ _ _ _ _) as [[d P']|]; injection ST as <-; reflexivity. }
  cbn [before snd] in ML. destruct E as [Hu H1 H2 H3 H4 H5 H6 H7 H8 H9 H10]. destruct (H8 eq_refl) as [H11 H12]. split.
  - constructor; try discriminate.
    + now rewrite US.
    + rewrite <- H1, <- Q1. exact (proj1 (ML Pos eq_refl)).
    + rewrite <- H2, <- Q2. exact (proj1 (ML Vel eq_refl)).
    + rewrite <- H3, <- Q3. exact (proj1 (ML Acb eq_refl)).
    + rewrite <- H4, <- Q4. exact (proj1 (ML Gyb eq_refl)).
    + rewrite <- H5, <- Q5. exact (proj1 (ML Att eq_refl)).
    + rewrite <- H6, <- Q6. apply functional_extensionality. intros i. exact (proj1 (ML (Fea i) eq_refl)).
    + now rewrite AX.
    + intros _. rewrite <- H11, <- H12, <- Q9, <- Q10. split; apply functional_extensionality; intros j; [exact (proj1 (ML (Vep j) eq_refl))|exact (proj1 (ML (Vea j) eq_refl))].
    + intros s t Cs Ct. rewrite (proj1 (proj2 (ML s Cs) t)). now apply H10.
  - intros s t Cs Ct. rewrite (proj1 (proj2 (ML s Cs) t)), (proj2 (proj2 (ML s Cs) t)). now apply S.
Qed.
Lemma reset_sep i B Q : separated Q -> separated (reset_slot i B Q).
Proof.
  intros S s t Cs Ct. assert (Nt : t <> Fea i) by (intros ->; discriminate). destruct (seg_fea s i) as [->|Ns]; [now rewrite reset_row, reset_col|]. rewrite !reset_off by assumption. now apply S.
Qed.
Lemma sep_use p F w G : use_slot track ic p F w = Some G -> separated (k_P F) -> separated (k_P G).
Proof.
  unfold use_slot. destruct (k_used F (w_slot w)); [intros E; now injection E as <-|]. destruct (init_feature _ _ _ _ _ _ _ _ _ _) as [[d|] c]; [|discriminate].
  intros E S. apply (f_equal (fun o => match o with Some K => k_P K | None => k_P F end)) in E. rewrite <- E. cbn [k_P]. now apply reset_sep.
Qed.
Lemma sep_uses p l : forall F G, fold_left (fun o w => match o with Some K => use_slot track ic p K w | None => None end) l (Some F) = Some G -> separated (k_P F) -> separated (k_P G).
Proof.
  induction l as [|w l IH]; intros F G; cbn [fold_left]; [intros E; now injection E as <-|].
  destruct (use_slot track ic p F w) as [K|] eqn:U; [|rewrite uses_none; discriminate]. intros E S. apply (IH K G E). now apply (sep_use p F w).
Qed.
Lemma sep_step F o G : not_pose o = true -> without_feedback o -> step F o = Some G -> separated (k_P F) -> separated (k_P G).
Proof.
  intros NP WF E S. destruct o as [m dt Q|ms Rn k|i|l|i|].
  - cbn [kstep] in E. injection E as <-. cbn [k_P]. cbn [without_feedback] in WF. intros s t Cs Ct. unfold predict_cov.
    destruct (cong_sep n (jac_state n P m (k_x F) dt) (k_P F) (jac_sep n P m (k_x F) dt) S s t Cs Ct) as [-> ->].
    destruct (cong_sep n (FiltModel.jac_noise n P m (k_x F) dt) Q (noise_sep n P m (k_x F) dt) WF s t Cs Ct) as [-> ->]. split; apply madd_0.
  - destruct (concerns F ms) eqn:CC; [|cbn [kstep] in E; rewrite CC in E; injection E as <-; exact S].
    intros s t Cs Ct. assert (I : forall r, informs (snd (before F ms)) ms r = true -> core r = true).
    { intros r Ir. destruct r; try reflexivity; destruct ms; cbn [informs not_pose] in *; discriminate. }
    destruct (meas_still F ms Rn k G t (fun r Ir => proj2 (S r t (I r Ir) Ct)) E CC) as [_ M]. destruct (M s) as [-> ->]. now apply S.
  - cbn [kstep] in E. destruct (k_used F i); injection E as <-; [cbn [k_P]; now apply reset_sep|exact S].
  - cbn [kstep] in E. now apply (sep_uses _ l F G E).
  - cbn [kstep] in E. destruct (k_used F i); injection E as <-; exact S.
  - cbn [kstep] in E. injection E as <-. exact S.
Qed.
Lemma no_feedback_run l : Forall without_feedback l -> forall F G, separated (k_P F) -> same_but true false F G ->
  same_result_but true false (krun n P cams frame logm inv front nth_elt ign track ic F l) (krun n P cams frame logm inv front nth_elt ign track ic G (filter not_pose l)).
Proof.
  induction 1 as [|o l Ho _ IH]; intros F G S E; [exact E|]. cbn [filter]. destruct (not_pose o) eqn:NP.
  - unfold krun in *. cbn [fold_left]. assert (FO : fine true o) by (destruct o as [| [] | | | |]; cbn [fine usable not_pose] in *; auto; discriminate).
    pose proof (but_step n P cams frame logm inv front nth_elt ign track ic true false F G o (fun Z => ltac:(discriminate)) FO E) as U.
    destruct (step F o) as [K|] eqn:UF, (step G o) as [K'|]; try contradiction.
    + apply IH; [now apply (sep_step F o K)|exact U].
    + rewrite !run_none. exact I.
  - destruct o as [|ms Rn k| | | |]; try discriminate. destruct ms as [| |c m| |]; try discriminate. cbn [without_feedback] in Ho.
    destruct (pose_step F G c m Rn k Ho S E) as (F' & ST & E' & S'). unfold krun in *. cbn [fold_left]. rewrite ST. now apply IH.
Qed.
(** ** extrinsics that are not calibrated *)
Lemma vadd_s0 a b : vadd a (vscale b v0) = a. Proof. unfold v0. veq. Qed.
Lemma fixed_step F o G : a_calib (x_aux (k_x F)) = false -> step F o = Some G -> qCM (k_x G) = qCM (k_x F) /\ MrMC (k_x G) = MrMC (k_x F).
Proof.
  intros C E. destruct o as [m dt Q|ms Rn k|i|l|i|].
  6: cbn [kstep] in E; injection E as <-; split; reflexivity.
  2-5: apply aux_step in E; [|exact I]; unfold qCM, MrMC; rewrite E, C; split; reflexivity.
  cbn [kstep] in E. injection E as <-. cbn [k_x].
  assert (Q1 : qCM (predict n P m true no_noise dt (k_x F)) = fun c => if (c <? d_cam n)%nat then mm (expm (vscale (sqrt dt) v0)) (qCM (k_x F) c) else qCM (k_x F) c).
  { apply functional_extensionality. intros c. unfold qCM at 1. rewrite calib_predict, C. unfold predict. cbn [x_aux a_qCM]. now rewrite C. }
  assert (Q2 : MrMC (predict n P m true no_noise dt (k_x F)) = fun c => if (c <? d_cam n)%nat then vadd (MrMC (k_x F) c) (vscale (sqrt dt) v0) else MrMC (k_x F) c).
  { apply functional_extensionality. intros c. unfold MrMC at 1. rewrite calib_predict, C. unfold predict. cbn [x_aux a_MrMC]. now rewrite C. }
  rewrite Q1, Q2. split; apply functional_extensionality; intros c; destruct (c <? d_cam n)%nat; try reflexivity; [|apply vadd_s0].
  now rewrite vscale_0, expm_0, mm_1_l.
Qed.
Lemma fixed_run l : forall F G, a_calib (x_aux (k_x F)) = false -> krun n P cams frame logm inv front nth_elt ign track ic F l = Some G ->
  a_calib (x_aux (k_x G)) = false /\ qCM (k_x G) = qCM (k_x F) /\ MrMC (k_x G) = MrMC (k_x F).
Proof.
  induction l as [|o l IH]; intros F G C E; [injection E as <-; auto|]. unfold krun in *. cbn [fold_left] in E.
  destruct (step F o) as [K|] eqn:ST; [|rewrite run_none in E; discriminate].
  destruct (fixed_step F o K C ST) as [<- <-]. apply IH; [|exact E]. now rewrite (calib_step n P cams frame logm inv front nth_elt ign track ic F o K ST).
Qed.
(** ** measurements that agree with the estimate *)
Lemma box_0 x : boxplus x (fun _ => v0) = x.
Proof.
  destruct x as [a b c d e f g h i j k]. unfold boxplus. cbn [x_pos x_vel x_acb x_gyb x_att x_vep x_vea x_fea x_pop x_poa x_aux]. rewrite !vadd_0, expm_0, mm_1_l.
  f_equal; apply functional_extensionality; intros z; first [apply vadd_0|apply mm_1_l|apply box_fea_0].
Qed.
Lemma hmul_0 H : Forall (fun r => r = 0) (hmul n H (fun _ => v0)).
Proof.
  unfold hmul. apply Forall_forall. intros r I. apply in_map_iff in I. destruct I as (h & <- & _). rewrite (rsum_ext _ _ (fun _ => 0)); [apply rsum_zero|]. intros s _. apply dot_0_r.
Qed.
Lemma irsum_zero k f : (forall i, f i = 0) -> irsum k f = 0.
Proof. intros Z. unfold irsum. induction (seq 0 k); [reflexivity|]. cbn [fold_right]. rewrite Z, IHl. ring. Qed.
Lemma diff_0 y z : Forall (fun r => r = 0) y -> Forall (fun r => r = 0) z -> forall j, nth j (map (fun p => snd p - fst p) (combine y z)) 0 = 0.
Proof.
  intros A. revert z. induction A as [|a y Ha _ IH]; intros z B j; [now destruct j|]. destruct B as [|b z Hb B]; [now destruct j|].
  cbn [combine map]. destruct j as [|j]; cbn [nth fst snd]; [rewrite Ha, Hb; ring|now apply IH].
Qed.
Lemma agree_iterate inv' Rn Q f x y H k : f x = Some (y, H) -> Forall (fun r => r = 0) y ->
  exists P', iterate n inv' Rn Q f x k (fun _ => v0) = Some (fun _ => v0, P').
Proof.
  intros E Z. assert (G : forall W, gain_mul n Q H W (map (fun p => snd p - fst p) (combine y (hmul n H (fun _ => v0)))) = fun _ => v0).
  { intros W. apply functional_extensionality. intros s. unfold gain_mul. apply isum_zero. intros i. rewrite irsum_zero; [|intros j; now rewrite (diff_0 y _ Z (hmul_0 H)), Rmult_0_r].
    generalize (PHt n Q (nth i H zrow) s). intros a. unfold v0. veq. }
  induction k as [|k IH]; cbn [iterate]; rewrite box_0, E, G; [now eexists|exact IH].
Qed.
End Poses.
