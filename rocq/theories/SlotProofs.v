(** Free feature slots do not influence the rest of the estimate. *)
From Coq Require Import Reals ZArith List Bool Arith Lia Lra FunctionalExtensionality.
From Verif Require Import Geo Lie DistModel FiltModel OutModel CamModel InnoModel UpdModel CovModel BornModel SlotModel SlotSpec.
Import ListNotations.
Local Open Scope R_scope.

Lemma same_split used x y : same_state used x y ->
  exists a b c d e f g h i j u v, (forall k, used k = true -> u k = v k) /\
  x = Build_state a b c d e f g u h i j /\ y = Build_state a b c d e f g v h i j.
Proof.
  intros [H1 H2 H3 H4 H5 H6 H7 H8 H9 H10 H11]. destruct x as [p1 p2 p3 p4 p5 p6 p7 p8 p9 p10 p11], y as [q1 q2 q3 q4 q5 q6 q7 q8 q9 q10 q11].
  cbn [x_pos x_vel x_acb x_gyb x_att x_vep x_vea x_fea x_pop x_poa x_aux] in *. subst.
  exists q1, q2, q3, q4, q5, q6, q7, q9, q10, q11, p8, q8. split; [exact H11|split; reflexivity].
Qed.
Ltac ssplit H := destruct (same_split _ _ _ H) as (?p & ?v & ?ab & ?gb & ?q & ?vep & ?vea & ?pop & ?poa & ?ax & ?f1 & ?f2 & ?Hf & -> & ->).

Lemma live_dec used s : live used s \/ exists i, s = Fea i /\ used i = false.
Proof. destruct s; try (left; exact I). cbn. destruct (used i) eqn:E; [left; reflexivity|right; eauto]. Qed.

(** ** zero blocks *)
Lemma mm_0_l a : mm mzero a = mzero. Proof. unfold mzero, v0. veq. Qed.
Lemma mm_0_r a : mm a mzero = mzero. Proof. unfold mzero, v0. veq. Qed.
Lemma madd_0 : madd mzero mzero = mzero. Proof. unfold mzero, v0. veq. Qed.
Lemma mt_0 : mt mzero = mzero. Proof. reflexivity. Qed.
Lemma mv_0_r a : mv a v0 = v0. Proof. unfold v0. veq. Qed.
Lemma dot_0_l a : dot v0 a = 0. Proof. unfold v0. geo; ring. Qed.
Lemma dot_0_r a : dot a v0 = 0. Proof. unfold v0. geo; ring. Qed.

Lemma msum_ext l f g : (forall s, In s l -> f s = g s) -> msum l f = msum l g.
Proof. induction l as [|s l IH]; intros H; [reflexivity|]. change (madd (f s) (msum l f) = madd (g s) (msum l g)). rewrite (H s) by (now left). rewrite IH; [reflexivity|]. intros t I. apply H. now right. Qed.
Lemma vsum_ext l f g : (forall s, In s l -> f s = g s) -> vsum l f = vsum l g.
Proof. induction l as [|s l IH]; intros H; [reflexivity|]. change (vadd (f s) (vsum l f) = vadd (g s) (vsum l g)). rewrite (H s) by (now left). rewrite IH; [reflexivity|]. intros t I. apply H. now right. Qed.
Lemma rsum_ext l f g : (forall s, In s l -> f s = g s) -> rsum l f = rsum l g.
Proof. induction l as [|s l IH]; intros H; [reflexivity|]. change (Rplus (f s) (rsum l f) = Rplus (g s) (rsum l g)). rewrite (H s) by (now left). rewrite IH; [reflexivity|]. intros t I. apply H. now right. Qed.

(** ** the prediction *)
Lemma predict_same n P m ip nz dt used x y : same_state used x y -> same_state used (predict n P m ip nz dt x) (predict n P m ip nz dt y).
Proof.
  intros H. ssplit H. destruct ip.
  all: constructor; try reflexivity.
  all: intros i U; unfold predict; cbn [x_fea]; destruct (i <? d_max n)%nat; [|exact (Hf i U)]; rewrite (Hf i U); reflexivity.
Qed.
Lemma jac_same n P m dt used x y : same_state used x y -> forall s t, live used s -> jac_state n P m x dt s t = jac_state n P m y dt s t.
Proof.
  intros H s t L. ssplit H. destruct s; try reflexivity.
  cbn [live] in L. unfold jac_state. cbn [x_fea]. rewrite (Hf i L). reflexivity.
Qed.
Lemma noise_same n P m dt used x y : same_state used x y -> forall s t, live used s -> FiltModel.jac_noise n P m x dt s t = FiltModel.jac_noise n P m y dt s t.
Proof.
  intros H s t L. ssplit H. destruct s; try reflexivity.
  cbn [live] in L. unfold FiltModel.jac_noise. cbn [x_fea]. rewrite (Hf i L). reflexivity.
Qed.
Lemma jac_zero_at n P m x dt s i : s <> Fea i -> jac_state n P m x dt s (Fea i) = mzero.
Proof.
  intros N. destruct s; try reflexivity. cbn [jac_state]. destruct (cam_of n (x_fea x i0)); [|reflexivity].
  destruct (Nat.eqb_spec i0 i); [subst; now elim N|reflexivity].
Qed.
Lemma cong_same n used J1 J2 P1 P2 :
  (forall s t, live used s -> J1 s t = J2 s t) ->
  (forall s i, live used s -> used i = false -> J1 s (Fea i) = mzero) ->
  (forall s t, live used s -> live used t -> P1 s t = P2 s t) ->
  forall s t, live used s -> live used t -> cong n J1 P1 s t = cong n J2 P2 s t.
Proof.
  intros HJ HZ HP s t Ls Lt. apply msum_ext. intros a _. apply msum_ext. intros b _.
  rewrite <- (HJ s a Ls), <- (HJ t b Lt).
  destruct (live_dec used a) as [La|(i & -> & U)].
  - destruct (live_dec used b) as [Lb|(i & -> & U)]; [now rewrite (HP a b La Lb)|].
    rewrite (HZ t i Lt U), mt_0, !mm_0_r. reflexivity.
  - rewrite (HZ s i Ls U), !mm_0_l. reflexivity.
Qed.
Lemma cong_noise n used J1 J2 Q : (forall s t, live used s -> J1 s t = J2 s t) ->
  forall s t, live used s -> live used t -> cong n J1 Q s t = cong n J2 Q s t.
Proof. intros HJ s t Ls Lt. apply msum_ext. intros a _. apply msum_ext. intros b _. now rewrite (HJ s a Ls), (HJ t b Lt). Qed.

(** ** measurements *)
Definition blind (used : nat -> bool) (H : list row) : Prop := forall h, In h H -> forall i, used i = false -> h (Fea i) = v0.
Lemma pht_same n used P1 P2 h : (forall i, used i = false -> h (Fea i) = v0) ->
  (forall s t, live used s -> live used t -> P1 s t = P2 s t) -> forall s, live used s -> PHt n P1 h s = PHt n P2 h s.
Proof.
  intros B HP s L. apply vsum_ext. intros t _. destruct (live_dec used t) as [Lt|(i & -> & U)]; [now rewrite (HP s t L Lt)|].
  rewrite (B i U), !mv_0_r. reflexivity.
Qed.
Lemma inn_same n used P1 P2 H Rn : blind used H -> (forall s t, live used s -> live used t -> P1 s t = P2 s t) ->
  inn_cov n P1 H Rn = inn_cov n P2 H Rn.
Proof.
  intros B HP. unfold inn_cov. apply map_ext_in. intros [h r] Hh. apply map_ext_in. intros [g e] Hg. cbn [fst snd].
  apply in_combine_l in Hh. apply in_combine_l in Hg. f_equal. apply rsum_ext. intros s _.
  destruct (live_dec used s) as [L|(i & -> & U)].
  - rewrite (pht_same n used P1 P2 g (B g Hg) HP s L). reflexivity.
  - rewrite (B h Hh i U), !dot_0_l. reflexivity.
Qed.
Lemma nth_blind used H i : blind used H -> forall j, used j = false -> nth i H zrow (Fea j) = v0.
Proof. intros B j U. destruct (nth_in_or_default i H zrow) as [I | E]; [now apply B|now rewrite E]. Qed.
Lemma isum_ext k f g : (forall i, f i = g i) -> isum k f = isum k g.
Proof. intros E. unfold isum. induction (seq 0 k); [reflexivity|cbn; now rewrite E, IHl]. Qed.
Lemma imsum_ext k f g : (forall i, f i = g i) -> imsum k f = imsum k g.
Proof. intros E. unfold imsum. induction (seq 0 k); [reflexivity|cbn; now rewrite E, IHl]. Qed.
Lemma gain_same n used P1 P2 H W z : blind used H -> (forall s t, live used s -> live used t -> P1 s t = P2 s t) ->
  forall s, live used s -> gain_mul n P1 H W z s = gain_mul n P2 H W z s.
Proof. intros B HP s L. apply isum_ext. intros i. now rewrite (pht_same n used P1 P2 _ (nth_blind used H i B) HP s L). Qed.
Lemma update_same n used P1 P2 H W : blind used H -> (forall s t, live used s -> live used t -> P1 s t = P2 s t) ->
  forall s t, live used s -> live used t -> update_cov n P1 H W s t = update_cov n P2 H W s t.
Proof.
  intros B HP s t Ls Lt. unfold update_cov. rewrite (HP s t Ls Lt). f_equal. f_equal. apply imsum_ext. intros i. apply imsum_ext. intros j.
  now rewrite (pht_same n used P1 P2 _ (nth_blind used H i B) HP s Ls), (pht_same n used P1 P2 _ (nth_blind used H j B) HP t Lt).
Qed.
Lemma hmul_same n used H d1 d2 : blind used H -> (forall s, live used s -> d1 s = d2 s) -> hmul n H d1 = hmul n H d2.
Proof.
  intros B E. apply map_ext_in. intros h Hh. apply rsum_ext. intros s _.
  destruct (live_dec used s) as [L|(i & -> & U)]; [now rewrite (E s L)|]. now rewrite (B h Hh i U), !dot_0_l.
Qed.

Lemma box_same used x y d e : same_state used x y -> (forall s, live used s -> d s = e s) -> same_state used (boxplus x d) (boxplus y e).
Proof.
  intros H E. ssplit H.
  constructor; unfold boxplus; cbn [x_pos x_vel x_acb x_gyb x_att x_vep x_vea x_fea x_pop x_poa x_aux]; try reflexivity.
  1-5: rewrite E by exact I; reflexivity.
  1-4: apply functional_extensionality; intros k; rewrite E by exact I; reflexivity.
  intros i U. now rewrite (Hf i U), (E (Fea i) U).
Qed.

Section It.
Variables (n : dims) (used : nat -> bool) (inv : list (list R) -> list (list R)) (Rn : list (list R)) (P1 P2 : bmat) (f : state -> option lin).
Hypothesis HP : forall s t, live used s -> live used t -> P1 s t = P2 s t.
Hypothesis Hf : forall x y, same_state used x y -> f x = f y.
Hypothesis Hb : forall x y H, f x = Some (y, H) -> blind used H.
Lemma iterate_same k : forall x y d e, same_state used x y -> (forall s, live used s -> d s = e s) ->
  match iterate n inv Rn P1 f x k d, iterate n inv Rn P2 f y k e with
  | Some (d', Q1), Some (e', Q2) => (forall s, live used s -> d' s = e' s) /\ (forall s t, live used s -> live used t -> Q1 s t = Q2 s t)
  | None, None => True
  | _, _ => False
  end.
Proof.
  induction k as [|k IH]; intros x y d e S E; cbn [iterate]; rewrite (Hf _ _ (box_same _ _ _ _ _ S E)).
  all: destruct (f (boxplus y e)) as [[z H]|] eqn:L; [|exact I].
  all: pose proof (Hb _ _ _ L) as B; rewrite (inn_same n used P1 P2 H Rn B HP), (hmul_same n used H d e B E).
  - split; [exact (gain_same n used P1 P2 H _ _ B HP)|exact (update_same n used P1 P2 H _ B HP)].
  - apply IH; [exact S|exact (gain_same n used P1 P2 H _ _ B HP)].
Qed.
End It.

Lemma neg_times_0 J : neg_times J mzero = (v0, v0).
Proof. destruct J as [[[a b] c] d]. unfold neg_times, mzero, r0, r1, v0. cbn [fst snd]. unfold vneg, vadd, vscale, vx, vy, vz. cbn [fst snd]. f_equal; repeat apply f_equal2; ring. Qed.
Lemma transfer_jac_other frame ign k x i j : j <> i -> transfer_jac frame ign k x i (Fea j) = mzero.
Proof. intros N. unfold transfer_jac. destruct (_ =? _)%Z; destruct (Nat.eqb_spec j i); try contradiction; reflexivity. Qed.

Section Lin.
Variables (cams : nat -> camera) (frame : V3 -> M3) (logm : M3 -> V3) (ign : bool) (u : pupd).
Definition about (used : nat -> bool) (ms : meas) : Prop := match ms with MPix i _ _ _ | MDirect i _ _ _ => used i = true | _ => True end.
Lemma transfer_same used k i dold x y : used i = true -> same_state used x y -> transfer frame k x i dold = transfer frame k y i dold.
Proof. intros U H. ssplit H. unfold transfer, DrDP, fcam, ray, qDC, CrCD. cbn [x_fea]. rewrite (Hf i U). reflexivity. Qed.
Lemma transfer_jac_same used g k i x y s : used i = true -> same_state used x y -> transfer_jac frame g k x i s = transfer_jac frame g k y i s.
Proof. intros U H. ssplit H. unfold transfer_jac, DrDP, fcam, ray, qDC, CrCD. cbn [x_fea]. rewrite (Hf i U). reflexivity. Qed.
Lemma lin_same used ms x y : about used ms -> same_state used x y -> linearise cams frame logm ign u ms x = linearise cams frame logm ign u ms y.
Proof.
  intros A H. destruct ms as [i k dold c|i k dold eqs|c m|q v|]; cbn [linearise].
  - cbn [about] in A. unfold innovation_pix, jac_pix, predicted, pixel_jac. rewrite (transfer_same used k i dold x y A H).
    replace (fun (J : mat2) (s : seg) => neg_times J (transfer_jac frame ign k x i s)) with (fun (J : mat2) (s : seg) => neg_times J (transfer_jac frame ign k y i s)); [reflexivity|].
    apply functional_extensionality; intros J; apply functional_extensionality; intros s. now rewrite (transfer_jac_same used ign k i x y s A H).
  - cbn [about] in A. unfold innovation_direct, jac_direct, predicted, pixel_jac. rewrite (transfer_same used k i dold x y A H).
    destruct (transfer frame k y i dold) as [g|]; [|reflexivity]. destruct (bearing_to_pixel (cams k) (nor (ft_Q g))) as [c|]; [|reflexivity].
    destruct (option_map snd (bearing_to_pixel_M (cams k) (nor (ft_Q g)) (M1 (ft_Q g)) (M2c (ft_Q g)))) as [J|]; [|destruct (eqs k c) as [[? ?]|]; reflexivity].
    destruct (eqs k c) as [[Aq b]|]; [|reflexivity]. do 3 f_equal.
    apply functional_extensionality; intros s; now rewrite (transfer_jac_same used ign k i x y s A H).
  - ssplit H. reflexivity.
  - ssplit H. reflexivity.
  - ssplit H. reflexivity.
Qed.
Lemma mrows_blind used J : (forall i, J (Fea i) = mzero) -> blind used (mrows J).
Proof. intros Z h [<-|[<-|[<-|[]]]] i U; now rewrite Z. Qed.
Lemma rows2_blind used (J : seg -> block2) : (forall i, used i = false -> J (Fea i) = (v0, v0)) -> blind used (rows2 J).
Proof. intros Z h [<-|[<-|[]]] i U; now rewrite (Z i U). Qed.
Lemma blind_app used a b : blind used a -> blind used b -> blind used (a ++ b).
Proof. intros A B h I. apply in_app_or in I. destruct I; [now apply A|now apply B]. Qed.
Lemma lin_blind used ms x y H : about used ms -> linearise cams frame logm ign u ms x = Some (y, H) -> blind used H.
Proof.
  intros A E. destruct ms as [i k dold c|i k dold eqs|c m|q v|]; cbn [linearise] in E.
  - destruct (innovation_pix _ _ _ _ _ _ _ _); [|discriminate]. unfold jac_pix in E. destruct (pixel_jac _ _ _ _ _ _) as [J|]; cbn [option_map] in E; [|discriminate].
    apply (f_equal (fun o => match o with Some (_, h) => h | None => [] end)) in E. rewrite <- E. apply rows2_blind. intros j U. rewrite transfer_jac_other; [apply neg_times_0|].
    intros ->. cbn [about] in A. congruence.
  - destruct (innovation_direct _ _ _ _ _ _ _ _) as [w [|]]; [discriminate|]. unfold jac_direct in E.
    destruct (predicted _ _ _ _ _ _) as [p|]; [|discriminate]. destruct (pixel_jac _ _ _ _ _ _) as [J|]; [|discriminate]. destruct (eqs k p) as [[Aq b]|]; [|discriminate].
    apply (f_equal (fun o => match o with Some (_, h) => h | None => [] end)) in E. rewrite <- E. apply rows2_blind. intros j U. rewrite transfer_jac_other; [apply neg_times_0|].
    intros ->. cbn [about] in A. congruence.
  - apply (f_equal (fun o => match o with Some (_, h) => h | None => [] end)) in E. rewrite <- E. apply blind_app; apply mrows_blind; intros i.
    + unfold jac_pos. destruct (enPos c); reflexivity.
    + unfold jac_att. destruct (enAtt c); reflexivity.
  - apply (f_equal (fun o => match o with Some (_, h) => h | None => [] end)) in E. rewrite <- E. now apply mrows_blind.
  - apply (f_equal (fun o => match o with Some (_, h) => h | None => [] end)) in E. rewrite <- E. now apply mrows_blind.
Qed.
End Lin.

(** ** slots *)
Lemma seg_fea (s : seg) i : s = Fea i \/ s <> Fea i.
Proof. destruct (seg_eq s (Fea i)); auto. Qed.
Lemma reset_off i B P s t : s <> Fea i -> t <> Fea i -> reset_slot i B P s t = P s t.
Proof.
  intros Ns Nt. destruct s, t; cbn [reset_slot]; try reflexivity;
  repeat match goal with |- context [(?a =? ?b)%nat] => destruct (Nat.eqb_spec a b) as [?e|?e]; [subst a; congruence|] end; reflexivity.
Qed.
Lemma reset_row i B P t : t <> Fea i -> reset_slot i B P (Fea i) t = mzero.
Proof. intros N. destruct t; cbn [reset_slot]; rewrite Nat.eqb_refl; try reflexivity. destruct (Nat.eqb_spec i0 i); [congruence|reflexivity]. Qed.
Lemma reset_col i B P t : t <> Fea i -> reset_slot i B P t (Fea i) = mzero.
Proof. intros N. destruct t; cbn [reset_slot]; rewrite ?Nat.eqb_refl; try reflexivity. destruct (Nat.eqb_spec i0 i); [congruence|reflexivity]. Qed.
Lemma reset_diag i B P : reset_slot i B P (Fea i) (Fea i) = B.
Proof. cbn [reset_slot]. rewrite Nat.eqb_refl. reflexivity. Qed.
Lemma reset_same used used' i B P1 P2 : (forall j, used' j = true -> j <> i -> used j = true) ->
  (forall s t, live used s -> live used t -> P1 s t = P2 s t) ->
  forall s t, live used' s -> live used' t -> reset_slot i B P1 s t = reset_slot i B P2 s t.
Proof.
  intros U HP s t Ls Lt.
  assert (G : forall r, live used' r -> r <> Fea i -> live used r).
  { intros r Lr N. destruct r; try exact I. cbn in *. apply U; [exact Lr|congruence]. }
  destruct (seg_fea s i) as [->|Ns], (seg_fea t i) as [->|Nt].
  - now rewrite !reset_diag.
  - now rewrite !reset_row.
  - now rewrite !reset_col.
  - rewrite !reset_off by assumption. apply HP; now apply G.
Qed.

(** ** the median *)
Lemma rsum_zero l : rsum l (fun _ => 0) = 0.
Proof. induction l as [|s l IH]; [reflexivity|]. change (0 + rsum l (fun _ => 0) = 0). rewrite IH. ring. Qed.
Lemma seen_same n frame front dold k used x y P1 P2 i : used i = true -> same_state used x y ->
  (forall s t, live used s -> live used t -> P1 s t = P2 s t) ->
  seen_in n frame front dold k x P1 i = seen_in n frame front dold k y P2 i.
Proof.
  intros U S HP. unfold seen_in. rewrite (transfer_same frame used k i dold x y U S). destruct (transfer frame k y i dold) as [g|]; [|reflexivity].
  f_equal. do 3 f_equal. apply rsum_ext. intros s _. apply rsum_ext. intros t _.
  rewrite !(transfer_jac_same frame used false k i x y _ U S).
  destruct (live_dec used s) as [Ls|(j & -> & V)].
  - destruct (live_dec used t) as [Lt|(j & -> & V)]; [now rewrite (HP s t Ls Lt)|].
    rewrite (transfer_jac_other frame false k y i j) by (intros ->; congruence). change (r2 mzero) with v0. now rewrite !mv_0_r, !dot_0_r.
  - rewrite (transfer_jac_other frame false k y i j) by (intros ->; congruence). change (r2 mzero) with v0. now rewrite !dot_0_l.
Qed.
Lemma collect_same ratio used (a b : nat -> seen) l : (forall i, used i = true -> a i = b i) ->
  collect ratio (map (fun i => (used i, a i)) l) = collect ratio (map (fun i => (used i, b i)) l).
Proof.
  intros E. unfold collect. induction l as [|i l IH]; [reflexivity|]. cbn [map filter fst snd]. destruct (used i) eqn:U.
  - rewrite (E i U). cbn [andb]. destruct (s_front (b i) && confident ratio (b i)); [cbn [map snd]; now rewrite IH|exact IH].
  - cbn [andb]. exact IH.
Qed.
Lemma median_same n frame front nth_elt dold init ratio k F G : same_estimate F G ->
  median_of n frame front nth_elt dold init ratio k F = median_of n frame front nth_elt dold init ratio k G.
Proof.
  intros [Hu _ Hs Hc]. unfold median_of, median. rewrite <- Hu.
  rewrite (collect_same ratio (k_used F) (seen_in n frame front dold k (k_x F) (k_P F)) (seen_in n frame front dold k (k_x G) (k_P G))); [reflexivity|].
  intros i U. now apply (seen_same n frame front dold k (k_used F)).
Qed.

(** ** steps *)
Lemma set_fea_same used used' x y i f : (forall j, used' j = true -> j <> i -> used j = true) -> same_state used x y ->
  same_state used' (set_fea x i f) (set_fea y i f).
Proof.
  intros U H. ssplit H. constructor; try reflexivity. intros j Uj. cbn [set_fea x_fea]. destruct (Nat.eqb_spec j i); [reflexivity|]. apply Hf. now apply U.
Qed.
Lemma weaken used used' x y : (forall j, used' j = true -> used j = true) -> same_state used x y -> same_state used' x y.
Proof. intros U [? ? ? ? ? ? ? ? ? ? Hf]. constructor; auto. Qed.
Lemma set_pop_same used x y k p q : same_state used x y -> same_state used (set_pop x k p q) (set_pop y k p q).
Proof. intros H. ssplit H. constructor; try reflexivity. exact Hf. Qed.
Lemma pre_same used c u m x y : same_state used x y ->
  fst (pre_process c u m x) = fst (pre_process c u m y) /\ same_state used (snd (pre_process c u m x)) (snd (pre_process c u m y)).
Proof.
  intros H. pose proof H as S. ssplit H. unfold pre_process. destruct (negb (u_did u) && doAlign c); [|split; [reflexivity|exact S]].
  split; [reflexivity|]. cbn [snd]. destruct (inertial c) as [i|]; [|exact S]. now apply set_pop_same.
Qed.

Section Steps.
Variables (n : dims) (P : params) (cams : nat -> camera) (frame : V3 -> M3) (logm : M3 -> V3) (inv : list (list R) -> list (list R))
  (front : feat -> bool) (nth_elt : list R -> nat -> list R) (ign track : bool) (ic : icfg).
Notation step := (kstep n P cams frame logm inv front nth_elt ign track ic).

Lemma before_same F G ms : same_estimate F G ->
  fst (before F ms) = fst (before G ms) /\ same_state (k_used F) (snd (before F ms)) (snd (before G ms)).
Proof.
  intros [Hu Hp Hs Hc]. destruct ms; cbn [before fst snd]; try (split; assumption). rewrite Hp. now apply pre_same.
Qed.
Lemma meas_same F G ms Rn k : same_estimate F G -> same_result (step F (KMeas ms Rn k)) (step G (KMeas ms Rn k)).
Proof.
  intros E. pose proof E as [Hu Hp Hs Hc]. cbn [kstep].
  assert (C : concerns F ms = concerns G ms) by (destruct ms; cbn [concerns]; now rewrite ?Hu). rewrite <- C.
  destruct (concerns F ms) eqn:A; [|exact E].
  assert (A' : about (k_used F) ms) by (destruct ms; cbn [concerns about] in *; auto).
  destruct (before_same F G ms E) as [B1 B2]. destruct (before F ms) as [u x], (before G ms) as [u' y]. cbn [fst snd] in B1, B2. subst u'.
  pose proof (iterate_same n (k_used F) inv Rn (k_P F) (k_P G) (linearise cams frame logm ign u ms) Hc
     (fun a b => lin_same cams frame logm ign u (k_used F) ms a b A') (fun a b c => lin_blind cams frame logm ign u (k_used F) ms a b c A')
     k x y (fun _ => v0) (fun _ => v0) B2 (fun _ _ => eq_refl)) as I.
  destruct (iterate n inv Rn (k_P F) _ x k _) as [[d Q1]|], (iterate n inv Rn (k_P G) _ y k _) as [[e Q2]|]; try contradiction.
  - destruct I as [I1 I2]. constructor; cbn [k_x k_P k_used k_u]; auto. now apply box_same.
  - constructor; cbn [k_x k_P k_used k_u]; auto.
Qed.
Lemma use_same p F G w : same_estimate F G -> same_result (use_slot track ic p F w) (use_slot track ic p G w).
Proof.
  intros E. pose proof E as [Hu Hp Hs Hc]. unfold use_slot. rewrite <- Hu. destruct (k_used F (w_slot w)) eqn:U; [exact E|].
  assert (I : init_feature (c_b ic) (k_x F) 3 0 (w_cam w) (w_type w) (p (w_cam w)) (nor (w_Q w)) (w_seen w) (fun _ _ => 0) =
              init_feature (c_b ic) (k_x G) 3 0 (w_cam w) (w_type w) (p (w_cam w)) (nor (w_Q w)) (w_seen w) (fun _ _ => 0)).
  { destruct F as [xF PF uF pF], G as [xG PG uG pG]. cbn [k_x k_used] in *. ssplit Hs. reflexivity. }
  rewrite I. clear I. destruct (init_feature _ _ _ _ _ _ _ _ _ _) as [[d|] c]; [|exact Logic.I].
  assert (V : forall j, (if (j =? w_slot w)%nat then true else k_used F j) = true -> j <> w_slot w -> k_used F j = true)
    by (intros j; destruct (Nat.eqb_spec j (w_slot w)); congruence).
  constructor; cbn [k_x k_P k_used k_u].
  - now rewrite Hu.
  - exact Hp.
  - now apply (set_fea_same (k_used F)).
  - now apply (reset_same (k_used F)).
Qed.
Lemma uses_same p l : forall a b, same_result a b ->
  same_result (fold_left (fun o w => match o with Some K => use_slot track ic p K w | None => None end) l a)
              (fold_left (fun o w => match o with Some K => use_slot track ic p K w | None => None end) l b).
Proof.
  induction l as [|w l IH]; intros a b E; [exact E|]. cbn [fold_left]. apply IH.
  destruct a as [F|], b as [G|]; try contradiction; [now apply use_same|exact Logic.I].
Qed.
Lemma step_same F G o : same_estimate F G -> same_result (step F o) (step G o).
Proof.
  intros E. pose proof E as [Hu Hp Hs Hc]. destruct o as [m dt Q|ms Rn k|i|l|i|].
  - constructor; cbn [k_x k_P k_used k_u]; auto.
    + now apply predict_same.
    + intros s t Ls Lt. unfold predict_cov. f_equal.
      * apply (cong_same n (k_used F)); auto; [now apply jac_same|].
        intros r j Lr V. apply jac_zero_at. intros ->. cbn [live] in Lr. congruence.
      * apply (cong_noise n (k_used F)); auto. now apply noise_same.
  - now apply meas_same.
  - cbn [kstep]. rewrite <- Hu. destruct (k_used F i) eqn:U; [|exact E].
    constructor; cbn [k_x k_P k_used k_u].
    + now rewrite Hu.
    + exact Hp.
    + apply (weaken (k_used F)); [|exact Hs]. intros j. destruct (Nat.eqb_spec j i); [discriminate|auto].
    + apply (reset_same (k_used F)); [|exact Hc]. intros j. destruct (Nat.eqb_spec j i); [discriminate|auto].
  - cbn [kstep].
    assert (D : depths n frame front nth_elt ic F = depths n frame front nth_elt ic G).
    { apply functional_extensionality. intros k. unfold depths. destruct (Rlt_dec 0 (c_ratio ic)); [|reflexivity]. now apply median_same. }
    rewrite D. now apply uses_same.
  - cbn [kstep]. rewrite <- Hu. destruct (k_used F i) eqn:U; [|exact E]. constructor; cbn [k_x k_P k_used k_u]; auto.
    pose proof Hs as []. constructor; cbn [set_fea x_pos x_vel x_acb x_gyb x_att x_vep x_vea x_fea x_pop x_poa x_aux]; auto.
    intros j Uj. rewrite (ss_fea i U). destruct (j =? i)%nat; auto.
  - cbn [kstep]. constructor; cbn [k_x k_P k_used k_u]; auto. pose proof Hs as []. constructor; cbn [motion_seen x_pos x_vel x_acb x_gyb x_att x_vep x_vea x_fea x_pop x_poa x_aux]; auto. now rewrite ss_aux.
Qed.
Lemma run_same l : forall a b, same_result a b ->
  same_result (fold_left (fun o s => match o with Some K => step K s | None => None end) l a)
              (fold_left (fun o s => match o with Some K => step K s | None => None end) l b).
Proof.
  induction l as [|s l IH]; intros a b E; [exact E|]. cbn [fold_left]. apply IH.
  destruct a as [F|], b as [G|]; try contradiction; [now apply step_same|exact Logic.I].
Qed.
End Steps.

Lemma wipe_same f0 F : same_estimate F (wipe f0 F).
Proof.
  constructor; cbn [wipe k_used k_u k_x k_P]; try reflexivity.
  - constructor; cbn [x_pos x_vel x_acb x_gyb x_att x_vep x_vea x_fea x_pop x_poa x_aux]; try reflexivity. intros i U. now rewrite U.
  - assert (L : forall s, live (k_used F) s -> liveb (k_used F) s = true) by (intros []; cbn; auto).
    intros s t Ls Lt. now rewrite (L s Ls), (L t Lt).
Qed.
