From Coq Require Import Reals ZArith List Bool Arith Lia Lra Permutation FunctionalExtensionality.
From Verif Require Import Geo Lie DistModel FiltModel FiltProofs OutModel CamModel InnoModel UpdModel CovModel CovSpec CovProofs BornModel SlotModel SlotSpec SlotProofs KalProofs GaugeProofs PermSpec.
Import ListNotations.
Local Open Scope R_scope.

(** ** sums *)
Lemma madd_swap a b c : madd a (madd b c) = madd b (madd a c). Proof. veq. Qed.
Lemma vadd_swap a b c : vadd a (vadd b c) = vadd b (vadd a c). Proof. veq. Qed.
Lemma msum_perm l l' f : Permutation l l' -> msum l f = msum l' f.
Proof. unfold msum. induction 1; cbn; [reflexivity|now f_equal|apply madd_swap|etransitivity; eauto]. Qed.
Lemma vsum_perm l l' f : Permutation l l' -> vsum l f = vsum l' f.
Proof. unfold vsum. induction 1; cbn; [reflexivity|now f_equal|apply vadd_swap|etransitivity; eauto]. Qed.
Lemma rsum_perm l l' f : Permutation l l' -> rsum l f = rsum l' f.
Proof. unfold rsum. induction 1; cbn; [reflexivity|now f_equal|ring|etransitivity; eauto]. Qed.
Lemma msum_map l g f : msum (map g l) f = msum l (fun s => f (g s)).
Proof. unfold msum. induction l; cbn; congruence. Qed.
Lemma vsum_map l g f : vsum (map g l) f = vsum l (fun s => f (g s)).
Proof. unfold vsum. induction l; cbn; congruence. Qed.
Lemma rsum_map l g f : rsum (map g l) f = rsum l (fun s => f (g s)).
Proof. unfold rsum. induction l; cbn; congruence. Qed.
Lemma seg_in_segs n s : In s (segs n) <-> seg_in n s.
Proof.
  split; [apply in_segs|]. intros H. unfold segs. rewrite !in_app_iff, !in_map_iff. setoid_rewrite in_seq.
  destruct s; cbn [seg_in] in H; cbn [In]; try tauto.
  - right; left. exists c. split; [reflexivity|lia].
  - right; right; left. exists c. split; [reflexivity|lia].
  - right; right; right; left. exists i. split; [reflexivity|lia].
  - right; right; right; right; left. exists k. split; [reflexivity|lia].
  - right; right; right; right; right. exists k. split; [reflexivity|lia].
Qed.

(** ** the median *)
Lemma filter_permutation {A} (p : A -> bool) l l' : Permutation l l' -> Permutation (filter p l) (filter p l').
Proof.
  induction 1; cbn; auto.
  - destruct (p x); auto.
  - destruct (p x), (p y); auto using perm_swap.
  - etransitivity; eauto.
Qed.
Lemma median_perm f init r l l' : nth_element_spec f -> Permutation l l' -> median f init r l = median f init r l'.
Proof.
  intros F P. unfold median. assert (C : Permutation (collect r l) (collect r l')) by (unfold collect; now apply Permutation_map, filter_permutation).
  rewrite <- (Permutation_length C). destruct (Nat.ltb_spec 3 (length (collect r l))) as [H|H]; [|reflexivity].
  set (a := collect r l) in *. set (b := collect r l') in *. clearbody a b.
  assert (K : (length a / 2 < length a)%nat) by (apply Nat.div_lt; lia). set (k := (length a / 2)%nat) in *. clearbody k.
  assert (G : forall c, Permutation a c -> let m := nth k (f c k) 0 in In m a /\ (count (below m) a <= k)%nat /\ (count (above m) a <= length a - 1 - k)%nat).
  { intros c Pc m. pose proof (Permutation_length Pc) as Lc. destruct (F c k ltac:(lia)) as (Q&Lo&Hi). pose proof (Permutation_length Q) as LQ.
    destruct (pivot_counts (f c k) k m) as [C1 C2]; auto; [lia|rewrite <- LQ; auto|].
    rewrite <- LQ, <- Lc in C2. assert (T : Permutation a (f c k)) by (etransitivity; eassumption).
    rewrite <- (count_perm _ a _ T) in C1. rewrite <- (count_perm _ a _ T) in C2.
    split; [|split; auto]. apply (Permutation_in _ (Permutation_sym T)). apply nth_In. lia. }
  destruct (G a (Permutation_refl _)) as (?&?&?), (G b C) as (?&?&?). eapply (rank_unique a k); eauto.
Qed.

Section Renumber.
Variables (n : dims) (f b : nat -> nat).
Hypothesis RN : renumbering n f b.
Local Notation bk := (renumbered_seg b).
Lemma bf i : b (f i) = i. Proof. apply (rn_back n f b RN). Qed.
Lemma fb i : f (b i) = i. Proof. apply (rn_forth n f b RN). Qed.
Lemma b_in i : (b i <? d_max n)%nat = (i <? d_max n)%nat.
Proof.
  pose proof (rn_in n f b RN (b i)) as H. rewrite fb in H.
  destruct (Nat.ltb_spec (b i) (d_max n)), (Nat.ltb_spec i (d_max n)); auto; exfalso; lia.
Qed.
Lemma b_eqb i j : (b i =? b j)%nat = (i =? j)%nat.
Proof.
  destruct (Nat.eqb_spec i j) as [->|D]; [apply Nat.eqb_refl|]. apply Nat.eqb_neq. intros E. apply D. rewrite <- (fb i), E. apply fb.
Qed.
Lemma fb_eqb j i : (j =? f i)%nat = (b j =? i)%nat.
Proof. rewrite <- (bf i) at 2. now rewrite b_eqb. Qed.
Lemma bk_inj s t : bk s = bk t -> s = t.
Proof. destruct s, t; cbn; intros E; try congruence. injection E as E. f_equal. rewrite <- (fb i), E. apply fb. Qed.
Lemma bk_seg_in s : seg_in n (bk s) <-> seg_in n s.
Proof. destruct s; cbn; try tauto. pose proof (rn_in n f b RN (b i)) as H. rewrite fb in H. exact H. Qed.
Lemma segs_bk : Permutation (map bk (segs n)) (segs n).
Proof.
  apply NoDup_Permutation; [|apply segs_NoDup|].
  - apply FinFun.Injective_map_NoDup; [intros s t; apply bk_inj|apply segs_NoDup].
  - intros s. rewrite in_map_iff, seg_in_segs. split.
    + intros (t&<-&H). apply seg_in_segs in H. now apply bk_seg_in.
    + intros H. exists (renumbered_seg f s). assert (E : bk (renumbered_seg f s) = s) by (destruct s; cbn; rewrite ?bf; reflexivity).
      split; [exact E|]. apply seg_in_segs. apply bk_seg_in. now rewrite E.
Qed.
Lemma msum_bk g : msum (segs n) (fun s => g (bk s)) = msum (segs n) g.
Proof. rewrite <- msum_map. apply msum_perm, segs_bk. Qed.
Lemma vsum_bk g : vsum (segs n) (fun s => g (bk s)) = vsum (segs n) g.
Proof. rewrite <- vsum_map. apply vsum_perm, segs_bk. Qed.
Lemma rsum_bk g : rsum (segs n) (fun s => g (bk s)) = rsum (segs n) g.
Proof. rewrite <- rsum_map. apply rsum_perm, segs_bk. Qed.

Local Notation pP := (renumbered_cov b).
Local Notation px := (renumbered_state b).
Definition prow (h : row) : row := fun s => h (bk s).
Definition ptan (d : tangent) : tangent := fun s => d (bk s).
Lemma cong_renumbered J J' P : (forall s a, J' s a = J (bk s) (bk a)) -> cong n J' (pP P) = pP (cong n J P).
Proof.
  intros E. extensionality s. extensionality t. unfold cong, renumbered_cov.
  rewrite <- (msum_bk (fun a => msum (segs n) (fun c => mm (mm (J (bk s) a) (P a c)) (mt (J (bk t) c))))).
  f_equal. extensionality a. rewrite <- (msum_bk (fun c => mm (mm (J (bk s) (bk a)) (P (bk a) c)) (mt (J (bk t) c)))).
  f_equal. extensionality c. now rewrite !E.
Qed.
Lemma PHt_renumbered P h s : PHt n (pP P) (prow h) s = PHt n P h (bk s).
Proof. unfold PHt. rewrite <- (vsum_bk (fun t => mv (P (bk s) t) (h t))). reflexivity. Qed.
Lemma PHt_fun P h : PHt n (pP P) (prow h) = fun s => PHt n P h (bk s).
Proof. extensionality s. apply PHt_renumbered. Qed.
Lemma inn_renumbered P H Rn : inn_cov n (pP P) (map prow H) Rn = inn_cov n P H Rn.
Proof.
  unfold inn_cov. assert (C : forall {B} (l : list B), combine (map prow H) l = map (fun p => (prow (fst p), snd p)) (combine H l)).
  { intros B. clear. induction H as [|h H IH]; intros [|x l]; cbn; congruence. }
  rewrite C, map_map. apply map_ext; intros [h r]. cbn [fst snd]. rewrite C, map_map. apply map_ext; intros [g q]. cbn [fst snd].
  f_equal. rewrite PHt_fun. rewrite <- (rsum_bk (fun s => dot (h s) (PHt n P g s))). reflexivity.
Qed.
Lemma prow_nth H i : nth i (map prow H) zrow = prow (nth i H zrow).
Proof. change zrow with (prow zrow) at 1. apply map_nth. Qed.
Lemma gain_renumbered P H W z : gain_mul n (pP P) (map prow H) W z = ptan (gain_mul n P H W z).
Proof.
  extensionality s. unfold gain_mul, ptan. rewrite map_length. f_equal. extensionality i. now rewrite prow_nth, PHt_renumbered.
Qed.
Lemma update_renumbered P H W : update_cov n (pP P) (map prow H) W = pP (update_cov n P H W).
Proof.
  extensionality s. extensionality t. unfold update_cov, renumbered_cov. rewrite map_length. do 2 f_equal. f_equal. extensionality i. f_equal. extensionality j.
  rewrite !prow_nth. fold (pP P). now rewrite !PHt_renumbered.
Qed.
Lemma hmul_renumbered H d : hmul n (map prow H) (ptan d) = hmul n H d.
Proof. unfold hmul. rewrite map_map. apply map_ext; intros h. rewrite <- (rsum_bk (fun s => dot (h s) (d s))). reflexivity. Qed.
Lemma box_renumbered x d : boxplus (px x) (ptan d) = px (boxplus x d).
Proof. reflexivity. Qed.
Definition plin (l : lin) : lin := (fst l, map prow (snd l)).
Lemma iterate_renumbered inv Rn P g g' x k : (forall y, g' (px y) = option_map plin (g y)) -> forall d,
  iterate n inv Rn (pP P) g' (px x) k (ptan d) = option_map (fun r => (ptan (fst r), pP (snd r))) (iterate n inv Rn P g x k d).
Proof.
  intros E. induction k as [|k IH]; intros d; cbn [iterate]; rewrite box_renumbered, E; destruct (g (boxplus x d)) as [[y H]|]; cbn [option_map plin fst snd]; try reflexivity;
    rewrite inn_renumbered, hmul_renumbered, gain_renumbered.
  - now rewrite update_renumbered.
  - apply IH.
Qed.

(** ** prediction *)
Lemma predict_renumbered P m dt x : predict n P m true no_noise dt (px x) = px (predict n P m true no_noise dt x).
Proof.
  apply state_ext; try reflexivity. extensionality i. cbn [predict x_fea renumbered_state]. unfold renumbered_state at 1.
  cbn [x_fea]. rewrite b_in. reflexivity.
Qed.
Lemma jac_renumbered P m dt x s a : jac_state n P m (px x) dt s a = jac_state n P m x dt (bk s) (bk a).
Proof.
  destruct s, a; try reflexivity. cbn [renumbered_seg]. unfold jac_state. rewrite b_eqb. reflexivity.
Qed.
Lemma noise_renumbered P m dt x s a : FiltModel.jac_noise n P m (px x) dt s a = FiltModel.jac_noise n P m x dt (bk s) (bk a).
Proof.
  destruct s, a; try reflexivity. cbn [renumbered_seg]. unfold FiltModel.jac_noise. rewrite b_eqb. reflexivity.
Qed.

(** ** measurements *)
Lemma transfer_renumbered frame k x i d : transfer frame k (px x) (f i) d = transfer frame k x i d.
Proof. unfold transfer, DrDP, CrCD, fcam. cbn [x_fea renumbered_state]. rewrite bf. reflexivity. Qed.
Lemma transfer_jac_renumbered frame g k x i s : transfer_jac frame g k (px x) (f i) s = transfer_jac frame g k x i (bk s).
Proof.
  unfold transfer_jac, DrDP, CrCD, fcam. cbn [x_fea renumbered_state]. rewrite bf. destruct s; try reflexivity. cbn [renumbered_seg]. rewrite fb_eqb. reflexivity.
Qed.
Lemma predicted_renumbered cams frame d k x i : predicted cams frame d k (f i) (px x) = predicted cams frame d k i x.
Proof. unfold predicted. now rewrite transfer_renumbered. Qed.
Lemma pixel_jac_renumbered cams frame d k x i : pixel_jac cams frame d k (f i) (px x) = pixel_jac cams frame d k i x.
Proof. unfold pixel_jac. now rewrite transfer_renumbered. Qed.
Lemma rows2_prow J J' : (forall s, J' s = J (bk s)) -> rows2 J' = map prow (rows2 J).
Proof. intros E. unfold rows2, prow. cbn [map]. f_equal; [|f_equal]; extensionality s; now rewrite E. Qed.
Lemma mrows_prow J J' : (forall s, J' s = J (bk s)) -> mrows J' = map prow (mrows J).
Proof. intros E. unfold mrows, prow. cbn [map]. f_equal; [|f_equal; [|f_equal]]; extensionality s; now rewrite E. Qed.
Lemma linearise_renumbered cams frame logm ign u ms x :
  linearise cams frame logm ign u (renumbered_meas f ms) (px x) = option_map plin (linearise cams frame logm ign u ms x).
Proof.
  destruct ms as [i k d c|i k d e|c m|q v|]; cbn [linearise renumbered_meas].
  - unfold innovation_pix, jac_pix. rewrite predicted_renumbered, pixel_jac_renumbered.
    destruct (predicted cams frame d k i x) as [p|]; [|reflexivity]. destruct (pixel_jac cams frame d k i x) as [J|]; [|reflexivity].
    cbn [option_map plin fst snd]. unfold plin. cbn [fst snd]. do 2 f_equal. apply rows2_prow. intros s. now rewrite transfer_jac_renumbered.
  - unfold innovation_direct, jac_direct. rewrite predicted_renumbered, pixel_jac_renumbered.
    destruct (predicted cams frame d k i x) as [p|]; [|reflexivity]. destruct (pixel_jac cams frame d k i x) as [J|].
    + destruct (e k p) as [[A y]|]; [|reflexivity]. cbn [option_map]. unfold plin. cbn [fst snd]. do 2 f_equal. apply rows2_prow. intros s. now rewrite transfer_jac_renumbered.
    + destruct (e k p) as [[A y]|]; reflexivity.
  - cbn [option_map]. unfold plin. cbn [fst snd]. rewrite map_app. do 3 f_equal; apply mrows_prow; intros s; destruct s; reflexivity.
  - cbn [option_map]. unfold plin. cbn [fst snd]. do 2 f_equal. apply mrows_prow. intros s; destruct s; reflexivity.
  - cbn [option_map]. unfold plin. cbn [fst snd]. do 2 f_equal. apply mrows_prow. intros s; destruct s; reflexivity.
Qed.

(** ** slots *)
Lemma reset_renumbered i B P : reset_slot (f i) B (pP P) = pP (reset_slot i B P).
Proof.
  extensionality s. extensionality t. unfold renumbered_cov. destruct s, t; cbn [reset_slot renumbered_seg]; rewrite ?fb_eqb; reflexivity.
Qed.
Lemma set_fea_renumbered x i w : set_fea (px x) (f i) w = px (set_fea x i w).
Proof. apply state_ext; try reflexivity. extensionality j. cbn. now rewrite fb_eqb. Qed.
Lemma used_renumbered (u : nat -> bool) i v : (fun j => if (j =? f i)%nat then v else u (b j)) = (fun j => (fun k => if (k =? i)%nat then v else u k) (b j)).
Proof. extensionality j. now rewrite fb_eqb. Qed.
Lemma seen_renumbered frame front d k x P i : seen_in n frame front d k (px x) (pP P) i = seen_in n frame front d k x P (b i).
Proof.
  unfold seen_in. rewrite <- (fb i) at 1. rewrite transfer_renumbered. destruct (transfer frame k x (b i) d) as [g|]; [|reflexivity].
  f_equal. f_equal. f_equal. f_equal.
  rewrite <- (rsum_bk (fun s => rsum (segs n) (fun t => dot (r2 (transfer_jac frame false k x (b i) s)) (mv (P s t) (r2 (transfer_jac frame false k x (b i) t)))))).
  f_equal. extensionality s.
  rewrite <- (rsum_bk (fun t => dot (r2 (transfer_jac frame false k x (b i) (bk s))) (mv (P (bk s) t) (r2 (transfer_jac frame false k x (b i) t))))).
  f_equal. extensionality t. rewrite <- (fb i) at 1 2. now rewrite !transfer_jac_renumbered.
Qed.
Lemma seq_b : Permutation (map b (seq 0 (d_max n))) (seq 0 (d_max n)).
Proof.
  apply NoDup_Permutation; [|apply seq_NoDup|].
  - apply FinFun.Injective_map_NoDup; [|apply seq_NoDup]. intros i j E. rewrite <- (fb i), E. apply fb.
  - intros i. rewrite in_map_iff. setoid_rewrite in_seq. split.
    + intros (j&<-&H). pose proof (rn_in n f b RN (b j)) as Q. rewrite fb in Q. lia.
    + intros H. exists (f i). rewrite bf. split; [reflexivity|]. pose proof (rn_in n f b RN i). lia.
Qed.

Section Run.
Variables (P : params) (cams : nat -> camera) (frame : V3 -> M3) (logm : M3 -> V3) (inv : list (list R) -> list (list R))
  (front : feat -> bool) (nth_elt : list R -> nat -> list R) (ign track : bool) (ic : icfg).
Hypothesis NE : nth_element_spec nth_elt.
Local Notation pF := (renumbered b).
Lemma median_renumbered d init ratio k F : median_of n frame front nth_elt d init ratio k (pF F) = median_of n frame front nth_elt d init ratio k F.
Proof.
  unfold median_of. cbn [k_used k_x k_P renumbered].
  rewrite (map_ext _ (fun i => (fun j => (k_used F j, seen_in n frame front d k (k_x F) (k_P F) j)) (b i))) by (intros i; now rewrite seen_renumbered).
  rewrite <- (map_map b (fun j => (k_used F j, seen_in n frame front d k (k_x F) (k_P F) j))).
  apply median_perm; [exact NE|]. apply Permutation_map, seq_b.
Qed.
Lemma depths_renumbered F : depths n frame front nth_elt ic (pF F) = depths n frame front nth_elt ic F.
Proof. extensionality c. unfold depths. now rewrite median_renumbered. Qed.
Lemma use_renumbered p F w : use_slot track ic p (pF F) (renumbered_new f w) = option_map pF (use_slot track ic p F w).
Proof.
  unfold use_slot. cbn [w_slot w_cam w_Q w_type w_seen renumbered_new k_used renumbered]. rewrite bf. destruct (k_used F (w_slot w)); [reflexivity|].
  change (init_feature (c_b ic) (k_x (pF F))) with (init_feature (c_b ic) (renumbered_state b (k_x F))).
  replace (init_feature (c_b ic) (renumbered_state b (k_x F))) with (init_feature (c_b ic) (k_x F)) by reflexivity.
  destruct (init_feature _ _ _ _ _ _ _ _ _ _) as [[d|] c]; [|reflexivity]. cbn [option_map]. f_equal.
  apply kf_ext; cbn [k_x k_P k_used k_u renumbered]; [apply set_fea_renumbered|apply reset_renumbered|apply used_renumbered|reflexivity].
Qed.
Lemma uses_renumbered p l : forall o, fold_left (fun o w => match o with Some G => use_slot track ic p G w | None => None end) (map (renumbered_new f) l) (option_map pF o) =
  option_map pF (fold_left (fun o w => match o with Some G => use_slot track ic p G w | None => None end) l o).
Proof.
  induction l as [|w l IH]; intros o; cbn [map fold_left]; [reflexivity|]. destruct o as [G|]; cbn [option_map].
  - rewrite use_renumbered. apply IH.
  - apply (IH None).
Qed.
Local Notation step := (kstep n P cams frame logm inv front nth_elt ign track ic).
Lemma before_renumbered F ms : before (pF F) (renumbered_meas f ms) = (fst (before F ms), px (snd (before F ms))).
Proof.
  destruct ms; try reflexivity. cbn [renumbered_meas before k_u k_x renumbered]. unfold pre_process.
  destruct (u_did (k_u F)); [reflexivity|]. cbv zeta.
  repeat match goal with |- context [match ?e with _ => _ end] => destruct e; cbn [fst snd]; try reflexivity end.
Qed.
Lemma step_renumbered F o : step (pF F) (renumbered_op f b o) = option_map pF (step F o).
Proof.
  destruct o as [m dt Q|ms Rn k|i|l|i|]; cbn [kstep renumbered_op].
  - cbn [option_map k_x k_P k_used k_u renumbered]. f_equal. apply kf_ext; cbn [k_x k_P k_used k_u renumbered]; try reflexivity.
    + apply predict_renumbered.
    + unfold predict_cov. extensionality s. extensionality t.
      rewrite (cong_renumbered (jac_state n P m (k_x F) dt)), (cong_renumbered (FiltModel.jac_noise n P m (k_x F) dt)); [reflexivity| |].
      * intros; apply noise_renumbered.
      * intros; apply jac_renumbered.
  - replace (concerns (pF F) (renumbered_meas f ms)) with (concerns F ms) by (destruct ms; cbn; rewrite ?bf; reflexivity).
    destruct (concerns F ms); [|reflexivity]. rewrite before_renumbered. destruct (before F ms) as [u x]. cbn [fst snd].
    change (fun _ : seg => v0) with (ptan (fun _ => v0)). cbn [k_P renumbered].
    rewrite (iterate_renumbered inv Rn (k_P F) (linearise cams frame logm ign u ms)) by (intros; apply linearise_renumbered).
    change (ptan (fun _ => v0)) with (fun _ : seg => v0).
    destruct (iterate _ _ _ _ _ _ _ _) as [[d P']|]; cbn [option_map fst snd]; reflexivity.
  - cbn [k_used renumbered]. rewrite bf. destruct (k_used F i); [|reflexivity]. cbn [option_map]. f_equal.
    apply kf_ext; cbn [k_x k_P k_used k_u renumbered]; [reflexivity|apply reset_renumbered|apply used_renumbered|reflexivity].
  - rewrite depths_renumbered. apply (uses_renumbered _ l (Some F)).
  - cbn [k_used renumbered]. rewrite bf. destruct (k_used F i); [|reflexivity]. cbn [option_map]. f_equal.
    apply kf_ext; cbn [k_x k_P k_used k_u renumbered]; try reflexivity. rewrite <- set_fea_renumbered. cbn [x_fea renumbered_state]. now rewrite bf.
  - reflexivity.
Qed.
Lemma run_renumbered l F : krun n P cams frame logm inv front nth_elt ign track ic (pF F) (map (renumbered_op f b) l) =
  option_map pF (krun n P cams frame logm inv front nth_elt ign track ic F l).
Proof.
  unfold krun. change (Some (pF F)) with (option_map pF (Some F)). generalize (Some F). induction l as [|o l IH]; intros a; cbn [map fold_left]; [reflexivity|].
  destruct a as [G|]; cbn [option_map]; [rewrite step_renumbered; apply IH|apply (IH None)].
Qed.
End Run.
End Renumber.
