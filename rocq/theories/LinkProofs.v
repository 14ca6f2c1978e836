(** Proofs about the image update as a sequence of steps of the filter. *)
From Coq Require Import Reals List ZArith QArith Bool Arith Lia Lra.
From Verif Require Import Util Geo Lie DistModel FiltModel OutModel CamModel InnoModel UpdModel CovModel BornModel SlotModel KalSpec.
From Verif Require Import StatModel FsetModel FsetSpec FsetProps ImgModel ImgProofs ImgForce ImgSim LinkModel LinkSpec.
Import ListNotations.
Local Open Scope R_scope.

Lemma played_app a l b m : played a l -> played b m -> played (a ++ b) (l ++ m).
Proof. intros H K. induction H; cbn [app]; try (constructor; auto; fail); [exact K|]. rewrite <- app_assoc. now constructor. Qed.

Section Link.
Context {Patch H : Type}.
Variables (n : dims) (P : FiltModel.params) (cams : nat -> camera) (frame : V3 -> M3) (logm : M3 -> V3) (inv : list (list R) -> list (list R))
  (front : feat -> bool) (nth_elt : list R -> nat -> list R) (ign track : bool) (ic : icfg) (zc : zcfg) (cf : config).
Notation step := (kstep n P cams frame logm inv front nth_elt ign track ic).
Notation krun := (krun n P cams frame logm inv front nth_elt ign track ic).
Notation link := (link n P cams frame logm inv front nth_elt ign track ic zc).
Notation ist := (ist Patch (world H)).

Lemma krun_app F l m : krun F (l ++ m) = match krun F l with Some G => krun G m | None => None end.
Proof.
  unfold SlotModel.krun. rewrite fold_left_app. destruct (fold_left _ l (Some F)) as [G|]; [reflexivity|].
  induction m as [|o m IH]; [reflexivity|]. exact IH.
Qed.
Lemma krun_one F o : krun F [o] = step F o. Proof. reflexivity. Qed.
Lemma krun_snoc F l o : krun F (l ++ [o]) = match krun F l with Some G => step G o | None => None end.
Proof. rewrite krun_app. destruct (krun F l); [apply krun_one|reflexivity]. Qed.
Lemma sound_nil F : sound (krun F) []. Proof. intros [|? ?] o b G E; discriminate. Qed.
Lemma sound_snoc F l o G : sound (krun F) l -> krun F l = Some G -> meaningful G o -> sound (krun F) (l ++ [o]).
Proof.
  intros S E M a o' b G' El Ea. destruct b as [|z b' _] using rev_ind.
  - apply app_inj_tail in El as [-> ->]. rewrite E in Ea. now injection Ea as <-.
  - rewrite app_comm_cons, app_assoc in El. apply app_inj_tail in El as [-> _]. now apply (S a o' b').
Qed.

(** ** what steps do to slots and cameras *)
Definition cam_at (F : kf) (i : nat) : Z := ft_cam (x_fea (k_x F) i).
Lemma before_cam F ms i : ft_cam (x_fea (snd (before F ms)) i) = cam_at F i.
Proof.
  unfold before, UpdModel.pre_process. destruct ms; try reflexivity. destruct (negb _ && _); [|reflexivity]. cbn [snd]. destruct (inertial c); reflexivity.
Qed.
Lemma meas_slots F ms Rn k G : step F (KMeas ms Rn k) = Some G -> k_used G = k_used F /\ forall i, cam_at G i = cam_at F i.
Proof.
  cbn [kstep]. destruct (concerns F ms); [|intros E; injection E as <-; auto]. pose proof (before_cam F ms) as B. destruct (before F ms) as [u x]. cbn [snd] in B.
  destruct (iterate _ _ _ _ _ _ _ _) as [[d P']|]; intros E; injection E as <-; (split; [reflexivity|]); intros i; exact (B i).
Qed.
Lemma predict_slots F m dt Q G : step F (KPredict m dt Q) = Some G -> k_used G = k_used F /\ forall i, cam_at G i = cam_at F i.
Proof.
  cbn [kstep]. intros E. injection E as <-. split; [reflexivity|]. intros i. unfold cam_at. cbn [k_x predict x_fea].
  destruct (i <? d_max n)%nat; [|reflexivity]. unfold predict_fea. destruct (cam_of n (x_fea (k_x F) i)); reflexivity.
Qed.
Lemma free_slots F i G : step F (KFree i) = Some G -> (forall j, k_used G j = k_used F j && negb (j =? i)%nat) /\ k_x G = k_x F.
Proof.
  cbn [kstep]. destruct (k_used F i) eqn:U; intros E; injection E as <-; (split; [|reflexivity]); intros j; cbn [k_used]; destruct (Nat.eqb_spec j i) as [->|]; rewrite ?U; cbn; now rewrite ?andb_true_r, ?andb_false_r.
Qed.
Lemma warp_slots F i G : step F (KWarp i) = Some G -> k_used G = k_used F /\ forall j, cam_at G j = cam_at F j.
Proof.
  cbn [kstep]. destruct (k_used F i); intros E; injection E as <-; (split; [reflexivity|]); intros j; [|reflexivity]. unfold cam_at. cbn [k_x set_fea x_fea].
  destruct (Nat.eqb_spec j i) as [->|]; reflexivity.
Qed.
Lemma motion_slots F G : step F KMotion = Some G -> k_used G = k_used F /\ forall j, cam_at G j = cam_at F j.
Proof. cbn [kstep]. intros E. injection E as <-. split; reflexivity. Qed.
Lemma use_slots p F w G : use_slot track ic p F w = Some G -> k_used F (w_slot w) = false ->
  (forall j, k_used G j = k_used F j || (w_slot w =? j)%nat) /\ cam_at G (w_slot w) = Z.of_nat (w_cam w) /\ (forall j, j <> w_slot w -> x_fea (k_x G) j = x_fea (k_x F) j).
Proof.
  unfold use_slot. intros E U. rewrite U in E. destruct (init_feature _ _ _ _ _ _ _ _ _ _) as [[d|] c]; [|discriminate].
  injection E as <-. cbn [k_used k_x]. split; [|split].
  - intros j. destruct (Nat.eqb_spec j (w_slot w)) as [->|N]; [now rewrite Nat.eqb_refl, orb_true_r|].
    destruct (Nat.eqb_spec (w_slot w) j); [congruence|]. now rewrite orb_false_r.
  - unfold cam_at. cbn [k_x set_fea x_fea]. now rewrite Nat.eqb_refl.
  - intros j N. cbn [set_fea x_fea]. destruct (Nat.eqb_spec j (w_slot w)); [contradiction|reflexivity].
Qed.

(** ** the invariant before features are added *)
Variable s : sight Patch H.
Notation G := (link s).
Lemma in_step_eq (x y : ist) F F' : k_used F' = k_used F -> (forall i, cam_at F' i = cam_at F i) -> i_fs y = i_fs x -> in_step x F -> in_step y F'.
Proof. intros U C E S i. unfold slot_valid, slot_cam. rewrite E, U. fold (cam_at F' i). rewrite C. exact (S i). Qed.
Record at_ (F0 : kf) (l : list kop) (x : ist) (F : kf) : Prop := {
  at_run : krun F0 l = Some F;
  at_w : w_F (i_w x) = Some F;
  at_med : w_med (i_w x) = None;
  at_in : in_step x F;
  at_sound : sound (krun F0) l;
  at_log : played (rev (i_log x)) l }.
Lemma at_same F0 l x y F : i_fs y = i_fs x -> i_w y = i_w x -> i_log y = i_log x -> at_ F0 l x F -> at_ F0 l y F.
Proof. intros A B C [H1 H2 H3 H4 H5 H6]. constructor; rewrite ?B, ?C; auto. revert H4. apply in_step_eq; auto. Qed.
Lemma at_silent F0 l x F e : (forall es l', played es l' -> played (e :: es) l') -> at_ F0 l x F -> at_ F0 l (emit e x) F.
Proof.
  intros E [H1 H2 H3 H4 H5 H6]. constructor; auto; cbn [emit i_log rev]. rewrite <- (app_nil_r l). apply played_app; [exact H6|]. apply E. constructor.
Qed.

(** removal of a feature *)
Lemma at_remove F0 l x F i : at_ F0 l x F -> slot_valid x i = true -> exists F', at_ F0 (l ++ [KFree i]) (remove G i x) F'.
Proof.
  intros [H1 H2 H3 H4 H5 H6] V. destruct (step F (KFree i)) as [F'|] eqn:E; [|cbn [kstep] in E; destruct (k_used F i); discriminate].
  pose proof (free_slots _ _ _ E) as [U X]. exists F'. constructor.
  - now rewrite krun_snoc, H1.
  - unfold remove. cbn [emit with_w with_fs i_w g_drop LinkModel.link]. unfold act. rewrite H2. exact E.
  - unfold remove. cbn [emit with_w with_fs i_w g_drop LinkModel.link]. unfold act. rewrite H2. exact H3.
  - intros j. rewrite valid_remove, cam_remove, U, X, (proj1 (H4 j)). split; [reflexivity|]. intros Vj. apply andb_true_iff in Vj as [Vj _]. exact (proj2 (H4 j) Vj).
  - apply (sound_snoc F0 l _ F); auto. cbn [meaningful]. rewrite (proj1 (H4 i)). exact V.
  - cbn [remove emit i_log rev]. apply played_app; [exact H6|]. constructor. constructor.
Qed.
(** a run of removals over a list of slots *)
Definition reached (Q : kop -> Prop) F0 l (y : ist) : Prop := exists l' F', at_ F0 (l ++ l') y F' /\ Forall Q l'.
Lemma reached_refl Q F0 l x F : at_ F0 l x F -> reached Q F0 l x.
Proof. intros A. exists [], F. rewrite app_nil_r. split; [exact A|constructor]. Qed.
Lemma reached_trans Q F0 l y z : reached Q F0 l y -> (forall l' F', at_ F0 l' y F' -> reached Q F0 l' z) -> reached Q F0 l z.
Proof.
  intros (l1 & F1 & A & Q1) K. destruct (K _ _ A) as (l2 & F2 & B & Q2). exists (l1 ++ l2), F2. rewrite app_assoc. split; [exact B|]. apply Forall_app; auto.
Qed.
Lemma reached_weaken (Q Q' : kop -> Prop) F0 l y : (forall o, Q o -> Q' o) -> reached Q F0 l y -> reached Q' F0 l y.
Proof. intros W (l' & F' & A & B). exists l', F'. split; [exact A|]. eapply Forall_impl; eauto. Qed.
Definition is_free (o : kop) : Prop := exists i, o = KFree i.
Definition is_warp (o : kop) : Prop := exists i, o = KWarp i.
Lemma free_uf o : is_free o -> update_or_free s o. Proof. intros [i ->]. exact I. Qed.
Lemma reached_remove F0 l x F i : at_ F0 l x F -> slot_valid x i = true -> reached is_free F0 l (remove G i x).
Proof. intros A V. destruct (at_remove _ _ _ _ _ A V) as [F' B]. exists [KFree i], F'. split; [exact B|]. constructor; [now exists i|constructor]. Qed.
Lemma reached_fold {A} Q (f : ist -> A -> ist) F0 : (forall l y F a, at_ F0 l y F -> reached Q F0 l (f y a)) ->
  forall ls l x F, at_ F0 l x F -> reached Q F0 l (fold_left f ls x).
Proof.
  intros K ls. induction ls as [|a ls IH]; intros l x F B; [now apply (reached_refl _ _ _ _ F)|]. cbn [fold_left].
  apply (reached_trans _ _ _ (f x a)); [now apply (K l x F)|]. intros l' F' B'. now apply (IH l' _ F').
Qed.
Lemma reached_negative F0 l x F : at_ F0 l x F -> reached is_free F0 l (remove_negative cf G x).
Proof.
  intros A. unfold remove_negative. destruct (c_rmneg cf); [|now apply (reached_refl _ _ _ _ F)]. apply (reached_fold _ _ _) with (F := F); [|exact A].
  intros l' y F' i B. destruct (slot_valid y i) eqn:V; cbn [andb]; [|now apply (reached_refl _ _ _ _ F')].
  destruct (g_negative G (i_w y) i); [|now apply (reached_refl _ _ _ _ F')]. now apply (reached_remove _ _ _ F').
Qed.
Lemma reached_bad F0 l x F : at_ F0 l x F -> reached is_free F0 l (remove_bad cf G x).
Proof.
  intros A. unfold remove_bad. apply (reached_fold _ _ _) with (F := F); [|exact A].
  intros l' y F' i B. destruct (slot_valid y i) eqn:V; cbn [andb]; [|now apply (reached_refl _ _ _ _ F')].
  destruct (negb _); [|now apply (reached_refl _ _ _ _ F')]. now apply (reached_remove _ _ _ F').
Qed.
Lemma reached_force F0 fuel : forall req fac i x y l F, at_ F0 l x F -> force cf G fuel req fac i x = Ok y -> reached is_free F0 l y.
Proof.
  induction fuel as [|k IH]; intros req fac i x y l F A; cbn [force]; (destruct (enough req x); [intros E; injection E as <-; now apply (reached_refl _ _ _ _ F)|]); [discriminate|].
  intros E. assert (R : reached is_free F0 l (force_one cf G fac i x)).
  { unfold force_one. destruct (slot_valid x i) eqn:V; cbn [andb]; [|now apply (reached_refl _ _ _ _ F)].
    destruct (negb _ && negb _); [|now apply (reached_refl _ _ _ _ F)]. now apply (reached_remove _ _ _ F). }
  apply (reached_trans _ _ _ _ _ R). intros l' F' B. destruct (S i =? nmax x)%nat; exact (IH _ _ _ _ _ _ _ B E).
Qed.
Lemma reached_prune F0 fuel tr x y l F : at_ F0 l x F -> prune cf G fuel tr x = Ok y -> reached is_free F0 l y.
Proof.
  intros A. unfold prune. destruct (required_free _ _ _); [|discriminate]. intros E. apply (reached_trans _ _ _ (remove_bad cf G x)); [now apply (reached_bad _ _ _ F)|].
  intros l' F' B. exact (reached_force _ _ _ _ _ _ _ _ _ B E).
Qed.
Lemma reached_repatch F0 l x F i : at_ F0 l x F -> reached is_warp F0 l (repatch G x i).
Proof.
  intros A. pose proof A as [H1 H2 H3 H4 H5 H6]. unfold repatch. destruct (slot_valid x i) eqn:V; cbn [andb]; [|now apply (reached_refl _ _ _ _ F)].
  destruct (tstatus_eqb _ _); [|now apply (reached_refl _ _ _ _ F)].
  destruct (g_repatch G (i_w x) i) as [p|]; [|now apply (reached_refl _ _ _ _ F)].
  destruct (step F (KWarp i)) as [F'|] eqn:E; [|cbn [kstep] in E; destruct (k_used F i); discriminate].
  pose proof (warp_slots _ _ _ E) as [U X]. exists [KWarp i], F'. split; [|constructor; [now exists i|constructor]]. constructor.
  - now rewrite krun_snoc, H1.
  - cbn [with_w with_fs i_w g_patched LinkModel.link]. unfold act. rewrite H2. exact E.
  - cbn [with_w with_fs i_w g_patched LinkModel.link]. unfold act. rewrite H2. exact H3.
  - intros j. unfold slot_valid, slot_cam. cbn [with_w with_fs i_fs fs_slots]. rewrite U. fold (cam_at F' j). rewrite X. specialize (H4 j). unfold slot_valid, slot_cam in H4.
    destruct (Nat.eq_dec j i) as [->|N]; [rewrite nth_error_upd_nth_eq|rewrite nth_error_upd_nth_ne by auto]; [|exact H4].
    destruct (nth_error (fs_slots (i_fs x)) i); [|exact H4]. exact H4.
  - apply (sound_snoc F0 l _ F); auto. cbn [meaningful]. rewrite (proj1 (H4 i)). exact V.
  - cbn [with_w with_fs i_log]. rewrite <- (app_nil_r (rev _)). apply played_app; [exact H6|]. constructor. constructor.
Qed.

(** ** visits *)
Lemma at_put F0 l x F i c st : at_ F0 l x F -> at_ F0 l (put_status i c st x) F.
Proof. apply at_same; reflexivity. Qed.
Lemma at_advance F0 l x F : at_ F0 l x F -> at_ F0 l (advance cf x) F.
Proof. destruct (advance_fields cf x) as (A & _ & B & C). now apply at_same. Qed.
Lemma at_round F0 l x F t : at_ F0 l x F -> at_ F0 l (snd (pre_round cf G t x)) F /\
  (fst (pre_round cf G t x) = true -> slot_valid (snd (pre_round cf G t x)) (i_id (snd (pre_round cf G t x))) = true).
Proof.
  intros A. unfold pre_round. destruct (slot_valid x (i_id x)) eqn:V; [|split; [exact A|discriminate]].
  set (x1 := if (i_cc x =? 0)%nat then _ else x).
  assert (B : at_ F0 l x1 F /\ i_fs x1 = i_fs x /\ i_id x1 = i_id x).
  { unfold x1. destruct (i_cc x =? 0)%nat; [|auto]. split; [|split; reflexivity]. apply at_silent; [intros; now constructor|]. revert A. apply at_same; reflexivity. }
  destruct B as (B & B1 & B2). assert (C : at_ F0 l (emit (EvVisit (i_id x) (active cf x)) x1) F) by (apply at_silent; [intros; now constructor|exact B]).
  destruct (g_pre G (i_w x) (i_id x) (active cf x)); cbn [fst snd]; (split; [|try discriminate]).
  1-2: now apply at_put.
  - exact C.
  - intros _. cbn [emit i_id]. rewrite B2. unfold slot_valid in *. cbn [emit i_fs]. now rewrite B1.
Qed.
Lemma at_pre F0 fuel t : forall l x F b y, at_ F0 l x F -> pre_process cf G fuel t x = Ok (b, y) -> at_ F0 l y F /\ (b = true -> slot_valid y (i_id y) = true).
Proof.
  induction fuel as [|k IH]; intros l x F b y A; cbn [pre_process]; (destruct (i_id x <? nmax x)%nat; [|intros E; injection E as <- <-; split; [exact A|discriminate]]); [discriminate|].
  destruct (at_round F0 l x F t A) as [B V]. destruct (pre_round cf G t x) as [[] z]; cbn [fst snd] in *.
  - intros E. injection E as <- <-. auto.
  - intros E. apply (IH l (advance cf z) F b y); [now apply at_advance|exact E].
Qed.
Lemma reached_measure F0 l y F i c : at_ F0 l y F -> slot_valid y i = true -> 
  reached (update_or_free s) F0 l (emit (EvUpdate i c) (with_w (g_update G (i_w y) i c) y)).
Proof.
  intros A V. pose proof A as [H1 H2 H3 H4 H5 H6]. cbn [g_update LinkModel.link]. unfold measure, act. rewrite H2.
  destruct (s_meas s F (w_h (i_w y)) i c) as [[[m Rn] k]|] eqn:M.
  - destruct (step F (KMeas (meas_of i c m) Rn k)) as [F'|] eqn:E.
    2: { exfalso. cbn [kstep] in E. destruct (concerns _ _); [|discriminate]. destruct (before _ _). destruct (iterate _ _ _ _ _ _ _ _) as [[? ?]|]; discriminate. }
    pose proof (meas_slots _ _ _ _ _ E) as [U X]. exists [KMeas (meas_of i c m) Rn k], F'. split.
    + constructor.
      * now rewrite krun_snoc, H1.
      * reflexivity.
      * exact H3.
      * revert H4. apply in_step_eq; auto.
      * apply (sound_snoc F0 l _ F); auto. cbn [meaningful]. unfold meas_of. destruct (snd m); cbn [concerns]; now rewrite (proj1 (H4 i)).
      * cbn [emit with_w i_log rev]. apply played_app; [exact H6|]. constructor; [|constructor]. unfold meas_of. destruct (snd m); split; reflexivity.
    + constructor; [|constructor]. destruct m as [d m]. exists F, (w_h (i_w y)), i, c, d, m. split; [exact M|]. now destruct m.
  - exists [], F. rewrite app_nil_r. split; [|constructor]. constructor; auto.
    cbn [emit with_w i_log rev]. rewrite <- (app_nil_r l). apply played_app; [exact H6|]. apply pl_rejected. constructor.
Qed.
Lemma reached_post F0 l x F : at_ F0 l x F -> reached is_free F0 l (post_process cf G x).
Proof.
  intros A. unfold post_process. destruct (reached_negative F0 l x F A) as (l' & F' & B & Q). exists l', F'. split; [|exact Q]. apply at_advance.
  destruct (slot_valid _ _); [now apply at_put|exact B].
Qed.
Lemma reached_drive F0 fuel t : forall l x F y, at_ F0 l x F -> drive cf G fuel t x = Ok y -> reached (update_or_free s) F0 l y.
Proof.
  induction fuel as [|k IH]; intros l x F y A; cbn [drive].
  all: destruct (pre_process cf G _ t x) as [[b z]| |] eqn:Ep; cbn [rbind]; try discriminate; destruct (at_pre _ _ _ _ _ _ _ _ A Ep) as [B V]; cbn [fst snd].
  - destruct b; [discriminate|]. intros E. injection E as <-. now apply (reached_refl _ _ _ _ F).
  - destruct b; [|intros E; injection E as <-; now apply (reached_refl _ _ _ _ F)].
    intros E. eapply reached_trans; [apply (reached_measure F0 l z F (i_id z) (active cf z) B (V eq_refl))|]. intros l' F' C.
    eapply reached_trans; [apply (reached_weaken _ _ _ _ _ free_uf), (reached_post F0 l' _ F' C)|]. intros l'' F'' D. exact (IH _ _ _ _ D E).
Qed.

(** ** addition *)
Definition uses p (ws : list newf) (F : kf) : option kf := fold_left (fun o w => match o with Some K => use_slot track ic p K w | None => None end) ws (Some F).
Lemma uses_snoc p ws w F : uses p (ws ++ [w]) F = match uses p ws F with Some K => use_slot track ic p K w | None => None end.
Proof. unfold uses. now rewrite fold_left_app. Qed.
Lemma uses_step F ws : step F (KUse ws) = uses (depths n frame front nth_elt ic F) ws F. Proof. reflexivity. Qed.
Record adding (F : kf) (log : list ev) (ws : list newf) (x : ist) : Prop := {
  ad_w : w_F (i_w x) = uses (depths n frame front nth_elt ic F) ws F;
  ad_med : w_med (i_w x) = Some (depths n frame front nth_elt ic F) \/ (ws = [] /\ w_med (i_w x) = None);
  ad_nd : NoDup (map w_slot ws);
  ad_free : Forall (fun w => k_used F (w_slot w) = false) ws;
  ad_slots : forall K, w_F (i_w x) = Some K -> (forall i, k_used K i = k_used F i || existsb (fun w => w_slot w =? i)%nat ws) /\
    (forall w, In w ws -> cam_at K (w_slot w) = Z.of_nat (w_cam w)) /\ (forall i, ~ In i (map w_slot ws) -> x_fea (k_x K) i = x_fea (k_x F) i);
  ad_log : rev (i_log x) = log ++ map (fun w => EvNew (w_slot w) (w_cam w)) ws }.
Lemma existsb_slot ws i : existsb (fun w => w_slot w =? i)%nat ws = true <-> In i (map w_slot ws).
Proof.
  rewrite existsb_exists, in_map_iff. split; [intros (w & J & E); apply Nat.eqb_eq in E; exists w; auto|intros (w & E & J); exists w; split; [exact J|now apply Nat.eqb_eq]].
Qed.
Lemma adding_one F log ws x t cam i : adding F log ws x -> ~ In i (map w_slot ws) -> k_used F i = false ->
  exists w, w_slot w = i /\ w_cam w = cam /\ adding F log (ws ++ [w]) (init_new G t cam x i).
Proof.
  intros [A1 A2 A3 A4 A5 A6] N U. set (p := depths n frame front nth_elt ic F) in *.
  set (w := match w_F (i_w x) with Some K => new_of s K (w_h (i_w x)) i cam | None => {| w_slot := i; w_cam := cam; w_Q := m1; w_type := REGULAR; w_seen := None |} end).
  assert (Ws : w_slot w = i /\ w_cam w = cam). { unfold w. destruct (w_F (i_w x)); [|auto]. unfold new_of. destruct (s_new _ _ _ _ _) as [[? ?] ?]. auto. }
  destruct Ws as [Ws Wc]. exists w. split; [exact Ws|]. split; [exact Wc|].
  assert (ND : NoDup (map w_slot (ws ++ [w]))).
  { rewrite map_app. cbn [map]. rewrite Ws. apply NoDup_rev in A3. rewrite <- (rev_involutive (map w_slot ws ++ [i])). apply NoDup_rev. rewrite rev_app_distr. cbn [rev app]. constructor; [now rewrite <- in_rev|exact A3]. }
  assert (FR : Forall (fun w => k_used F (w_slot w) = false) (ws ++ [w])). { apply Forall_app. split; [exact A4|]. constructor; [now rewrite Ws|constructor]. }
  assert (W : i_w (init_new G t cam x i) = create n frame front nth_elt track ic s (i_w x) i cam) by reflexivity.
  assert (L : rev (i_log (init_new G t cam x i)) = log ++ map (fun w => EvNew (w_slot w) (w_cam w)) (ws ++ [w])).
  { change (i_log (init_new G t cam x i)) with (EvNew i cam :: i_log x). cbn [rev]. rewrite A6, map_app. cbn [map]. rewrite Ws, Wc. now rewrite app_assoc. }
  destruct (w_F (i_w x)) as [K|] eqn:EK.
  - assert (Q : (match w_med (i_w x) with Some q => q | None => depths n frame front nth_elt ic K end) = p).
    { destruct A2 as [->|[-> ->]]; [reflexivity|]. cbn in A1. injection A1 as ->. reflexivity. }
    assert (WF : w_F (i_w (init_new G t cam x i)) = use_slot track ic p K w). { rewrite W. unfold create. rewrite EK, Q. reflexivity. }
    destruct (A5 K eq_refl) as (B1 & B2 & B3).
    constructor; auto.
    + rewrite WF. fold p. rewrite uses_snoc, <- A1. reflexivity.
    + left. rewrite W. unfold create. rewrite EK, Q. reflexivity.
    + intros K' E. rewrite WF in E. assert (UK : k_used K (w_slot w) = false).
      { rewrite Ws, B1, U. cbn [orb]. destruct (existsb _ ws) eqn:X; [|reflexivity]. apply existsb_slot in X. contradiction. }
      destruct (use_slots _ _ _ _ E UK) as (C1 & C2 & C3). split; [|split].
      * intros j. rewrite C1, B1, existsb_app. cbn [existsb]. now rewrite orb_false_r, orb_assoc.
      * intros v J. apply in_app_or in J as [J|[<-|[]]]; [|exact C2]. unfold cam_at. rewrite C3; [now apply B2|].
        intros Ev. apply N. rewrite <- Ws, <- Ev. now apply in_map.
      * intros j Nj. rewrite map_app in Nj. rewrite C3, B3; [reflexivity| |]; intros Z; apply Nj, in_or_app; [left; exact Z|right; left; now rewrite Z].
  - assert (WF : i_w (init_new G t cam x i) = i_w x). { rewrite W. unfold create. now rewrite EK. }
    constructor; auto.
    + rewrite WF, EK. fold p. rewrite uses_snoc, <- A1. reflexivity.
    + left. rewrite WF. destruct A2 as [->|[-> _]]; [reflexivity|]. discriminate.
    + intros K' E. rewrite WF, EK in E. discriminate.
Qed.
Lemma adding_list F log t cam l : forall ws x, adding F log ws x -> NoDup l -> (forall i, In i l -> ~ In i (map w_slot ws) /\ k_used F i = false) ->
  exists ws', map w_slot ws' = l /\ (forall w, In w ws' -> w_cam w = cam) /\ adding F log (ws ++ ws') (fold_left (init_new G t cam) l x).
Proof.
  induction l as [|i l IH]; intros ws x A ND FR; [exists []; rewrite app_nil_r; split; [reflexivity|]; split; [intros w []|exact A]|].
  inversion ND as [|? ? Ni ND']; subst. destruct (FR i (or_introl eq_refl)) as [N U]. destruct (adding_one F log ws x t cam i A N U) as (w & Ws & Wc & B).
  destruct (IH (ws ++ [w]) _ B ND') as (ws' & E & C & D).
  { intros j J. destruct (FR j (or_intror J)) as [Nj Uj]. split; [|exact Uj]. rewrite map_app. cbn [map]. intros Z. apply in_app_or in Z as [Z|[Z|[]]]; [contradiction|]. rewrite Ws in Z. rewrite <- Z in J. contradiction. }
  exists (w :: ws'). cbn [map fold_left]. rewrite Ws, E. split; [reflexivity|]. split; [intros v [<-|J]; auto|]. now rewrite <- app_assoc in D.
Qed.
Definition filled (x1 x : ist) (ws : list newf) : Prop :=
  (forall i, slot_valid x i = slot_valid x1 i || existsb (fun w => w_slot w =? i)%nat ws) /\
  (forall w, In w ws -> slot_cam x (w_slot w) = w_cam w) /\
  (forall i, ~ In i (map w_slot ws) -> slot_cam x i = slot_cam x1 i).
Lemma fold_init_fs t cam l : forall x : ist, i_fs (fold_left (init_new G t cam) l x) = i_fs x.
Proof. induction l as [|i l IH]; intros x; [reflexivity|]. cbn [fold_left]. now rewrite IH. Qed.
Lemma filled_camera x1 F log t cam x y ws : in_step x1 F -> adding F log ws x -> filled x1 x ws -> add_camera cf G t (Ok x) cam = Ok y ->
  exists ws', adding F log (ws ++ ws') y /\ filled x1 y (ws ++ ws').
Proof.
  intros S A (V1 & V2 & V3) E. unfold add_camera in E. cbn [rbind] in E.
  destruct (add_best _ _ _ _ (i_fs x)) as [[fs' news]| |] eqn:EA; cbn [rbind fst snd] in E; try discriminate. injection E as <-.
  destruct (C06_budget_and_capacity_respected _ _ _ _ _ _ _ _ EA) as (_ & _ & _ & ND & I5 & I6 & _).
  assert (A' : adding F log ws (with_fs fs' x)) by (destruct A; constructor; auto).
  assert (FV : forall i, In i (map fst news) -> slot_valid x i = false). { intros i J. apply I5 in J as [[f Hf] _]. unfold slot_valid. now rewrite Hf. }
  destruct (adding_list F log t cam (map fst news) ws _ A' ND) as (ws' & E1 & E2 & B).
  { intros i J. pose proof (FV i J) as W. rewrite V1 in W. apply orb_false_iff in W as [W1 W2]. split; [|rewrite (proj1 (S i)); exact W1].
    intros Z. apply existsb_slot in Z. congruence. }
  exists ws'. split; [exact B|]. set (y := fold_left _ _ _) in *.
  assert (Y : i_fs y = fs') by (unfold y; now rewrite fold_init_fs).
  assert (NEW : forall i, In i (map fst news) -> exists f, live fs' i f /\ f_cam f = Z.of_nat cam).
  { intros i J. apply in_map_iff in J as ([i' c] & <- & J). apply In_nth_error in J as [k Hk].
    destruct (C06_added_feature_is_the_candidate _ _ _ _ _ _ _ _ _ _ _ EA Hk) as (cd & _ & Lv). eexists. split; [exact Lv|]. reflexivity. }
  split; [|split].
  - intros i. rewrite existsb_app, orb_assoc, <- V1. destruct (existsb (fun w => w_slot w =? i)%nat ws') eqn:X.
    + apply existsb_slot in X. rewrite E1 in X. destruct (NEW i X) as (f & Lv & _). rewrite orb_true_r. unfold slot_valid. rewrite Y. unfold live in Lv. now rewrite Lv.
    + rewrite orb_false_r. unfold slot_valid. rewrite Y, I6; [reflexivity|]. intros J. rewrite <- E1 in J. apply existsb_slot in J. congruence.
  - intros w J. apply in_app_or in J as [J|J].
    + rewrite <- (V2 w J). unfold slot_cam. rewrite Y, I6; [reflexivity|]. intros Z. apply FV in Z. rewrite V1 in Z. apply orb_false_iff in Z as [_ Z].
      assert (T : existsb (fun v => w_slot v =? w_slot w)%nat ws = true) by (apply existsb_slot; now apply in_map). congruence.
    + rewrite (E2 w J). destruct (NEW (w_slot w)) as (f & Lv & C); [rewrite <- E1; now apply in_map|]. unfold slot_cam. rewrite Y. unfold live in Lv. rewrite Lv. cbn [sl_feat]. rewrite C. apply Nat2Z.id.
  - intros i N. rewrite map_app in N. rewrite <- V3 by (intros Z; apply N, in_or_app; now left). unfold slot_cam. rewrite Y, I6; [reflexivity|]. rewrite <- E1. intros Z. apply N, in_or_app. now right.
Qed.
Lemma add_camera_ok_only t r cam y : add_camera cf G t r cam = Ok y -> exists x, r = Ok x. Proof. destruct r; try discriminate. eauto. Qed.
Lemma fold_camera_ok t cs : forall r y, fold_left (add_camera cf G t) cs r = Ok y -> exists x, r = Ok x.
Proof. induction cs as [|c cs IH]; intros r y E; [eauto|]. cbn [fold_left] in E. apply IH in E as [z E]. exact (add_camera_ok_only _ _ _ _ E). Qed.
Lemma filled_fold x1 F log t cs : in_step x1 F -> forall ws x y, adding F log ws x -> filled x1 x ws -> fold_left (add_camera cf G t) cs (Ok x) = Ok y ->
  exists ws', adding F log (ws ++ ws') y /\ filled x1 y (ws ++ ws').
Proof.
  intros S. induction cs as [|c cs IH]; intros ws x y A V E; cbn [fold_left] in E; [injection E as <-; exists []; now rewrite app_nil_r|].
  destruct (fold_camera_ok _ _ _ _ E) as [z Ez]. rewrite Ez in E. destruct (filled_camera _ _ _ _ _ _ _ _ S A V Ez) as (w1 & A1 & V1).
  destruct (IH _ _ _ A1 V1 E) as (w2 & A2 & V2). exists (w1 ++ w2). now rewrite app_assoc.
Qed.
Lemma filled_in_step x1 F log ws y K : in_step x1 F -> adding F log ws y -> filled x1 y ws -> w_F (i_w y) = Some K -> in_step y K.
Proof.
  intros S [_ _ _ _ A5 _] (V1 & V2 & V3) E i. destruct (A5 K E) as (B1 & B2 & B3). rewrite B1, V1, (proj1 (S i)). split; [reflexivity|]. intros T.
  destruct (in_dec Nat.eq_dec i (map w_slot ws)) as [J|N].
  - apply in_map_iff in J as (w & <- & J). fold (cam_at K (w_slot w)). rewrite (B2 w J), (V2 w J). apply Nat2Z.id.
  - rewrite (B3 i N), (V3 i N). apply (proj2 (S i)). apply orb_true_iff in T as [T|T]; [exact T|]. apply existsb_slot in T. contradiction.
Qed.
Lemma add_all F t x y : w_F (i_w x) = Some F -> w_med (i_w x) = None -> in_step x F -> add_features cf G t x = Ok y ->
  exists ws, w_F (i_w y) = step F (KUse ws) /\ meaningful F (KUse ws) /\ rev (i_log y) = rev (i_log x) ++ map (fun w => EvNew (w_slot w) (w_cam w)) ws /\
    forall K, w_F (i_w y) = Some K -> in_step y K.
Proof.
  intros HF HM S E. assert (A : adding F (rev (i_log x)) [] x).
  { constructor; auto.
    - constructor.
    - intros K EK. rewrite HF in EK. injection EK as <-. split; [intros i; cbn; now rewrite orb_false_r|]. split; [intros w []|reflexivity].
    - now rewrite app_nil_r. }
  assert (V : filled x x []). { split; [intros i; now rewrite orb_false_r|]. split; [intros w []|reflexivity]. }
  assert (R : exists ws, adding F (rev (i_log x)) ws y /\ filled x y ws).
  { unfold add_features in E. destruct (Qltb _ _); [exact (filled_fold _ _ _ _ _ S [] x y A V E)|]. injection E as <-. now exists []. }
  destruct R as (ws & B & W). exists ws. split; [rewrite uses_step; apply (ad_w _ _ _ _ B)|]. split; [split; [apply (ad_nd _ _ _ _ B)|apply (ad_free _ _ _ _ B)]|].
  split; [apply (ad_log _ _ _ _ B)|]. intros K. exact (filled_in_step _ _ _ _ _ _ S B W).
Qed.

(** ** the image update *)
Definition motion_steps (F : kf) (h : H) : list kop := if z_detect zc && s_moving s F h then [KMotion] else [].
Definition zero_steps (F : kf) : list kop := if still zc F then [KMeas MZero (z_noise zc) 0] else [].
Lemma at_begin F x : w_F (i_w x) = Some F -> in_step x F -> exists F', at_ F (motion_steps F (w_h (i_w x))) (begin_update G x) F'.
Proof.
  intros HF S. unfold motion_steps. destruct (z_detect zc && s_moving s F (w_h (i_w x))) eqn:M.
  - destruct (step F KMotion) as [F'|] eqn:E; [|discriminate]. destruct (motion_slots _ _ E) as [U X]. exists F'. constructor.
    + exact E.
    + cbn [begin_update i_w g_begin LinkModel.link]. unfold start, act. rewrite HF. cbn [w_F]. rewrite M. exact E.
    + reflexivity.
    + revert S. apply in_step_eq; auto.
    + apply (sound_snoc F [] _ F); [apply sound_nil|reflexivity|exact I].
    + cbn. constructor. constructor.
  - exists F. constructor; try reflexivity.
    + cbn [begin_update i_w g_begin LinkModel.link]. unfold start, act. rewrite HF. cbn [w_F]. now rewrite M.
    + exact S.
    + apply sound_nil.
    + constructor.
Qed.
Lemma frees_list l : Forall is_free l -> exists js, l = map KFree js.
Proof. induction 1 as [|o l [i ->] _ [js ->]]; [now exists []|now exists (i :: js)]. Qed.
Lemma warps_list l : Forall is_warp l -> exists js, l = map KWarp js.
Proof. induction 1 as [|o l [i ->] _ [js ->]]; [now exists []|now exists (i :: js)]. Qed.
Lemma update_steps fuel t x y F : w_F (i_w x) = Some F -> in_step x F -> image_update cf G fuel t x = Ok y ->
  exists updates warps frees news, let m := motion_steps F (w_h (i_w x)) in
    let l := m ++ updates ++ map KWarp warps ++ map KFree frees ++ [KUse news] in
    let z := match krun F l with Some K => zero_steps K | None => [] end in
    w_F (i_w y) = krun F (l ++ z) /\ Forall (update_or_free s) updates /\ sound (krun F) (l ++ z) /\ played (rev (i_log y)) (l ++ z) /\
    forall K, w_F (i_w y) = Some K -> in_step y K.
Proof.
  intros HF S E. destruct (at_begin F x HF S) as (F1 & A1). unfold image_update in E.
  destruct (drive cf G fuel t (begin_update G x)) as [x2| |] eqn:E2; cbn [rbind] in E; try discriminate.
  destruct (reached_drive F fuel t _ _ _ _ A1 E2) as (updates & F2 & A2 & Q2).
  unfold common_post in E.
  destruct (reached_fold is_warp (repatch G) F (fun l y F' i B => reached_repatch F l y F' i B) (seq 0 (nmax x2)) _ _ _ A2) as (ws & F3 & A3 & Q3).
  set (x3 := fold_left (repatch G) (seq 0 (nmax x2)) x2) in *.
  destruct (prune cf G fuel _ x3) as [x4| |] eqn:E4; cbn [rbind] in E; try discriminate.
  destruct (reached_prune F _ _ _ _ _ _ A3 E4) as (fs & F4 & A4 & Q4).
  destruct (add_features cf G t x4) as [x5| |] eqn:E5; cbn [rbind] in E; try discriminate. injection E as <-.
  destruct (warps_list _ Q3) as [warps ->]. destruct (frees_list _ Q4) as [frees ->]. destruct A4 as [H1 H2 H3 H4 H5 H6].
  destruct (add_all F4 t x4 x5 H2 H3 H4 E5) as (news & N1 & N2 & N3 & N4).
  exists updates, warps, frees, news. cbv zeta. set (m := motion_steps F (w_h (i_w x))) in *.
  assert (L : m ++ updates ++ map KWarp warps ++ map KFree frees ++ [KUse news] = (((m ++ updates) ++ map KWarp warps) ++ map KFree frees) ++ [KUse news]) by (now rewrite !app_assoc).
  rewrite L. set (l4 := ((m ++ updates) ++ map KWarp warps) ++ map KFree frees) in *.
  assert (R : krun F (l4 ++ [KUse news]) = w_F (i_w x5)) by (rewrite krun_snoc, H1; symmetry; exact N1). rewrite R.
  assert (SL : sound (krun F) (l4 ++ [KUse news])) by (apply (sound_snoc F l4 _ F4); auto).
  assert (PL : played (rev (i_log x5)) (l4 ++ [KUse news])).
  { rewrite N3. apply played_app; [exact H6|]. rewrite <- (app_nil_r (map _ news)). constructor. constructor. }
  cbn [with_w i_w i_log g_end LinkModel.link]. unfold finish, act.
  destruct (w_F (i_w x5)) as [K|] eqn:EK.
  - unfold zero_steps. cbn [w_F]. destruct (still zc K) eqn:Z.
    + rewrite krun_snoc, R. split; [reflexivity|]. split; [exact Q2|]. split; [apply (sound_snoc F _ _ K); [exact SL|exact R|reflexivity]|]. split.
      * rewrite <- (app_nil_r (rev _)). apply played_app; [exact PL|]. constructor. constructor.
      * intros K' E'. destruct (meas_slots _ _ _ _ _ E') as [U X]. specialize (N4 K eq_refl). revert N4. apply in_step_eq; auto.
    + rewrite app_nil_r, R. split; [reflexivity|]. split; [exact Q2|]. split; [exact SL|]. split; [exact PL|]. intros K' E'. injection E' as <-. specialize (N4 K eq_refl). exact N4.
  - rewrite app_nil_r, R, EK. split; [reflexivity|]. split; [exact Q2|]. split; [exact SL|]. split; [exact PL|]. discriminate.
Qed.
Lemma none_stays fuel t x y : w_F (i_w x) = None -> image_update cf G fuel t x = Ok y -> w_F (i_w y) = None.
Proof.
  intros N E. pose proof (same_update cf G G (fun a b => a = b /\ w_F a = None) (fun _ _ => True)) as K.
  assert (AL : alike G G (fun a b : world H => a = b /\ w_F a = None) (fun _ _ => True)).
  { constructor; intros; auto; try (destruct H0 as [-> Z]; try split; try reflexivity; cbn [LinkModel.link g_begin g_update g_drop g_patched g_new g_end]; unfold start, measure, create, finish, act; rewrite Z; reflexivity || exact Z). }
  specialize (K AL t fuel x x). assert (T : tied (fun a b : world H => a = b /\ w_F a = None) (fun _ _ => True) x x) by (constructor; auto; constructor; auto).
  specialize (K T). rewrite E in K. inversion K as [a b [_ _ _ _ _ [_ Q]]| |]; subst. exact Q.
Qed.
End Link.
