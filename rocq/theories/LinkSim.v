(** Relations between filters that images cannot tell apart carry over to whole histories. *)
From Coq Require Import Reals List ZArith QArith Bool Arith Lia Lra.
From Verif Require Import Util Geo Lie DistModel FiltModel OutModel CamModel InnoModel UpdModel CovModel BornModel SlotModel KalSpec.
From Verif Require Import StatModel FsetModel ImgModel ImgProofs ImgSim LinkModel LinkSpec LinkProofs.
Import ListNotations.
Local Open Scope R_scope.

(** either both are not a number or related *)
Definition both (E : kf -> kf -> Prop) (a b : option kf) : Prop :=
  match a, b with Some F, Some G => E F G | None, None => True | _, _ => False end.
(** the operation of the filter an event other than an image is *)
Definition op_of {Patch H} (e : event Patch H) : option kop :=
  match e with VImu m dt Q => Some (KPredict m dt Q) | VPose c m Rn k => Some (KMeas (MPose c m) Rn k) | VVel q v Rn k => Some (KMeas (MVel q v) Rn k) | VImage _ _ => None end.
Definition image_op (o : kop) : Prop :=
  match o with KMotion | KFree _ | KWarp _ | KMeas (MPix _ _ _ _) _ _ | KMeas (MDirect _ _ _ _) _ _ | KMeas MZero _ _ => True | _ => False end.

Section Lift.
Context {Patch H : Type}.
Variables (n : dims) (P : FiltModel.params) (cams : nat -> camera) (frame : V3 -> M3) (logm : M3 -> V3) (inv : list (list R) -> list (list R))
  (front : feat -> bool) (nth_elt : list R -> nat -> list R) (ign track : bool) (ic : icfg) (zc : zcfg) (cf : config).
Notation step := (kstep n P cams frame logm inv front nth_elt ign track ic).
Notation link := (link n P cams frame logm inv front nth_elt ign track ic zc).
Notation happen := (happen n P cams frame logm inv front nth_elt ign track ic zc cf).
Notation history := (history n P cams frame logm inv front nth_elt ign track ic zc cf).
Notation ist := (ist Patch (world H)).
Variable E : kf -> kf -> Prop.
Record respects : Prop := {
  r_step : forall F G o, image_op o -> E F G -> both E (step F o) (step G o);
  r_use : forall p F G w, E F G -> both E (use_slot track ic p F w) (use_slot track ic p G w);
  r_depths : forall F G, E F G -> depths n frame front nth_elt ic F = depths n frame front nth_elt ic G;
  r_fea : forall F G i, E F G -> k_used F i = true -> x_fea (k_x F) i = x_fea (k_x G) i;
  r_aux : forall F G, E F G -> x_aux (k_x F) = x_aux (k_x G) }.
Hypothesis RE : respects.

Definition wrel (a b : world H) : Prop := both E (w_F a) (w_F b) /\ w_med a = w_med b /\ w_h a = w_h b.
Definition wused (a : world H) (i : nat) : Prop := forall F, w_F a = Some F -> k_used F i = true.
Lemma act_rel (s : sight Patch H) o f g a b : (forall F G, E F G -> s_hidden s o F (w_h a) = s_hidden s o G (w_h a)) -> (forall F G, w_F a = Some F -> w_F b = Some G -> E F G -> both E (f F (w_h a)) (g G (w_h a))) -> wrel a b -> wrel (act s o f a) (act s o g b).
Proof.
  intros S K (R & M & Hh). unfold act. unfold both in R. destruct (w_F a) as [F|] eqn:A, (w_F b) as [G|] eqn:B; try contradiction.
  - split; [cbn [w_F]; rewrite <- Hh; now apply K|]. cbn [w_med w_h]. split; [exact M|]. rewrite <- Hh. now apply S.
  - split; [now rewrite A, B|auto].
Qed.
Lemma act_used (s : sight Patch H) o f a i : (forall F G, w_F a = Some F -> f F (w_h a) = Some G -> k_used F i = true -> k_used G i = true) -> wused a i -> wused (act s o f a) i.
Proof. intros K U F. unfold act. destruct (w_F a) as [G|] eqn:A; [|rewrite A; discriminate]. cbn [w_F]. intros Ef. apply (K G F eq_refl Ef). now apply U. Qed.
Lemma ask_rel {A} (d : A) f g a b : wrel a b -> (forall F G, w_F a = Some F -> E F G -> f F (w_h a) = g G (w_h a)) -> ask d f a = ask d g b.
Proof. intros (R & _ & Hh) K. unfold ask. unfold both in R. destruct (w_F a) as [F|] eqn:Fa, (w_F b) as [G|]; try contradiction; [|reflexivity]. rewrite <- Hh. now apply K. Qed.
Lemma still_rel F G : E F G -> still zc F = still zc G. Proof. intros R. unfold still. now rewrite (r_aux RE F G R). Qed.
Lemma link_alike (s : sight Patch H) : sees_alike E s -> alike (link s) (link s) wrel wused.
Proof.
  intros [S1 S2 S3 S4 S5 S6 S7 S8 S9 S10]. constructor; cbn [LinkModel.link g_begin g_pre g_update g_negative g_tracked g_drop g_repatch g_patched g_cands g_proj g_choose g_new g_end].
  - intros a b R. unfold start. cbn [w_F w_med w_h]. assert (K : wrel (act s HBegin (fun F h => if z_detect zc && s_moving s F h then step F KMotion else Some F) a) (act s HBegin (fun F h => if z_detect zc && s_moving s F h then step F KMotion else Some F) b)).
    { apply act_rel; [intros; now apply S10| |exact R]. intros F G _ _ K. rewrite (S1 F G (w_h a) K). destruct (z_detect zc && s_moving s G (w_h a)); [apply (r_step RE); [exact I|exact K]|exact K]. }
    destruct K as (K1 & K2 & K3). split; [exact K1|]. split; [reflexivity|exact K3].
  - intros a i U. unfold start. apply (act_used s HBegin (fun F h => if z_detect zc && s_moving s F h then step F KMotion else Some F) a i); [|exact U]. intros F G _. cbv beta. destruct (_ && _); intros K V; [destruct (motion_slots n P cams frame logm inv front nth_elt ign track ic F G K) as [Q _]; now rewrite Q|now injection K as <-].
  - intros a b i c R U. apply (ask_rel _ _ _ a b R). intros F G A K. apply S2; auto.
  - intros a b i c R U. unfold measure. apply act_rel; [intros; now apply S10| |exact R]. intros F G A _ K. rewrite (S3 F G (w_h a) i c K (U F A)).
    destruct (s_meas s G (w_h a) i c) as [[[m Rn] k]|]; [|exact K]. apply (r_step RE); [|exact K]. unfold meas_of. destruct (snd m); exact I.
  - intros a i c j. apply act_used. intros F G A K. destruct (s_meas s F (w_h a) i c) as [[[m Rn] k]|]; [|now injection K as <-]. destruct (meas_slots n P cams frame logm inv front nth_elt ign track ic _ _ _ _ _ K) as [Q _]. now rewrite Q.
  - intros a b i R U. apply (ask_rel _ _ _ a b R). intros F G A K. unfold behind. now rewrite (r_fea RE F G i K (U F A)).
  - intros a b i c R U. apply (ask_rel _ _ _ a b R). intros F G A K. apply S4; auto.
  - intros a b i R U. apply act_rel; [intros; now apply S10| |exact R]. intros F G _ _ K. apply (r_step RE); [exact I|exact K].
  - intros a i j U N. revert U. apply act_used. intros F G A K V. destruct (free_slots n P cams frame logm inv front nth_elt ign track ic _ _ _ K) as [Q _]. rewrite Q, V. cbn [andb]. now apply negb_true_iff, Nat.eqb_neq.
  - intros a b i R U. apply (ask_rel _ _ _ a b R). intros F G A K. apply S5; auto.
  - intros a b i R U. apply act_rel; [intros; now apply S10| |exact R]. intros F G _ _ K. apply (r_step RE); [exact I|exact K].
  - intros a i j. apply act_used. intros F G A K. destruct (warp_slots n P cams frame logm inv front nth_elt ign track ic _ _ _ K) as [Q _]. now rewrite Q.
  - intros a b c R. apply (ask_rel _ _ _ a b R). intros F G A K. now apply S6.
  - intros a b c R. unfold ask. destruct R as (R & _ & Hh). unfold both in R. destruct (w_F a) as [F|], (w_F b) as [G|]; try contradiction; [|reflexivity]. rewrite <- Hh, (S7 F G (w_h a) c R). reflexivity.
  - intros a b c R. unfold ask. destruct R as (R & _ & Hh). unfold both in R. destruct (w_F a) as [F|], (w_F b) as [G|]; try contradiction; [|reflexivity]. rewrite <- Hh, (S8 F G (w_h a) c R). reflexivity.
  - intros a b i c (R & M & Hh). unfold create. unfold both in R. destruct (w_F a) as [F|] eqn:A, (w_F b) as [G|] eqn:B; try contradiction.
    + rewrite <- M, <- Hh, (r_depths RE F G R). unfold new_of. rewrite (S9 F G (w_h a) i c R). split; [|split].
      * cbn [w_F]. apply (r_use RE). exact R.
      * reflexivity.
      * cbn [w_h]. now apply S10.
    + split; [now rewrite A, B|auto].
  - intros a b R. unfold finish. apply act_rel; [intros; now apply S10| |exact R]. intros F G _ _ K. rewrite (still_rel F G K). destruct (still zc G); [apply (r_step RE); [exact I|exact K]|exact K].
Qed.

(** related histories: images alike; other events related, or on the first side only *)
Inductive related : list (event Patch H) -> list (event Patch H) -> Prop :=
| re_nil : related [] []
| re_image t s es fs : sees_alike E s -> related es fs -> related (VImage t s :: es) (VImage t s :: fs)
| re_both e f o p es fs : op_of e = Some o -> op_of f = Some p -> (forall F G, E F G -> both E (step F o) (step G p)) -> related es fs -> related (e :: es) (f :: fs)
| re_left e o es fs : op_of e = Some o -> (forall F G, E F G -> both E (step F o) (Some G)) -> related es fs -> related (e :: es) fs.
Definition paired (x y : ist) : Prop := same wrel x y /\ forall F, w_F (i_w x) = Some F -> in_step x F.
Lemma paired_tied x y : paired x y -> tied wrel wused x y.
Proof. intros [S I]. constructor; [exact S|]. intros i V F A. rewrite (proj1 (I F A i)). exact V. Qed.
Lemma op_happen fuel (x : ist) e o : op_of e = Some o -> happen fuel x e = Ok (with_w (filt n P cams frame logm inv front nth_elt ign track ic o (i_w x)) x).
Proof. destruct e; cbn [op_of]; intros J; try discriminate; injection J as <-; reflexivity. Qed.
Lemma op_in_step (x : ist) F o (e : event Patch H) K : op_of e = Some o -> in_step x F -> step F o = Some K -> in_step x K.
Proof.
  intros J S T. destruct e; cbn [op_of] in J; try discriminate; injection J as <-;
    (destruct (predict_slots n P cams frame logm inv front nth_elt ign track ic _ _ _ _ _ T) as [U X] || destruct (meas_slots n P cams frame logm inv front nth_elt ign track ic _ _ _ _ _ T) as [U X]); revert S; apply in_step_eq; auto.
Qed.
Lemma op_paired (x y : ist) o p w (e : event Patch H) : op_of e = Some o -> paired x y -> (forall F G, w_F (i_w x) = Some F -> w_F (i_w y) = Some G -> E F G -> both E (step F o) (match p with Some q => step G q | None => Some G end)) ->
  (w = match p with Some q => filt n P cams frame logm inv front nth_elt ign track ic q (i_w y) | None => i_w y end) ->
  paired (with_w (filt n P cams frame logm inv front nth_elt ign track ic o (i_w x)) x) (with_w w y).
Proof.
  intros Q [[S1 S2 S3 S4 S5 (R & M & Hh)] I] K ->. split.
  - constructor; cbn [with_w i_fs i_st i_id i_cc i_log i_w]; auto. unfold both in R. split; [|split].
    + cbn [filt w_F]. destruct (w_F (i_w x)) as [F|] eqn:A, (w_F (i_w y)) as [G|] eqn:B; try contradiction.
      * specialize (K F G eq_refl eq_refl R). destruct p; cbn [filt w_F]; rewrite B; exact K.
      * destruct p; cbn [filt w_F]; rewrite B; exact R.
    + destruct p; exact M.
    + destruct p; exact Hh.
  - intros F. cbn [with_w i_w filt w_F]. destruct (w_F (i_w x)) as [F0|] eqn:A; [|discriminate]. intros T. exact (op_in_step x F0 o e F Q (I F0 eq_refl) T).
Qed.
Lemma with_w_same (y : ist) : with_w (i_w y) y = y. Proof. now destruct y. Qed.
Lemma history_cons fuel (x : ist) e es : history fuel x (e :: es) = rbind (happen fuel x e) (fun y => history fuel y es).
Proof.
  unfold LinkModel.history. cbn [fold_left rbind]. destruct (happen fuel x e) as [y| |]; [reflexivity| |]; cbn [rbind]; clear; induction es; auto.
Qed.
Lemma related_histories fuel es fs : related es fs -> forall x y, paired x y -> rtied paired (history fuel x es) (history fuel y fs).
Proof.
  induction 1 as [|t s es fs S _ IH|e f o p es fs O1 O2 K _ IH|e o es fs O1 K _ IH]; intros x y R.
  - constructor. exact R.
  - rewrite !history_cons. apply (rtied_bind paired); [|exact IH]. cbn [LinkModel.happen].
    pose proof (same_update cf (link s) (link s) wrel wused (link_alike s S) t fuel x y (paired_tied x y R)) as U.
    destruct R as [R I]. destruct (image_update cf (link s) fuel t x) as [x'| |] eqn:Ex; inversion U as [a b Sab Ea Eb| |]; subst; constructor. split; [exact Sab|].
    intros F' A'. destruct (w_F (i_w x)) as [F|] eqn:A.
    + destruct (update_steps n P cams frame logm inv front nth_elt ign track ic zc cf s fuel t x x' F A (I F eq_refl) Ex) as (? & ? & ? & ? & Q). cbv zeta in Q. destruct Q as (_ & _ & _ & _ & Q). now apply Q.
    + rewrite (none_stays n P cams frame logm inv front nth_elt ign track ic zc cf s fuel t x x' A Ex) in A'. discriminate.
  - rewrite !history_cons. apply (rtied_bind paired); [|exact IH]. rewrite (op_happen fuel x e o O1), (op_happen fuel y f p O2). constructor.
    apply (op_paired x y o (Some p) _ e O1 R); [intros; now apply K|reflexivity].
  - rewrite history_cons. rewrite (op_happen fuel x e o O1). cbn [rbind]. apply IH. rewrite <- (with_w_same y). apply (op_paired x y o None _ e O1 R); [intros; now apply K|reflexivity].
Qed.
End Lift.
