(** The image update as a whole and sequences of updates (C38, C71). *)
From Coq Require Import List ZArith QArith Bool Arith Lia.
From Verif Require Import Util StatModel StatSpec FsetModel FsetSpec FsetProofs FsetAdd FsetGrid FsetFinal ImgModel ImgSpec ImgProofs ImgForce ImgAdd.
Import ListNotations.
Local Open Scope nat_scope.

Section R.
Context {Patch World : Type}.
Variables (cf : config) (G : geom Patch World) (t : Z).
Notation ist := (ist Patch World).
Notation n := (c_ncam cf).

(** ** All statistics stay records of legal operations *)
Definition rec_all (x : ist) : Prop := forall i s, nth_error (i_st x) i = Some s -> recorded n s.
Lemma rec_upd (l : list (stat (option Q))) i f : (forall j s, nth_error l j = Some s -> recorded n s) -> (forall s, recorded n s -> recorded n (f s)) ->
  forall j s, nth_error (upd_nth i f l) j = Some s -> recorded n s.
Proof.
  intros H Hf j s. destruct (Nat.eq_dec j i) as [->|NE].
  - rewrite nth_error_upd_nth_eq. destruct (nth_error l i) eqn:E; cbn; [|discriminate]. intros K. injection K as <-. eauto.
  - rewrite nth_error_upd_nth_ne by auto. apply H.
Qed.
Lemma rec_increase s : recorded n s -> recorded n (increase exactQ t s).
Proof. intros H. apply (recorded_step _ _ (OpIncrease t) _ H); cbn; auto. Qed.
Lemma rec_reset s : recorded n s -> recorded n (reset exactQ t s).
Proof. intros H. apply (recorded_step _ _ (OpReset t) _ H); cbn; auto. Qed.
Lemma rec_status c o s : recorded n s -> recorded n (match set_status c o s with Some s' => s' | None => s end).
Proof.
  intros H. destruct (set_status c o s) as [s'|] eqn:E; [|exact H]. apply (recorded_step _ _ (OpStatus c o) _ H); cbn; auto.
  unfold set_status in E. rewrite (recorded_cams _ _ H) in E. destruct (Nat.ltb_spec c n); [assumption|discriminate].
Qed.
Lemma rec_put i c o x : rec_all x -> rec_all (put_status i c o x).
Proof. intros H. unfold rec_all, put_status, with_st. cbn [i_st]. apply rec_upd; [exact H|]. intros s. apply rec_status. Qed.
Lemma rec_advance x : rec_all x -> rec_all (advance cf x).
Proof. unfold rec_all. destruct (advance_fields cf x) as (_ & -> & _). auto. Qed.
Lemma rec_pre fuel x b y : rec_all x -> pre_process cf G fuel t x = Ok (b, y) -> rec_all y.
Proof.
  revert x. induction fuel as [|fuel IH]; intros x R; cbn [pre_process]; destruct (i_id x <? nmax x); try discriminate; try (intros H; injection H as <- <-; exact R).
  unfold pre_round. destruct (slot_valid x (i_id x)).
  - set (x2 := emit _ _). assert (R2 : rec_all x2). { unfold x2, rec_all. destruct (i_cc x =? 0); cbn [emit with_st i_st]; [|exact R]. apply rec_upd; [exact R|]. apply rec_increase. }
    destruct (g_pre G (i_w x) (i_id x) (active cf x)).
    + apply IH. now apply rec_advance, rec_put.
    + apply IH. now apply rec_advance, rec_put.
    + intros H. injection H as <- <-. exact R2.
  - apply IH. now apply rec_advance.
Qed.
Lemma rec_negative x : rec_all x -> rec_all (remove_negative cf G x).
Proof.
  intros R. unfold remove_negative. destruct (c_rmneg cf); [|exact R]. apply fold_inv; [|exact R]. intros y i Ry. destruct (_ && _); exact Ry.
Qed.
Lemma rec_post x : rec_all x -> rec_all (post_process cf G x).
Proof.
  intros R. unfold post_process. apply rec_advance. pose proof (rec_negative x R). destruct (slot_valid _ _); [now apply rec_put|assumption].
Qed.
Lemma rec_drive fuel x y : rec_all x -> drive cf G fuel t x = Ok y -> rec_all y.
Proof.
  revert x. induction fuel as [|fuel IH]; intros x R; cbn [drive].
  - destruct (pre_process cf G 0 t x) as [[b z]| |] eqn:E; cbn [rbind fst snd]; try discriminate. destruct b; [discriminate|]. intros H. injection H as <-. eapply rec_pre; eauto.
  - destruct (pre_process cf G (S fuel) t x) as [[b z]| |] eqn:E; cbn [rbind fst snd]; try discriminate. pose proof (rec_pre _ _ _ _ R E) as Rz. destruct b.
    + apply IH. apply rec_post. exact Rz.
    + intros H. injection H as <-. exact Rz.
Qed.

(** ** Refreshing patches *)
Record refreshed (x y : ist) : Prop := {
  re_st : i_st y = i_st x;
  re_log : i_log y = i_log x;
  re_idx : fs_maxIdx (i_fs y) = fs_maxIdx (i_fs x);
  re_nmax : nmax y = nmax x;
  re_slot : forall i, option_map (fun s => (sl_valid s, f_idx (sl_feat s), f_cam (sl_feat s))) (nth_error (fs_slots (i_fs y)) i) =
                      option_map (fun s => (sl_valid s, f_idx (sl_feat s), f_cam (sl_feat s))) (nth_error (fs_slots (i_fs x)) i) }.
Lemma repatch_one x i : refreshed x (repatch G x i).
Proof.
  unfold repatch. destruct (_ && _); [|constructor; reflexivity]. destruct (g_repatch G (i_w x) i) as [p|]; [|constructor; reflexivity].
  constructor; try reflexivity.
  - unfold nmax. cbn. apply upd_nth_length.
  - intros j. cbn [with_w with_fs i_fs fs_slots]. destruct (Nat.eq_dec j i) as [->|NE]; [rewrite nth_error_upd_nth_eq|now rewrite nth_error_upd_nth_ne by auto].
    now destruct (nth_error (fs_slots (i_fs x)) i).
Qed.
Lemma repatch_fold l x : refreshed x (fold_left (repatch G) l x).
Proof.
  revert x. induction l as [|a l IH]; intros x; cbn [fold_left]; [constructor; reflexivity|].
  destruct (repatch_one x a) as [A1 A2 A3 A4 A5]. destruct (IH (repatch G x a)) as [B1 B2 B3 B4 B5]. constructor; intros; etransitivity; eauto.
Qed.
Lemma re_valid x y i : refreshed x y -> slot_valid y i = slot_valid x i.
Proof.
  intros R. pose proof (re_slot _ _ R i) as E. unfold slot_valid. destruct (nth_error (fs_slots (i_fs y)) i), (nth_error (fs_slots (i_fs x)) i); cbn in E; try discriminate; congruence.
Qed.
Lemma re_live x y i f : refreshed x y -> live (i_fs y) i f -> exists f0, live (i_fs x) i f0 /\ f_idx f = f_idx f0 /\ f_cam f = f_cam f0.
Proof.
  intros R L. pose proof (re_slot _ _ R i) as E. unfold live in *. rewrite L in E. cbn in E. destruct (nth_error (fs_slots (i_fs x)) i) as [[v f0]|]; cbn in E; [|discriminate].
  injection E as E1 E2 E3. subst v. exists f0. auto.
Qed.
Lemma re_count x y : refreshed x y -> count_now_tracked y = count_now_tracked x.
Proof.
  intros R. unfold count_now_tracked. rewrite (re_nmax _ _ R). f_equal. apply filter_ext. intros i. unfold stat_of. now rewrite (re_valid _ _ _ R), (re_st _ _ R).
Qed.

(** ** The iteration, in terms of the specification *)
Lemma rec_wf x : img_wf n x -> rec_all x.
Proof. intros W i s. apply (wf_stat _ _ W). Qed.
Lemma slot_cam_live (x : ist) i f : live (i_fs x) i f -> slot_cam x i = Z.to_nat (f_cam f).
Proof. intros L. unfold slot_cam. unfold live in L. now rewrite L. Qed.
Lemma sched_schedule cam : cam < n -> sched cf cam = schedule (c_cross cf) n cam.
Proof. intros H. rewrite schedule_alt by exact H. reflexivity. Qed.

Hypothesis Hok : config_ok cf.

Record driven (x y : ist) : Prop := {
  dr_inv : inv cf G t (begin_update G x) false y;
  dr_end : nmax x <= i_id y;
  dr_rec : rec_all y }.
Lemma drive_total x : img_wf n x -> exists y, driven x y /\ forall fuel, nmax x * n <= fuel -> drive cf G fuel t (begin_update G x) = Ok y.
Proof.
  intros W. set (x0 := begin_update G x). pose proof (ok_ncam _ Hok) as Hn. pose proof (rec_wf x W) as R.
  assert (Hlen : length (i_st x0) = nmax x0) by apply (wf_len _ _ W).
  assert (Hcams : forall i s, nth_error (i_st x0) i = Some s -> length (s_cams s) = n) by (intros i s H; apply recorded_cams; eapply R; eauto).
  pose proof (inv_init cf G t x0 Hn Hlen Hcams eq_refl eq_refl eq_refl) as V.
  destruct (drive_ok cf G t x0 Hn Hlen (nmax x * N cf) x0 V) as (y & D & Vy & E).
  { rewrite (meas_init cf x0 Hn Hlen) by reflexivity. reflexivity. }
  exists y. split.
  - constructor; [exact Vy|exact E|]. apply (rec_drive _ x0 y R D).
  - intros fuel Hf. apply (drive_fuel cf G t x0 Hn Hlen _ _ _ D). pose proof (N_le cf x0 Hn Hlen). nia.
Qed.

Lemma driven_spec x y : img_wf n x -> driven x y ->
  (forall i f, live (i_fs y) i f -> live (i_fs x) i f) /\
  (forall i, ~ alive x i -> visits i (i_log y) = [] /\ increases i (i_log y) = 0) /\
  (forall i f, live (i_fs x) i f -> exists p, visits i (i_log y) = firstn p (cams_of cf f) /\ p <= length (cams_of cf f) /\ increases i (i_log y) = Nat.min 1 p /\
      (alive y i -> p = length (cams_of cf f)) /\ (~ alive y i -> removed i (i_log y))) /\
  (forall i f, live (i_fs y) i f -> exists s0 s, has_stat x i s0 /\ has_stat y i s /\ one_frame cf G t (i_log y) i f s0 s).
Proof.
  intros W [V E R]. pose proof (ok_ncam _ Hok) as Hn. set (x0 := begin_update G x) in *.
  assert (LV : forall i f, live (i_fs y) i f -> live (i_fs x) i f).
  { intros i f L. assert (Vi : slot_valid y i = true) by (apply alive_valid; now exists f). apply (v_valid _ _ _ _ _ _ V) in Vi. change (slot_valid x i = true) in Vi.
    apply alive_valid in Vi as [g Lg]. pose proof (v_feat _ _ _ _ _ _ V i) as F. change (i_fs x0) with (i_fs x) in F. unfold live in *. rewrite L, Lg in F. cbn in F. injection F as ->. exact Lg. }
  assert (SC : forall i f, live (i_fs x) i f -> sched cf (slot_cam x0 i) = cams_of cf f /\ (Z.to_nat (f_cam f)) < n).
  { intros i f L. pose proof (wf_cam _ _ W i f L) as C. assert (Z.to_nat (f_cam f) < n) by lia. split; [|assumption].
    change (slot_cam x0 i) with (slot_cam x i). rewrite (slot_cam_live _ _ _ L). now apply sched_schedule. }
  assert (PR : forall i, i < nmax x -> prog cf y i = N cf) by (intros i Hi; unfold prog; destruct (Nat.ltb_spec i (i_id y)); [reflexivity|lia]).
  split; [exact LV|]. split; [|split].
  - intros i Hi. destruct (v_visit _ _ _ _ _ _ V i) as (p & A & B & C & D & F). rewrite D in A, F; [cbn in A, F; auto|..];
      (change (slot_valid x i = false); destruct (slot_valid x i) eqn:K; [|reflexivity]; exfalso; apply Hi; now apply alive_valid).
  - intros i f L. destruct (SC i f L) as [S1 S2]. destruct (v_visit _ _ _ _ _ _ V i) as (p & A & B & C & D & F). rewrite S1 in A.
    assert (Hi : i < nmax x) by (apply valid_lt, alive_valid; now exists f).
    rewrite (PR i Hi) in *. unfold cur in *. cbn [andb] in *. rewrite Nat.add_0_r in *.
    assert (LN : length (cams_of cf f) = N cf) by (rewrite <- S1; apply sched_len).
    exists p. split; [exact A|]. split; [lia|]. split; [rewrite F; destruct p; reflexivity|]. split.
    + intros Al. rewrite LN. apply C. now apply alive_valid.
    + intros Al. apply (v_dead _ _ _ _ _ _ V).
      * destruct (slot_valid y i) eqn:K; [|reflexivity]. exfalso. apply Al. now apply alive_valid.
      * change (slot_valid x i = true). apply alive_valid. now exists f.
  - intros i f Ly. pose proof (LV i f Ly) as L. destruct (SC i f L) as [S1 S2].
    assert (Hi : i < nmax x) by (apply valid_lt, alive_valid; now exists f).
    assert (LN : length (cams_of cf f) = N cf) by (rewrite <- S1; apply sched_len).
    assert (Vi : slot_valid y i = true) by (apply alive_valid; now exists f).
    destruct (v_stat _ _ _ _ _ _ V i Vi) as (s0 & outs & A & B & C & D & F). rewrite (PR i Hi) in *. unfold cur in D. cbn [andb] in D. rewrite Nat.add_0_r in D.
    assert (NP := N_pos cf x0 Hn (wf_len _ _ W)). destruct (Nat.eqb_spec (N cf) 0); [lia|]. destruct D as (s & D1 & D2). rewrite S1 in D2.
    exists s0, s. split; [exact A|]. split; [exact D1|]. exists outs. split; [congruence|]. split; [exact C|]. split; [exact D2|].
    intros k c o Hc Ho. specialize (F k o Ho). rewrite <- S1 in Hc. assert (k < N cf) by (rewrite <- B; apply nth_error_Some; congruence).
    rewrite (sched_nth cf) in Hc by assumption. injection Hc as <-. exact F.
Qed.

(** ** The whole update *)
Notation updated := (ImgSpec.updated cf G t).

Lemma fresh_newborn c s : c < n -> recorded n s -> newborn t c s (fresh t c s).
Proof.
  intros L R. unfold newborn, fresh. cbn [run step]. unfold set_status. cbn [reset s_cams]. rewrite map_length, (recorded_cams _ _ R).
  destruct (Nat.ltb_spec c n); [reflexivity|lia].
Qed.
Lemma fresh_recorded c s : recorded n s -> recorded n (fresh t c s).
Proof. intros H. unfold fresh. apply (rec_reset s) in H. apply (rec_status c TRACKED _ H). Qed.

Lemma post_ok (x y : ist) (m : nat) (fuel0 : nat) : img_wf n x -> driven x y -> nmax x = m ->
  (forall z fuel, nmax z = m -> (forall i s, nth_error (i_st z) i = Some s -> recorded n s) -> length (i_st z) = m -> fuel0 <= fuel -> 
     exists w, prune cf G fuel (count_now_tracked z) z = Ok w /\ shrinks z w) ->
  forall fuel, fuel0 <= fuel -> exists z, common_post cf G fuel t y = Ok z /\ updated x z.
Proof.
  intros W D Hm HP fuel Hf. destruct (driven_spec x y W D) as (D1 & _ & _ & D4). destruct D as [V E R].
  unfold common_post. set (y1 := fold_left (repatch G) (seq 0 (nmax y)) y). pose proof (repatch_fold (seq 0 (nmax y)) y) as Rp. fold y1 in Rp.
  assert (NY : nmax y = m) by (rewrite (v_nmax _ _ _ _ _ _ V); exact Hm).
  assert (LY : length (i_st y) = m). { rewrite (v_len _ _ _ _ _ _ V). cbn [begin_update i_st]. rewrite (wf_len _ _ W). exact Hm. }
  destruct (HP y1 fuel) as (y2 & P1 & P2); auto.
  { rewrite (re_nmax _ _ Rp). exact NY. }
  { rewrite (re_st _ _ Rp). exact R. }
  { rewrite (re_st _ _ Rp). exact LY. }
  rewrite (re_count _ _ Rp) in P1. rewrite P1. cbn [rbind].
  destruct (add_features_ok cf G t (ok_add _ Hok) y2) as (y3 & ls & A1 & Gr & Ll & _). rewrite A1. cbn [rbind].
  eexists. split; [reflexivity|].
  assert (R2 : forall i s, nth_error (i_st y2) i = Some s -> recorded n s) by (rewrite (sh_st _ _ P2), (re_st _ _ Rp); exact R).
  assert (I2 : fs_maxIdx (i_fs y2) = fs_maxIdx (i_fs x)) by (rewrite (sh_idx _ _ P2), (re_idx _ _ Rp); exact (v_idx _ _ _ _ _ _ V)).
  (* where the live features of y2 come from *)
  assert (L2 : forall i f, live (i_fs y2) i f -> exists f0, live (i_fs y) i f0 /\ f_idx f = f_idx f0 /\ f_cam f = f_cam f0).
  { intros i f L. apply (shrinks_live _ _ _ _ P2) in L. exact (re_live _ _ _ _ Rp L). }
  assert (W2 : ids_ok (i_fs y2)).
  { destruct (wf_ids _ _ W) as [W1 W2]. split.
    - intros i f L. destruct (L2 i f L) as (f0 & L0 & E1 & _). rewrite E1, I2. exact (W1 i f0 (D1 _ _ L0)).
    - intros i j f g Lf Lg Efg. destruct (L2 i f Lf) as (f0 & L0 & E1 & _). destruct (L2 j g Lg) as (g0 & M0 & F1 & _). apply (W2 i j f0 g0 (D1 _ _ L0) (D1 _ _ M0)). congruence. }
  assert (CS : forall i f, live (i_fs y3) i f -> (~ In i (concat ls) /\ live (i_fs y2) i f) \/ (exists c, c < n /\ In i (nth c ls []) /\ f_cam f = Z.of_nat c /\ (fs_maxIdx (i_fs x) <= f_idx f)%Z)).
  { intros i f L. destruct (in_dec Nat.eq_dec i (concat ls)) as [Hi|Hi].
    - right. destruct (in_concat_nth _ _ Hi) as (c & Lc & Hc). exists c. split; [lia|]. split; [exact Hc|].
      destruct (gr_mem _ _ _ _ _ Gr c i Hc) as (_ & g & Lg & C1 & C2). unfold live in *. rewrite L in Lg. injection Lg as <-. rewrite I2 in C2. auto.
    - left. split; [exact Hi|]. destruct (gr_old _ _ _ _ _ Gr i Hi) as [Es _]. unfold live in *. now rewrite <- Es. }
  assert (CAP : nmax y3 = m) by (rewrite (gr_nmax _ _ _ _ _ Gr), (sh_nmax _ _ P2), (re_nmax _ _ Rp); exact NY).
  constructor.
  - constructor.
    + cbn [with_w i_st i_fs]. unfold capacity. change (length (fs_slots (i_fs y3))) with (nmax y3). rewrite CAP, (gr_len _ _ _ _ _ Gr), (sh_st _ _ P2), (re_st _ _ Rp). exact LY.
    + intros i s Hs. unfold has_stat in Hs. cbn [with_w i_st] in Hs. destruct (in_dec Nat.eq_dec i (concat ls)) as [Hi|Hi].
      * destruct (in_concat_nth _ _ Hi) as (c & Lc & Hc). rewrite (gr_stat _ _ _ _ _ Gr c i Hc) in Hs. destruct (nth_error (i_st y2) i) as [s0|] eqn:E0; cbn in Hs; [|discriminate].
        injection Hs as <-. apply fresh_recorded. eauto.
      * destruct (gr_old _ _ _ _ _ Gr i Hi) as [_ Es]. rewrite Es in Hs. eauto.
    + intros i f L. cbn [with_w i_fs] in L. destruct (CS i f L) as [[_ L']|(c & Hc & _ & C1 & _)].
      * destruct (L2 i f L') as (f0 & L0 & _ & E2). rewrite E2. exact (wf_cam _ _ W i f0 (D1 _ _ L0)).
      * rewrite C1. lia.
    + apply (gr_ids _ _ _ _ _ Gr); [rewrite I2; apply (wf_max _ _ W)|exact W2].
    + apply (gr_ids _ _ _ _ _ Gr); [rewrite I2; apply (wf_max _ _ W)|exact W2].
  - cbn [with_w i_fs]. unfold capacity. change (nmax y3 = nmax x). congruence.
  - cbn [with_w i_fs]. rewrite <- I2. apply (gr_idx _ _ _ _ _ Gr).
  - intros i f L. cbn [with_w i_fs i_log] in *. destruct (CS i f L) as [[Hi L']|(c & Hc & Hin & C1 & C2)].
    + left. destruct (L2 i f L') as (f0 & L0 & E1 & E2). destruct (D4 i f0 L0) as (s0 & s & A & B & C).
      exists f0, s0, s. split; [exact (D1 _ _ L0)|]. split; [exact E1|]. split; [exact E2|]. split; [exact A|]. split.
      * unfold has_stat in *. cbn [with_w i_st]. destruct (gr_old _ _ _ _ _ Gr i Hi) as [_ Es]. now rewrite Es, (sh_st _ _ P2), (re_st _ _ Rp).
      * destruct C as (outs & O1 & O2 & O3 & O4). exists outs. split; [exact O1|]. split; [exact O2|]. split; [exact O3|].
        intros k c o Hk Ho. destruct (O4 k c o Hk Ho) as [O5 O6]. split; [|exact O6]. rewrite O5. rewrite (gr_log _ _ _ _ _ Gr). split.
        -- intros H. left. apply (sh_logs _ _ P2). now rewrite (re_log _ _ Rp).
        -- intros [H|(c' & i' & _ & H)]; [|discriminate]. apply (sh_new _ _ P2) in H as [H|(i' & H & _)]; [|discriminate]. now rewrite <- (re_log _ _ Rp).
    + right. assert (Hi : i < m). { rewrite <- CAP. apply valid_lt, alive_valid. now exists f. }
      assert (exists s0, nth_error (i_st y2) i = Some s0) as [s0 E0].
      { destruct (nth_error (i_st y2) i) eqn:K; [eauto|]. apply nth_error_None in K. rewrite (sh_st _ _ P2), (re_st _ _ Rp) in K. lia. }
      exists s0, (fresh t c s0). split; [exact C2|]. rewrite C1, Nat2Z.id. split; [|split].
      * unfold has_stat. cbn [with_w i_st]. now rewrite (gr_stat _ _ _ _ _ Gr c i Hin), E0.
      * apply fresh_newborn; eauto.
      * apply (gr_log _ _ _ _ _ Gr). right. eauto.
Qed.

Lemma prune_exists m : (Z.of_nat m <= int_max)%Z -> exists fuel0, forall (z : ist) fuel, nmax z = m -> (forall i s, nth_error (i_st z) i = Some s -> recorded n s) -> length (i_st z) = m -> fuel0 <= fuel -> 
     exists w, prune cf G fuel (count_now_tracked z) z = Ok w /\ shrinks z w.
Proof.
  intros Hm. destruct (prune_ok cf G (ok_factor _ Hok) (ok_ub _ Hok) (ok_lb _ Hok) m (ok_share _ Hok) Hm) as (fuel0 & H). exists fuel0.
  intros z fuel A B C D. destruct (H z fuel A B C D) as (y & k & P & S & _). eauto.
Qed.
Lemma update_total m : (Z.of_nat m <= int_max)%Z -> exists fuel0, forall x fuel, capacity (i_fs x) = m -> img_wf n x -> fuel0 <= fuel ->
  exists y, image_update cf G fuel t x = Ok y /\ updated x y.
Proof.
  intros Hm. destruct (prune_exists m Hm) as (fuel0 & HP). exists (fuel0 + m * n). intros x fuel Hc W Hf.
  destruct (drive_total x W) as (y & D & E). unfold image_update. rewrite E by (change (nmax x) with (capacity (i_fs x)); rewrite Hc; lia). cbn [rbind].
  apply (post_ok x y m fuel0 W D Hc HP). lia.
Qed.
End R.

Section Hist.
Context {Patch World : Type}.
Variables (cf : config) (G : geom Patch World).
Notation ist := (ist Patch World).
Notation n := (c_ncam cf).
Hypothesis Hok : config_ok cf.

(** more fuel changes nothing *)
Lemma force_fuel fuel req fac i x y : force cf G fuel req fac i x = Ok y -> forall fuel', fuel <= fuel' -> force cf G fuel' req fac i x = Ok y.
Proof.
  revert fac i x. induction fuel as [|fuel IH]; intros fac i x H fuel' L; cbn [force] in H; destruct (enough req x) eqn:E; try discriminate.
  - destruct fuel'; cbn [force]; now rewrite E.
  - destruct fuel'; cbn [force]; now rewrite E.
  - destruct fuel' as [|fuel']; [lia|]. cbn [force]. rewrite E. destruct (S i =? nmax x); apply IH; auto; lia.
Qed.
Lemma update_fuel t fuel x y : img_wf n x -> image_update cf G fuel t x = Ok y -> forall fuel', fuel <= fuel' -> image_update cf G fuel' t x = Ok y.
Proof.
  intros W H fuel' L. unfold image_update in *. destruct (drive cf G fuel t (begin_update G x)) as [d| |] eqn:D; try discriminate.
  rewrite (drive_fuel cf G t (begin_update G x) (ok_ncam _ Hok) (wf_len _ _ W) _ _ _ D _ L). cbn [rbind] in *. unfold common_post in *.
  set (d1 := fold_left (repatch G) (seq 0 (nmax d)) d) in *. unfold prune in *.
  destruct (required_free cf (remove_bad cf G d1) (count_now_tracked d)) as [req|]; [|discriminate].
  destruct (force cf G fuel req (c_factor cf) 0 (remove_bad cf G d1)) as [e| |] eqn:F; try discriminate. now rewrite (force_fuel _ _ _ _ _ _ F _ L).
Qed.
Lemma update_ok t fuel x y : img_wf n x -> (Z.of_nat (capacity (i_fs x)) <= int_max)%Z -> image_update cf G fuel t x = Ok y -> updated cf G t x y.
Proof.
  intros W Hm H. destruct (update_total cf G t Hok (capacity (i_fs x)) Hm) as (f0 & U). destruct (U x (fuel + f0) eq_refl W ltac:(lia)) as (y' & E & D).
  rewrite (update_fuel t fuel x y W H (fuel + f0) ltac:(lia)) in E. injection E as <-. exact D.
Qed.

Lemma frames_of_cam (f g : feature Patch) ts s s' : f_cam f = f_cam g -> frames_of cf f ts s s' -> frames_of cf g ts s s'.
Proof. intros E. assert (C : cams_of cf f = cams_of cf g) by (unfold cams_of; now rewrite E). induction 1; [constructor|]. rewrite C in *. econstructor; eauto. Qed.

Lemma history ts x y : updates cf G ts x y -> img_wf n x -> (Z.of_nat (capacity (i_fs x)) <= int_max)%Z ->
  img_wf n y /\ capacity (i_fs y) = capacity (i_fs x) /\ (fs_maxIdx (i_fs x) <= fs_maxIdx (i_fs y))%Z /\
  forall i f, live (i_fs y) i f ->
    (exists f0 s0 s, live (i_fs x) i f0 /\ f_idx f = f_idx f0 /\ f_cam f = f_cam f0 /\ has_stat x i s0 /\ has_stat y i s /\ frames_of cf f ts s0 s) \/
    (exists ts1 t ts2 s0 s1 s, ts = ts1 ++ t :: ts2 /\ (fs_maxIdx (i_fs x) <= f_idx f)%Z /\ newborn t (Z.to_nat (f_cam f)) s0 s1 /\ has_stat y i s /\ frames_of cf f ts2 s1 s).
Proof.
  induction 1 as [x|t ts x y z fuel E _ IH]; intros W Hm.
  - split; [exact W|]. split; [reflexivity|]. split; [lia|]. intros i f L. left.
    assert (Hi : i < length (i_st x)). { rewrite (wf_len _ _ W). apply nth_error_Some. unfold live in L. congruence. }
    destruct (nth_error (i_st x) i) as [s|] eqn:K; [|apply nth_error_None in K; lia]. exists f, s, s. repeat split; auto. constructor.
  - destruct (update_ok t fuel x y W Hm E) as [U1 U2 U3 U4]. destruct (IH U1 ltac:(lia)) as (H1 & H2 & H3 & H4).
    split; [exact H1|]. split; [congruence|]. split; [lia|]. intros i f L.
    destruct (H4 i f L) as [(f1 & s1 & s & L1 & E1 & C1 & S1 & S2 & F)|(ts1 & t' & ts2 & s0 & s1 & s & A & B & C & D & F)].
    + destruct (U4 i f1 L1) as [(f0 & s0 & s1' & L0 & E0 & C0 & T0 & T1 & O)|(s0 & s1' & A & B & C & _)].
      * left. exists f0, s0, s. unfold has_stat in *. rewrite S1 in T1. injection T1 as <-. repeat split; auto; try congruence.
        destruct O as (outs & O1 & O2 & O3 & _). assert (CE : cams_of cf f = cams_of cf f0) by (unfold cams_of; congruence). apply (fr_step cf f t ts outs s0 s1 s); rewrite ?CE; auto.
      * right. unfold has_stat in *. rewrite S1 in B. injection B as <-. exists [], t, ts, s0, s1, s. repeat split; auto; [lia|]. now rewrite C1.
    + right. exists (t :: ts1), t', ts2, s0, s1, s. rewrite A. repeat split; auto. lia.
Qed.

Lemma run_tot os (s s' : stat (option Q)) : Forall (fun o => match o with OpStatus _ _ => True | _ => False end) os -> run exactQ s os = Some s' -> s_tot s' = s_tot s.
Proof.
  revert s. induction os as [|o os IH]; intros s H R; cbn [run] in R; [now injection R as <-|]. inversion H; subst. destruct o; try contradiction.
  cbn [step] in R. unfold set_status in R. destruct (Nat.ltb i (length (s_cams s))); [|discriminate]. now rewrite (IH _ H3 R).
Qed.
Lemma frame_tot t cams outs (s s' : stat (option Q)) : run exactQ s (frame_ops t cams outs) = Some s' -> count_tot s' = (count_tot s + 1)%Z.
Proof.
  unfold frame_ops. cbn [run step]. intros R. unfold count_tot. apply run_tot in R; [rewrite R; cbn; lia|].
  apply Forall_forall. intros o Ho. apply in_map_iff in Ho as (p & <- & _). exact I.
Qed.
Lemma frames_tot (f : feature Patch) ts s s' : frames_of cf f ts s s' -> count_tot s' = (count_tot s + Z.of_nat (length ts))%Z.
Proof. induction 1 as [|t ts outs s0 s s' _ _ R _ IH]; [cbn; lia|]. rewrite IH, (frame_tot _ _ _ _ _ R). cbn [length]. lia. Qed.
Lemma newborn_tot t c s s' : newborn t c s s' -> count_tot s' = 1%Z.
Proof.
  unfold newborn. cbn [run step]. unfold set_status. destruct (Nat.ltb _ _); [|discriminate]. intros H. injection H as <-. reflexivity.
Qed.
End Hist.
