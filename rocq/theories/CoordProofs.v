From Coq Require Import List Bool.
From Verif Require Import CoordModel CoordSpec.
Import ListNotations.

Section P.
Context {Pix Bea Mat : Type}.
Variables (mI m0 : Mat) (mul : Mat -> Mat -> Mat) (minv : Mat -> option Mat).
Notation cam := (camera Pix Bea Mat).
Notation st := (fc Pix Bea Mat).
Notation stp := (step mI m0 mul minv).
Notation rn := (run mI m0 mul minv).

Implicit Types (s : st) (k : cam) (J : Mat).

Ltac fcs := cbn [c_ valid_c nor_ valid_nor cam_ warp_c valid_wc warp_nor valid_wn wid track
                 with_c with_nor with_warp with_cam with_track fst snd option_map] in *.

Ltac brk1 :=
  match goal with
  | H : Some _ = Some _ |- _ => injection H as H; try subst
  | H : None = Some _ |- _ => discriminate H
  | H : Some _ = None |- _ => discriminate H
  | H : (_, _) = (_, _) |- _ => injection H as ? ?; try subst
  | H : context [match ?x with _ => _ end] |- _ => destruct x eqn:?
  | |- context [match ?x with _ => _ end] => destruct x eqn:?
  end.
Ltac brk := repeat (fcs; try discriminate; try congruence; brk1); fcs.

(** induction over runs *)
Lemma run_ind (P : st -> Prop) (ok : op Pix Bea Mat -> Prop) :
  (forall s o s', P s -> ok o -> stp s o = Some s' -> P s') ->
  forall os s s', P s -> Forall ok os -> rn s os = Some s' -> P s'.
Proof.
  intros Hs os. induction os as [|o os IH]; intros s s' HP HF Hr; cbn in Hr.
  - injection Hr as <-; exact HP.
  - inversion HF; subst. destruct (stp s o) as [s1|] eqn:E; [|discriminate].
    apply (IH s1 s'); eauto.
Qed.

Lemma run_app os1 os2 (s : st) : rn s (os1 ++ os2) = match rn s os1 with Some s1 => rn s1 os2 | None => None end.
Proof. revert s; induction os1; intros s; cbn; [reflexivity|]. destruct (stp s a); auto. Qed.

(** ** camera pointer *)
Lemma com_c_cam s s1 b : com_c s = Some (s1, b) -> cam_ s1 = cam_ s /\ nor_ s1 = nor_ s /\ valid_nor s1 = valid_nor s
  /\ valid_c s1 = b /\ warp_c s1 = warp_c s /\ warp_nor s1 = warp_nor s /\ valid_wc s1 = valid_wc s
  /\ valid_wn s1 = valid_wn s /\ wid s1 = wid s /\ track s1 = track s
  /\ (valid_c s = true -> s1 = s).
Proof. unfold com_c. intros H. brk; repeat split; auto; intros; try congruence. Qed.

Lemma com_nor_cam s s1 b : com_nor s = Some (s1, b) -> cam_ s1 = cam_ s /\ c_ s1 = c_ s /\ valid_c s1 = valid_c s
  /\ valid_nor s1 = b /\ warp_c s1 = warp_c s /\ warp_nor s1 = warp_nor s /\ valid_wc s1 = valid_wc s
  /\ valid_wn s1 = valid_wn s /\ wid s1 = wid s /\ track s1 = track s
  /\ (valid_nor s = true -> s1 = s).
Proof. unfold com_nor. intros H. brk; repeat split; auto; intros; try congruence. Qed.

Lemma get_J_cam s s1 J : get_J m0 s = Some (s1, J) ->
  cam_ s1 = cam_ s /\ valid_c s1 = valid_c s
  /\ warp_c s1 = warp_c s /\ warp_nor s1 = warp_nor s /\ valid_wc s1 = valid_wc s
  /\ valid_wn s1 = valid_wn s /\ wid s1 = wid s /\ track s1 = track s
  /\ (valid_nor s = true -> nor_ s1 = nor_ s /\ valid_nor s1 = true).
Proof.
  unfold get_J. intros H. destruct (cam_ s) as [k|] eqn:Ek; [|discriminate].
  destruct (com_nor s) as [[s2 b]|] eqn:E; [|discriminate].
  apply com_nor_cam in E as (a1&a2&a3&a4&a5&a6&a7&a8&a9&a10&a11).
  destruct (to_pixel k (nor_ s2)); injection H as <- <-; fcs;
   repeat match goal with |- _ /\ _ => split end; try congruence; intros HV; specialize (a11 HV); subst s2; auto.
Qed.

Lemma com_c_some s k : cam_ s = Some k -> exists s1 b, com_c s = Some (s1, b).
Proof.
  intros E; unfold com_c; rewrite E. destruct (valid_c s), (valid_nor s); try destruct (to_pixel k (nor_ s)); eauto. Qed.
Lemma com_nor_some s k : cam_ s = Some k -> exists s1 b, com_nor s = Some (s1, b).
Proof.
  intros E; unfold com_nor; rewrite E. destruct (valid_nor s), (valid_c s); try destruct (to_bearing k (c_ s)); eauto. Qed.
Lemma get_J_some s k : cam_ s = Some k -> exists s1 b, get_J m0 s = Some (s1, b).
Proof.
  intros E; unfold get_J; rewrite E. destruct (com_nor_some s k E) as (s1&b&->).
  destruct (to_pixel k (nor_ s1)); eauto. Qed.

Lemma step_total s k o : cam_ s = Some k -> exists s1 k1, stp s o = Some s1 /\ cam_ s1 = Some k1 /\ (changes_camera o = false -> k1 = k).
Proof.
  intros E. destruct o; cbn [step changes_camera].
  all: try (eexists; eexists; split; [reflexivity|]; split; [cbn; try exact E; try reflexivity | intros; congruence]).
  - destruct (com_c_some s k E) as (s1&b&H). rewrite H. apply com_c_cam in H. exists s1, k. intuition congruence.
  - destruct (com_nor_some s k E) as (s1&b&H). rewrite H. apply com_nor_cam in H. exists s1, k. intuition congruence.
  - destruct (get_J_some s k E) as (s1&b&H). rewrite H. apply get_J_cam in H. exists s1, k. intuition congruence.
  - unfold set_c, drop_warp. destruct (_ && _); eexists; exists k; auto.
  - unfold set_nor, drop_warp. destruct (_ && _); eexists; exists k; auto.
  - unfold com_warp_c. destruct (valid_wc s); [exists s, k; auto|]. destruct (valid_wn s); [|exists s, k; auto].
    destruct (com_c_some s k E) as (s1&b&H). rewrite H. apply com_c_cam in H.
    destruct b; [|exists s1, k; intuition congruence].
    assert (E1 : cam_ s1 = Some k) by intuition congruence.
    destruct (com_nor_some s1 k E1) as (s2&b2&H2). rewrite H2. apply com_nor_cam in H2.
    destruct b2; [|exists s2, k; intuition congruence].
    assert (E2 : cam_ s2 = Some k) by intuition congruence.
    destruct (get_J_some s2 k E2) as (s3&b3&H3). rewrite H3. apply get_J_cam in H3. fcs.
    eexists; exists k; split; [reflexivity|]; fcs. intuition congruence.
  - unfold com_warp_nor. destruct (valid_wn s); [exists s, k; auto|]. destruct (valid_wc s); [|exists s, k; auto].
    destruct (com_c_some s k E) as (s1&b&H). rewrite H. apply com_c_cam in H.
    destruct b; [|exists s1, k; intuition congruence].
    assert (E1 : cam_ s1 = Some k) by intuition congruence.
    destruct (com_nor_some s1 k E1) as (s2&b2&H2). rewrite H2. apply com_nor_cam in H2.
    destruct b2; [|exists s2, k; intuition congruence].
    assert (E2 : cam_ s2 = Some k) by intuition congruence.
    destruct (get_J_some s2 k E2) as (s3&b3&H3). rewrite H3. apply get_J_cam in H3.
    destruct (minv b3); fcs; eexists; exists k; (split; [reflexivity|]); fcs; intuition congruence.
Qed.

Lemma run_total os : forall s k, cam_ s = Some k -> exists s', rn s os = Some s'.
Proof.
  induction os as [|o os IH]; intros s k E; cbn; [eauto|].
  destruct (step_total s k o E) as (s1&k1&->&E1&_). eauto.
Qed.

(** ** C14: general agreement *)
Definition agree (k : cam) (s : st) : Prop :=
  cam_ s = Some k /\
  (valid_c s = true -> valid_nor s = true -> to_pixel k (nor_ s) = Some (c_ s) \/ to_bearing k (c_ s) = (true, nor_ s)).

Lemma com_c_agree k s s1 b : agree k s -> com_c s = Some (s1, b) -> agree k s1.
Proof.
  intros [Hk Ha] H. split; [apply com_c_cam in H; intuition congruence|].
  unfold com_c in H. rewrite Hk in H. destruct (valid_c s) eqn:V; [injection H as <- <-; auto|].
  destruct (valid_nor s) eqn:VN; [|injection H as <- <-; congruence].
  destruct (to_pixel k (nor_ s)) eqn:E; injection H as <- <-; fcs; intros; auto; congruence.
Qed.
Lemma com_nor_agree k s s1 b : agree k s -> com_nor s = Some (s1, b) -> agree k s1.
Proof.
  intros [Hk Ha] H. split; [apply com_nor_cam in H; intuition congruence|].
  unfold com_nor in H. rewrite Hk in H. destruct (valid_nor s) eqn:V; [injection H as <- <-; auto|].
  destruct (valid_c s) eqn:VN; [|injection H as <- <-; congruence].
  destruct (to_bearing k (c_ s)) as [ok n] eqn:E; injection H as <- <-; fcs; intros; subst; auto.
Qed.
Lemma get_J_agree k s s1 J : agree k s -> get_J m0 s = Some (s1, J) -> agree k s1.
Proof.
  intros HA H. pose proof (proj1 HA) as Hk. unfold get_J in H. rewrite Hk in H.
  destruct (com_nor s) as [[s2 b]|] eqn:E; [|discriminate].
  pose proof (com_nor_agree _ _ _ _ HA E) as HA2.
  destruct (to_pixel k (nor_ s2)) eqn:Ep; injection H as <- <-; [|exact HA2].
  split; fcs; [apply HA2|]. intros; left; exact Ep.
Qed.
Lemma warp_agree k s wc v1 wn v2 i : agree k s -> agree k (with_warp wc v1 wn v2 i s).
Proof. exact (fun H => H). Qed.
Lemma drop_agree k r s : agree k s -> agree k (drop_warp r s).
Proof. unfold drop_warp; destruct (_ && _); exact (fun H => H). Qed.

Lemma com_warp_c_agree k s s1 b : agree k s -> com_warp_c m0 mul s = Some (s1, b) -> agree k s1.
Proof.
  intros HA H. unfold com_warp_c in H.
  destruct (valid_wc s); [injection H as <- <-; exact HA|]. destruct (valid_wn s); [|injection H as <- <-; exact HA].
  destruct (com_c s) as [[s2 b2]|] eqn:E; [|discriminate]. pose proof (com_c_agree _ _ _ _ HA E) as H2.
  destruct b2; [|injection H as <- <-; auto].
  destruct (com_nor s2) as [[s3 b3]|] eqn:E3; [|discriminate]. pose proof (com_nor_agree _ _ _ _ H2 E3) as H3.
  destruct b3; [|injection H as <- <-; auto].
  destruct (get_J m0 s3) as [[s4 J]|] eqn:E4; [|discriminate]. pose proof (get_J_agree _ _ _ _ H3 E4) as H4.
  injection H as <- <-. apply warp_agree, H4.
Qed.
Lemma com_warp_nor_agree k s s1 b : agree k s -> com_warp_nor m0 mul minv s = Some (s1, b) -> agree k s1.
Proof.
  intros HA H. unfold com_warp_nor in H.
  destruct (valid_wn s); [injection H as <- <-; exact HA|]. destruct (valid_wc s); [|injection H as <- <-; exact HA].
  destruct (com_c s) as [[s2 b2]|] eqn:E; [|discriminate]. pose proof (com_c_agree _ _ _ _ HA E) as H2.
  destruct b2; [|injection H as <- <-; auto].
  destruct (com_nor s2) as [[s3 b3]|] eqn:E3; [|discriminate]. pose proof (com_nor_agree _ _ _ _ H2 E3) as H3.
  destruct b3; [|injection H as <- <-; auto].
  destruct (get_J m0 s3) as [[s4 J]|] eqn:E4; [|discriminate]. pose proof (get_J_agree _ _ _ _ H3 E4) as H4.
  destruct (minv J); injection H as <- <-; [apply warp_agree|]; exact H4.
Qed.

Lemma step_agree k s o s' : agree k s -> changes_camera o = false -> stp s o = Some s' -> agree k s'.
Proof.
  intros HA HO H. destruct o; cbn [step] in H; try discriminate HO.
  - injection H as <-. split; [apply HA|]. cbn. discriminate.
  - destruct (com_c s) as [[? ?]|] eqn:E; [|discriminate]. injection H as <-. eapply com_c_agree; eauto.
  - destruct (com_nor s) as [[? ?]|] eqn:E; [|discriminate]. injection H as <-. eapply com_nor_agree; eauto.
  - destruct (get_J m0 s) as [[? ?]|] eqn:E; [|discriminate]. injection H as <-. eapply get_J_agree; eauto.
  - injection H as <-. apply drop_agree. split; [apply HA|]. cbn. discriminate.
  - injection H as <-. apply drop_agree. split; [apply HA|]. cbn. discriminate.
  - destruct (com_warp_c m0 mul s) as [[? ?]|] eqn:E; [|discriminate]. injection H as <-. eapply com_warp_c_agree; eauto.
  - destruct (com_warp_nor m0 mul minv s) as [[? ?]|] eqn:E; [|discriminate]. injection H as <-. eapply com_warp_nor_agree; eauto.
  - injection H as <-. exact HA.
  - injection H as <-. exact HA.
  - injection H as <-. exact HA.
  - injection H as <-. exact HA.
Qed.

Lemma run_agree k os s s' : agree k s -> forallb (fun o => negb (changes_camera o)) os = true -> rn s os = Some s' -> agree k s'.
Proof.
  intros HA HF. apply (run_ind (agree k) (fun o => changes_camera o = false)); auto.
  - intros; eapply step_agree; eauto.
  - rewrite forallb_forall in HF. apply Forall_forall. intros o Ho. specialize (HF o Ho). now destruct (changes_camera o).
Qed.
Lemma fresh_agree k tr p n w : agree k (fresh mI k tr p n w).
Proof. split; cbn; [reflexivity|discriminate]. Qed.

Lemma forallb_F (f : op Pix Bea Mat -> bool) os : forallb (fun o => negb (f o)) os = true -> Forall (fun o => f o = false) os.
Proof. intros H. rewrite forallb_forall in H. apply Forall_forall. intros o Ho. specialize (H o Ho). now destruct (f o). Qed.

Lemma views_agree_any k os tr p0 n0 w0 s s1 s2 :
  forallb (fun o => negb (changes_camera o)) os = true ->
  rn (fresh mI k tr p0 n0 w0) os = Some s ->
  com_c s = Some (s1, true) -> com_nor s1 = Some (s2, true) ->
  to_pixel k (nor_ s2) = Some (c_ s2) \/ to_bearing k (c_ s2) = (true, nor_ s2).
Proof.
  intros HF HR H1 H2.
  assert (A : agree k s2).
  { eapply com_nor_agree; [|eauto]. eapply com_c_agree; [|eauto]. eapply run_agree; eauto using fresh_agree. }
  destruct A as [_ A]. apply com_c_cam in H1. apply com_nor_cam in H2. apply A; intuition congruence.
Qed.

Lemma views_agree k os tr p0 n0 w0 s s1 s2 :
  inverse_camera k ->
  forallb (fun o => negb (changes_camera o)) os = true ->
  rn (fresh mI k tr p0 n0 w0) os = Some s ->
  (com_c s = Some (s1, true) /\ com_nor s1 = Some (s2, true)) \/
  (com_nor s = Some (s1, true) /\ com_c s1 = Some (s2, true)) ->
  to_pixel k (nor_ s2) = Some (c_ s2) /\ to_bearing k (c_ s2) = (true, nor_ s2).
Proof.
  intros [I1 I2] HF HR H12.
  assert (A0 : agree k s) by (eapply run_agree; eauto using fresh_agree).
  assert (A : agree k s2 /\ valid_c s2 = true /\ valid_nor s2 = true).
  { destruct H12 as [[H1 H2]|[H1 H2]].
    - split; [eapply com_nor_agree; [|eauto]; eapply com_c_agree; eauto|].
      apply com_c_cam in H1. apply com_nor_cam in H2. intuition congruence.
    - split; [eapply com_c_agree; [|eauto]; eapply com_nor_agree; eauto|].
      apply com_nor_cam in H1. apply com_c_cam in H2. intuition congruence. }
  destruct A as ((_&A)&V1&V2). destruct (A V1 V2) as [E|E]; split; auto.
Qed.

(** ** read back *)
Lemma pixel_kept_step p s o s' :
  valid_c s = true /\ c_ s = p -> changes_coordinate o = false -> uses_jacobian o = false ->
  stp s o = Some s' -> valid_c s' = true /\ c_ s' = p.
Proof.
  intros [V E] HO HJ H. destruct o; cbn [step] in H; try discriminate HO; try discriminate HJ.
  - unfold com_c in H. rewrite V in H. injection H as <-. auto.
  - destruct (com_nor s) as [[? ?]|] eqn:Ec; [|discriminate]. injection H as <-. apply com_nor_cam in Ec. cbn. intuition congruence.
  - injection H as <-. auto.
  - injection H as <-. auto.
  - injection H as <-. auto.
  - injection H as <-. auto.
  - injection H as <-. auto.
Qed.
Lemma pixel_kept p os s s' :
  valid_c s = true /\ c_ s = p ->
  forallb (fun o => negb (changes_coordinate o || uses_jacobian o)) os = true ->
  rn s os = Some s' -> valid_c s' = true /\ c_ s' = p.
Proof.
  intros HA HF. apply (run_ind (fun s => valid_c s = true /\ c_ s = p) (fun o => changes_coordinate o || uses_jacobian o = false)); auto.
  - intros s0 o s1 HP HO. apply orb_false_iff in HO as [? ?]. intros; eapply pixel_kept_step; eauto.
  - apply forallb_F, HF.
Qed.
Lemma set_c_valid p r (s : st) : valid_c (set_c p r s) = true /\ c_ (set_c p r s) = p.
Proof. unfold set_c, drop_warp. destruct (_ && _); auto. Qed.
Lemma set_nor_valid p r (s : st) : valid_nor (set_nor p r s) = true /\ nor_ (set_nor p r s) = p.
Proof. unfold set_nor, drop_warp. destruct (_ && _); auto. Qed.
Lemma pixel_read_back p r os s s' :
  forallb (fun o => negb (changes_coordinate o || uses_jacobian o)) os = true ->
  rn (set_c p r s) os = Some s' -> com_c s' = Some (s', true) /\ c_ s' = p.
Proof.
  intros HF HR. destruct (pixel_kept p os _ s' (set_c_valid p r s) HF HR) as [V E].
  split; auto. unfold com_c. now rewrite V.
Qed.

Lemma nor_kept_get_J n s s1 J : valid_nor s = true /\ nor_ s = n -> get_J m0 s = Some (s1, J) -> valid_nor s1 = true /\ nor_ s1 = n.
Proof. intros [V E] H. apply get_J_cam in H. intuition congruence. Qed.
Lemma nor_kept_com_nor n s s1 b : valid_nor s = true /\ nor_ s = n -> com_nor s = Some (s1, b) -> valid_nor s1 = true /\ nor_ s1 = n.
Proof. intros [V E] H. unfold com_nor in H. rewrite V in H. injection H as <- <-. auto. Qed.
Lemma nor_kept_com_c n s s1 b : valid_nor s = true /\ nor_ s = n -> com_c s = Some (s1, b) -> valid_nor s1 = true /\ nor_ s1 = n.
Proof. intros [V E] H. apply com_c_cam in H. intuition congruence. Qed.
Lemma nor_kept_step n s o s' :
  valid_nor s = true /\ nor_ s = n -> changes_coordinate o = false ->
  stp s o = Some s' -> valid_nor s' = true /\ nor_ s' = n.
Proof.
  intros HA HO H. destruct o; cbn [step] in H; try discriminate HO; try (injection H as <-; exact HA).
  - destruct (com_c s) as [[? ?]|] eqn:E; [|discriminate]. injection H as <-. eapply nor_kept_com_c; eauto.
  - destruct (com_nor s) as [[? ?]|] eqn:E; [|discriminate]. injection H as <-. eapply nor_kept_com_nor; eauto.
  - destruct (get_J m0 s) as [[? ?]|] eqn:E; [|discriminate]. injection H as <-. eapply nor_kept_get_J; eauto.
  - unfold com_warp_c in H. destruct (valid_wc s); [injection H as <-; exact HA|]. destruct (valid_wn s); [|injection H as <-; exact HA].
    destruct (com_c s) as [[s2 b2]|] eqn:E; [|discriminate]. pose proof (nor_kept_com_c _ _ _ _ HA E) as H2.
    destruct b2; [|injection H as <-; auto].
    destruct (com_nor s2) as [[s3 b3]|] eqn:E3; [|discriminate]. pose proof (nor_kept_com_nor _ _ _ _ H2 E3) as H3.
    destruct b3; [|injection H as <-; auto].
    destruct (get_J m0 s3) as [[s4 J]|] eqn:E4; [|discriminate]. pose proof (nor_kept_get_J _ _ _ _ H3 E4) as H4.
    injection H as <-. exact H4.
  - unfold com_warp_nor in H. destruct (valid_wn s); [injection H as <-; exact HA|]. destruct (valid_wc s); [|injection H as <-; exact HA].
    destruct (com_c s) as [[s2 b2]|] eqn:E; [|discriminate]. pose proof (nor_kept_com_c _ _ _ _ HA E) as H2.
    destruct b2; [|injection H as <-; auto].
    destruct (com_nor s2) as [[s3 b3]|] eqn:E3; [|discriminate]. pose proof (nor_kept_com_nor _ _ _ _ H2 E3) as H3.
    destruct b3; [|injection H as <-; auto].
    destruct (get_J m0 s3) as [[s4 J]|] eqn:E4; [|discriminate]. pose proof (nor_kept_get_J _ _ _ _ H3 E4) as H4.
    destruct (minv J); injection H as <-; exact H4.
Qed.
Lemma bearing_read_back n r os s s' :
  forallb (fun o => negb (changes_coordinate o)) os = true ->
  rn (set_nor n r s) os = Some s' -> com_nor s' = Some (s', true) /\ nor_ s' = n.
Proof.
  intros HF HR.
  assert (K : valid_nor s' = true /\ nor_ s' = n).
  { revert HR. apply (run_ind (fun s => valid_nor s = true /\ nor_ s = n) (fun o => changes_coordinate o = false)).
    - intros; eapply nor_kept_step; eauto.
    - apply set_nor_valid.
    - apply forallb_F, HF. }
  destruct K as [V E]. split; auto. unfold com_nor. now rewrite V.
Qed.

(** with an inverse camera even Jacobian queries keep the pixel *)
Definition pinv (k : cam) (p : Pix) (s : st) : Prop :=
  cam_ s = Some k /\ valid_c s = true /\ c_ s = p /\ (valid_nor s = true -> to_pixel k (nor_ s) = Some p).
Lemma pinv_com_nor k p s s1 b : inverse_camera k -> pinv k p s -> com_nor s = Some (s1, b) -> pinv k p s1.
Proof.
  intros [I1 I2] (Hk&V&E&A) H. unfold com_nor in H. rewrite Hk in H.
  destruct (valid_nor s) eqn:VN; [injection H as <- <-; repeat split; auto|].
  rewrite V in H. destruct (to_bearing k (c_ s)) as [ok n] eqn:T. injection H as <- <-.
  repeat split; fcs; auto. intros ->. apply I2. congruence.
Qed.
Lemma pinv_com_c k p s s1 b : pinv k p s -> com_c s = Some (s1, b) -> pinv k p s1.
Proof. intros (Hk&V&E&A) H. unfold com_c in H. rewrite V in H. injection H as <- <-. repeat split; auto. Qed.
Lemma pinv_get_J k p s s1 J : inverse_camera k -> fst (to_bearing k p) = true -> pinv k p s -> get_J m0 s = Some (s1, J) -> pinv k p s1.
Proof.
  intros HI HT HP H. pose proof HP as (Hk&V&E&A). unfold get_J in H. rewrite Hk in H.
  destruct (com_nor s) as [[s2 b]|] eqn:E2; [|discriminate].
  pose proof (pinv_com_nor _ _ _ _ _ HI HP E2) as (Hk2&V2&C2&A2).
  assert (VN : valid_nor s2 = true).
  { unfold com_nor in E2. rewrite Hk, V in E2. destruct (valid_nor s) eqn:VN; [injection E2 as <- <-; auto|].
    rewrite E in E2. destruct (to_bearing k p) as [ok n]. cbn in HT. subst ok. injection E2 as <- <-. reflexivity. }
  rewrite (A2 VN) in H. injection H as <- <-. repeat split; fcs; auto.
Qed.
Lemma pinv_step k p s o s' : inverse_camera k -> fst (to_bearing k p) = true -> pinv k p s ->
  changes_coordinate o = false -> changes_camera o = false -> stp s o = Some s' -> pinv k p s'.
Proof.
  intros HI HT HA HO HC H. destruct o; cbn [step] in H; try discriminate HO; try discriminate HC; try (injection H as <-; exact HA).
  - destruct (com_c s) as [[? ?]|] eqn:E; [|discriminate]. injection H as <-. eapply pinv_com_c; eauto.
  - destruct (com_nor s) as [[? ?]|] eqn:E; [|discriminate]. injection H as <-. eapply pinv_com_nor; eauto.
  - destruct (get_J m0 s) as [[? ?]|] eqn:E; [|discriminate]. injection H as <-. eapply pinv_get_J; eauto.
  - unfold com_warp_c in H. destruct (valid_wc s); [injection H as <-; exact HA|]. destruct (valid_wn s); [|injection H as <-; exact HA].
    destruct (com_c s) as [[s2 b2]|] eqn:E; [|discriminate]. pose proof (pinv_com_c _ _ _ _ _ HA E) as H2.
    destruct b2; [|injection H as <-; auto].
    destruct (com_nor s2) as [[s3 b3]|] eqn:E3; [|discriminate]. pose proof (pinv_com_nor _ _ _ _ _ HI H2 E3) as H3.
    destruct b3; [|injection H as <-; auto].
    destruct (get_J m0 s3) as [[s4 J]|] eqn:E4; [|discriminate]. pose proof (pinv_get_J _ _ _ _ _ HI HT H3 E4) as H4.
    injection H as <-. exact H4.
  - unfold com_warp_nor in H. destruct (valid_wn s); [injection H as <-; exact HA|]. destruct (valid_wc s); [|injection H as <-; exact HA].
    destruct (com_c s) as [[s2 b2]|] eqn:E; [|discriminate]. pose proof (pinv_com_c _ _ _ _ _ HA E) as H2.
    destruct b2; [|injection H as <-; auto].
    destruct (com_nor s2) as [[s3 b3]|] eqn:E3; [|discriminate]. pose proof (pinv_com_nor _ _ _ _ _ HI H2 E3) as H3.
    destruct b3; [|injection H as <-; auto].
    destruct (get_J m0 s3) as [[s4 J]|] eqn:E4; [|discriminate]. pose proof (pinv_get_J _ _ _ _ _ HI HT H3 E4) as H4.
    destruct (minv J); injection H as <-; exact H4.
Qed.
Lemma pixel_read_back_inverse k p r os s s' :
  inverse_camera k -> fst (to_bearing k p) = true -> cam_ s = Some k ->
  forallb (fun o => negb (changes_coordinate o || changes_camera o)) os = true ->
  rn (set_c p r s) os = Some s' -> com_c s' = Some (s', true) /\ c_ s' = p.
Proof.
  intros HI HT Hk HF HR.
  assert (K : pinv k p s').
  { revert HR. apply (run_ind (pinv k p) (fun o => changes_coordinate o || changes_camera o = false)).
    - intros s0 o s1 HP HO. apply orb_false_iff in HO as [? ?]. intros; eapply pinv_step; eauto.
    - unfold set_c, drop_warp. destruct (_ && _); repeat split; fcs; auto; discriminate.
    - apply forallb_F, HF. }
  destruct K as (_&V&E&_). split; auto. unfold com_c. now rewrite V.
Qed.

(** ** C15 *)
Definition winv (k : cam) (s : st) : Prop :=
  agree k s /\ track s = true /\ (valid_wc s = true -> valid_wn s = true ->
     valid_nor s = true /\ to_pixel k (nor_ s) <> None /\ warp_c s = mul (jac k (nor_ s)) (warp_nor s)).

(** what the conversions do *)
Lemma get_J_after k s s1 b1 s2 s3 J : inverse_camera k -> agree k s ->
  com_c s = Some (s1, b1) -> b1 = true -> com_nor s1 = Some (s2, true) -> get_J m0 s2 = Some (s3, J) ->
  agree k s3 /\ valid_nor s3 = true /\ to_pixel k (nor_ s3) <> None /\ J = jac k (nor_ s3) /\ warp_c s3 = warp_c s /\ warp_nor s3 = warp_nor s /\ valid_wc s3 = valid_wc s /\ valid_wn s3 = valid_wn s /\ wid s3 = wid s /\ track s3 = track s.
Proof.
  intros [I1 I2] HA H1 -> H2 H3.
  pose proof (com_c_agree _ _ _ _ HA H1) as A1. pose proof (com_nor_agree _ _ _ _ A1 H2) as A2.
  pose proof (get_J_agree _ _ _ _ A2 H3) as A3.
  apply com_c_cam in H1. apply com_nor_cam in H2. pose proof (get_J_cam _ _ _ H3) as H3'.
  assert (V2 : valid_c s2 = true /\ valid_nor s2 = true) by intuition congruence. destruct V2 as [V2 V2'].
  destruct A2 as [K2 A2]. assert (P : to_pixel k (nor_ s2) = Some (c_ s2)) by (destruct (A2 V2 V2'); auto).
  destruct H3' as (?&?&?&?&?&?&?&?&HN). destruct (HN V2') as [N1 N2].
  unfold get_J in H3. rewrite K2 in H3. unfold com_nor in H3. rewrite V2' in H3. rewrite P in H3.
  injection H3 as <- <-. fcs.
  repeat split; try tauto; try congruence; try apply A3; intuition congruence.
Qed.

Lemma com_c_winv k s s1 b : winv k s -> com_c s = Some (s1, b) -> winv k s1.
Proof.
  intros (HA&HT&HW) H. pose proof (com_c_agree _ _ _ _ HA H). apply com_c_cam in H as (h1&h2&h3&h4&h5&h6&h7&h8&h9&h10&_).
  split; [auto|]. rewrite h10, h7, h8, h2, h3, h5, h6. auto.
Qed.
Lemma com_nor_winv k s s1 b : winv k s -> com_nor s = Some (s1, b) -> winv k s1.
Proof.
  intros (HA&HT&HW) H. pose proof (com_nor_agree _ _ _ _ HA H). apply com_nor_cam in H as (h1&h2&h3&h4&h5&h6&h7&h8&h9&h10&h11).
  split; [auto|]. rewrite h10, h7, h8. split; [auto|]. intros X Y. destruct (HW X Y) as (v&?&?). rewrite (h11 v). auto.
Qed.
Lemma get_J_winv k s s1 b : winv k s -> get_J m0 s = Some (s1, b) -> winv k s1.
Proof.
  intros (HA&HT&HW) H. pose proof (get_J_agree _ _ _ _ HA H). apply get_J_cam in H as (h1&h2&h3&h4&h5&h6&h7&h8&h9).
  split; [auto|]. rewrite h8, h6, h5. split; [auto|]. intros X Y. destruct (HW X Y) as (v&?&?).
  destruct (h9 v) as [-> ->]. rewrite h3, h4. auto.
Qed.
Lemma com_warp_c_winv k s s1 b : inverse_camera k -> winv k s -> com_warp_c m0 mul s = Some (s1, b) -> winv k s1.
Proof.
  intros HI HA H. unfold com_warp_c in H.
  destruct (valid_wc s) eqn:Vwc; [injection H as <- <-; exact HA|]. destruct (valid_wn s) eqn:Vwn; [|injection H as <- <-; exact HA].
  destruct (com_c s) as [[s2 b2]|] eqn:E; [|discriminate]. pose proof (com_c_winv _ _ _ _ HA E) as H2.
  destruct b2; [|injection H as <- <-; auto].
  destruct (com_nor s2) as [[s3 b3]|] eqn:E3; [|discriminate]. pose proof (com_nor_winv _ _ _ _ H2 E3) as H3.
  destruct b3; [|injection H as <- <-; auto].
  destruct (get_J m0 s3) as [[s4 J]|] eqn:E4; [|discriminate]. pose proof (get_J_winv _ _ _ _ H3 E4) as H4.
  destruct (get_J_after k s s2 true s3 s4 J HI (proj1 HA) E eq_refl E3 E4) as (A&V&P&HJ&_).
  injection H as <- <-. split; [exact A|]. split; [apply H4|]. fcs. intros _ _. subst J. auto.
Qed.
Lemma com_warp_nor_winv k s s1 b : inverse_camera k -> right_inverse mul minv -> winv k s -> com_warp_nor m0 mul minv s = Some (s1, b) -> winv k s1.
Proof.
  intros HI HR HA H. unfold com_warp_nor in H.
  destruct (valid_wn s) eqn:Vwc; [injection H as <- <-; exact HA|]. destruct (valid_wc s) eqn:Vwn; [|injection H as <- <-; exact HA].
  destruct (com_c s) as [[s2 b2]|] eqn:E; [|discriminate]. pose proof (com_c_winv _ _ _ _ HA E) as H2.
  destruct b2; [|injection H as <- <-; auto].
  destruct (com_nor s2) as [[s3 b3]|] eqn:E3; [|discriminate]. pose proof (com_nor_winv _ _ _ _ H2 E3) as H3.
  destruct b3; [|injection H as <- <-; auto].
  destruct (get_J m0 s3) as [[s4 J]|] eqn:E4; [|discriminate]. pose proof (get_J_winv _ _ _ _ H3 E4) as H4.
  destruct (get_J_after k s s2 true s3 s4 J HI (proj1 HA) E eq_refl E3 E4) as (A&V&P&HJ&_).
  destruct (minv J) as [Ji|] eqn:EJ; injection H as <- <-; [|exact H4].
  split; [exact A|]. split; [apply H4|]. fcs. intros _ _. subst J. rewrite (HR _ _ _ EJ). auto.
Qed.

Lemma step_winv k s o s' : inverse_camera k -> right_inverse mul minv -> winv k s ->
  changes_camera o = false -> keeps_warp o = false -> stp s o = Some s' -> winv k s'.
Proof.
  intros HI HR HA HC HK H. pose proof (step_agree _ _ _ _ (proj1 HA) HC H) as A.
  destruct o; cbn [step] in H; try discriminate HC; try discriminate HK.
  - injection H as <-. split; [exact A|]. split; [apply HA|]. cbn. discriminate.
  - destruct (com_c s) as [[? ?]|] eqn:E; [|discriminate]. injection H as <-. eapply com_c_winv; eauto.
  - destruct (com_nor s) as [[? ?]|] eqn:E; [|discriminate]. injection H as <-. eapply com_nor_winv; eauto.
  - destruct (get_J m0 s) as [[? ?]|] eqn:E; [|discriminate]. injection H as <-. eapply get_J_winv; eauto.
  - destruct reset; [|discriminate HK]. injection H as <-. split; [exact A|]. unfold set_c, drop_warp in *. fcs.
    destruct HA as (_&T&_). rewrite T in *. cbn. split; [auto|discriminate].
  - destruct reset; [|discriminate HK]. injection H as <-. split; [exact A|]. unfold set_nor, drop_warp in *. fcs.
    destruct HA as (_&T&_). rewrite T in *. cbn. split; [auto|discriminate].
  - destruct (com_warp_c m0 mul s) as [[? ?]|] eqn:E; [|discriminate]. injection H as <-. eapply com_warp_c_winv; eauto.
  - destruct (com_warp_nor m0 mul minv s) as [[? ?]|] eqn:E; [|discriminate]. injection H as <-. eapply com_warp_nor_winv; eauto.
  - injection H as <-. split; [exact A|]. split; [apply HA|]. cbn. discriminate.
  - injection H as <-. split; [exact A|]. split; [apply HA|]. cbn. discriminate.
  - injection H as <-. split; [exact A|]. split; [apply HA|]. cbn. discriminate.
Qed.
Lemma fresh_winv k p n w : winv k (fresh mI k true p n w).
Proof. split; [apply fresh_agree|]. split; [reflexivity|]. cbn. discriminate. Qed.
Lemma run_winv k os s s' : inverse_camera k -> right_inverse mul minv -> winv k s ->
  forallb (fun o => negb (changes_camera o || keeps_warp o)) os = true -> rn s os = Some s' -> winv k s'.
Proof.
  intros HI HR HA HF. apply (run_ind (winv k) (fun o => changes_camera o || keeps_warp o = false)); auto.
  - intros s0 o s1 HP HO. apply orb_false_iff in HO as [? ?]. intros; eapply step_winv; eauto.
  - apply forallb_F, HF.
Qed.

Lemma com_warp_c_valid s s1 : com_warp_c m0 mul s = Some (s1, true) -> valid_wc s1 = true.
Proof.
  unfold com_warp_c. intros H. destruct (valid_wc s) eqn:V; [injection H as <-; auto|].
  destruct (valid_wn s); [|discriminate]. destruct (com_c s) as [[? []]|]; try discriminate.
  destruct (com_nor _) as [[? []]|]; try discriminate. destruct (get_J _ _) as [[? ?]|]; try discriminate.
  injection H as <-. reflexivity.
Qed.
Lemma com_warp_nor_valid s s1 : com_warp_nor m0 mul minv s = Some (s1, true) ->
  valid_wn s1 = true /\ (valid_wc s = true -> valid_wc s1 = true).
Proof.
  unfold com_warp_nor. intros H. destruct (valid_wn s) eqn:V; [injection H as <-; auto|].
  destruct (valid_wc s) eqn:V2; [|discriminate]. destruct (com_c s) as [[? []]|] eqn:E1; try discriminate.
  destruct (com_nor _) as [[? []]|] eqn:E2; try discriminate. destruct (get_J _ _) as [[? ?]|] eqn:E3; try discriminate.
  destruct (minv _); [|discriminate].
  injection H as <-. split; [reflexivity|]. fcs. intros _. apply com_c_cam in E1. apply com_nor_cam in E2. apply get_J_cam in E3.
  intuition congruence.
Qed.

Lemma warps_related k os p0 n0 w0 s s1 s2 :
  inverse_camera k -> right_inverse mul minv ->
  forallb (fun o => negb (changes_camera o || keeps_warp o)) os = true ->
  rn (fresh mI k true p0 n0 w0) os = Some s ->
  com_warp_c m0 mul s = Some (s1, true) -> com_warp_nor m0 mul minv s1 = Some (s2, true) ->
  com_nor s2 = Some (s2, true) /\ to_pixel k (nor_ s2) <> None /\ warp_c s2 = mul (jac k (nor_ s2)) (warp_nor s2).
Proof.
  intros HI HR HF HU H1 H2.
  assert (W : winv k s2).
  { eapply com_warp_nor_winv; eauto. eapply com_warp_c_winv; eauto. eapply run_winv; eauto using fresh_winv. }
  apply com_warp_c_valid in H1. apply com_warp_nor_valid in H2 as [V2 V1]. specialize (V1 H1).
  destruct W as (_&_&W). destruct (W V1 V2) as (v&?&?). repeat split; auto. unfold com_nor. now rewrite v.
Qed.

(** ** availability *)
Lemma com_warp_c_flags s s1 b : com_warp_c m0 mul s = Some (s1, b) ->
  valid_wc s1 || valid_wn s1 = valid_wc s || valid_wn s /\ track s1 = track s.
Proof.
  unfold com_warp_c. intros H. destruct (valid_wc s) eqn:V; [injection H as <-; rewrite V; auto|].
  destruct (valid_wn s) eqn:V2; [|injection H as <- <-; rewrite V, V2; auto].
  destruct (com_c s) as [[x []]|] eqn:E1; try discriminate;
   [|injection H as <- <-; apply com_c_cam in E1 as (?&?&?&?&?&?&h1&h2&h3&h4&?); rewrite h1, h2, V, V2; auto].
  destruct (com_nor x) as [[y []]|] eqn:E2; try discriminate;
   [|injection H as <- <-; apply com_c_cam in E1 as (?&?&?&?&?&?&h1&h2&h3&h4&?); apply com_nor_cam in E2 as (?&?&?&?&?&?&g1&g2&g3&g4&?);
     rewrite g1, g2, g4, h1, h2, V, V2; auto].
  destruct (get_J m0 y) as [[z J]|] eqn:E3; try discriminate. injection H as <- <-. fcs.
  apply com_c_cam in E1. apply com_nor_cam in E2. apply get_J_cam in E3. split; [reflexivity|intuition congruence].
Qed.
Lemma com_warp_nor_flags s s1 b : com_warp_nor m0 mul minv s = Some (s1, b) ->
  valid_wc s1 || valid_wn s1 = valid_wc s || valid_wn s /\ track s1 = track s.
Proof.
  unfold com_warp_nor. intros H. destruct (valid_wn s) eqn:V; [injection H as <-; rewrite V; auto|].
  destruct (valid_wc s) eqn:V2; [|injection H as <- <-; rewrite V, V2; auto].
  destruct (com_c s) as [[x []]|] eqn:E1; try discriminate;
   [|injection H as <- <-; apply com_c_cam in E1 as (?&?&?&?&?&?&h1&h2&h3&h4&?); rewrite h1, h2, V, V2; auto].
  destruct (com_nor x) as [[y []]|] eqn:E2; try discriminate;
   [|injection H as <- <-; apply com_c_cam in E1 as (?&?&?&?&?&?&h1&h2&h3&h4&?); apply com_nor_cam in E2 as (?&?&?&?&?&?&g1&g2&g3&g4&?);
     rewrite g1, g2, g4, h1, h2, V, V2; auto].
  destruct (get_J m0 y) as [[z J]|] eqn:E3; try discriminate.
  apply com_c_cam in E1 as (?&?&?&?&?&?&h1&h2&h3&h4&?); apply com_nor_cam in E2 as (?&?&?&?&?&?&g1&g2&g3&g4&?);
   apply get_J_cam in E3 as (?&?&?&?&f1&f2&f3&f4&?).
  destruct (minv J); injection H as <- <-; fcs; rewrite ?f1, ?f2, ?f4, ?g1, ?g2, ?g4, ?h1, ?h2, ?V, ?V2; auto.
Qed.

Lemma run_provided os : forall s s', track s = true ->
  forallb (fun o => negb (keeps_warp o)) os = true -> rn s os = Some s' ->
  track s' = true /\ valid_wc s' || valid_wn s' = provided (valid_wc s || valid_wn s) os.
Proof.
  induction os as [|o os IH]; intros s s' T HF HR; cbn in HR.
  - injection HR as <-. auto.
  - cbn in HF. apply andb_true_iff in HF as [HK HF].
    destruct (stp s o) as [s1|] eqn:E; [|discriminate].
    assert (K : track s1 = true /\ valid_wc s1 || valid_wn s1 =
       match o with OSetWarpC _ | OSetWarpNor _ | OSetWarpId | OReset => true | OSetC _ _ | OSetNor _ _ => false
              | _ => valid_wc s || valid_wn s end).
    { destruct o; cbn [step keeps_warp] in *; try discriminate HK.
      - injection E as <-. cbn. auto.
      - destruct (com_c s) as [[x b]|] eqn:E1; [|discriminate]. injection E as <-. apply com_c_cam in E1. cbn. intuition congruence.
      - destruct (com_nor s) as [[x b]|] eqn:E1; [|discriminate]. injection E as <-. apply com_nor_cam in E1. cbn. intuition congruence.
      - destruct (get_J m0 s) as [[x b]|] eqn:E1; [|discriminate]. injection E as <-. apply get_J_cam in E1. cbn. intuition congruence.
      - destruct reset; [|discriminate HK]. injection E as <-. unfold set_c, drop_warp. fcs. rewrite T. cbn. auto.
      - destruct reset; [|discriminate HK]. injection E as <-. unfold set_nor, drop_warp. fcs. rewrite T. cbn. auto.
      - destruct (com_warp_c m0 mul s) as [[x b]|] eqn:E1; [|discriminate]. injection E as <-. apply com_warp_c_flags in E1. cbn. intuition congruence.
      - destruct (com_warp_nor m0 mul minv s) as [[x b]|] eqn:E1; [|discriminate]. injection E as <-. apply com_warp_nor_flags in E1. cbn. intuition congruence.
      - injection E as <-. cbn. auto.
      - injection E as <-. cbn. auto.
      - injection E as <-. cbn. auto.
      - injection E as <-. cbn. auto. }
    destruct K as [T1 K]. destruct (IH s1 s' T1 HF HR) as [A B]. split; [exact A|]. rewrite B, K. reflexivity.
Qed.

Lemma warp_available k os p0 n0 w0 s s1 s2 J sj :
  forallb (fun o => negb (keeps_warp o)) os = true ->
  rn (fresh mI k true p0 n0 w0) os = Some s ->
  com_c s = Some (s1, true) -> com_nor s1 = Some (s2, true) -> get_J m0 s2 = Some (sj, J) -> minv J <> None ->
  (exists sc b, com_warp_c m0 mul s = Some (sc, b) /\ b = provided true os) /\ (exists sn b, com_warp_nor m0 mul minv s = Some (sn, b) /\ b = provided true os).
Proof.
  intros HF HR H1 H2 HJ HI. destruct (run_provided os (fresh mI k true p0 n0 w0) s eq_refl HF HR) as [T P].
  change (valid_wc (fresh mI k true p0 n0 w0) || valid_wn (fresh mI k true p0 n0 w0)) with true in P.
  rewrite <- P. unfold com_warp_c, com_warp_nor. rewrite H1, H2, HJ.
  destruct (valid_wc s), (valid_wn s); cbn [orb]; split; eauto.
  destruct (minv J); [eauto|congruence].
Qed.

Lemma warp_unavailable k os p0 n0 w0 s :
  forallb (fun o => negb (keeps_warp o)) os = true ->
  rn (fresh mI k true p0 n0 w0) os = Some s -> provided true os = false ->
  com_warp_c m0 mul s = Some (s, false) /\ com_warp_nor m0 mul minv s = Some (s, false).
Proof.
  intros HF HR HP. destruct (run_provided os (fresh mI k true p0 n0 w0) s eq_refl HF HR) as [T P].
  change (valid_wc (fresh mI k true p0 n0 w0) || valid_wn (fresh mI k true p0 n0 w0)) with true in P.
  rewrite HP in P. apply orb_false_iff in P as [A B]. unfold com_warp_c, com_warp_nor. now rewrite A, B.
Qed.

(** ** identity flag *)
Definition idinv (s : st) : Prop :=
  wid s = true -> (valid_wc s = true -> warp_c s = mI) /\ (valid_wn s = true -> valid_wc s = true).
Lemma idinv_step s o s' : idinv s -> stp s o = Some s' -> idinv s'.
Proof.
  intros HA H. destruct o; cbn [step] in H.
  - injection H as <-. cbv. auto.
  - destruct (com_c s) as [[x b]|] eqn:E1; [|discriminate]. injection H as <-. apply com_c_cam in E1 as (?&?&?&?&a&b0&c&d&e&?&?).
    unfold idinv. cbn. rewrite a, c, d, e. exact HA.
  - destruct (com_nor s) as [[x b]|] eqn:E1; [|discriminate]. injection H as <-. apply com_nor_cam in E1 as (?&?&?&?&a&b0&c&d&e&?&?).
    unfold idinv. cbn. rewrite a, c, d, e. exact HA.
  - destruct (get_J m0 s) as [[x b]|] eqn:E1; [|discriminate]. injection H as <-. apply get_J_cam in E1 as (?&?&a&b0&c&d&e&?&?).
    unfold idinv. cbn. rewrite a, c, d, e. exact HA.
  - injection H as <-. unfold set_c, drop_warp. destruct (_ && _); [|exact HA]. unfold idinv. fcs. split; discriminate.
  - injection H as <-. unfold set_nor, drop_warp. destruct (_ && _); [|exact HA]. unfold idinv. fcs. split; discriminate.
  - unfold com_warp_c in H. destruct (valid_wc s) eqn:V; [injection H as <-; exact HA|].
    destruct (valid_wn s) eqn:V2; [|injection H as <-; exact HA].
    assert (N : wid s = false) by (destruct (wid s) eqn:W; auto; destruct (HA W) as [_ X]; specialize (X V2); congruence).
    destruct (com_c s) as [[x bx]|] eqn:E1; [|discriminate]. apply com_c_cam in E1.
    assert (N1 : wid x = false) by intuition congruence.
    destruct bx; [|injection H as <-; unfold idinv; cbn; congruence].
    destruct (com_nor x) as [[y by_]|] eqn:E2; [|discriminate]. apply com_nor_cam in E2.
    assert (N2 : wid y = false) by intuition congruence.
    destruct by_; [|injection H as <-; unfold idinv; cbn; congruence].
    destruct (get_J m0 y) as [[z J]|] eqn:E3; [|discriminate]. apply get_J_cam in E3.
    assert (N3 : wid z = false) by intuition congruence.
    injection H as <-. unfold idinv; cbn; congruence.
  - unfold com_warp_nor in H. destruct (valid_wn s) eqn:V; [injection H as <-; exact HA|].
    destruct (valid_wc s) eqn:V2; [|injection H as <-; exact HA].
    destruct (com_c s) as [[x bx]|] eqn:E1; [|discriminate]. apply com_c_cam in E1 as (?&?&?&?&a&b0&c&d&e&?&?).
    destruct bx; [|injection H as <-; unfold idinv; cbn; rewrite a, c, d, e; exact HA].
    destruct (com_nor x) as [[y by_]|] eqn:E2; [|discriminate]. apply com_nor_cam in E2 as (?&?&?&?&a2&b2&c2&d2&e2&?&?).
    destruct by_; [|injection H as <-; unfold idinv; cbn; rewrite a2, c2, d2, e2, a, c, d, e; exact HA].
    destruct (get_J m0 y) as [[z J]|] eqn:E3; [|discriminate]. apply get_J_cam in E3 as (?&?&a3&b3&c3&d3&e3&?&?).
    destruct (minv J); injection H as <-; unfold idinv; fcs.
    + rewrite e3, e2, e, a3, a2, a, c3, c2, c, V2. intros W. destruct (HA W). auto.
    + rewrite e3, e2, e, a3, a2, a, c3, c2, c, d3, d2, d. exact HA.
  - injection H as <-. unfold idinv; cbn; discriminate.
  - injection H as <-. unfold idinv; cbn; discriminate.
  - injection H as <-. unfold idinv; cbn; auto.
  - injection H as <-. exact HA.
  - injection H as <-. exact HA.
Qed.
Lemma identity_flag_sound os p0 n0 w0 s :
  rn (mk_fc mI p0 n0 w0) os = Some s -> wid s = true -> valid_wc s = true -> warp_c s = mI.
Proof.
  intros HR W V.
  assert (K : idinv s).
  { revert HR. apply (run_ind idinv (fun _ => True)).
    - intros; eapply idinv_step; eauto.
    - cbv. auto.
    - apply Forall_forall; auto. }
  destruct (K W); auto.
Qed.
End P.
