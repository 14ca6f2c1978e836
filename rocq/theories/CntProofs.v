(** The 32-bit counters agree with the unbounded ones as long as the limits are kept. *)
From Coq Require Import List ZArith Bool Lia FunctionalExtensionality.
From Verif Require Import Util StatModel StatSpec StatProofs FsetModel CntModel CntSpec.
Import ListNotations.
Local Open Scope Z_scope.

Lemma int32_ok z : is_int z -> int32 z = Some z.
Proof. unfold is_int, int32. intros H. destruct (Z.leb_spec (-2147483648) z); [|lia]. destruct (Z.leb_spec z 2147483647); [reflexivity|lia]. Qed.
Lemma int32_inv z v : int32 z = Some v -> v = z /\ is_int z.
Proof. unfold is_int, int32. destruct (Z.leb_spec (-2147483648) z); [|discriminate]. destruct (Z.leb_spec z 2147483647); [|discriminate]. intros [= <-]. lia. Qed.
Lemma add32_ok a b : is_int (a + b) -> add32 a b = Some (a + b).
Proof. apply int32_ok. Qed.
Lemma b2z_01 b : 0 <= b2z b <= 1. Proof. destruct b; cbn; lia. Qed.

Section Run.
Context {T : Type} (Ops : qops T) (ncam : nat).
Local Notation past l := (Z.of_nat (length (l_past l))).

Lemma map_opt_ok {A B} (f : A -> option B) (g : A -> B) l : (forall x, In x l -> f x = Some (g x)) -> map_opt f l = Some (map g l).
Proof. induction l as [|x l IH]; intros H; cbn; [reflexivity|]. rewrite (H x (or_introl eq_refl)). cbn. rewrite IH; [reflexivity|]. intros; apply H; now right. Qed.
Lemma map_opt_inv {A B} (f : A -> option B) (g : A -> B) l r : (forall x y, f x = Some y -> y = g x) -> map_opt f l = Some r -> r = map g l.
Proof.
  intros H. revert r; induction l as [|x l IH]; cbn; intros r E; [congruence|].
  destruct (f x) as [y|] eqn:Ex; [|discriminate]; cbn in E. destruct (map_opt f l) as [ys|]; [|discriminate]. cbn in E. injection E as <-. f_equal; auto.
Qed.

Lemma cum_eq st (f : tstatus -> Z) : (fun x => if tstatus_eqb x st then f st + 1 else f x) = cum_incr st f.
Proof. apply functional_extensionality; intros x. unfold cum_incr. destruct (tstatus_eqb x st) eqn:E; [|reflexivity]. apply tstatus_eqb_eq in E. now subst. Qed.
Lemma cum_ok st f : is_int (f st + 1) -> cum_incr32 st f = Some (cum_incr st f).
Proof. intros H. unfold cum_incr32. rewrite add32_ok by exact H. cbn [bind]. now rewrite cum_eq. Qed.
Lemma cum_inv st f g : cum_incr32 st f = Some g -> g = cum_incr st f.
Proof. unfold cum_incr32. destruct (add32 (f st) 1) as [v|] eqn:E; [|discriminate]. apply int32_inv in E as [-> _]. cbn. intros [= <-]. apply cum_eq. Qed.

Lemma increase_inv t s s' : increase32 Ops t s = Some s' -> s' = increase Ops t s /\ is_int (s_tot s + 1).
Proof.
  unfold increase32. set (trk := if tracked_in_some_frame s then _ else _). destruct trk as [k|] eqn:Ek; [|discriminate]. cbn [bind].
  destruct (map_opt _ _) as [cs|] eqn:Ec; [|discriminate]. cbn [bind]. destruct (add32 (s_tot s) 1) as [n|] eqn:En; [|discriminate]. cbn [bind]. intros [= <-].
  apply int32_inv in En as [-> Hn]. split; [|exact Hn]. unfold increase. f_equal.
  - eapply map_opt_inv; [|exact Ec]. intros c c' E. unfold cam_increase32 in E. destruct (cum_incr32 _ _) as [g|] eqn:Eg; [|discriminate]. cbn in E. injection E as <-. apply cum_inv in Eg as ->. reflexivity.
  - subst trk. destruct (tracked_in_some_frame s); [apply int32_inv in Ek as [-> _]; reflexivity|congruence].
Qed.
Lemma increase_ok t s l : abs_ok ncam s l -> past l + 1 <= largest_int -> increase32 Ops t s = Some (increase Ops t s).
Proof.
  unfold largest_int. intros A H. unfold increase32. rewrite (ab_trk _ _ _ A), (ab_tot _ _ _ A). pose proof (count_le tracked_anywhere (l_past l)).
  assert (E : (if tracked_in_some_frame s then add32 (count tracked_anywhere (l_past l)) 1 else Some (count tracked_anywhere (l_past l)))
              = Some (if tracked_in_some_frame s then count tracked_anywhere (l_past l) + 1 else count tracked_anywhere (l_past l))).
  { destruct (tracked_in_some_frame s); [|reflexivity]. apply add32_ok. unfold is_int. lia. }
  rewrite E. cbn [bind]. rewrite (map_opt_ok _ (cam_increase Ops (s_rq s) (s_rv s) (s_cur s))).
  - cbn [bind]. rewrite add32_ok by (unfold is_int; lia). cbn [bind]. unfold increase. now rewrite (ab_trk _ _ _ A), (ab_tot _ _ _ A).
  - intros c Hc. apply In_nth_error in Hc as [i Hi]. unfold cam_increase32. rewrite cum_ok; [reflexivity|]. rewrite (ab_cam _ _ _ A i c Hi). pose proof (count_le (seen_as i (c_status c)) (l_past l)). unfold is_int. lia.
Qed.

Lemma run_ok os : forall s l, abs_ok ncam s l -> lives_at_most (past l) largest_int os -> run32 Ops s os = run Ops s os.
Proof.
  induction os as [|o os IH]; intros s l A L; cbn [run32 run]; [reflexivity|].
  assert (E : step32 Ops s o = step Ops s o). { destruct o; try reflexivity. cbn [step32 step]. cbn in L. eapply increase_ok; [exact A|lia]. }
  rewrite E. destruct (step Ops s o) as [s1|] eqn:E1; [|reflexivity]. cbn [bind]. apply (IH s1 (log_step ncam l o)); [eapply step_abs; eauto|].
  destruct o; cbn [lives_at_most log_step l_past length] in L |- *; try exact L. rewrite Nat2Z.inj_succ. unfold Z.succ. tauto.
Qed.
Lemma run_inv os : forall s l s', abs_ok ncam s l -> run32 Ops s os = Some s' -> run Ops s os = Some s' /\ lives_at_most (past l) largest_int os.
Proof.
  induction os as [|o os IH]; intros s l s' A R; cbn [run32 run] in *; [split; [exact R|exact Logic.I]|].
  destruct (step32 Ops s o) as [s1|] eqn:E1; [|discriminate]. cbn [bind] in R.
  assert (E : step Ops s o = Some s1). { destruct o; try exact E1. cbn [step32 step] in *. f_equal. symmetry. now apply increase_inv. }
  rewrite E. destruct (IH s1 (log_step ncam l o) s') as [R' L]; [eapply step_abs; eauto|exact R|]. split; [exact R'|].
  destruct o; cbn [lives_at_most log_step l_past length] in L |- *; try exact L. rewrite Nat2Z.inj_succ in L. unfold Z.succ in L. split; [|exact L].
  cbn [step32] in E1. apply increase_inv in E1 as [_ H]. rewrite (ab_tot _ _ _ A) in H. unfold is_int, largest_int in *. lia.
Qed.

(** the stored histories have at most one entry per completed frame *)
Lemma tmap_len k v m : (length (tmap_set k v m) <= S (length m))%nat.
Proof. induction m as [|[k' v'] m IH]; cbn; [lia|]. destruct (k' <? k); cbn; [lia|]. destruct (k =? k'); cbn; lia. Qed.
Definition short (s : stat T) (l : flog) : Prop := forall c, In c (s_cams s) -> (length (c_hist c) <= length (l_past l))%nat.
Lemma in_upd {A} (f : A -> A) i x l : In x (upd_nth i f l) -> In x l \/ exists y, In y l /\ x = f y.
Proof.
  intros H. apply In_nth_error in H as [j H]. destruct (Nat.eq_dec i j) as [->|N].
  - rewrite nth_error_upd_nth_eq in H. destruct (nth_error l j) eqn:E; [|discriminate]. injection H as <-. right. eexists; split; [eapply nth_error_In; eauto|reflexivity].
  - rewrite nth_error_upd_nth_ne in H by exact N. left. eapply nth_error_In; eauto.
Qed.
Lemma run_short os : forall s l s', short s l -> run Ops s os = Some s' -> short s' (fold_left (log_step ncam) os l).
Proof.
  induction os as [|o os IH]; intros s l s' A R; cbn [run fold_left] in *; [now injection R as <-|].
  destruct (step Ops s o) as [s1|] eqn:E; [|discriminate]. apply (IH s1); [|exact R]. clear IH R. destruct o as [t|i st|t|a b c]; cbn [step] in E.
  - injection E as <-. intros c Hc. cbn in Hc. apply in_map_iff in Hc as (c0 & <- & _). cbn. lia.
  - unfold set_status in E. destruct (Nat.ltb i _); [|discriminate]. injection E as <-. intros c Hc. cbn in Hc |- *. apply in_upd in Hc as [Hc|(c0 & Hc & ->)]; [exact (A c Hc)|]. cbn. exact (A c0 Hc).
  - injection E as <-. intros c Hc. cbn in Hc |- *. apply in_map_iff in Hc as (c0 & <- & Hc). cbn. pose proof (tmap_len (s_cur s) (c_status c0) (c_hist c0)). specialize (A c0 Hc). lia.
  - injection E as <-. exact A.
Qed.
Lemma init_short t : short (init Ops ncam t) (log_init ncam t).
Proof. intros c Hc. cbn in Hc. apply repeat_spec in Hc. subst. cbn. lia. Qed.

(** the walk along the history *)
Lemma walk_ok st n : is_int n -> n <> -2147483648 -> forall m j count, 0 <= j -> 0 <= count -> j + Z.of_nat (length m) <= largest_int -> count + Z.of_nat (length m) <= largest_int ->
  walk32 st n j count m = Some (count + count_recent st (Z.to_nat (n - 1 - j)) m).
Proof.
  unfold is_int, largest_int. intros I N. induction m as [|e m IH]; intros j k Hj Hk Lj Lk.
  - cbn [walk32]. rewrite add32_ok by (unfold is_int; lia). cbn [bind]. unfold count_recent. rewrite firstn_nil. cbn. destruct (negb _); f_equal; lia.
  - cbn [walk32]. rewrite add32_ok by (unfold is_int; lia). cbn [bind]. replace (n + -1) with (n - 1) by lia. cbn [length] in *. rewrite Nat2Z.inj_succ in *.
    destruct (Z.ltb_spec j (n - 1)); cbn [negb].
    + assert (E : (if tstatus_eqb (snd e) st then add32 k 1 else Some k) = Some (k + b2z (tstatus_eqb (snd e) st))). { destruct (tstatus_eqb (snd e) st); cbn [b2z]; [apply add32_ok; unfold is_int; lia|f_equal; lia]. }
      rewrite E. cbn [bind]. rewrite add32_ok by (unfold is_int; lia). cbn [bind]. pose proof (b2z_01 (tstatus_eqb (snd e) st)). rewrite IH by lia. f_equal.
      replace (Z.to_nat (n - 1 - j)) with (S (Z.to_nat (n - 1 - (j + 1)))) by lia. unfold count_recent. cbn [firstn filter]. destruct (tstatus_eqb (snd e) st); cbn [b2z length]; lia.
    + replace (Z.to_nat (n - 1 - j)) with 0%nat by lia. unfold count_recent. cbn. f_equal. lia.
Qed.
Lemma filter_le {A} (p : A -> bool) l : (length (filter p l) <= length l)%nat.
Proof. induction l; cbn; [lia|]. destruct (p a); cbn; lia. Qed.
Lemma recent_le st k m : 0 <= count_recent st k m <= Z.of_nat (length m).
Proof. unfold count_recent. split; [lia|]. apply inj_le. etransitivity; [apply filter_le|]. rewrite firstn_length. lia. Qed.
Lemma three {A} (p q r : A -> bool) l : (forall x, b2z (p x) + b2z (q x) + b2z (r x) <= 1) ->
  Z.of_nat (length (filter p l)) + Z.of_nat (length (filter q l)) + Z.of_nat (length (filter r l)) <= Z.of_nat (length l).
Proof. intros H. induction l as [|x l IH]; cbn [filter length]; [lia|]. specialize (H x). destruct (p x), (q x), (r x); cbn [b2z length] in *; lia. Qed.
Lemma distinct x : b2z (tstatus_eqb x FAILED_ALIGNEMENT) + b2z (tstatus_eqb x FAILED_TRACKING) + b2z (tstatus_eqb x TRACKED) <= 1.
Proof. destruct x; cbn; lia. Qed.

Section Counts.
Variables (s : stat T) (l : flog).
Hypothesis A : abs_ok ncam s l.
Hypothesis Sh : short s l.
Local Notation F := (past l + 1).

Lemma cam_le n c : In c (s_cams s) -> (forall st, 0 <= count_cam st n c <= F) /\
  count_cam FAILED_ALIGNEMENT n c + count_cam FAILED_TRACKING n c + count_cam TRACKED n c <= F.
Proof.
  intros Hc. pose proof (Sh c Hc) as Lh. apply In_nth_error in Hc as [i Hi]. pose proof (distinct (c_status c)) as D. split.
  - intros st. unfold count_cam. rewrite (ab_cam _ _ _ A i c Hi). pose proof (count_le (seen_as i st) (l_past l)). pose proof (b2z_01 (tstatus_eqb (c_status c) st)).
    pose proof (recent_le st (Z.to_nat (n - 1)) (c_hist c)). destruct (n =? 0); lia.
  - unfold count_cam. rewrite !(ab_cam _ _ _ A i c Hi). destruct (n =? 0).
    + pose proof (three (seen_as i FAILED_ALIGNEMENT) (seen_as i FAILED_TRACKING) (seen_as i TRACKED) (l_past l)) as H. unfold count.
      assert (forall x, b2z (seen_as i FAILED_ALIGNEMENT x) + b2z (seen_as i FAILED_TRACKING x) + b2z (seen_as i TRACKED x) <= 1).
      { intros f. unfold seen_as. destruct (nth_error f i); [apply distinct|cbn; lia]. } specialize (H H0). lia.
    + unfold count_recent. pose proof (three (fun e : Z * tstatus => tstatus_eqb (snd e) FAILED_ALIGNEMENT) (fun e => tstatus_eqb (snd e) FAILED_TRACKING) (fun e => tstatus_eqb (snd e) TRACKED)
        (firstn (Z.to_nat (n - 1)) (c_hist c)) (fun e => distinct (snd e))) as H. rewrite firstn_length in H. lia.
Qed.
Lemma cam_ok st n k c : is_int n -> n <> -2147483648 -> In c (s_cams s) -> 0 <= k -> k + F <= largest_int -> count_cam32 st n k c = Some (k + count_cam st n c).
Proof.
  unfold largest_int. intros I N Hc Hk L. pose proof (proj1 (cam_le n c Hc) st) as B. pose proof (b2z_01 (tstatus_eqb (c_status c) st)) as B1. pose proof (Sh c Hc) as Lh. unfold count_cam32, count_cam in *. destruct (n =? 0).
  - rewrite add32_ok by (unfold is_int; lia). cbn [bind]. apply add32_ok. unfold is_int. lia.
  - rewrite walk_ok by (try assumption; unfold largest_int; lia). cbn [bind]. rewrite Z.sub_0_r. rewrite add32_ok by (unfold is_int; lia). f_equal. lia.
Qed.
Lemma cams_ok st n : is_int n -> n <> -2147483648 -> forall cs k, incl cs (s_cams s) -> 0 <= k -> k + Z.of_nat (length cs) * F <= largest_int ->
  count_cams32 st n k cs = Some (fold_left (fun a c => a + count_cam st n c) cs k).
Proof.
  intros I N. induction cs as [|c cs IH]; intros k Ic Hk L; cbn [count_cams32 fold_left]; [reflexivity|]. cbn [length] in L. rewrite Nat2Z.inj_succ in L.
  assert (Hc : In c (s_cams s)) by (apply Ic; now left). pose proof (proj1 (cam_le n c Hc) st) as B. rewrite cam_ok; auto; [|nia]. cbn [bind]. apply IH; [intros x Hx; apply Ic; now right|lia|nia].
Qed.
Hypothesis Room : Z.of_nat ncam * F <= largest_int.
Lemma status_ok st camID n : is_int n -> n <> -2147483648 -> count_status32 s st camID n = Some (count_status s st camID n).
Proof.
  intros I N. unfold count_status32, count_status. destruct (Z.eqb_spec camID (-1)).
  - apply cams_ok; auto; [apply incl_refl|lia|]. rewrite (ab_len _ _ _ A). lia.
  - destruct ((camID <? 0) || _); [reflexivity|]. destruct (nth_error (s_cams s) (Z.to_nat camID)) as [c|] eqn:E; [|reflexivity].
    rewrite cam_ok; auto; [eapply nth_error_In; eauto|lia|]. apply nth_error_In in E. assert (1 <= ncam)%nat by (rewrite <- (ab_len _ _ _ A); destruct (s_cams s); [easy|cbn; lia]). unfold largest_int in *. nia.
Qed.
Lemma fold3 n : forall cs a b c, incl cs (s_cams s) ->
  fold_left (fun a x => a + count_cam FAILED_ALIGNEMENT n x) cs a + fold_left (fun a x => a + count_cam FAILED_TRACKING n x) cs b + fold_left (fun a x => a + count_cam TRACKED n x) cs c
    <= a + b + c + Z.of_nat (length cs) * F /\
  a <= fold_left (fun a x => a + count_cam FAILED_ALIGNEMENT n x) cs a /\ b <= fold_left (fun a x => a + count_cam FAILED_TRACKING n x) cs b /\ c <= fold_left (fun a x => a + count_cam TRACKED n x) cs c.
Proof.
  induction cs as [|x cs IH]; intros a b c Ic; cbn [fold_left length]; [lia|]. destruct (cam_le n x ltac:(apply Ic; now left)) as [B B3].
  pose proof (B FAILED_ALIGNEMENT). pose proof (B FAILED_TRACKING). pose proof (B TRACKED).
  destruct (IH (a + count_cam FAILED_ALIGNEMENT n x) (b + count_cam FAILED_TRACKING n x) (c + count_cam TRACKED n x)) as (X & Y); [intros z Hz; apply Ic; now right|]. rewrite Nat2Z.inj_succ. nia.
Qed.
Lemma status3 camID n : count_status s FAILED_ALIGNEMENT camID n + count_status s FAILED_TRACKING camID n + count_status s TRACKED camID n <= Z.of_nat ncam * F /\
  0 <= count_status s FAILED_ALIGNEMENT camID n /\ 0 <= count_status s FAILED_TRACKING camID n /\ 0 <= count_status s TRACKED camID n.
Proof.
  unfold count_status. destruct (camID =? -1).
  - destruct (fold3 n (s_cams s) 0 0 0 (incl_refl _)) as (X & Y). rewrite (ab_len _ _ _ A) in X. lia.
  - destruct ((camID <? 0) || _); [nia|]. destruct (nth_error (s_cams s) (Z.to_nat camID)) as [c|] eqn:E; [|nia]. apply nth_error_In in E. destruct (cam_le n c E) as [B B3].
    pose proof (B FAILED_ALIGNEMENT). pose proof (B FAILED_TRACKING). pose proof (B TRACKED). assert (1 <= ncam)%nat by (rewrite <- (ab_len _ _ _ A); destruct (s_cams s); [easy|cbn; lia]). nia.
Qed.
Lemma in_frame_ok camID n : is_int n -> n <> -2147483648 -> count_in_frame32 s camID n = Some (count_in_frame s camID n).
Proof.
  intros I N. unfold count_in_frame32, count_in_frame. rewrite !status_ok by assumption. cbn [bind]. destruct (status3 camID n) as (X & Y). unfold largest_int in Room.
  rewrite add32_ok by (unfold is_int; lia). cbn [bind]. apply add32_ok. unfold is_int. lia.
Qed.
End Counts.

Lemma tot_ok (s : stat T) l : abs_ok ncam s l -> past l + 1 <= largest_int -> count_tot32 s = Some (count_tot s) /\ count_tracked32 s = Some (count_tracked s).
Proof.
  unfold largest_int. intros A H. unfold count_tot32, count_tot, count_tracked32, count_tracked. rewrite (ab_tot _ _ _ A), (ab_trk _ _ _ A). pose proof (count_le tracked_anywhere (l_past l)). pose proof (b2z_01 (tracked_in_some_frame s)).
  split; apply add32_ok; unfold is_int; lia.
Qed.
End Run.

(** identities *)
Lemma make_ok {P} (fs : fset P) : is_int (fs_maxIdx fs + 1) -> make_new32 fs = Some (make_new fs).
Proof. intros H. unfold make_new32, make_new. destruct (free_index (fs_slots fs)); [|reflexivity]. rewrite add32_ok by exact H. reflexivity. Qed.
Lemma make_idx {P} (fs : fset P) : fs_maxIdx fs <= fs_maxIdx (fst (make_new fs)) <= fs_maxIdx fs + 1.
Proof. unfold make_new. destruct (free_index (fs_slots fs)); cbn; lia. Qed.
Lemma fs_run_ok {P} os : forall (fs : fset P) k, 0 <= fs_maxIdx fs <= k -> requests_at_most k largest_int os ->
  fs_run32 fs os = Some (fs_run fs os) /\ 0 <= fs_maxIdx (fs_run fs os).
Proof.
  unfold fs_run. induction os as [|o os IH]; intros fs k B H; cbn [fs_run32 fold_left requests_at_most] in *; [split; [reflexivity|lia]|].
  destruct o as [|i|]; cbn [fs_step32 bind].
  - destruct H as [L H]. rewrite make_ok by (unfold is_int, largest_int in *; lia). cbn [bind]. apply (IH _ (k + 1)); [|exact H]. cbn [fs_step]. pose proof (make_idx fs). lia.
  - apply (IH _ k); [exact B|exact H].
  - apply (IH _ 0); [cbn; lia|exact H].
Qed.
