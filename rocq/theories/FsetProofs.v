(** Lemmas about slot allocation and candidate insertion. *)
From Coq Require Import List ZArith QArith Qround Bool Lia Lqa Permutation.
From Verif Require Import Util FsetModel FsetSpec.
Import ListNotations.
Local Open Scope Z_scope.

Section Slots.
Context {Patch : Type}.
Notation fset := (fset Patch).
Notation slot := (slot Patch).

Lemma valid_count_live (fs : fset) : valid_count fs = n_live fs.
Proof.
  unfold valid_count, n_live. induction (fs_slots fs) as [|s l IH]; cbn; auto.
  destruct (sl_valid s); cbn; rewrite IH; auto.
Qed.

Lemma existing_in_view proj (fs : fset) : existing proj fs = in_view proj fs.
Proof.
  unfold existing, in_view. induction (fs_slots fs) as [|s l IH]; cbn; auto.
  destruct (sl_valid s); cbn; [destruct (proj (sl_feat s)); cbn|]; rewrite IH; auto.
Qed.

Lemma count_split (l : list slot) : (count_slots true l + count_slots false l = length l)%nat.
Proof.
  induction l as [|s l IH]; cbn; auto. destruct (sl_valid s); cbn; lia.
Qed.

Lemma free_index_spec (l : list slot) i :
  free_index l = Some i ->
  (exists s, nth_error l i = Some s /\ sl_valid s = false) /\
  (forall j, (j < i)%nat -> exists s, nth_error l j = Some s /\ sl_valid s = true).
Proof.
  revert i; induction l as [|s l IH]; cbn; intros i H; [discriminate|].
  destruct (sl_valid s) eqn:E.
  - destruct (free_index l) as [k|] eqn:Ek; [|discriminate]. cbn in H; injection H as <-.
    destruct (IH k eq_refl) as [[s' [H1 H2]] H3]. split.
    + exists s'. cbn; auto.
    + intros [|j] Hj; cbn; [eauto|]. apply H3; lia.
  - injection H as <-. split; [exists s; cbn; auto|]. intros j Hj; lia.
Qed.

Lemma free_index_none (l : list slot) :
  free_index l = None <-> count_slots false l = 0%nat.
Proof.
  induction l as [|s l IH]; cbn; [tauto|].
  destruct (sl_valid s) eqn:E; cbn.
  - rewrite <- IH. destruct (free_index l); cbn; split; congruence.
  - split; [discriminate|lia].
Qed.

Lemma count_upd b (l : list slot) i f s :
  nth_error l i = Some s -> sl_valid s = negb b -> sl_valid (f s) = b ->
  count_slots b (upd_nth i f l) = S (count_slots b l).
Proof.
  revert i; induction l as [|x l IH]; intros [|i] H1 H2 H3; cbn in *; try discriminate.
  - injection H1 as ->. rewrite H2, H3. destruct b; cbn; lia.
  - rewrite (IH i); auto.
Qed.

Lemma count_upd_same b (l : list slot) i f :
  (forall s, nth_error l i = Some s -> sl_valid (f s) = sl_valid s) ->
  count_slots b (upd_nth i f l) = count_slots b l.
Proof.
  revert i; induction l as [|x l IH]; intros [|i] H; cbn in *; auto.
  rewrite H; auto.
Qed.

Lemma make_new_some (fs fs' : fset) i :
  make_new fs = (fs', Some i) ->
  exists f, nth_error (fs_slots fs) i = Some {| sl_valid := false; sl_feat := f |} /\
    (forall j, (j < i)%nat -> exists g, nth_error (fs_slots fs) j = Some {| sl_valid := true; sl_feat := g |}) /\
    nth_error (fs_slots fs') i = Some {| sl_valid := true; sl_feat := set_idx (fs_maxIdx fs) f |} /\
    (forall j, j <> i -> nth_error (fs_slots fs') j = nth_error (fs_slots fs) j) /\
    length (fs_slots fs') = length (fs_slots fs) /\
    fs_maxIdx fs' = fs_maxIdx fs + 1 /\ n_live fs' = S (n_live fs).
Proof.
  unfold make_new. destruct (free_index (fs_slots fs)) as [k|] eqn:E; [|discriminate].
  intros H; injection H as <- <-; cbn.
  destruct (free_index_spec _ _ E) as [[[v f] [H1 H2]] H3]; cbn in H2; subst v.
  exists f. repeat split.
  - exact H1.
  - intros j Hj; destruct (H3 j Hj) as [[v g] [Ha Hb]]; cbn in Hb; subst v; eauto.
  - rewrite nth_error_upd_nth_eq, H1; reflexivity.
  - intros j Hj; apply nth_error_upd_nth_ne; congruence.
  - apply upd_nth_length.
  - unfold n_live; cbn. eapply count_upd; eauto.
Qed.

Lemma make_new_none (fs fs' : fset) :
  make_new fs = (fs', None) -> fs' = fs /\ n_free fs = 0%nat.
Proof.
  unfold make_new. destruct (free_index (fs_slots fs)) eqn:E; [discriminate|].
  intros H; injection H as <-. split; auto. apply free_index_none; auto.
Qed.

Lemma make_new_full (fs : fset) : n_free fs = 0%nat -> make_new fs = (fs, None).
Proof. intros H; unfold make_new. apply free_index_none in H. rewrite H; auto. Qed.

Lemma make_new_ids (fs : fset) : 0 <= fs_maxIdx fs -> ids_ok fs -> ids_ok (fst (make_new fs)).
Proof.
  intros H0 [H1 H2]. destruct (make_new fs) as [fs' [i|]] eqn:E; cbn.
  - destruct (make_new_some _ _ _ E) as [f [Hf [_ [Hi [Ho [_ [Hm _]]]]]]].
    assert (Hcase : forall j g, live fs' j g -> (j = i /\ f_idx g = fs_maxIdx fs) \/ (j <> i /\ live fs j g)).
    { intros j g Hg. destruct (Nat.eq_dec j i) as [->|Hj].
      - left; split; auto. unfold live in Hg. rewrite Hi in Hg. injection Hg as <-. reflexivity.
      - right; split; auto. unfold live in *. rewrite <- Ho; auto. }
    split.
    + intros j g Hg. destruct (Hcase _ _ Hg) as [[-> Hx]|[Hj Hx]]; [lia|].
      specialize (H1 _ _ Hx). lia.
    + intros j k g h Hg Hh He.
      destruct (Hcase _ _ Hg) as [[-> Hx]|[Hj Hx]], (Hcase _ _ Hh) as [[-> Hy]|[Hk Hy]]; auto.
      * specialize (H1 _ _ Hy); lia.
      * specialize (H1 _ _ Hx); lia.
      * eapply H2; eauto.
  - destruct (make_new_none _ _ E) as [-> _]. split; auto.
Qed.

Lemma invalidate_live i (fs : fset) j f : live (invalidate i fs) j f -> j <> i /\ live fs j f.
Proof.
  unfold live, invalidate; cbn. destruct (Nat.eq_dec i j) as [->|H].
  - rewrite nth_error_upd_nth_eq. destruct (nth_error _ j); cbn; discriminate.
  - rewrite nth_error_upd_nth_ne; auto.
Qed.

Lemma reset_live (fs : fset) j f : ~ live (fs_reset fs) j f.
Proof.
  unfold live, fs_reset; cbn. rewrite nth_error_map. destruct (nth_error _ j); cbn; discriminate.
Qed.

Lemma step_capacity (fs : fset) o : capacity (fs_step fs o) = capacity fs.
Proof.
  unfold capacity. destruct o; cbn.
  - unfold make_new. destruct (free_index _); cbn; auto. apply upd_nth_length.
  - apply upd_nth_length.
  - apply map_length.
Qed.

Lemma step_inv (fs : fset) o :
  0 <= fs_maxIdx fs /\ ids_ok fs -> 0 <= fs_maxIdx (fs_step fs o) /\ ids_ok (fs_step fs o).
Proof.
  intros [H0 H]. destruct o as [|i|]; cbn [fs_step].
  - split; [|apply make_new_ids; auto]. unfold make_new. destruct (free_index _); cbn; lia.
  - split; [exact H0|]. destruct H as [H1 H2]. split.
    + intros j f Hj. apply invalidate_live in Hj as [_ Hj]. apply (H1 _ _ Hj).
    + intros j k f g Hj Hk. apply invalidate_live in Hj as [_ Hj]. apply invalidate_live in Hk as [_ Hk].
      apply (H2 _ _ _ _ Hj Hk).
  - split; [cbn; lia|]. split; [intros j f Hj|intros j k f g Hj]; destruct (reset_live _ _ _ Hj).
Qed.

Lemma run_inv os : forall fs : fset,
  0 <= fs_maxIdx fs /\ ids_ok fs -> 0 <= fs_maxIdx (fs_run fs os) /\ ids_ok (fs_run fs os).
Proof.
  induction os as [|o os IH]; intros fs H; cbn; auto. apply IH, step_inv, H.
Qed.

Lemma run_capacity os : forall fs : fset, capacity (fs_run fs os) = capacity fs.
Proof.
  induction os as [|o os IH]; intros fs; cbn; auto. unfold fs_run in IH. rewrite IH. apply step_capacity.
Qed.

Lemma reset_ids (fs : fset) : 0 <= fs_maxIdx (fs_reset fs) /\ ids_ok (fs_reset fs).
Proof.
  split; [cbn; lia|]. split; [intros j f Hj|intros j k f g Hj]; destruct (reset_live _ _ _ Hj).
Qed.

(** ids handed out along a history without reset are increasing *)
Lemma run_app (fs : fset) a b : fs_run fs (a ++ b) = fs_run (fs_run fs a) b.
Proof. apply fold_left_app. Qed.

Lemma maxIdx_mono os : forall fs : fset,
  ~ In FsReset os -> fs_maxIdx fs <= fs_maxIdx (fs_run fs os).
Proof.
  induction os as [|o os IH]; intros fs H; cbn; [lia|].
  assert (Hs : fs_maxIdx fs <= fs_maxIdx (fs_step fs o)).
  { destruct o; cbn; [|lia|exfalso; apply H; left; auto].
    unfold make_new. destruct (free_index _); cbn; lia. }
  specialize (IH (fs_step fs o)). unfold fs_run in IH. etransitivity; [exact Hs|].
  apply IH. intros Hin; apply H; right; auto.
Qed.

End Slots.
