(** Lemmas for C81. *)
From Coq Require Import List ZArith QArith Bool Lia.
From Verif Require Import Util StatModel FsetModel FsetSpec FsetProofs FsetAdd FsetProps TrackModel TrackSpec.
Import ListNotations.

Section T.
Context {Patch : Type}.
Notation memo := (memo Patch). Notation tset := (tset Patch). Notation frame := (frame Patch).
Lemma predict_start (fr : frame) (f : feature memo) : predict_c fr f = start_at fr f.
Proof. unfold predict_c, start_at. destruct (f_c f), (k_prev (f_patch f)). reflexivity. Qed.
(** one slot through the loops *)
Definition found (fr : frame) (f : feature memo) : option (feature memo) :=
  match fr_align fr (k_patch (f_patch f)) (start_at fr f) with
  | Some c => Some {| f_idx := f_idx f; f_cam := f_cam f; f_c := c; f_warpid := f_warpid f;
      f_patch := {| k_patch := if fr_in fr true c then fr_extract fr c else k_patch (f_patch f); k_prev := c; k_status := TRACKED |} |}
  | None => None
  end.
Lemma followed_nth fr (fs : tset) i : nth_error (fs_slots (followed fr fs)) i =
  option_map (fun s => each (renew fr) (prune (each (align fr) (each (predict fr) s)))) (nth_error (fs_slots fs) i).
Proof. unfold followed, over. cbn [fs_slots]. rewrite !map_map. apply nth_error_map. Qed.
Lemma slot_step fr (s : slot memo) : let s' := each (renew fr) (prune (each (align fr) (each (predict fr) s))) in
  (sl_valid s = false -> s' = s) /\
  (sl_valid s = true -> match found fr (sl_feat s) with Some g => s' = {| sl_valid := true; sl_feat := g |} | None => sl_valid s' = false end).
Proof.
  cbv zeta. destruct s as [v f]. cbn [sl_valid sl_feat]. split; intros ->.
  - reflexivity.
  - change (each (predict fr) {| sl_valid := true; sl_feat := f |}) with {| sl_valid := true; sl_feat := predict fr f |}.
    change (each (align fr) {| sl_valid := true; sl_feat := predict fr f |}) with {| sl_valid := true; sl_feat := align fr (predict fr f) |}.
    unfold found. unfold align. cbn [predict with_memo f_patch f_c k_patch]. rewrite predict_start. destruct (fr_align fr (k_patch (f_patch f)) (start_at fr f)) as [c|].
    + unfold prune. cbn. unfold each. cbn [sl_valid sl_feat]. f_equal. unfold renew. cbn. destruct (fr_in fr true c); reflexivity.
    + reflexivity.
Qed.
Lemma found_follows fr f g : found fr f = Some g -> follows fr f g /\ k_prev (f_patch g) = f_c g /\ k_status (f_patch g) = TRACKED.
Proof.
  unfold found. destruct (fr_align fr _ _) as [c|] eqn:E; [|discriminate]. intros H. injection H as <-. cbn. split; [|auto].
  exists c. auto.
Qed.
Lemma found_none fr f : found fr f = None <-> lost fr f.
Proof. unfold found, lost. destruct (fr_align fr _ _); split; congruence. Qed.
Lemma followed_live fr (fs : tset) i g : live (followed fr fs) i g <-> exists f, live fs i f /\ found fr f = Some g.
Proof.
  unfold live. rewrite followed_nth. destruct (nth_error (fs_slots fs) i) as [s|]; cbn [option_map].
  2:{ split; [discriminate|intros (f & X & _); discriminate]. }
  destruct (slot_step fr s) as [A B]. destruct s as [v f]. cbn [sl_valid sl_feat] in *. destruct v.
  - specialize (B eq_refl). destruct (found fr f) as [g'|] eqn:E.
    + rewrite B. split.
      * intros H. injection H as <-. exists f. auto.
      * intros (f' & H & H'). injection H as <-. rewrite E in H'. now injection H' as <-.
    + split.
      * intros H. injection H as H. rewrite H in B. discriminate.
      * intros (f' & H & H'). injection H as <-. congruence.
  - rewrite (A eq_refl). split; [discriminate|]. intros (f' & H & _). discriminate.
Qed.
Lemma followed_capacity fr (fs : tset) : capacity (followed fr fs) = capacity fs /\ fs_maxIdx (followed fr fs) = fs_maxIdx fs.
Proof. unfold followed, over, capacity. cbn. now rewrite !map_length. Qed.
Lemma followed_count fr (fs : tset) : valid_count (followed fr fs) = n_found fr fs.
Proof.
  unfold valid_count, n_found, followed, over. cbn [fs_slots]. rewrite !map_map. induction (fs_slots fs) as [|s r IH]; [reflexivity|]. cbn [map filter].
  destruct (slot_step fr s) as [A B]. set (s' := each (renew fr) _) in *. destruct (sl_valid s) eqn:V.
  - specialize (B eq_refl). unfold start_at. cbn [andb]. unfold found in B. destruct (fr_align fr _ _) as [c|].
    + rewrite B. cbn [sl_valid length]. now rewrite IH.
    + rewrite B. exact IH.
  - rewrite (A eq_refl), V. exact IH.
Qed.
Lemma mark_all_nth news : forall (fs : tset) i, nth_error (fs_slots (mark_all news fs)) i =
  option_map (fun s => if existsb (Nat.eqb i) (map fst news) then {| sl_valid := sl_valid s; sl_feat := mark (sl_feat s) |} else s) (nth_error (fs_slots fs) i).
Proof.
  induction news as [|n r IH]; intros fs i; cbn [mark_all fold_left map existsb].
  - destruct (nth_error (fs_slots fs) i); reflexivity.
  - change (fold_left _ r ?x) with (mark_all r x). rewrite IH. cbn [fs_slots]. destruct (Nat.eqb_spec i (fst n)) as [->|N]; cbn [orb]; [rewrite nth_error_upd_nth_eq|rewrite nth_error_upd_nth_ne by congruence].
    + destruct (nth_error (fs_slots fs) (fst n)) as [s|]; cbn [option_map]; [|reflexivity]. destruct (existsb _ _); reflexivity.
    + reflexivity.
Qed.
Lemma mark_all_rest news : forall (fs : tset), capacity (mark_all news fs) = capacity fs /\ fs_maxIdx (mark_all news fs) = fs_maxIdx fs /\ n_live (mark_all news fs) = n_live fs.
Proof.
  induction news as [|n r IH]; intros fs; cbn [mark_all fold_left]; [auto|]. change (fold_left _ r ?x) with (mark_all r x).
  destruct (IH {| fs_slots := upd_nth (fst n) (fun s => {| sl_valid := sl_valid s; sl_feat := mark (sl_feat s) |}) (fs_slots fs); fs_maxIdx := fs_maxIdx fs |}) as (A & B & C).
  rewrite A, B, C. unfold capacity, n_live. cbn [fs_slots fs_maxIdx]. rewrite upd_nth_length. repeat split. apply count_upd_same. reflexivity.
Qed.
End T.
