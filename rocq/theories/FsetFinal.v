(** Lemmas in the exact form of the property theorems C05-C10. *)
From Coq Require Import List ZArith QArith Qround Bool Lia Lqa Permutation.
From Verif Require Import Util FsetModel FsetSpec FsetProofs FsetBuckets FsetAdd FsetGridModel FsetGrid.
Import ListNotations.
Local Open Scope Z_scope.

Section F.
Context {Patch : Type}.
Notation fset := (fset Patch).
Notation cand := (cand Patch).

Lemma allocate_free_slot (fs fs' : fset) i :
  make_new fs = (fs', Some i) ->
  free fs i /\ (forall j, (j < i)%nat -> exists g, live fs j g) /\
  (exists f, live fs' i f /\ f_idx f = fs_maxIdx fs) /\
  (forall j, j <> i -> nth_error (fs_slots fs') j = nth_error (fs_slots fs) j) /\
  capacity fs' = capacity fs /\ n_live fs' = S (n_live fs).
Proof.
  intros H. destruct (make_new_some _ _ _ H) as [f [H1 [H2 [H3 [H4 [H5 [H6 H7]]]]]]].
  split; [exists f; auto|]. split; auto. split; [eexists; split; [exact H3|reflexivity]|]. auto.
Qed.

Lemma allocate_fails_iff_full (fs : fset) :
  (snd (make_new fs) = None <-> n_free fs = 0%nat) /\ (n_free fs = 0%nat -> fst (make_new fs) = fs).
Proof.
  split; [|intros H; rewrite make_new_full; auto]. split.
  - destruct (make_new fs) as [fs' [i|]] eqn:E; cbn; [discriminate|]. intros _. apply (make_new_none _ _ E).
  - intros H. rewrite make_new_full; auto.
Qed.

Lemma live_ids_distinct (fs : fset) os :
  let s := fs_run (fs_reset fs) os in
  (forall i j f g, live s i f -> live s j g -> i <> j -> f_idx f <> f_idx g) /\
  (n_live s <= capacity fs)%nat.
Proof.
  intros s. destruct (run_inv os (fs_reset fs) (reset_ids fs)) as [_ [H1 H2]]. split.
  - intros i j f g Hf Hg Hne He. apply Hne. eapply H2; eauto.
  - assert (Hc : capacity s = capacity fs).
    { unfold s. rewrite run_capacity. unfold capacity, fs_reset; cbn. apply map_length. }
    pose proof (n_live_free s). lia.
Qed.

Lemma ids_never_reused (fs s1 s2 : fset) os1 os2 i1 i2 f1 f2 :
  make_new (fs_run fs os1) = (s1, Some i1) -> live s1 i1 f1 ->
  ~ In FsReset os2 ->
  make_new (fs_run s1 os2) = (s2, Some i2) -> live s2 i2 f2 ->
  f_idx f1 < f_idx f2.
Proof.
  intros M1 L1 Hn M2 L2.
  destruct (make_new_some _ _ _ M1) as [g1 [_ [_ [A1 [_ [_ [B1 _]]]]]]].
  destruct (make_new_some _ _ _ M2) as [g2 [_ [_ [A2 [_ [_ [B2 _]]]]]]].
  unfold live in *. rewrite L1 in A1. rewrite L2 in A2. injection A1 as ->. injection A2 as ->. cbn.
  pose proof (maxIdx_mono os2 s1 Hn). lia.
Qed.

(** C06 *)
Lemma add_respects_budget p (cs : list cand) proj choose (fs fs' : fset) news :
  add_best p cs proj choose fs = Ok (fs', news) ->
  Z.of_nat (length news) <= Z.max 0 (p_max p) /\ (length news <= n_free fs)%nat /\
  capacity fs' = capacity fs /\
  NoDup (map fst news) /\
  (forall i, In i (map fst news) <-> free fs i /\ exists f, live fs' i f) /\
  (forall i, ~ In i (map fst news) -> nth_error (fs_slots fs') i = nth_error (fs_slots fs) i) /\
  n_live fs' = (n_live fs + length news)%nat.
Proof.
  intros H. destruct (add_best_set _ _ _ _ _ _ _ H) as [Hs Hb].
  pose proof (set_inv_newly _ _ _ _ _ Hs) as Hn. destruct Hs as [L N O ND I V].
  rewrite rev_length in V. pose proof (n_live_free fs). pose proof (n_live_free fs'). unfold capacity in *.
  split; auto. split; [lia|]. split; [auto|]. split.
  { rewrite map_rev in ND. apply NoDup_rev in ND. rewrite rev_involutive in ND. auto. }
  split; auto. split; [|auto]. intros i Hi. apply O. rewrite map_rev. intros Hin. apply Hi. apply in_rev; auto.
Qed.

(** the features written: the k-th addition takes the pixel and patch of its candidate *)
Lemma add_writes_candidate p (cs : list cand) proj choose (fs fs' : fset) news k i c :
  add_best p cs proj choose fs = Ok (fs', news) ->
  nth_error news k = Some (i, c) ->
  exists cd, nth_error cs c = Some cd /\
    live fs' i {| f_idx := fs_maxIdx fs + Z.of_nat k; f_cam := p_cam p; f_c := cd_c cd; f_warpid := true; f_patch := cd_p cd |}.
Proof.
  intros H Hk. destruct (add_best_set _ _ _ _ _ _ _ H) as [[L N O ND I V] _].
  rewrite rev_involutive in N. destruct (N _ _ _ Hk) as [_ [cd [H1 H2]]]. exists cd; split; auto.
Qed.

Lemma add_keeps_ids p (cs : list cand) proj choose (fs fs' : fset) news :
  add_best p cs proj choose fs = Ok (fs', news) -> 0 <= fs_maxIdx fs -> ids_ok fs ->
  0 <= fs_maxIdx fs' /\ ids_ok fs'.
Proof.
  intros H H0 [I1 I2]. destruct (add_best_set _ _ _ _ _ _ _ H) as [[L N O ND I V] _].
  rewrite rev_involutive in N. rewrite rev_length in I. split; [lia|].
  assert (Hcase : forall i f, live fs' i f ->
     (exists k c, nth_error news k = Some (i, c) /\ (k < length news)%nat /\ f_idx f = fs_maxIdx fs + Z.of_nat k) \/ live fs i f).
  { intros i f Hf. destruct (in_dec Nat.eq_dec i (map fst news)) as [Hi|Hi].
    - left. apply in_map_iff in Hi as [[i' c] [E Hi]]; cbn in E; subst i'. apply In_nth_error in Hi as [k Hk].
      destruct (N _ _ _ Hk) as [_ [cd [_ Hs]]]. unfold live in Hf. rewrite Hs in Hf. injection Hf as <-.
      exists k, c. split; auto. split; [apply nth_error_Some; congruence|reflexivity].
    - right. unfold live in *. rewrite <- O; auto. rewrite map_rev. intros Hin; apply Hi, in_rev; auto. }
  split.
  - intros i f Hf. destruct (Hcase _ _ Hf) as [[k [c [_ [Hk ->]]]]|Hl]; [lia|]. specialize (I1 _ _ Hl). lia.
  - intros i j f g Hf Hg He.
    destruct (Hcase _ _ Hf) as [[k [c [Hk1 [Hk E'']]]]|Hl], (Hcase _ _ Hg) as [[k' [c' [Hk1' [Hk' E']]]]|Hl'].
    + assert (k = k') by lia. subst k'. congruence.
    + specialize (I1 _ _ Hl'). lia.
    + specialize (I1 _ _ Hl). lia.
    + eapply I2; eauto.
Qed.

(** C07 *)
Lemma add_once_and_good p (cs : list cand) proj choose (fs fs' : fset) news :
  sane p -> add_best p cs proj choose fs = Ok (fs', news) ->
  NoDup (map snd news) /\
  (forall i c, In (i, c) news -> exists cd, nth_error cs c = Some cd /\ (p_min p < score cd)%Q /\
      ((-1 <= p_min p)%Q -> cd_in cd = true /\ (p_min p < cd_s cd)%Q)) /\
  ((forall cd, In cd cs -> (score cd <= p_min p)%Q) -> fs' = fs /\ news = []).
Proof.
  intros Hs H. destruct (add_best_outcome p cs proj choose fs Hs) as [fs1 [news1 [H1 Ho]]].
  rewrite H in H1. injection H1 as <- <-. destruct Ho as (Hset & _ & Hnd & Hel & _).
  assert (He : forall i c, In (i, c) news -> exists cd, nth_error cs c = Some cd /\ (p_min p < score cd)%Q).
  { intros i c Hin. apply (Hel c). apply in_map_iff. exists (i, c); auto. }
  split; auto. split.
  - intros i c Hin. destruct (He _ _ Hin) as [cd [E1 E2]]. exists cd. split; auto. split; auto.
    intros Hm. unfold score in E2. destruct (cd_in cd); [auto|lra].
  - intros Hall. assert (news = []).
    { destruct news as [|[i c] news]; auto. exfalso. destruct (He i c (or_introl eq_refl)) as [cd [E1 E2]].
      specialize (Hall cd (nth_error_In _ _ E1)). lra. }
    subst news. split; auto. destruct Hset as [L N O ND I V]; cbn in *.
    destruct fs as [sl m], fs' as [sl' m']; cbn in *. f_equal; [|lia].
    clear -L O. revert sl L O. induction sl' as [|s sl' IH]; intros [|t sl] L O; cbn in *; try discriminate; auto.
    f_equal.
    + specialize (O 0%nat (fun x => x)). cbn in O. congruence.
    + apply IH; [lia|]. intros i Hi. apply (O (S i)); auto.
Qed.

(** C08 *)
Lemma add_fills_to_max p (cs : list cand) proj choose (fs fs' : fset) news :
  sane p -> p_req p = true -> 0 <= p_max p -> add_best p cs proj choose fs = Ok (fs', news) ->
  Z.of_nat (length news) = Z.min (p_max p) (Z.min (Z.of_nat (n_free fs)) (Z.of_nat (n_eligible p cs))).
Proof.
  intros Hs Hr Hm H. destruct (add_best_outcome p cs proj choose fs Hs) as [fs1 [news1 [H1 Ho]]].
  rewrite H in H1. injection H1 as <- <-. destruct Ho as (Hset & _ & Hnd & Hel & Hmax & Hreq).
  destruct (add_respects_budget _ _ _ _ _ _ _ H) as (B1 & B2 & _).
  destruct (n_eligible_idx p cs (map snd news) Hnd Hel) as [C1 C2]. rewrite map_length in C1, C2.
  destruct (Z.lt_ge_cases (Z.of_nat (length news)) (p_max p)) as [D1|D1]; [|lia].
  destruct (Nat.lt_ge_cases (length news) (n_free fs)) as [D2|D2]; [|lia].
  rewrite (C2 (Hreq Hr D1 D2)) in *. lia.
Qed.

(** C09 *)
Lemma totm_perm (p : params) ps qs c : Permutation ps qs -> (totm p ps c == totm p qs c)%Q.
Proof.
  induction 1; cbn; try lra.
Qed.

Lemma add_penalty p (cs : list cand) proj choose (fs fs' : fset) news k i c cd :
  sane p -> p_req p = false ->
  add_best p cs proj choose fs = Ok (fs', news) ->
  nth_error news k = Some (i, c) -> nth_error cs c = Some cd ->
  (1 + total_loss p (existing proj fs ++ flat_map (fun n => cand_pos cs (snd n)) (firstn k news)) (cd_c cd)
   <= inject_Z (level_of p (max_score cs) cd))%Q.
Proof.
  intros Hs Hr H Hk Hc. destruct (add_best_outcome p cs proj choose fs Hs) as [fs1 [news1 [H1 Ho]]].
  rewrite H in H1. injection H1 as <- <-. destruct Ho as (_ & Hl & _).
  unfold lvl_inv in Hl. rewrite rev_involutive in Hl. specialize (Hl k i c cd Hk Hc Hr).
  rewrite totm_eq. rewrite (totm_perm p _ (added_pos cs (rev (firstn k news)) ++ rev (existing proj fs))); [exact Hl|].
  rewrite Permutation_app_comm. apply Permutation_app; [|apply Permutation_rev].
  unfold added_pos. apply Permutation_flat_map, Permutation_rev.
Qed.

Lemma loss_nonneg p pos c : sane p -> (0 <= loss p pos c)%Q.
Proof. intros Hs. rewrite loss_eq. apply lossm_nonneg; auto. Qed.

Lemma total_loss_ge p ps pos c : sane p -> In pos ps -> (loss p pos c <= total_loss p ps c)%Q.
Proof.
  intros Hs. induction ps as [|x ps IH]; cbn; [tauto|].
  assert (Hn : forall l, (0 <= total_loss p l c)%Q).
  { induction l as [|y l IHl]; cbn; [lra|]. pose proof (loss_nonneg p y c Hs). unfold total_loss in IHl. lra. }
  intros [->|Hin].
  - specialize (Hn ps). unfold total_loss in Hn. lra.
  - specialize (IH Hin). pose proof (loss_nonneg p x c Hs). unfold total_loss in IH. lra.
Qed.

Lemma level_le p best (c : cand) : level_of p best c <= p_nb p - 1.
Proof. unfold level_of. lia. Qed.

Lemma loss_coincide p pos c :
  ~ (p_dist p == 0)%Q -> (fst pos == fst c)%Q -> (snd pos == snd c)%Q -> (loss p pos c == p_pen p)%Q.
Proof.
  intros Hd H1 H2. rewrite loss_eq. unfold lossm.
  assert (D : (dist2 pos c == 0)%Q) by (unfold dist2; rewrite H1, H2; ring).
  assert (T : (0 < t2 p)%Q).
  { unfold t2. destruct (Qlt_le_dec 0 (p_dist p)); [nra|]. assert (p_dist p < 0)%Q; [|nra].
    destruct (Qlt_le_dec (p_dist p) 0); auto. exfalso; apply Hd. lra. }
  replace (Qltb' (dist2 pos c) (t2 p)) with true by (symmetry; apply Qltb'_true; rewrite D; auto).
  unfold penalty. rewrite D. field. intro; lra.
Qed.

Lemma no_coinciding_added p (cs : list cand) proj choose (fs fs' : fset) news :
  sane p -> p_req p = false -> ~ (p_dist p == 0)%Q -> (inject_Z (p_nb p) - 1 <= p_pen p)%Q ->
  add_best p cs proj choose fs = Ok (fs', news) ->
  forall i c cd, In (i, c) news -> nth_error cs c = Some cd ->
  (forall j f pos, live fs j f -> proj f = Some pos -> ~ ((fst pos == fst (cd_c cd))%Q /\ (snd pos == snd (cd_c cd))%Q)) /\
  (forall i' c' cd', In (i', c') news -> i' <> i -> nth_error cs c' = Some cd' ->
      ~ ((fst (cd_c cd') == fst (cd_c cd))%Q /\ (snd (cd_c cd') == snd (cd_c cd))%Q)).
Proof.
  intros Hs Hr Hd Hp H.
  assert (G : forall k i c cd pos, nth_error news k = Some (i, c) -> nth_error cs c = Some cd ->
     In pos (existing proj fs ++ flat_map (fun n => cand_pos cs (snd n)) (firstn k news)) ->
     ~ ((fst pos == fst (cd_c cd))%Q /\ (snd pos == snd (cd_c cd))%Q)).
  { intros k i c cd pos Hk Hc Hin [E1 E2].
    pose proof (add_penalty p cs proj choose fs fs' news k i c cd Hs Hr H Hk Hc) as B.
    pose proof (total_loss_ge p _ pos (cd_c cd) Hs Hin) as T. rewrite loss_coincide in T by auto.
    pose proof (level_le p (max_score cs) cd) as L. rewrite Zle_Qle in L.
    unfold Zminus in L. rewrite inject_Z_plus in L. change (inject_Z (- (1))) with (-1)%Q in L. lra. }
  intros i c cd Hin Hc. apply In_nth_error in Hin as [k Hk]. split.
  - intros j f pos Hl Hpr. apply (G k i c cd pos Hk Hc). apply in_app_iff. left.
    unfold existing. apply in_flat_map. exists {| sl_valid := true; sl_feat := f |}. split; [eapply nth_error_In; eauto|].
    cbn. rewrite Hpr. left; auto.
  - intros i' c' cd' Hin' Hne Hc'. apply In_nth_error in Hin' as [k' Hk'].
    assert (Hkk : k <> k') by (intros ->; congruence).
    assert (Hfirst : forall a b i1 c1 cd1, (a < b)%nat -> nth_error news a = Some (i1, c1) -> nth_error cs c1 = Some cd1 ->
       In (cd_c cd1) (flat_map (fun n => cand_pos cs (snd n)) (firstn b news))).
    { intros a b i1 c1 cd1 Hab Ha Hc1. apply in_flat_map. exists (i1, c1). split.
      - apply nth_error_In with (n := a).
        clear -Hab Ha. revert b Hab news Ha. induction a as [|a IH]; intros [|b] Hab [|x l] Ha; cbn in *; try lia; try discriminate; auto.
        apply IH; auto; lia.
      - cbn. unfold cand_pos. rewrite Hc1. left; auto. }
    destruct (Nat.lt_ge_cases k' k) as [Hlt|Hge].
    + apply (G k i c cd _ Hk Hc). apply in_app_iff. right. apply (Hfirst k' k i' c' cd'); auto.
    + intros [E1 E2]. apply (G k' i' c' cd' (cd_c cd) Hk' Hc').
      * apply in_app_iff. right. apply (Hfirst k k' i c cd); auto. lia.
      * split; symmetry; auto.
Qed.

(** C10 *)
Lemma add_defined p (cs : list cand) proj choose (fs : fset) :
  sane p -> exists fs' news, add_best p cs proj choose fs = Ok (fs', news).
Proof.
  intros Hs. destruct (add_best_outcome p cs proj choose fs Hs) as [fs1 [news1 [H1 _]]]. eauto.
Qed.

Lemma grid_variant_defined (g : gparams) (cs : list cand) proj (fs : fset) :
  1 <= g_cols g <= int_max -> 1 <= g_rows g <= int_max ->
  (0 <= g_dist g <= inject_Z int_max)%Q ->
  (forall c, In c cs -> cd_in c = true ->
     (0 <= fst (cd_c c) <= inject_Z (g_cols g) - 1)%Q /\ (0 <= snd (cd_c c) <= inject_Z (g_rows g) - 1)%Q) ->
  (forall i f pos, live fs i f -> proj f = Some pos ->
     (- inject_Z int_max <= fst pos <= inject_Z int_max)%Q /\ (- inject_Z int_max <= snd pos <= inject_Z int_max)%Q) ->
  g_max g <= Z.of_nat (n_free fs) ->
  exists fs' news, add_best_new g cs proj fs = Ok (fs', news) /\
    Z.of_nat (length news) <= Z.max 0 (g_max g) /\
    NoDup (map snd news) /\
    (forall i, In i (map fst news) <-> free fs i /\ exists f, live fs' i f) /\
    (forall i, ~ In i (map fst news) -> nth_error (fs_slots fs') i = nth_error (fs_slots fs) i) /\
    (forall c, In c (map snd news) -> exists cd, nth_error cs c = Some cd /\ cd_in cd = true /\ (g_min g <= cd_s cd)%Q).
Proof.
  intros Hc Hr Hd Hi He Hm.
  destruct (grid_safe g ltac:(lia) cs proj fs) as [fs' [news [H1 [H2 [H3 [H4 H5]]]]]]; auto; try lia.
  - intros c H1 H2. destruct (Hi c H1 H2). unfold in_image. tauto.
  - intros pos Hp. unfold existing in Hp. apply in_flat_map in Hp as [[v f] [Hs Hp]]. cbn in Hp.
    destruct v; [|destruct Hp]. destruct (proj f) as [q|] eqn:Eq; [|destruct Hp]. destruct Hp as [<-|[]].
    apply In_nth_error in Hs as [i Hs]. apply (He i f q); auto.
  - exists fs', news. split; auto. split; auto. split; auto. split; [apply (set_inv_newly _ _ _ _ _ H2)|]. split; auto.
    intros i Hni. apply (si_old _ _ _ _ _ H2). rewrite map_rev. intros Hin; apply Hni, in_rev; auto.
Qed.

End F.
