(** The whole of addBestCandidates: filling, penalising, inserting. *)
From Coq Require Import List ZArith QArith Qround Bool Lia Lqa Permutation.
From Verif Require Import Util FsetModel FsetSpec FsetProofs FsetBuckets.
Import ListNotations.
Local Open Scope Z_scope.

Section Best.
Context {Patch : Type}.
Notation cand := (cand Patch).

Lemma max_fold (cs : list cand) : forall m,
  let r := fold_left (fun m c => if cd_in c then if Qltb' m (cd_s c) then cd_s c else m else m) cs m in
  (m <= r)%Q /\ (forall c, In c cs -> cd_in c = true -> cd_s c <= r)%Q /\
  (r = m \/ exists c, In c cs /\ cd_in c = true /\ cd_s c = r).
Proof.
  induction cs as [|c cs IH]; intros m; cbn.
  - split; [lra|]. split; [intros c []|left; auto].
  - set (m' := if cd_in c then if Qltb' m (cd_s c) then cd_s c else m else m).
    destruct (IH m') as [H1 [H2 H3]]. cbn zeta in *.
    set (r := fold_left _ cs m') in *. clearbody r.
    assert (Hm : (m <= m')%Q).
    { unfold m'. destruct (cd_in c); [|lra]. destruct (Qltb' m (cd_s c)) eqn:Eq; [|lra]. apply Qltb'_true in Eq; lra. }
    split; [lra|]. split.
    + intros d [<-|Hd] Hin; [|auto]. unfold m' in *. rewrite Hin in *.
      destruct (Qltb' m (cd_s c)) eqn:Eq; [lra|]. apply Qltb'_false in Eq. lra.
    + destruct H3 as [->|[d [Hd1 [Hd2 Hd3]]]].
      * unfold m'. destruct (cd_in c) eqn:Ei; [|left; auto]. destruct (Qltb' m (cd_s c)); [|left; auto].
        right. exists c; auto.
      * right. exists d; auto.
Qed.

Lemma max_score_best (cs : list cand) : is_best cs (max_score cs).
Proof. apply max_fold. Qed.

Lemma score_le_best (cs : list cand) best c : is_best cs best -> In c cs -> (score c <= best)%Q.
Proof.
  intros [H1 [H2 _]] Hc. unfold score. destruct (cd_in c) eqn:E; auto.
Qed.
End Best.

Section Add.
Context {Patch : Type}.
Notation cand := (cand Patch).
Variable p : params.
Variable cs : list cand.
Hypothesis Hsane : sane p.
Variable mx : Q.
Hypothesis Hbest : is_best cs mx.
Hypothesis Hmx : (p_min p < mx)%Q.

Notation nb := (FsetBuckets.nb p).
Notation b0 := (level_of p mx).
Definition Elig (i : nat) (c : cand) : Prop := eligible p c.

Lemma rel_pos (c : cand) : (0 < rel_score p mx c)%Q <-> eligible p c.
Proof.
  unfold rel_score, eligible. assert (Hd : (0 < mx - p_min p)%Q) by lra. split; intros H.
  - assert (0 < score c - p_min p)%Q; [|lra].
    rewrite <- (Qmult_div_r (score c - p_min p) (mx - p_min p)) by lra. nra.
  - apply Qlt_shift_div_l; lra.
Qed.

Lemma rel_le1 (c : cand) : In c cs -> (rel_score p mx c <= 1)%Q.
Proof.
  intros H. unfold rel_score. apply Qle_shift_div_r; [lra|]. pose proof (score_le_best _ _ _ Hbest H). lra.
Qed.

Lemma score_bucket_ok (c : cand) : In c cs -> eligible p c ->
  score_bucket p (rel_score p mx c) = Some (b0 c) /\ 0 <= b0 c < p_nb p.
Proof.
  intros Hin He. unfold score_bucket, level_of.
  fold (rel_score p mx c). set (r := rel_score p mx c).
  assert (Hr : (0 < r <= 1)%Q) by (split; [apply rel_pos; auto|apply rel_le1; auto]).
  pose proof (sane_pow _ Hsane r Hr) as Hp. destruct (sane_nb _ Hsane) as [Hn1 Hn2].
  set (q := (inject_Z (p_nb p - 1) * p_pow p r)%Q).
  assert (Hn0 : (0 <= inject_Z (p_nb p - 1))%Q) by (change 0%Q with (inject_Z 0); rewrite <- Zle_Qle; lia).
  assert (Hq : (0 <= q <= inject_Z (2 ^ 32 - 1))%Q) by (unfold q; split; [nra|apply Hp]).
  assert (Hc : 0 <= Qceiling q <= 2 ^ 32 - 1).
  { split.
    - rewrite <- (Qceiling_Z 0). apply Qceiling_resp_le. apply Hq.
    - rewrite <- (Qceiling_Z (2 ^ 32 - 1)). apply Qceiling_resp_le. apply Hq. }
  unfold to_uint. rewrite Qtrunc_Z.
  replace (0 <=? Qceiling q) with true by (symmetry; apply Z.leb_le; lia).
  replace (Qceiling q <? 2 ^ 32) with true by (symmetry; apply Z.ltb_lt; unfold int_max in *; lia).
  cbn [andb]. split; [|lia]. f_equal.
  destruct (Z.ltb_spec (p_nb p - 1) (Qceiling q)); lia.
Qed.

Definition fill_inv (k : nat) (bk : buckets) : Prop :=
  wf p bk /\
  (forall j c, In c (bkt bk j) -> (c < k)%nat /\ exists cd, nth_error cs c = Some cd /\ eligible p cd /\ Z.of_nat j = b0 cd) /\
  (forall c cd, (c < k)%nat -> nth_error cs c = Some cd -> eligible p cd -> exists j, In c (bkt bk j)).

Lemma fill_fold : forall cs' k bk,
  (forall i, nth_error cs (k + i)%nat = nth_error cs' i) ->
  fill_inv k bk ->
  exists bk', fold_left (fill_one p mx) (combine (seq k (length cs')) cs') (Ok bk) = Ok bk' /\
    fill_inv (k + length cs') bk'.
Proof.
  induction cs' as [|c cs' IH]; intros k bk Hs (W & H1 & H2).
  - exists bk. cbn. rewrite Nat.add_0_r. split; [reflexivity|]. split; auto.
  - cbn [length seq combine fold_left].
    assert (Hk : nth_error cs k = Some c) by (rewrite <- (Nat.add_0_r k), Hs; reflexivity).
    assert (Hin : In c cs) by (eapply nth_error_In; eauto).
    assert (Hstep : exists bk1, fill_one p mx (Ok bk) (k, c) = Ok bk1 /\ fill_inv (S k) bk1).
    { unfold fill_one; cbn [rbind fst snd]. destruct (Qltb' 0 (rel_score p mx c)) eqn:Eq.
      - apply Qltb'_true, rel_pos in Eq. destruct (score_bucket_ok c Hin Eq) as [-> Hr].
        destruct W as (L & N & D).
        assert (Eb : b0 c = Z.of_nat (Z.to_nat (b0 c))) by lia.
        set (b := Z.to_nat (b0 c)) in *. rewrite Eb.
        assert (Hb : (b < length bk)%nat) by (rewrite L; unfold FsetBuckets.nb; lia).
        rewrite bk_insert_ok by auto. eexists; split; [reflexivity|].
        assert (C : forall j x, In x (bkt (upd_nth b (set_insert k) bk) j) <-> (x = k /\ j = b) \/ In x (bkt bk j)).
        { intros j x. rewrite bkt_upd by auto. destruct (Nat.eqb_spec j b) as [->|Hj].
          - rewrite in_insert. intuition.
          - intuition. }
        split; [split; [rewrite upd_nth_length; auto|split]|split].
        + intros j. rewrite bkt_upd by auto. destruct (Nat.eqb j b); auto. apply nodup_insert; auto.
        + intros j j' x Hx Hx'. apply C in Hx. apply C in Hx'.
          destruct Hx as [[-> ->]|Hx], Hx' as [[E' ->]|Hx']; auto.
          * apply H1 in Hx' as [? _]; lia.
          * subst x. apply H1 in Hx as [? _]; lia.
          * eapply D; eauto.
        + intros j x Hx. apply C in Hx as [[-> ->]|Hx].
          * split; [lia|]. exists c; auto.
          * destruct (H1 _ _ Hx) as [? ?]; split; [lia|auto].
        + intros x cd Hx Hcd He. destruct (Nat.eq_dec x k) as [->|Hne].
          * exists b. apply C; auto.
          * destruct (H2 x cd) as [j Hj]; auto; [lia|]. exists j. apply C; auto.
      - exists bk; split; auto. split; auto. split.
        + intros j x Hx. destruct (H1 _ _ Hx) as [? ?]; split; [lia|auto].
        + intros x cd Hx Hcd He. destruct (Nat.eq_dec x k) as [->|Hne].
          * rewrite Hk in Hcd; injection Hcd as <-. apply rel_pos in He. apply Qltb'_true in He. congruence.
          * apply (H2 x cd); auto. lia. }
    destruct Hstep as [bk1 [E1 I1]]. rewrite E1.
    destruct (IH (S k) bk1) as [bk2 [E2 I2]]; auto.
    { intros i. rewrite <- Hs with (i := S i) at 1 || idtac. rewrite Nat.add_succ_comm. rewrite Hs. reflexivity. }
    exists bk2. split; auto. rewrite Nat.add_succ_r. exact I2.
Qed.

Lemma fill_ok : exists bk, fill p mx cs = Ok bk /\ fill_inv (length cs) bk.
Proof.
  destruct (fill_fold cs 0 (repeat [] (Z.to_nat (p_nb p)))) as [bk [E1 I1]].
  - reflexivity.
  - assert (Hn : forall j, bkt (repeat [] (Z.to_nat (p_nb p))) j = []).
    { intros j. unfold bkt. generalize (Z.to_nat (p_nb p)) as n. clear.
      intros n; revert j; induction n as [|n IH]; intros [|j]; cbn; auto. }
    split; [split; [apply repeat_length|split]|split].
    + intros j. rewrite Hn. constructor.
    + intros j j' c Hc. rewrite Hn in Hc. destruct Hc.
    + intros j c Hc. rewrite Hn in Hc. destruct Hc.
    + intros c cd Hc; lia.
  - exists bk; split; auto.
Qed.

(** ** insertion loop *)
Variable choose : nat -> nat -> nat.
Variable fs0 : fset Patch.
Variable ps0 : list (Q * Q).   (* pixels penalised before the insertion loop, most recent first *)

Notation E := Elig.

(** positions of the candidates added so far, most recent first *)
Definition added_pos (new : list (nat * nat)) : list (Q * Q) := flat_map (fun n => cand_pos cs (snd n)) new.

Definition new_slot (k : nat) (c : cand) : slot Patch :=
  {| sl_valid := true;
     sl_feat := {| f_idx := fs_maxIdx fs0 + Z.of_nat k; f_cam := p_cam p; f_c := cd_c c; f_warpid := true; f_patch := cd_p c |} |}.

Record set_inv (fs : fset Patch) (new : list (nat * nat)) : Prop := {
  si_len : length (fs_slots fs) = length (fs_slots fs0);
  si_new : forall k i c, nth_error (rev new) k = Some (i, c) ->
     free fs0 i /\ exists cd, nth_error cs c = Some cd /\ nth_error (fs_slots fs) i = Some (new_slot k cd);
  si_old : forall i, ~ In i (map fst new) -> nth_error (fs_slots fs) i = nth_error (fs_slots fs0) i;
  si_nd : NoDup (map fst new);
  si_idx : fs_maxIdx fs = fs_maxIdx fs0 + Z.of_nat (length new);
  si_live : n_live fs = (n_live fs0 + length new)%nat }.

(** levels: k-th added candidate fitted when it was added *)
Definition lvl_inv (new : list (nat * nat)) : Prop :=
  forall k i c cd, nth_error (rev new) k = Some (i, c) -> nth_error cs c = Some cd ->
    p_req p = false ->
    (1 + totm p (added_pos (rev (firstn k (rev new))) ++ ps0) (cd_c cd) <= inject_Z (b0 cd))%Q.

Definition elig_idx (c : nat) : Prop := exists cd, nth_error cs c = Some cd /\ eligible p cd.

Record cand_inv (bk : buckets) (new : list (nat * nat)) : Prop := {
  ci_wf : wf p bk;
  ci_mem : forall c, (exists j, In c (bkt bk j)) \/ In c (map snd new) <-> elig_idx c;
  ci_nd : NoDup (map snd new);
  ci_disj : forall j c, In c (bkt bk j) -> ~ In c (map snd new) }.

Definition budget_left (st : @addst Patch) : bool :=
  (a_cnt st <? p_max p) && negb (Nat.eqb (valid_count (a_fs st)) (length (fs_slots (a_fs st)))).

(** while treating bucket [b] *)
Record loop_inv (b : nat) (st : @addst Patch) : Prop := {
  li_set : set_inv (a_fs st) (a_new st);
  li_lvl : lvl_inv (a_new st);
  li_cand : cand_inv (a_bk st) (a_new st);
  li_cnt : a_cnt st = Z.of_nat (length (a_new st));
  li_max : Z.of_nat (length (a_new st)) <= Z.max 0 (p_max p);
  li_bkt : budget_left st = false \/
    ((forall j, (b < j)%nat -> bkt (a_bk st) j = []) /\
     (forall j c cd, In c (bkt (a_bk st) j) -> nth_error cs c = Some cd ->
        fits p b0 (added_pos (a_new st) ++ ps0) cd j)) }.

Lemma totm_app ps qs c : (totm p (ps ++ qs) c == totm p ps c + totm p qs c)%Q.
Proof. induction ps as [|x ps IH]; cbn; [lra|]. rewrite IH. lra. Qed.

Lemma pick_in k (l : list nat) : l <> [] -> exists x, pick choose k l = Some x /\ In x l.
Proof.
  intros H. unfold pick. destruct l as [|a l]; [congruence|].
  set (n := (choose k (length (a :: l)) mod length (a :: l))%nat).
  assert (Hn : (n < length (a :: l))%nat) by (apply Nat.mod_upper_bound; cbn; lia).
  destruct (nth_error (a :: l) n) eqn:Ee.
  - exists n0; split; auto. eapply nth_error_In; eauto.
  - apply nth_error_None in Ee. lia.
Qed.

Lemma full_iff (fs : fset Patch) : Nat.eqb (valid_count fs) (length (fs_slots fs)) = true <-> n_free fs = 0%nat.
Proof.
  rewrite Nat.eqb_eq, valid_count_live. unfold n_live, n_free. pose proof (count_split (fs_slots fs)). lia.
Qed.

Lemma nth_error_rev_snoc {A} (l : list A) (x y : A) k :
  nth_error (rev l ++ [x]) k = Some y ->
  (nth_error (rev l) k = Some y /\ (k < length l)%nat) \/ (k = length l /\ y = x).
Proof.
  intros H. destruct (Nat.lt_ge_cases k (length (rev l))) as [Hk|Hk].
  - left. rewrite nth_error_app1 in H by auto. rewrite rev_length in Hk. auto.
  - right. rewrite nth_error_app2 in H by auto. rewrite rev_length in *.
    destruct (k - length l)%nat as [|m] eqn:Em; cbn in H.
    + split; [lia|congruence].
    + destruct m; discriminate.
Qed.

Lemma set_inv_step fs fs1 new ind nf c :
  set_inv fs new -> make_new fs = (fs1, Some ind) -> nth_error cs nf = Some c ->
  set_inv {| fs_slots := upd_nth ind (install p c) (fs_slots fs1); fs_maxIdx := fs_maxIdx fs1 |} ((ind, nf) :: new).
Proof.
  intros [L N O ND I V] Hm Hc.
  destruct (make_new_some _ _ _ Hm) as [f [Hf [_ [Hi [Ho [Hl [Hx Hn]]]]]]].
  assert (Hnot : ~ In ind (map fst new)).
  { intros Hin. apply in_map_iff in Hin as [[i' c'] [Ei Hin]]; cbn in Ei; subst i'.
    apply in_rev in Hin. apply In_nth_error in Hin as [k Hk].
    destruct (N _ _ _ Hk) as [_ [cd [_ Hs]]]. rewrite Hf in Hs. discriminate. }
  assert (Hfree : free fs0 ind).
  { exists f. rewrite <- O; auto. }
  assert (Hlive : nth_error (upd_nth ind (install p c) (fs_slots fs1)) ind = Some (new_slot (length new) c)).
  { rewrite nth_error_upd_nth_eq, Hi. cbn. unfold install, new_slot. cbn. rewrite I. reflexivity. }
  split; cbn [fs_slots fs_maxIdx].
  - rewrite upd_nth_length. lia.
  - intros k i c' Hk. cbn [rev] in Hk. apply nth_error_rev_snoc in Hk as [[Hk Hlt]|[-> Hp]].
    + destruct (N _ _ _ Hk) as [Hfr [cd [H1 H2]]]. split; auto. exists cd; split; auto.
      assert (Hne : i <> ind).
      { intros ->. apply Hnot. apply in_map_iff. exists (ind, c'); split; auto. apply in_rev. eapply nth_error_In; eauto. }
      rewrite nth_error_upd_nth_ne by congruence. rewrite Ho; auto.
    + injection Hp as -> ->. split; auto. exists c. split; auto.
  - intros i Hni. cbn in Hni. assert (Hni2 : i <> ind) by (intros ->; tauto).
    rewrite nth_error_upd_nth_ne by congruence. rewrite Ho by auto. apply O; tauto.
  - constructor; auto.
  - cbn [length]. lia.
  - unfold n_live in *; cbn. rewrite count_upd_same; [lia|]. intros s Hs; reflexivity.
Qed.

Lemma added_pos_cons ind nf c new : nth_error cs nf = Some c ->
  added_pos ((ind, nf) :: new) = cd_c c :: added_pos new.
Proof. intros H. unfold added_pos; cbn. unfold cand_pos; rewrite H. reflexivity. Qed.

Lemma add_one_ok b (st : @addst Patch) :
  (b < nb)%nat -> (p_req p = false -> (1 <= b)%nat) -> loop_inv b st ->
  bkt (a_bk st) b <> [] -> budget_left st = true ->
  exists st', add_one p cs choose b st = Ok st' /\ loop_inv b st' /\
    length (a_new st') = S (length (a_new st)).
Proof.
  intros Hb Hreq [Hset Hlvl Hcand Hcnt Hmax Hbkt] Hne Hbud.
  destruct Hbkt as [Hbkt|[Habove Hfit]]; [congruence|].
  unfold add_one. rewrite bk_get_nat.
  destruct (pick_in (length (a_new st)) (bkt (a_bk st) b) Hne) as [nf [-> Hnf]].
  destruct Hcand as [W M ND DJ].
  assert (Hel : elig_idx nf) by (apply M; left; eauto).
  destruct Hel as [c [Hc Hce]]. rewrite Hc.
  pose proof W as (L & _ & _).
  rewrite bk_erase_ok by lia. cbn [rbind].
  destruct (erase_wf p b nf (a_bk st) W Hb Hnf) as [W1 C1].
  set (bk1 := upd_nth b (set_erase nf) (a_bk st)) in *.
  destruct (make_new (a_fs st)) as [fs1 [ind|]] eqn:Em.
  2:{ exfalso. apply make_new_none in Em as [_ Hz]. apply full_iff in Hz.
      unfold budget_left in Hbud. rewrite Hz in Hbud. rewrite andb_false_r in Hbud. discriminate. }
  assert (Mem1 : mem_ok cs Elig bk1).
  { intros j x Hx. apply C1 in Hx as [_ Hx]. destruct (proj1 (M x) (or_introl (ex_intro _ j Hx))) as [cd [? ?]].
    exists cd; auto. }
  destruct (move_all_ok p cs Hsane b0 Elig (added_pos (a_new st) ++ ps0) (cd_c c) b bk1 Hb W1 Mem1)
    as [bk2 [E2 [W2 [_ [S2 [A2 F2]]]]]].
  { intros j x cd Hx Hcd. apply C1 in Hx as [_ Hx]. eapply Hfit; eauto. }
  rewrite E2. cbn [rbind].
  eexists; split; [reflexivity|]. split; [|reflexivity].
  assert (Hmem2 : forall x, (exists j, In x (bkt bk2 j)) <-> x <> nf /\ exists j, In x (bkt (a_bk st) j)).
  { intros x. rewrite <- (S2 x). split.
    - intros [j Hj]. apply C1 in Hj as [H1 H2]. eauto.
    - intros [H1 [j Hj]]. exists j. apply C1; auto. }
  assert (Hbud' := Hbud). unfold budget_left in Hbud'. apply andb_prop in Hbud' as [Hb1 _]. apply Z.ltb_lt in Hb1.
  split; cbn [a_fs a_bk a_cnt a_new].
  - eapply set_inv_step; eauto.
  - intros k i c' cd Hk Hcd Hr. cbn [rev] in Hk |- *.
    pose proof Hk as Hk'. apply nth_error_rev_snoc in Hk' as [[Hk' Hlt]|[-> Hp]].
    + rewrite firstn_app. rewrite rev_length.
      replace (k - length (a_new st))%nat with 0%nat by lia. cbn [firstn]. rewrite app_nil_r.
      eapply Hlvl; eauto.
    + injection Hp as -> ->. rewrite Hc in Hcd; injection Hcd as <-.
      rewrite firstn_app, rev_length, Nat.sub_diag. cbn [firstn]. rewrite app_nil_r.
      rewrite firstn_all2 by (rewrite rev_length; lia). rewrite rev_involutive.
      specialize (Hreq Hr). pose proof (Hfit _ _ _ Hnf Hc Hreq) as Hf.
      assert (1 <= inject_Z (Z.of_nat b))%Q by (change 1%Q with (inject_Z 1); rewrite <- Zle_Qle; lia).
      eapply Qle_trans; [|exact Hf]. lra.
  - split; auto.
    + intros x. rewrite Hmem2. cbn [map snd In]. rewrite <- M. destruct (Nat.eq_dec x nf) as [->|Hx].
      * split; [|intuition]. intros _. left; eauto.
      * intuition congruence.
    + cbn. constructor; auto. eapply DJ; eauto.
    + intros j x Hx. cbn. assert (Hx2 : x <> nf /\ exists j, In x (bkt (a_bk st) j)) by (apply Hmem2; eauto).
      destruct Hx2 as [Hx2 [j' Hj']]. intros [Heq|Hin]; [congruence|]. eapply DJ; eauto.
  - cbn [length]. lia.
  - cbn [length]. lia.
  - right. split.
    + intros j Hj. rewrite A2 by auto. unfold bk1. rewrite bkt_upd by lia.
      destruct (Nat.eqb_spec j b); [lia|]. auto.
    + intros j x cd Hx Hcd. rewrite (added_pos_cons ind nf c) by auto. cbn [app].
      apply (F2 j x cd); auto. destruct (Nat.le_gt_cases j b); auto. exfalso.
      rewrite A2 in Hx by auto. unfold bk1 in Hx. rewrite bkt_upd in Hx by lia.
      destruct (Nat.eqb_spec j b); [lia|]. rewrite Habove in Hx by auto. destruct Hx.
Qed.

Lemma new_bound bk new : cand_inv bk new -> (length new <= length cs)%nat /\
  ((exists j, bkt bk j <> []) -> (length new < length cs)%nat).
Proof.
  intros [W M ND DJ].
  assert (Hlt : forall c, In c (map snd new) -> (c < length cs)%nat).
  { intros c Hc. destruct (proj1 (M c) (or_intror Hc)) as [cd [Hcd _]]. apply nth_error_Some. congruence. }
  split.
  - rewrite <- (map_length snd), <- (seq_length (length cs) 0). apply NoDup_incl_length; auto.
    intros c Hc. apply in_seq. specialize (Hlt _ Hc). lia.
  - intros [j Hj]. destruct (bkt bk j) as [|x l] eqn:Ex; [congruence|].
    assert (Hx : In x (bkt bk j)) by (rewrite Ex; left; auto).
    assert (NoDup (x :: map snd new)) as ND2 by (constructor; eauto).
    enough (length (x :: map snd new) <= length (seq 0 (length cs)))%nat as H by (cbn in H; rewrite map_length, seq_length in H; lia).
    apply NoDup_incl_length; auto. intros c [<-|Hc]; apply in_seq.
    + destruct (proj1 (M x) (or_introl (ex_intro _ j Hx))) as [cd [Hcd _]].
      assert (x < length cs)%nat by (apply nth_error_Some; congruence). lia.
    + specialize (Hlt _ Hc). lia.
Qed.

Lemma while_cond b (st : @addst Patch) : nonempty (bk_get (a_bk st) (Z.of_nat b)) && (a_cnt st <? p_max p)
     && negb (Nat.eqb (valid_count (a_fs st)) (length (fs_slots (a_fs st))))
   = nonempty (bkt (a_bk st) b) && budget_left st.
Proof. rewrite bk_get_nat. unfold budget_left. rewrite andb_assoc. reflexivity. Qed.

Lemma add_while_ok b : forall fuel st,
  (b < nb)%nat -> (p_req p = false -> (1 <= b)%nat) -> loop_inv b st ->
  (length cs - length (a_new st) <= fuel)%nat ->
  exists st', add_while fuel p cs choose b st = Ok st' /\ loop_inv b st' /\
    (budget_left st' = false \/ bkt (a_bk st') b = []).
Proof.
  induction fuel as [|fuel IH]; intros st Hb Hr Hinv Hf; cbn [add_while]; rewrite while_cond.
  - destruct (bkt (a_bk st) b) as [|x l] eqn:Eb; cbn [nonempty andb].
    { exists st. split; auto. }
    destruct (budget_left st) eqn:Eg; [|exists st; split; auto].
    exfalso. destruct (new_bound _ _ (li_cand _ _ Hinv)) as [_ H2].
    assert (length (a_new st) < length cs)%nat; [|lia]. apply H2. exists b. rewrite Eb; discriminate.
  - destruct (bkt (a_bk st) b) as [|x l] eqn:Eb; cbn [nonempty andb].
    { exists st. split; auto. }
    destruct (budget_left st) eqn:Eg; [|exists st; split; auto].
    destruct (add_one_ok b st Hb Hr Hinv) as [st1 [E1 [I1 L1]]]; auto; [rewrite Eb; discriminate|].
    rewrite E1. cbn [rbind]. apply IH; auto. lia.
Qed.

Lemma loop_inv_down b (st : @addst Patch) : loop_inv (S b) st -> (budget_left st = false \/ bkt (a_bk st) (S b) = []) -> loop_inv b st.
Proof.
  intros [H1 H2 H3 H4 H5 H6] H. split; auto. destruct H6 as [H6|[H6 H7]]; auto.
  destruct H as [H|H]; auto. right; split; auto. intros j Hj. destruct (Nat.eq_dec j (S b)) as [->|]; auto.
  apply H6; lia.
Qed.

Lemma add_loop_desc lo : forall n st,
  (lo + n <= nb)%nat -> (p_req p = false -> (1 <= lo)%nat) ->
  loop_inv (lo + n - 1) st -> (1 <= lo + n)%nat ->
  exists st', fold_left (fun rs b => rbind rs (add_while (length cs) p cs choose b)) (rev (seq lo n)) (Ok st) = Ok st' /\
    loop_inv (lo - 1) st' /\ (budget_left st' = false \/ (n <> 0 -> forall j, (lo <= j)%nat -> bkt (a_bk st') j = [])%nat).
Proof.
  induction n as [|n IH]; intros st Hn Hr Hinv H1.
  - cbn. exists st. split; auto. split; [|right; intros; congruence].
    replace (lo - 1)%nat with (lo + 0 - 1)%nat by lia. exact Hinv.
  - rewrite seq_S, rev_app_distr. cbn [rev app fold_left rbind].
    replace (lo + S n - 1)%nat with (lo + n)%nat in Hinv by lia.
    destruct (add_while_ok (lo + n) (length cs) st) as [st1 [E1 [I1 D1]]]; auto; try lia.
    { intros Hq; specialize (Hr Hq); lia. }
    rewrite E1.
    destruct n as [|n'].
    + cbn [seq rev fold_left]. exists st1. split; auto. rewrite Nat.add_0_r in *.
      assert (Hd : budget_left st1 = false \/ (forall j : nat, (lo <= j)%nat -> bkt (a_bk st1) j = [])).
      { destruct D1 as [D1|D1]; auto. destruct (li_bkt _ _ I1) as [?|[Ha _]]; auto. right.
        intros j Hj. destruct (Nat.eq_dec j lo) as [->|]; auto. apply Ha; lia. }
      split.
      * destruct lo as [|lo]; [cbn; exact I1|]. cbn. rewrite Nat.sub_0_r. apply loop_inv_down; auto.
      * destruct Hd as [?|Hd]; auto.
    + destruct (IH st1) as [st2 [E2 [I2 D2]]]; auto; try lia.
      { replace (lo + S n')%nat with (S (lo + n')) in * by lia.
        replace (S (lo + n') - 1)%nat with (lo + n')%nat by lia.
        apply loop_inv_down; auto. }
      exists st2. split; auto. split; auto. destruct D2 as [D2|D2]; [left; auto|right].
      intros _. apply D2. lia.
Qed.

Lemma add_loop_ok st :
  loop_inv (nb - 1) st ->
  exists st', add_loop p cs choose st = Ok st' /\
    set_inv (a_fs st') (a_new st') /\ lvl_inv (a_new st') /\ cand_inv (a_bk st') (a_new st') /\
    a_cnt st' = Z.of_nat (length (a_new st')) /\
    Z.of_nat (length (a_new st')) <= Z.max 0 (p_max p) /\
    (budget_left st' = false \/ forall j, (p_req p = false -> (1 <= j)%nat) -> bkt (a_bk st') j = []).
Proof.
  intros Hinv. pose proof (nb_pos p Hsane) as Hnb. unfold add_loop, bucket_order.
  change (Z.to_nat (p_nb p)) with nb. destruct (p_req p) eqn:Er.
  - destruct (add_loop_desc 0 nb st) as [st' [E1 [[A B C D F G] H]]]; try lia; auto; try congruence.
    exists st'. split; auto. do 5 (split; auto). destruct H as [H|H]; [left; auto|right].
    intros j _. apply H; lia.
  - destruct (add_loop_desc 1 (nb - 1) st) as [st' [E1 [[A B C D F G] H]]]; try lia; auto.
    { replace (1 + (nb - 1) - 1)%nat with (nb - 1)%nat by lia. auto. }
    exists st'. split; auto. do 5 (split; auto). destruct H as [H|H]; [left; auto|right].
    intros j Hj. specialize (Hj eq_refl). destruct (Nat.eq_dec (nb - 1) 0) as [Hz|Hz].
    + apply bkt_overflow. destruct C as [(L & _) _ _ _]. lia.
    + apply H; auto.
Qed.

End Add.

Section Main.
Context {Patch : Type}.
Notation cand := (cand Patch).

(** everything known about a call *)
Definition outcome (p : params) (cs : list cand) (proj : feature Patch -> option (Q * Q)) (fs fs' : fset Patch) (news : list (nat * nat)) : Prop :=
  set_inv p cs fs fs' (rev news) /\
  lvl_inv p cs (max_score cs) (rev (existing proj fs)) (rev news) /\
  NoDup (map snd news) /\
  (forall c, In c (map snd news) -> elig_idx p cs c) /\
  Z.of_nat (length news) <= Z.max 0 (p_max p) /\
  (p_req p = true -> Z.of_nat (length news) < p_max p -> (length news < n_free fs)%nat ->
     forall c, elig_idx p cs c -> In c (map snd news)).

Lemma n_live_free (fs : fset Patch) : (n_live fs + n_free fs = capacity fs)%nat.
Proof. apply count_split. Qed.

Lemma add_best_outcome p (cs : list cand) proj choose fs :
  sane p ->
  exists fs' news, add_best p cs proj choose fs = Ok (fs', news) /\ outcome p cs proj fs fs' news.
Proof.
  intros Hs. unfold add_best. pose proof (max_score_best cs) as Hbest.
  destruct (Qle_bool (max_score cs) (p_min p)) eqn:Eq.
  - apply Qle_bool_iff in Eq. exists fs, []. split; [reflexivity|].
    split; [|split; [|split; [|split; [|split]]]].
    + split; cbn; auto; try lia.
      * intros [|k] i c H; discriminate.
      * constructor.
    + intros [|k] i c cd H; cbn in H; discriminate.
    + constructor.
    + intros c [].
    + cbn; lia.
    + intros _ _ _ c [cd [H1 H2]]. unfold eligible in H2.
      pose proof (score_le_best _ _ _ Hbest (nth_error_In _ _ H1)). lra.
  - assert (Hmx : (p_min p < max_score cs)%Q).
    { destruct (Qlt_le_dec (p_min p) (max_score cs)) as [H|H]; auto. apply Qle_bool_iff in H. congruence. }
    destruct (sane_nb _ Hs) as [Hn1 Hn2].
    replace (p_nb p <? 0) with false by (symmetry; apply Z.ltb_ge; lia).
    destruct (fill_ok p cs Hs (max_score cs) Hbest Hmx) as [bk [-> (W & F1 & F2)]]. cbn [rbind].
    destruct (penalise_ok p cs Hs (level_of p (max_score cs)) (Elig p) (existing proj fs) [] bk W)
      as [bk1 [E1 [W1 [M1 [S1 G1]]]]].
    { intros j c Hc. destruct (F1 _ _ Hc) as [_ [cd [? [? _]]]]. exists cd; split; auto. }
    { intros j c cd Hc Hcd Hj. destruct (F1 _ _ Hc) as [_ [cd' [H1 [_ H2]]]].
      rewrite H1 in Hcd; injection Hcd as <-. rewrite H2. cbn. lra. }
    unfold penalise_existing. rewrite E1. cbn [rbind].
    rewrite app_nil_r in G1.
    set (st0 := {| a_fs := fs; a_bk := bk1; a_cnt := 0; a_new := [] |}).
    assert (I0 : loop_inv p cs (max_score cs) fs (rev (existing proj fs)) (FsetBuckets.nb p - 1) st0).
    { split; cbn [a_fs a_bk a_cnt a_new st0].
      - split; cbn; auto; try lia.
        + intros [|k] i c H; discriminate.
        + constructor.
      - intros [|k] i c cd H; cbn in H; discriminate.
      - split; auto.
        + intros c. rewrite <- (S1 c). split.
          * intros [[j Hj]|[]]. destruct (F1 _ _ Hj) as [_ [cd [? [? _]]]]. exists cd; auto.
          * intros [cd [H1 H2]]. left. apply (F2 c cd); auto. apply nth_error_Some; congruence.
        + constructor.
      - reflexivity.
      - cbn; lia.
      - right. split.
        + intros j Hj. apply bkt_overflow. destruct W1 as (L & _). pose proof (nb_pos p Hs). lia.
        + exact G1. }
    destruct (add_loop_ok p cs Hs (max_score cs) choose fs (rev (existing proj fs)) st0 I0)
      as [st [E2 [J1 [J2 [J3 [J4 [J5 J6]]]]]]].
    rewrite E2. cbn [rbind]. exists (a_fs st), (rev (a_new st)). split; [reflexivity|].
    destruct J3 as [K1 K2 K3 K4].
    unfold outcome. rewrite rev_involutive, map_rev, rev_length.
    split; [|split; [|split; [|split; [|split]]]]; auto.
    + apply NoDup_rev; auto.
    + intros c Hc. apply K2. right. apply in_rev; auto.
    + intros Hr H1 H2 c Hc. destruct J6 as [J6|J6].
      * exfalso. unfold budget_left in J6. apply andb_false_iff in J6 as [J6|J6].
        -- apply Z.ltb_ge in J6. lia.
        -- apply negb_false_iff in J6. apply full_iff in J6. destruct J1 as [A _ _ _ _ B].
           pose proof (n_live_free fs). pose proof (n_live_free (a_fs st)). unfold capacity in *. lia.
      * apply K2 in Hc as [[j Hj]|Hc]; [|apply -> in_rev; auto].
        rewrite J6 in Hj by congruence. destruct Hj.
Qed.

Lemma n_eligible_idx (p : params) (cs : list cand) (l : list nat) :
  NoDup l -> (forall c, In c l -> elig_idx p cs c) ->
  (length l <= n_eligible p cs)%nat /\
  ((forall c, elig_idx p cs c -> In c l) -> length l = n_eligible p cs).
Proof.
  intros ND H.
  set (idx := map fst (filter (fun ic => eligibleb p (snd ic)) (combine (seq 0 (length cs)) cs))).
  assert (Hlen : length idx = n_eligible p cs).
  { unfold idx. rewrite map_length. unfold n_eligible. generalize 0%nat as k. clear.
    induction cs as [|c cs IH]; intros k; cbn; auto. destruct (eligibleb p c); cbn; rewrite IH; auto. }
  assert (Hin : forall c, In c idx <-> elig_idx p cs c).
  { assert (G : forall (xs : list cand) k i c, In (i, c) (combine (seq k (length xs)) xs) <-> (k <= i)%nat /\ nth_error xs (i - k) = Some c).
    { clear. induction xs as [|x xs IH]; intros k i c; cbn.
      - split; [tauto|]. intros [_ H]. destruct (i - k)%nat; discriminate.
      - rewrite IH. split.
        + intros [H|[H1 H2]].
          * injection H as -> ->. rewrite Nat.sub_diag. auto.
          * split; [lia|]. replace (i - k)%nat with (S (i - S k))%nat by lia. auto.
        + intros [H1 H2]. destruct (Nat.eq_dec i k) as [->|Hne].
          * left. rewrite Nat.sub_diag in H2. cbn in H2. congruence.
          * right. split; [lia|]. replace (i - k)%nat with (S (i - S k))%nat in H2 by lia. auto. }
    intros c. unfold idx. rewrite in_map_iff. split.
    - intros [[i x] [E1 E2]]; cbn in E1; subst i. apply filter_In in E2 as [E2 E3]. cbn in E3.
      apply G in E2 as [_ E2]. rewrite Nat.sub_0_r in E2. exists x; split; auto. apply Qltb'_true; auto.
    - intros [x [H1 H2]]. exists (c, x). split; auto. apply filter_In. split; [|apply Qltb'_true; auto].
      apply G. rewrite Nat.sub_0_r. split; auto; lia. }
  assert (NDi : NoDup idx).
  { unfold idx. generalize 0%nat as k. clear. induction cs as [|c cs IH]; intros k; cbn; [constructor|].
    assert (Hge : forall (xs : list cand) k i, In i (map fst (filter (fun ic => eligibleb p (snd ic)) (combine (seq k (length xs)) xs))) -> (k <= i)%nat).
    { clear. induction xs as [|x xs IH]; intros k i; cbn; [tauto|]. destruct (eligibleb p x); cbn.
      - intros [->|Hi]; [auto|]. apply IH in Hi; lia.
      - intros Hi. apply IH in Hi; lia. }
    destruct (eligibleb p c); cbn; auto. constructor; auto. intros Hi. apply Hge in Hi; lia. }
  split.
  - rewrite <- Hlen. apply NoDup_incl_length; auto. intros c Hc. apply Hin; auto.
  - intros Hall. rewrite <- Hlen. apply Permutation_length. apply NoDup_Permutation; auto.
    intros c. rewrite Hin. split; auto.
Qed.

End Main.
