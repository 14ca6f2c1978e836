(** When the good candidates are further apart than the penalty distance, nothing is penalised away and
    addBestCandidates fills as many slots as it may (C08, used by C40). *)
From Coq Require Import List ZArith QArith Qround Bool Lia Lqa Permutation.
From Verif Require Import Util FsetModel FsetSpec FsetProofs FsetBuckets FsetAdd FsetFinal.
Import ListNotations.
Local Open Scope Z_scope.

Lemma apart_test p a b : apart p a b -> Qltb' (dist2 a b) (t2 p) = false.
Proof.
  intros H. apply Qltb'_false. unfold apart, dist2, t2 in *. nra.
Qed.

Section Sep.
Context {Patch : Type}.
Notation cand := (cand Patch).
Variable p : params.
Variable cs : list cand.
Hypothesis Hsane : sane p.
Variable ex : list (Q * Q).
Hypothesis Hsep : separated p cs ex.

Definition members_ok (bk : buckets) : Prop :=
  forall j i, In i (bkt bk j) -> exists c, nth_error cs i = Some c /\ eligible p c.

Definition untouched (pos : Q * Q) (bk : buckets) : Prop :=
  forall j i c, In i (bkt bk j) -> nth_error cs i = Some c -> Qltb' (dist2 pos (cd_c c)) (t2 p) = false.

Lemma move_list_id pos b bk l :
  (forall i, In i l -> exists c, nth_error cs i = Some c /\ Qltb' (dist2 pos (cd_c c)) (t2 p) = false) ->
  fold_left (move_one p cs pos b) l (Ok bk) = Ok bk.
Proof.
  induction l as [|i l IH]; intros H; [reflexivity|]. cbn [fold_left].
  unfold move_one at 2. cbn [rbind]. destruct (H i) as [c [E1 E2]]; [now left|]. rewrite E1, E2.
  apply IH. intros k Hk. apply H. now right.
Qed.

Lemma move_all_id pos hi bk : members_ok bk -> untouched pos bk -> move_all p cs pos hi bk = Ok bk.
Proof.
  intros M U. unfold move_all. generalize (seq 1 hi) as l. induction l as [|b l IH]; [reflexivity|].
  cbn [map fold_left]. unfold move_bucket at 2. cbn [rbind]. rewrite bk_get_nat.
  rewrite move_list_id; [exact IH|]. intros i Hi. destruct (M _ _ Hi) as [c [E _]].
  exists c. split; auto. eapply U; eauto.
Qed.

Lemma penalise_id bk : members_ok bk -> penalise_existing p cs ex bk = Ok bk.
Proof.
  intros M. unfold penalise_existing. destruct Hsep as [_ H]. clear Hsep.
  assert (G : forall l, incl l ex -> fold_left (fun rb pos => rbind rb (move_all p cs pos (Z.to_nat (p_nb p) - 1))) l (Ok bk) = Ok bk).
  { induction l as [|pos l IH]; intros Hl; [reflexivity|]. cbn [fold_left rbind]. rewrite move_all_id; auto.
    - apply IH. intros a Ha. apply Hl. now right.
    - intros j i c Hi Hc. destruct (M _ _ Hi) as [d [E1 E2]]. rewrite Hc in E1. injection E1 as <-.
      apply apart_test. apply H; auto; [apply Hl; now left|eapply nth_error_In; eauto]. }
  apply G. apply incl_refl.
Qed.

Definition calm (bk : buckets) : Prop := wf p bk /\ members_ok bk /\ bkt bk 0 = [].

Lemma add_one_calm choose b st st' : (1 <= b)%nat -> calm (a_bk st) ->
  add_one p cs choose b st = Ok st' -> calm (a_bk st').
Proof.
  intros Hb (W & M & Z0) E. unfold add_one in E.
  destruct (pick choose _ _) as [nf|] eqn:Ep; [|discriminate].
  rewrite bk_get_nat in Ep.
  assert (Hin : In nf (bkt (a_bk st) b)).
  { unfold pick in Ep. destruct (bkt (a_bk st) b) as [|y ys]; [discriminate|]. eapply nth_error_In; eauto. }
  destruct (nth_error cs nf) as [c|] eqn:Ec; [|discriminate].
  assert (Hlt : (b < length (a_bk st))%nat).
  { destruct (Nat.lt_ge_cases b (length (a_bk st))) as [L|L]; auto. rewrite bkt_overflow in Hin by lia. destruct Hin. }
  rewrite bk_erase_ok in E by auto. cbn [rbind] in E.
  destruct (make_new (a_fs st)) as [fs1 [ind|]]; [|discriminate].
  set (bk1 := upd_nth b (set_erase nf) (a_bk st)) in *.
  assert (C : forall j x, In x (bkt bk1 j) -> In x (bkt (a_bk st) j) /\ x <> nf).
  { intros j x Hx. unfold bk1 in Hx. rewrite bkt_upd in Hx by auto. destruct (Nat.eqb_spec j b) as [e|NE].
    - subst j. apply in_erase in Hx. tauto.
    - split; auto. intros ->. apply NE. destruct W as (_ & _ & D). eapply D; eauto. }
  assert (M1 : members_ok bk1) by (intros j x Hx; apply C in Hx; eapply M; apply Hx).
  rewrite move_all_id in E; auto.
  - cbn [rbind] in E. injection E as <-. cbn [a_bk]. split; [apply erase_wf; auto; destruct W as (L & _); lia|split; [exact M1|]].
    unfold bk1. rewrite bkt_upd by auto. destruct (Nat.eqb_spec 0 b); [lia|auto].
  - intros j x d Hx Hd. destruct (C _ _ Hx) as [Hx1 Hx2]. destruct (M _ _ Hx1) as [d' [E1 E2]].
    rewrite Hd in E1. injection E1 as <-. destruct (M _ _ Hin) as [c' [E3 E4]]. rewrite Ec in E3. injection E3 as <-.
    apply apart_test. apply (proj1 Hsep nf x); auto.
Qed.

Lemma add_while_calm choose b : (1 <= b)%nat -> forall fuel st st', calm (a_bk st) ->
  add_while fuel p cs choose b st = Ok st' -> calm (a_bk st').
Proof.
  intros Hb. induction fuel as [|k IH]; intros st st' H E; cbn [add_while] in E.
  - destruct (_ && _ && _)%bool; [discriminate|]. now injection E as <-.
  - destruct (_ && _ && _)%bool; [|now injection E as <-].
    destruct (add_one p cs choose b st) as [st1| |] eqn:E1; try discriminate. cbn [rbind] in E.
    eapply IH; [|exact E]. eapply add_one_calm; eauto.
Qed.

Lemma add_loop_calm choose st st' : p_req p = false -> calm (a_bk st) ->
  add_loop p cs choose st = Ok st' -> calm (a_bk st').
Proof.
  intros Hr. unfold add_loop, bucket_order. rewrite Hr.
  assert (G : forall l st st', (forall b, In b l -> 1 <= b)%nat -> calm (a_bk st) ->
    fold_left (fun rs b => rbind rs (add_while (length cs) p cs choose b)) l (Ok st) = Ok st' -> calm (a_bk st')).
  { clear st st'. induction l as [|b l IH]; intros st st' Hl H E; cbn [fold_left rbind] in E.
    - now injection E as <-.
    - destruct (add_while (length cs) p cs choose b st) as [st1| |] eqn:E1.
      + eapply IH; [| |exact E]; [intros; apply Hl; now right|]. eapply add_while_calm; [|exact H|exact E1]. apply Hl. now left.
      + exfalso. clear - E. induction l; cbn in E; [discriminate|auto].
      + exfalso. clear - E. induction l; cbn in E; [discriminate|auto]. }
  apply G. intros b Hb. apply in_rev in Hb. apply in_seq in Hb. lia.
Qed.

End Sep.

Section Final.
Context {Patch : Type}.
Notation cand := (cand Patch).

Lemma separated_all_added p (cs : list cand) proj choose (fs fs' : fset Patch) news :
  sane p -> 2 <= p_nb p -> (forall r, (0 < r <= 1)%Q -> (0 < p_pow p r)%Q) ->
  separated p cs (in_view proj fs) ->
  0 <= p_max p -> add_best p cs proj choose fs = Ok (fs', news) ->
  Z.of_nat (length news) = Z.min (p_max p) (Z.min (Z.of_nat (n_free fs)) (Z.of_nat (n_eligible p cs))).
Proof.
  intros Hs Hnb Hpow Hsep Hm H. rewrite <- existing_in_view in Hsep.
  destruct (p_req p) eqn:Hr; [eapply add_fills_to_max; eauto|].
  destruct (add_best_outcome p cs proj choose fs Hs) as [fs1 [news1 [H1 Ho]]].
  rewrite H in H1. injection H1 as <- <-. destruct Ho as (Hset & _ & Hnd & Hel & Hmax & _).
  destruct (add_respects_budget _ _ _ _ _ _ _ H) as (B1 & B2 & _).
  destruct (n_eligible_idx p cs (map snd news) Hnd Hel) as [C1 C2]. rewrite map_length in C1, C2.
  destruct (Z.lt_ge_cases (Z.of_nat (length news)) (p_max p)) as [D1|D1]; [|lia].
  destruct (Nat.lt_ge_cases (length news) (n_free fs)) as [D2|D2]; [|lia].
  cut (forall c, elig_idx p cs c -> In c (map snd news)); [intros Hall; specialize (C2 Hall); lia|]. clear C1 C2 B1 B2.
  unfold add_best in H. pose proof (max_score_best cs) as Hbest.
  destruct (Qle_bool (max_score cs) (p_min p)) eqn:Eq.
  { apply Qle_bool_iff in Eq. intros c [cd [H1 H2]]. unfold eligible in H2.
    pose proof (score_le_best _ _ _ Hbest (nth_error_In _ _ H1)). lra. }
  assert (Hmx : (p_min p < max_score cs)%Q).
  { destruct (Qlt_le_dec (p_min p) (max_score cs)) as [G|G]; auto. apply Qle_bool_iff in G. congruence. }
  destruct (sane_nb _ Hs) as [Hn1 Hn2].
  replace (p_nb p <? 0) with false in H by (symmetry; apply Z.ltb_ge; lia).
  destruct (fill_ok p cs Hs (max_score cs) Hbest Hmx) as [bk [E0 (W & F1 & F2)]]. rewrite E0 in H. cbn [rbind] in H.
  assert (Mb : members_ok p cs bk).
  { intros j i Hi. destruct (F1 _ _ Hi) as [_ [cd [? [? _]]]]. exists cd; auto. }
  assert (Z0 : bkt bk 0 = []).
  { destruct (bkt bk 0) as [|i l] eqn:E; [reflexivity|]. exfalso.
    destruct (F1 0%nat i) as [_ [cd [G1 [G2 G3]]]]; [rewrite E; now left|]. 
    unfold level_of in G3.
    set (r := ((score cd - p_min p) / (max_score cs - p_min p))%Q) in G3.
    assert (R : (0 < r <= 1)%Q).
    { split; [apply (rel_pos p (max_score cs) Hmx); auto|apply (rel_le1 p cs (max_score cs) Hbest Hmx); eapply nth_error_In; eauto]. }
    pose proof (Hpow r R) as Hp.
    assert (Hq : (0 < inject_Z (p_nb p - 1) * p_pow p r)%Q).
    { assert (1 <= inject_Z (p_nb p - 1))%Q by (change 1%Q with (inject_Z 1); rewrite <- Zle_Qle; lia). nra. }
    assert (0 < Qceiling (inject_Z (p_nb p - 1) * p_pow p r)).
    { pose proof (Qle_ceiling (inject_Z (p_nb p - 1) * p_pow p r)) as Hc. rewrite Zlt_Qlt. change (inject_Z 0) with 0%Q. lra. }
    lia. }
  rewrite penalise_id in H by (auto; eauto). cbn [rbind] in H.
  set (st0 := {| a_fs := fs; a_bk := bk; a_cnt := 0; a_new := [] |}) in *.
  assert (I0 : loop_inv p cs (max_score cs) fs [] (FsetBuckets.nb p - 1) st0).
  { split; cbn [a_fs a_bk a_cnt a_new st0].
    - split; cbn; auto; try lia.
      + intros [|k] i c G; discriminate.
      + constructor.
    - intros [|k] i c cd G; cbn in G; discriminate.
    - split; auto.
      + intros c. split.
        * intros [[j Hj]|[]]. destruct (F1 _ _ Hj) as [_ [cd [? [? _]]]]. exists cd; auto.
        * intros [cd [G1 G2]]. left. apply (F2 c cd); auto. apply nth_error_Some; congruence.
      + constructor.
    - reflexivity.
    - cbn; lia.
    - right. split.
      + intros j Hj. apply bkt_overflow. destruct W as (L & _). pose proof (nb_pos p Hs). lia.
      + intros j c cd Hc Hcd Hj. destruct (F1 _ _ Hc) as [_ [cd' [G1 [_ G2]]]].
        rewrite G1 in Hcd; injection Hcd as <-. rewrite G2. cbn. lra. }
  destruct (add_loop_ok p cs Hs (max_score cs) choose fs [] st0 I0)
    as [st [E2 [J1 [J2 [J3 [J4 [J5 J6]]]]]]].
  rewrite E2 in H. cbn [rbind] in H. injection H as <- <-.
  assert (Hc : calm p cs (a_bk st)).
  { eapply add_loop_calm; eauto. split; [exact W|split; auto]. }
  destruct Hc as (_ & _ & Zs). rewrite rev_length in *. destruct J3 as [K1 K2 K3 K4].
  intros c He. rewrite map_rev. apply -> in_rev.
  destruct J6 as [J6|J6].
  - exfalso. unfold budget_left in J6. apply andb_false_iff in J6 as [J6|J6].
    + apply Z.ltb_ge in J6. lia.
    + apply negb_false_iff in J6. apply full_iff in J6. destruct J1 as [A _ _ _ _ B].
      pose proof (n_live_free fs). pose proof (n_live_free (a_fs st)). unfold capacity in *. lia.
  - apply K2 in He as [[j Hj]|He]; [|auto]. destruct (Nat.eq_dec j 0) as [->|NE].
    + rewrite Zs in Hj. destruct Hj.
    + rewrite J6 in Hj by lia. destruct Hj.
Qed.

End Final.
