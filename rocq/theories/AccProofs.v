(** Lemmas for C78. *)
From Coq Require Import List ZArith QArith Qreals Reals Bool Arith Lia Lra.
From Verif Require Import PatchModel PatchSpec PatchProofs PyrModel PyrSpec PyrProofs AvgModel AvgSpec AvgProofs AccModel AccSpec.
Import ListNotations.
Local Open Scope R_scope.

Lemma Rltb_iff a b : Rltb a b = true <-> a < b.
Proof. unfold Rltb. destruct (Rlt_dec a b); split; intros; auto; try discriminate; lra. Qed.
Lemma Rltb_false a b : Rltb a b = false <-> b <= a.
Proof. unfold Rltb. destruct (Rlt_dec a b); split; intros; auto; try discriminate; lra. Qed.
Section A.
Variables (near : warp -> bool) (cf : acfg) (py : pyramid) (patch : patches).
Hypothesis OK : acc_ok cf.
Hypothesis FP : filled (k_n cf) patch (k_s cf).
Lemma error_some p : fair near cf py p -> visible near cf py p -> exists r, spot_error near cf py patch p = Some r /\ intensity_error near cf py patch p r.
Proof.
  destruct OK as (EN & N & L). intros F V. unfold visible, spot_in in V.
  assert (X : exists Bs, ml_extract near (k_n cf) py (snd p) (k_s cf) false = Some Bs /\ length Bs = S (k_s cf) /\ Forall (fun b => length b = (edge (k_n cf) false * edge (k_n cf) false)%nat) Bs).
  { destruct F as [(w & h & Hw & Hh & Hi & Hc)|[(w & h & Hw & Hh & Hi & Hc) C]].
    - exact (proj2 (top_level_suffices near (k_n cf) py false false (snd p) (k_s cf) w h (fst p) Hw Hh Hi Hc EN N (or_introl eq_refl) V)).
    - assert (C' : true = false \/ near_id near (level_transform (py_ct py) (snd p) 0 0) = true \/ (even_below w (k_s cf) /\ even_below h (k_s cf)) \/
        wide (edge (k_n cf) false) (warp_of (level_transform (py_ct py) (snd p) 0 0))) by tauto.
      exact (proj2 (top_level_suffices near (k_n cf) py true false (snd p) (k_s cf) w h (fst p) Hw Hh Hi Hc EN N C' V)). }
  destruct X as (Bs & E & LB & FB).
  assert (FI : filled (k_n cf) (map (map Q2R) Bs) (k_s cf)).
  { split; [rewrite map_length; lia|]. intros q Hq. apply in_map_iff in Hq as (B & <- & HB). rewrite map_length.
    rewrite (proj1 (Forall_forall _ _) FB B HB). unfold edge. cbn. lia. }
  destruct (avg_best_offset (k_n cf) _ patch (k_e cf) (k_s cf) N L FI FP) as (r & b & A & R0 & R1 & R2).
  exists r. unfold spot_error. rewrite E. cbn [bind]. split; [exact A|]. exists Bs, b. auto.
Qed.
Lemma error_unique p r r' : spot_error near cf py patch p = Some r -> fair near cf py p -> visible near cf py p -> intensity_error near cf py patch p r' -> r' = r.
Proof.
  intros E F V (Bs & b & E1 & P1 & Q1 & Q2). destruct (error_some p F V) as (r2 & E2 & (Bs2 & b2 & E3 & P2 & Q3 & Q4)).
  rewrite E in E2. injection E2 as <-. rewrite E1 in E3. injection E3 as <-. specialize (Q2 b2). specialize (Q4 b).
  apply Rsqr_inj; auto. rewrite !Rsqr_pow2. apply Rle_antisym; lra.
Qed.
(** whether a sample counts *)
Definition hit (at_step : Q * Q -> spot) (avg : R) (v : Q * Q) : bool :=
  spot_in near cf py (at_step v) && match spot_error near cf py patch (at_step v) with Some e => above cf avg e | None => false end.
Lemma above_limit avg e : above cf avg e = true <-> sample_limit cf avg < e.
Proof.
  unfold above, sample_limit. destruct (Rlt_dec 1 (k_gain cf)) as [G|G].
  - replace (Rltb 1 (k_gain cf)) with true by (symmetry; now apply Rltb_iff). cbn. apply Rltb_iff.
  - replace (Rltb 1 (k_gain cf)) with false by (symmetry; apply Rltb_false; lra). cbn. rewrite orb_false_r. apply Rltb_iff.
Qed.
Lemma hit_iff at_step avg v : fair near cf py (at_step v) -> hit at_step avg v = true <-> differs near cf py patch (sample_limit cf avg) (at_step v).
Proof.
  intros F. unfold hit, differs, visible. rewrite andb_true_iff. split.
  - intros [V H]. split; [exact V|]. destruct (error_some _ F V) as (r & E & I). rewrite E in H. exists r. split; [exact I|]. now apply above_limit.
  - intros [V (e & I & L)]. split; [exact V|]. destruct (error_some _ F V) as (r & E & _). rewrite E. rewrite (error_unique _ _ _ E F V I) in L. now apply above_limit.
Qed.
Lemma count_above_eq at_step avg is : (forall i, In i is -> fair near cf py (at_step (sample_step (k_dist cf) i))) -> forall k,
  count_above near cf py patch at_step avg is k = Some (k + length (filter (hit at_step avg) (map (sample_step (k_dist cf)) is)))%nat.
Proof.
  induction is as [|i r IH]; intros F k; cbn [count_above map filter]; [now rewrite Nat.add_0_r|]. unfold hit at 1.
  destruct (spot_in near cf py (at_step (sample_step (k_dist cf) i))) eqn:V; cbn [andb].
  - destruct (error_some _ (F i (or_introl eq_refl)) V) as (e & E & _). rewrite E. cbn [bind]. destruct (above cf avg e); rewrite IH by (intros; apply F; now right); cbn [length]; f_equal; lia.
  - apply IH. intros; apply F; now right.
Qed.
End A.
Lemma steps_eq d : map (sample_step d) (seq 0 4) = steps d.
Proof. destruct d as [[|p|p] q]; reflexivity. Qed.
Lemma steps_nodup d : (0 < d)%Q -> NoDup (steps d).
Proof.
  intros H. destruct d as [[|p|p] q]; try (unfold Qlt in H; cbn in H; lia). unfold steps, Qopp. cbn.
  repeat constructor; cbn; intros X; repeat (destruct X as [X|X]; [discriminate|]); exact X.
Qed.
Lemma two_hits {A} (f : A -> bool) l : NoDup l -> (2 <= length (filter f l))%nat <-> exists a b, a <> b /\ In a l /\ In b l /\ f a = true /\ f b = true.
Proof.
  intros ND. assert (NF : NoDup (filter f l)) by now apply NoDup_filter. split.
  - intros L. destruct (filter f l) as [|a [|b r]] eqn:E; cbn in L; try lia. exists a, b.
    assert (Ia : In a (filter f l)) by (rewrite E; now left). assert (Ib : In b (filter f l)) by (rewrite E; right; now left).
    apply filter_In in Ia, Ib. inversion NF as [|? ? N1 N2]. subst. repeat split; try tauto. intros ->. apply N1. now left.
  - intros (a & b & NE & Ia & Ib & Fa & Fb). assert (I2 : incl [a; b] (filter f l)) by (intros x [<-|[<-|[]]]; apply filter_In; auto).
    apply (NoDup_incl_length (l := [a; b])); [|exact I2]. constructor; [intros [->|[]]; congruence|]. constructor; [intros []|constructor].
Qed.
