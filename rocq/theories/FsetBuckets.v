(** Bucket invariants of addBestCandidates. *)
From Coq Require Import List ZArith QArith Qround Bool Lia Lqa Permutation.
From Verif Require Import Util FsetModel FsetSpec FsetProofs.
Import ListNotations.
Local Open Scope Z_scope.

Lemma Qltb'_true a b : Qltb' a b = true <-> (a < b)%Q.
Proof. unfold Qltb'. destruct (Qlt_le_dec a b); split; intros; auto; try discriminate. lra. Qed.
Lemma Qltb'_false a b : Qltb' a b = false <-> (b <= a)%Q.
Proof. unfold Qltb'. destruct (Qlt_le_dec a b); split; intros; auto; try discriminate. lra. Qed.

(** ** truncation *)
Lemma Qtrunc_ge1 q : 1 <= Qtrunc q -> (inject_Z (Qtrunc q) <= q)%Q.
Proof.
  unfold Qtrunc. destruct (Qlt_le_dec q 0) as [H|H]; intros H1.
  - assert (0 <= Qfloor (- q)). { rewrite <- (Qfloor_Z 0). apply Qfloor_resp_le. change (inject_Z 0) with 0%Q. lra. }
    lia.
  - apply Qfloor_le.
Qed.

Lemma Qtrunc_le q b : 0 <= b -> (q <= inject_Z b)%Q -> Qtrunc q <= b.
Proof.
  intros Hb H. unfold Qtrunc. destruct (Qlt_le_dec q 0) as [H0|H0].
  - assert (0 <= Qfloor (- q)). { rewrite <- (Qfloor_Z 0). apply Qfloor_resp_le. change (inject_Z 0) with 0%Q. lra. }
    lia.
  - rewrite <- (Qfloor_Z b). apply Qfloor_resp_le; auto.
Qed.

Lemma Qtrunc_ge q a : a <= 0 -> (inject_Z a <= q)%Q -> a <= Qtrunc q.
Proof.
  intros Ha H. unfold Qtrunc. destruct (Qlt_le_dec q 0) as [H0|H0].
  - enough (Qfloor (- q) <= - a) by lia. rewrite <- (Qfloor_Z (- a)). apply Qfloor_resp_le.
    rewrite inject_Z_opp. lra.
  - apply Z.le_trans with 0; auto. rewrite <- (Qfloor_Z 0). apply Qfloor_resp_le; auto.
Qed.

Lemma Qtrunc_Z z : Qtrunc (inject_Z z) = z.
Proof.
  unfold Qtrunc. destruct (Qlt_le_dec (inject_Z z) 0).
  - rewrite <- inject_Z_opp, Qfloor_Z. lia.
  - apply Qfloor_Z.
Qed.

Section B.
Context {Patch : Type}.
Notation cand := (cand Patch).
Variable p : params.
Variable cs : list cand.
Hypothesis Hsane : sane p.

Definition nb := Z.to_nat (p_nb p).
Lemma nb_pos : (1 <= nb)%nat. Proof. unfold nb. destruct Hsane. lia. Qed.
Lemma nb_Z : Z.of_nat nb = p_nb p. Proof. unfold nb. destruct Hsane. lia. Qed.

Lemma dist2_nonneg a b : (0 <= dist2 a b)%Q.
Proof. unfold dist2. set (u := (fst a - fst b)%Q). set (v := (snd a - snd b)%Q). nra. Qed.

Definition lossm (pos c : Q * Q) : Q := if Qltb' (dist2 pos c) (t2 p) then penalty p pos c else 0%Q.

Lemma loss_eq pos c : (loss p pos c == lossm pos c)%Q.
Proof.
  unfold loss, lossm, penalty. cbv zeta.
  assert (E1 : ((fst pos - fst c) ^ 2 + (snd pos - snd c) ^ 2 == dist2 pos c)%Q).
  { unfold dist2. ring. }
  assert (E2 : (p_dist p ^ 2 == t2 p)%Q) by (unfold t2; ring).
  destruct (Qlt_le_dec _ _) as [H|H].
  - rewrite E1, E2 in H. apply Qltb'_true in H. rewrite H. rewrite E1, E2. reflexivity.
  - rewrite E1, E2 in H. apply Qltb'_false in H. rewrite H. reflexivity.
Qed.

Lemma penalty_bounds pos c : (dist2 pos c < t2 p)%Q -> (0 <= penalty p pos c <= p_pen p)%Q.
Proof.
  intros H. pose proof (dist2_nonneg pos c) as H0.
  assert (Ht : (0 < t2 p)%Q) by lra.
  assert (Hp : (0 <= p_pen p)%Q) by apply Hsane.
  unfold penalty. set (x := ((t2 p - dist2 pos c) / t2 p)%Q).
  assert (Hx : (0 <= x <= 1)%Q).
  { unfold x. split.
    - apply Qle_shift_div_l; auto. lra.
    - apply Qle_shift_div_r; auto. lra. }
  clearbody x. split; nra.
Qed.

Lemma lossm_nonneg pos c : (0 <= lossm pos c)%Q.
Proof.
  unfold lossm. destruct (Qltb' _ _) eqn:E; [|lra]. apply Qltb'_true in E.
  apply (penalty_bounds _ _ E).
Qed.

Lemma new_bucket_ok pos c b :
  (dist2 pos c < t2 p)%Q -> 0 <= b < p_nb p ->
  exists nb', new_bucket p pos c b = Some nb' /\ 0 <= nb' <= b /\
    (1 <= nb' -> (inject_Z nb' <= inject_Z b - lossm pos c)%Q).
Proof.
  intros Hd Hb. destruct (penalty_bounds _ _ Hd) as [P1 P2].
  assert (Hl : lossm pos c = penalty p pos c).
  { unfold lossm. apply Qltb'_true in Hd. rewrite Hd; auto. }
  rewrite Hl. clear Hl.
  unfold new_bucket, to_int.
  set (q := (inject_Z b - penalty p pos c)%Q).
  assert (Hq1 : (q <= inject_Z b)%Q) by (unfold q; lra).
  assert (Hq2 : (inject_Z (- int_max) <= q)%Q).
  { unfold q. rewrite inject_Z_opp. destruct Hsane as [_ _ [_ Hp]].
    assert (0 <= inject_Z b)%Q by (change 0%Q with (inject_Z 0); rewrite <- Zle_Qle; lia). lra. }
  assert (T1 : Qtrunc q <= b) by (apply Qtrunc_le; auto; lia).
  assert (T2 : - int_max <= Qtrunc q) by (apply Qtrunc_ge; auto; unfold int_max; lia).
  destruct Hsane as [[_ Hn] _ _].
  replace (int_min <=? Qtrunc q) with true by (symmetry; apply Z.leb_le; unfold int_min, int_max in *; lia).
  replace (Qtrunc q <=? int_max) with true by (symmetry; apply Z.leb_le; lia).
  cbn [andb option_map]. exists (Z.max (Qtrunc q) 0). split; [reflexivity|]. split; [lia|].
  intros H1. assert (E : Z.max (Qtrunc q) 0 = Qtrunc q) by lia. rewrite E in *.
  fold q. apply Qtrunc_ge1; auto.
Qed.

(** ** set structure *)
Definition bkt (bk : buckets) (j : nat) : list nat := nth j bk [].
Definition wf (bk : buckets) : Prop :=
  length bk = nb /\ (forall j, NoDup (bkt bk j)) /\
  (forall j j' c, In c (bkt bk j) -> In c (bkt bk j') -> j = j').

Lemma bkt_upd bk j j' f : (j < length bk)%nat ->
  bkt (upd_nth j f bk) j' = if Nat.eqb j' j then f (bkt bk j) else bkt bk j'.
Proof.
  unfold bkt. revert j j'; induction bk as [|x l IH]; intros j j' H; cbn in *; [lia|].
  destruct j, j'; cbn; auto. apply IH; lia.
Qed.

Lemma in_insert x y l : In y (set_insert x l) <-> y = x \/ In y l.
Proof.
  unfold set_insert. destruct (existsb _ l) eqn:E; cbn; [|intuition auto].
  apply existsb_exists in E as [z [Hz E]]. apply Nat.eqb_eq in E; subst z.
  intuition (subst; auto).
Qed.
Lemma nodup_insert x l : NoDup l -> NoDup (set_insert x l).
Proof.
  intros H. unfold set_insert. destruct (existsb _ l) eqn:E; auto. constructor; auto.
  intros Hin. assert (existsb (Nat.eqb x) l = true); [|congruence].
  apply existsb_exists. exists x; split; auto. apply Nat.eqb_refl.
Qed.
Lemma in_erase x y l : In y (set_erase x l) <-> y <> x /\ In y l.
Proof.
  unfold set_erase. rewrite filter_In. destruct (Nat.eqb_spec y x); cbn; intuition congruence.
Qed.
Lemma nodup_erase x l : NoDup l -> NoDup (set_erase x l).
Proof. apply NoDup_filter. Qed.

Lemma bkt_overflow bk j : (length bk <= j)%nat -> bkt bk j = [].
Proof. intros. unfold bkt. apply nth_overflow; auto. Qed.

Lemma in_bkt_lt bk j c : In c (bkt bk j) -> (j < length bk)%nat.
Proof.
  intros H. destruct (Nat.lt_ge_cases j (length bk)); auto. rewrite bkt_overflow in H; [destruct H|auto].
Qed.

Lemma bk_insert_ok b x bk : (b < length bk)%nat ->
  bk_insert (Z.of_nat b) x bk = Ok (upd_nth b (set_insert x) bk).
Proof.
  intros H. unfold bk_insert, bk_in_range.
  replace (0 <=? Z.of_nat b) with true by (symmetry; apply Z.leb_le; lia).
  replace (Z.of_nat b <? Z.of_nat (length bk)) with true by (symmetry; apply Z.ltb_lt; lia).
  cbn. rewrite Nat2Z.id; auto.
Qed.
Lemma bk_erase_ok b x bk : (b < length bk)%nat ->
  bk_erase (Z.of_nat b) x bk = Ok (upd_nth b (set_erase x) bk).
Proof.
  intros H. unfold bk_erase, bk_in_range.
  replace (0 <=? Z.of_nat b) with true by (symmetry; apply Z.leb_le; lia).
  replace (Z.of_nat b <? Z.of_nat (length bk)) with true by (symmetry; apply Z.ltb_lt; lia).
  cbn. rewrite Nat2Z.id; auto.
Qed.
Lemma bk_get_nat bk b : bk_get bk (Z.of_nat b) = bkt bk b.
Proof. unfold bk_get, bkt. rewrite Nat2Z.id; auto. Qed.

Lemma erase_wf b x bk : wf bk -> (b < nb)%nat -> In x (bkt bk b) ->
  wf (upd_nth b (set_erase x) bk) /\
  (forall j c, In c (bkt (upd_nth b (set_erase x) bk) j) <-> c <> x /\ In c (bkt bk j)).
Proof.
  intros (L & N & D) Hb Hx.
  assert (C : forall j c, In c (bkt (upd_nth b (set_erase x) bk) j) <-> c <> x /\ In c (bkt bk j)).
  { intros j c. rewrite bkt_upd by lia. destruct (Nat.eqb_spec j b) as [->|Hj].
    - apply in_erase.
    - split; [|tauto]. intros Hc. split; auto. intros ->. apply Hj. eapply D; eauto. }
  split; auto. split; [rewrite upd_nth_length; auto|]. split.
  - intros j. rewrite bkt_upd by lia. destruct (Nat.eqb j b); auto. apply nodup_erase; auto.
  - intros j j' c H1 H2. apply C in H1 as [_ H1]. apply C in H2 as [_ H2]. eapply D; eauto.
Qed.

Lemma move_wf b b' x bk : wf bk -> (b < nb)%nat -> (b' < nb)%nat -> b' <> b -> In x (bkt bk b) ->
  let bk' := upd_nth b (set_erase x) (upd_nth b' (set_insert x) bk) in
  wf bk' /\
  (forall j c, In c (bkt bk' j) <-> (c = x /\ j = b') \/ (c <> x /\ In c (bkt bk j))).
Proof.
  intros (L & N & D) Hb Hb' Hne Hx bk'.
  assert (C : forall j c, In c (bkt bk' j) <-> (c = x /\ j = b') \/ (c <> x /\ In c (bkt bk j))).
  { intros j c. unfold bk'. rewrite bkt_upd by (rewrite upd_nth_length; lia).
    rewrite !bkt_upd by lia.
    destruct (Nat.eqb_spec j b) as [->|Hj].
    - destruct (Nat.eqb_spec b b') as [E|_]; [congruence|]. rewrite in_erase. intuition congruence.
    - destruct (Nat.eqb_spec j b') as [->|Hj'].
      + rewrite in_insert. destruct (Nat.eq_dec c x); intuition congruence.
      + split.
        * intros Hc. right; split; auto. intros ->. apply Hj. eapply D; eauto.
        * intros [[-> ->]|[_ H]]; [congruence|auto]. }
  split; auto. split; [unfold bk'; rewrite !upd_nth_length; auto|]. split.
  - intros j. unfold bk'. rewrite bkt_upd by (rewrite upd_nth_length; lia). rewrite !bkt_upd by lia.
    destruct (Nat.eqb j b); [apply nodup_erase; destruct (Nat.eqb b b'); auto; apply nodup_insert; auto|].
    destruct (Nat.eqb j b'); auto. apply nodup_insert; auto.
  - intros j j' c H1 H2. apply C in H1. apply C in H2.
    destruct H1 as [[-> ->]|[E1 H1]], H2 as [[H2 ->]|[E2 H2]]; try congruence. eapply D; eauto.
Qed.

(** ** bound on the level of a candidate *)
Variable b0 : cand -> Z.
Fixpoint totm (ps : list (Q * Q)) (c : Q * Q) : Q :=
  match ps with [] => 0%Q | pos :: ps' => (lossm pos c + totm ps' c)%Q end.
Lemma totm_eq ps c : (total_loss p ps c == totm ps c)%Q.
Proof. induction ps as [|x ps IH]; cbn; [reflexivity|]. rewrite loss_eq, IH. reflexivity. Qed.

Definition fits (ps : list (Q * Q)) (c : cand) (j : nat) : Prop :=
  (1 <= j)%nat -> (inject_Z (Z.of_nat j) + totm ps (cd_c c) <= inject_Z (b0 c))%Q.

(** member facts: [E] holds of every member *)
Variable E : nat -> cand -> Prop.
Definition mem_ok (bk : buckets) : Prop :=
  forall j c, In c (bkt bk j) -> exists cd, nth_error cs c = Some cd /\ E c cd.

(** state in the middle of treating [pos] *)
Definition mid (ps : list (Q * Q)) (pos : Q * Q) (b : nat) (todo : list nat) (bk : buckets) : Prop :=
  forall j c cd, In c (bkt bk j) -> nth_error cs c = Some cd ->
    if (j <? b)%nat || ((j =? b)%nat && negb (existsb (Nat.eqb c) todo)) then fits (pos :: ps) cd j else fits ps cd j.

Definition same_members (bk bk' : buckets) : Prop :=
  forall c, (exists j, In c (bkt bk j)) <-> (exists j, In c (bkt bk' j)).

(** buckets strictly above [b] are untouched *)
Definition above_same (b : nat) (bk bk' : buckets) : Prop := forall j, (b < j)%nat -> bkt bk' j = bkt bk j.

Lemma existsb_mem (c : nat) l : existsb (Nat.eqb c) l = true <-> In c l.
Proof.
  rewrite existsb_exists. split.
  - intros [x [H1 H2]]. apply Nat.eqb_eq in H2; subst; auto.
  - intros H. exists c; split; auto. apply Nat.eqb_refl.
Qed.

Lemma fits_far ps pos cd j : (t2 p <= dist2 pos (cd_c cd))%Q -> fits ps cd j -> fits (pos :: ps) cd j.
Proof.
  intros H F Hj. specialize (F Hj). cbn. unfold lossm at 1. apply Qltb'_false in H. rewrite H. lra.
Qed.

Lemma move_one_ok ps pos b x todo bk :
  (1 <= b < nb)%nat -> wf bk -> mem_ok bk -> In x (bkt bk b) -> ~ In x todo ->
  mid ps pos b (x :: todo) bk ->
  exists bk', move_one p cs pos (Z.of_nat b) (Ok bk) x = Ok bk' /\
    wf bk' /\ mem_ok bk' /\ same_members bk bk' /\ mid ps pos b todo bk' /\
    above_same b bk bk' /\ (forall y, In y todo -> In y (bkt bk b) -> In y (bkt bk' b)).
Proof.
  intros Hb Hwf Hm Hx Hn Hmid.
  destruct (Hm _ _ Hx) as [cd [Hcd HE]].
  assert (Hfx : fits ps cd b).
  { specialize (Hmid _ _ _ Hx Hcd). rewrite Nat.ltb_irrefl, Nat.eqb_refl in Hmid. cbn in Hmid.
    rewrite Nat.eqb_refl in Hmid. exact Hmid. }
  assert (Hsame : forall y, In y (bkt bk b) -> y <> x ->
     existsb (Nat.eqb y) (x :: todo) = existsb (Nat.eqb y) todo).
  { intros y _ Hy. cbn. destruct (Nat.eqb_spec y x); [congruence|auto]. }
  unfold move_one, rbind. rewrite Hcd.
  assert (Hstay : fits (pos :: ps) cd b -> mid ps pos b todo bk).
  { intros Hf j c cd' Hc Hcd'. specialize (Hmid _ _ _ Hc Hcd').
    destruct (Nat.ltb_spec j b); cbn in *; auto. destruct (Nat.eqb_spec j b) as [->|]; cbn in *; auto.
    destruct (Nat.eq_dec c x) as [->|Hcx].
    - rewrite Hcd in Hcd'. injection Hcd' as <-.
      destruct (existsb (Nat.eqb x) todo) eqn:Ex; [apply existsb_mem in Ex; contradiction|]. exact Hf.
    - destruct (Nat.eqb_spec c x); [congruence|]. exact Hmid. }
  destruct (Qltb' (dist2 pos (cd_c cd)) (t2 p)) eqn:Ed.
  - pose proof Ed as Ed'. apply Qltb'_true in Ed'.
    destruct (new_bucket_ok pos (cd_c cd) (Z.of_nat b) Ed') as [z [-> [Hz1 Hz2]]]; [rewrite <- nb_Z; lia|].
    destruct (Z.eqb_spec z (Z.of_nat b)) as [->|Hzb].
    + exists bk. split; [reflexivity|]. split; auto. split; auto. split; [intros c; tauto|]. split.
      * apply Hstay. intros Hj. specialize (Hfx Hj). specialize (Hz2 ltac:(lia)). cbn. lra.
      * split; [intros j Hj; auto|auto].
    + assert (Ez : z = Z.of_nat (Z.to_nat z)) by lia.
      set (b' := Z.to_nat z) in *.
      rewrite Ez. destruct Hwf as (L & N & D).
      rewrite bk_insert_ok by lia. cbn [rbind]. rewrite bk_erase_ok by (rewrite upd_nth_length; lia).
      destruct (move_wf b b' x bk (conj L (conj N D))) as [W C]; try lia; auto.
      set (bk' := upd_nth b (set_erase x) (upd_nth b' (set_insert x) bk)) in *.
      exists bk'. split; [reflexivity|]. split; auto. split; [|split; [|split; [|split]]].
      * intros j c Hc. apply C in Hc as [[-> ->]|[_ Hc]]; eauto.
      * intros c. split.
        -- intros [j Hj]. destruct (Nat.eq_dec c x) as [->|Hc].
           ++ exists b'. apply C; auto.
           ++ exists j. apply C; auto.
        -- intros [j Hj]. apply C in Hj as [[-> ->]|[_ Hc]]; eauto.
      * intros j c cd' Hc Hcd'. apply C in Hc as [[-> ->]|[Hcx Hc]].
        -- assert (E1 : (b' <? b)%nat = true) by (apply Nat.ltb_lt; lia). rewrite E1. cbn [orb].
           rewrite Hcd in Hcd'. injection Hcd' as <-.
           intros Hj. specialize (Hz2 ltac:(lia)). specialize (Hfx ltac:(lia)). rewrite Ez in Hz2. cbn. lra.
        -- specialize (Hmid _ _ _ Hc Hcd').
           destruct (Nat.ltb_spec j b); cbn in *; auto. destruct (Nat.eqb_spec j b) as [->|]; cbn in *; auto.
           destruct (Nat.eqb_spec c x); [congruence|]. exact Hmid.
      * intros j Hj. unfold bk'. rewrite bkt_upd by (rewrite upd_nth_length; lia). rewrite !bkt_upd by lia.
        destruct (Nat.eqb_spec j b); [lia|]. destruct (Nat.eqb_spec j b'); [lia|]. reflexivity.
      * intros y Hy1 Hy2. apply C. right. split; auto. intros ->; contradiction.
  - apply Qltb'_false in Ed. exists bk. split; [reflexivity|]. split; auto. split; auto. split; [intros c; tauto|]. split.
    + apply Hstay. apply fits_far; auto.
    + split; [intros j Hj; auto|auto].
Qed.

Lemma move_list_ok ps pos b : forall l bk,
  (1 <= b < nb)%nat -> wf bk -> mem_ok bk -> NoDup l -> (forall x, In x l -> In x (bkt bk b)) ->
  mid ps pos b l bk ->
  exists bk', fold_left (move_one p cs pos (Z.of_nat b)) l (Ok bk) = Ok bk' /\
    wf bk' /\ mem_ok bk' /\ same_members bk bk' /\ mid ps pos b [] bk' /\ above_same b bk bk'.
Proof.
  induction l as [|x l IH]; intros bk Hb Hwf Hm Hnd Hin Hmid.
  - exists bk. cbn. repeat (split; auto). all: try (intros c; tauto).
  - apply NoDup_cons_iff in Hnd as [Hx Hnd].
    destruct (move_one_ok ps pos b x l bk Hb Hwf Hm (Hin x (or_introl eq_refl)) Hx Hmid)
      as [bk1 [E1 [W1 [M1 [S1 [D1 [A1 K1]]]]]]].
    destruct (IH bk1 Hb W1 M1 Hnd) as [bk2 [E2 [W2 [M2 [S2 [D2 A2]]]]]]; auto.
    { intros y Hy. apply K1; auto. apply Hin; right; auto. }
    exists bk2. cbn [fold_left]. rewrite E1. split; auto. split; auto. split; auto. split; [|split; auto].
    + intros c. rewrite (S1 c). apply S2.
    + intros j Hj. rewrite A2, A1; auto.
Qed.

Lemma mid_next ps pos b bk : mid ps pos b [] bk -> mid ps pos (S b) (bkt bk (S b)) bk.
Proof.
  intros H j c cd Hc Hcd. specialize (H j c cd Hc Hcd).
  destruct (Nat.ltb_spec j (S b)) as [Hj|Hj]; cbn [orb].
  - destruct (Nat.ltb_spec j b); cbn in H; auto.
    replace (j =? b)%nat with true in H by (symmetry; apply Nat.eqb_eq; lia). exact H.
  - replace (j <? b)%nat with false in H by (symmetry; apply Nat.ltb_ge; lia).
    replace (j =? b)%nat with false in H by (symmetry; apply Nat.eqb_neq; lia). cbn in H.
    destruct (Nat.eqb_spec j (S b)) as [->|Hj']; cbn [andb]; auto.
    replace (existsb (Nat.eqb c) (bkt bk (S b))) with true by (symmetry; apply existsb_mem; auto). exact H.
Qed.

Lemma move_all_ok ps pos hi : forall bk,
  (hi < nb)%nat -> wf bk -> mem_ok bk ->
  (forall j c cd, In c (bkt bk j) -> nth_error cs c = Some cd -> fits ps cd j) ->
  exists bk', move_all p cs pos hi bk = Ok bk' /\
    wf bk' /\ mem_ok bk' /\ same_members bk bk' /\ above_same hi bk bk' /\
    (forall j c cd, (j <= hi)%nat -> In c (bkt bk' j) -> nth_error cs c = Some cd -> fits (pos :: ps) cd j).
Proof.
  intros bk Hhi Hwf Hm Hf.
  assert (G : forall k, (k <= hi)%nat -> exists bk', move_all p cs pos k bk = Ok bk' /\
     wf bk' /\ mem_ok bk' /\ same_members bk bk' /\ above_same k bk bk' /\ mid ps pos k [] bk').
  { induction k as [|k IH]; intros Hk.
    - exists bk. unfold move_all; cbn. split; [reflexivity|]. repeat (split; auto). all: try (intros c; tauto).
      intros j c cd Hc Hcd. specialize (Hf j c cd Hc Hcd). destruct j; cbn; auto.
      intros H; lia.
    - destruct IH as [bk1 [E1 [W1 [M1 [S1 [A1 D1]]]]]]; [lia|].
      destruct (move_list_ok ps pos (S k) (bkt bk1 (S k)) bk1) as [bk2 [E2 [W2 [M2 [S2 [D2 A2]]]]]]; auto; try lia.
      { destruct W1 as (_ & N & _); auto. }
      { apply mid_next; auto. }
      exists bk2. split.
      + unfold move_all in *. rewrite seq_S, map_app, fold_left_app. rewrite E1. cbn [map fold_left].
        unfold move_bucket. cbn [rbind]. rewrite bk_get_nat. exact E2.
      + split; auto. split; auto. split; [intros c; rewrite (S1 c); apply S2|]. split; auto.
        intros j Hj. rewrite A2, A1; auto; lia. }
  destruct (G hi (le_n hi)) as [bk' [E1 [W1 [M1 [S1 [A1 D1]]]]]].
  exists bk'. split; auto. split; auto. split; auto. split; auto. split; auto.
  intros j c cd Hj Hc Hcd. specialize (D1 j c cd Hc Hcd).
  destruct (Nat.ltb_spec j hi); cbn in D1; auto.
  replace (j =? hi)%nat with true in D1 by (symmetry; apply Nat.eqb_eq; lia). exact D1.
Qed.

Lemma penalise_ok : forall ex ps bk,
  wf bk -> mem_ok bk ->
  (forall j c cd, In c (bkt bk j) -> nth_error cs c = Some cd -> fits ps cd j) ->
  exists bk', fold_left (fun rb pos => rbind rb (move_all p cs pos (Z.to_nat (p_nb p) - 1))) ex (Ok bk) = Ok bk' /\
    wf bk' /\ mem_ok bk' /\ same_members bk bk' /\
    (forall j c cd, In c (bkt bk' j) -> nth_error cs c = Some cd -> fits (rev ex ++ ps) cd j).
Proof.
  pose proof nb_pos as Hnb.
  induction ex as [|pos ex IH]; intros ps bk Hwf Hm Hf.
  - exists bk. cbn. repeat (split; auto). all: try (intros c; tauto).
  - destruct (move_all_ok ps pos (nb - 1) bk) as [bk1 [E1 [W1 [M1 [S1 [_ F1]]]]]]; auto; [lia|].
    destruct (IH (pos :: ps) bk1 W1 M1) as [bk2 [E2 [W2 [M2 [S2 F2]]]]].
    { intros j c cd Hc. apply F1; auto. destruct W1 as (L & _). apply in_bkt_lt in Hc. lia. }
    exists bk2. cbn [fold_left rbind]. change (Z.to_nat (p_nb p)) with nb. rewrite E1. split; [exact E2|].
    split; auto. split; auto. split; [intros c; rewrite (S1 c); apply S2|].
    intros j c cd Hc Hcd. cbn [rev]. rewrite <- app_assoc. cbn. eapply F2; eauto.
Qed.

End B.
