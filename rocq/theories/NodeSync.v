(** Proofs about the synchronisation of the camera images (C46). *)
From Coq Require Import List ZArith Bool Arith Lia Permutation.
From Verif Require Import NodeModel NodeSpec NodeProofs.
Import ListNotations.
Local Open Scope Z_scope.

Section SetAt.
Context {A : Type}.
Lemma set_at_length : forall i (a : A) l, length (set_at i a l) = length l.
Proof. induction i as [|i IH]; intros a [|x l]; cbn; auto. Qed.
Lemma set_at_same : forall i (a : A) l, (i < length l)%nat -> nth_error (set_at i a l) i = Some a.
Proof. induction i as [|i IH]; intros a [|x l] H; cbn in *; try lia; auto. apply IH. lia. Qed.
Lemma set_at_other : forall i j (a : A) l, i <> j -> nth_error (set_at i a l) j = nth_error l j.
Proof.
  induction i as [|i IH]; intros [|j] a [|x l] H; cbn; auto; try congruence.
Qed.
Lemma nth_error_const : forall (a : A) n i, (i < n)%nat -> nth_error (repeat a n) i = Some a.
Proof. induction n as [|n IH]; intros [|i] H; cbn; try lia; auto. apply IH. lia. Qed.
Lemma list_eq_nth : forall l1 l2 : list A, (forall i, nth_error l1 i = nth_error l2 i) -> l1 = l2.
Proof.
  induction l1 as [|a l1 IH]; intros [|b l2] H; auto; try (specialize (H O); discriminate).
  f_equal; [specialize (H O); cbn in H; congruence|]. apply IH. intros i. exact (H (S i)).
Qed.
Lemma rcons_case : forall (A1 : list A) y A2 D P, D ++ P = A1 ++ y :: A2 ->
  In y P \/ exists A3, A2 = A3 ++ P.
Proof.
  induction A1 as [|b A1 IH]; intros y A2 D P H.
  - destruct D as [|d D]; cbn in H; [left; subst; now left|].
    injection H as _ H. right. now exists D.
  - destruct D as [|d D]; cbn in H; [left; subst; right; apply in_or_app; right; now left|].
    injection H as _ H. exact (IH _ _ _ _ H).
Qed.
End SetAt.

Section Feed.
Context {Img : Type}.
Notation arrival := (arrival Img).
Notation img_meas := (img_meas Img).

(** what an arrival does to the set being collected *)
Definition feed (x : arrival) (m : img_meas) : img_meas * list (img_meas * Z) :=
  let m1 := if a_time x =? im_time m then m else im_reset (a_time x) m in
  let m2 := im_set (a_cam x) (a_img x) m1 in
  if im_all_valid m2 then (im_reset (a_time x) m2, [(m2, a_time x)]) else (m2, []).

Fixpoint feeds (m : img_meas) (A : list arrival) : img_meas * list (img_meas * Z) :=
  match A with
  | [] => (m, [])
  | x :: A' => let r := feed x m in let r' := feeds (fst r) A' in (fst r', snd r ++ snd r')
  end.

Lemma feeds_app : forall A B m,
  feeds m (A ++ B) =
  (fst (feeds (fst (feeds m A)) B), snd (feeds m A) ++ snd (feeds (fst (feeds m A)) B)).
Proof.
  induction A as [|x A IH]; intros B m; cbn [feeds app fst snd].
  - now destruct (feeds m B).
  - rewrite IH. cbn [fst snd]. now rewrite app_assoc.
Qed.

(** the last image of camera [c] in a list of arrivals *)
Definition last_of (c : nat) (P : list arrival) : option Img :=
  fold_left (fun acc x => if (a_cam x =? c)%nat then Some (a_img x) else acc) P None.

Lemma last_of_snoc : forall c P x,
  last_of c (P ++ [x]) = if (a_cam x =? c)%nat then Some (a_img x) else last_of c P.
Proof. intros. unfold last_of. now rewrite fold_left_app. Qed.

Lemma last_of_in : forall c im P, last_of c P = Some im ->
  exists x, In x P /\ a_cam x = c /\ a_img x = im.
Proof.
  intros c im P. induction P as [|x P IH] using rev_ind; [discriminate|].
  rewrite last_of_snoc. destruct (Nat.eqb_spec (a_cam x) c) as [E|NE]; intros H.
  - injection H as <-. exists x. split; [apply in_or_app; right; now left|auto].
  - destruct (IH H) as (y & K & L). exists y. split; [apply in_or_app; now left|auto].
Qed.

Lemma last_of_none : forall c P, last_of c P = None <-> ~ In c (map a_cam P).
Proof.
  intros c P. induction P as [|x P IH] using rev_ind; [cbn; tauto|].
  rewrite last_of_snoc, map_app, in_app_iff. cbn [map In].
  destruct (Nat.eqb_spec (a_cam x) c) as [E|NE].
  - split; [discriminate|]. intros H. elim H. auto.
  - rewrite IH. tauto.
Qed.

Lemma last_of_cons : forall c P x, last_of c (x :: P) =
  match last_of c P with Some im => Some im | None => if (a_cam x =? c)%nat then Some (a_img x) else None end.
Proof.
  intros c P x. induction P as [|y P IH] using rev_ind; [reflexivity|].
  rewrite app_comm_cons, !last_of_snoc, IH. destruct (a_cam y =? c)%nat; reflexivity.
Qed.

Definition one {B : Type} (o : option B) : list B := match o with Some b => [b] | None => [] end.

(** choosing the last image of each of several different cameras uses every arrival at most once *)
Lemma last_of_choice : forall P cs, NoDup cs ->
  exists R, Permutation (flat_map (fun c => one (last_of c P)) cs ++ R) (map a_img P).
Proof.
  induction P as [|x P IH]; intros cs N.
  - exists []. assert (flat_map (fun c => one (last_of c [])) cs = []) as ->; [|constructor].
    clear. induction cs as [|c cs IH]; [reflexivity|cbn; exact IH].
  - destruct (in_dec Nat.eq_dec (a_cam x) cs) as [I|NI].
    + destruct (in_split _ _ I) as (c1 & c2 & ->).
      assert (N' : NoDup (c1 ++ c2)) by now apply NoDup_remove_1 in N.
      assert (NI : ~ In (a_cam x) (c1 ++ c2)) by now apply NoDup_remove_2 in N.
      assert (E : forall l, incl l (c1 ++ c2) ->
        flat_map (fun c => one (last_of c (x :: P))) l = flat_map (fun c => one (last_of c P)) l).
      { induction l as [|c l IHl]; intros L; [reflexivity|]. cbn [flat_map].
        rewrite IHl by (intros z Hz; apply L; now right). f_equal.
        rewrite last_of_cons. destruct (last_of c P); [reflexivity|].
        destruct (Nat.eqb_spec (a_cam x) c) as [K|K]; [|reflexivity].
        elim NI. rewrite K. apply L. now left. }
      destruct (last_of (a_cam x) P) as [im|] eqn:LP.
      * destruct (IH (c1 ++ a_cam x :: c2) N) as (R & HR). exists (a_img x :: R).
        rewrite flat_map_app. cbn [flat_map].
        rewrite !E by (intros z Hz; apply in_or_app; auto).
        rewrite last_of_cons, LP. cbn [map].
        rewrite flat_map_app in HR. cbn [flat_map] in HR. rewrite LP in HR.
        apply Permutation_sym, Permutation_cons_app, Permutation_sym. exact HR.
      * destruct (IH (c1 ++ c2) N') as (R & HR). exists R.
        rewrite flat_map_app. cbn [flat_map].
        rewrite !E by (intros z Hz; apply in_or_app; auto).
        rewrite last_of_cons, LP, Nat.eqb_refl. cbn [map one].
        rewrite flat_map_app in HR. rewrite <- app_assoc in HR |- *. cbn [app].
        apply Permutation_sym, Permutation_cons_app, Permutation_sym. exact HR.
    + destruct (IH cs N) as (R & HR). exists (a_img x :: R).
      assert (E : flat_map (fun c => one (last_of c (x :: P))) cs = flat_map (fun c => one (last_of c P)) cs).
      { clear - NI. induction cs as [|c l IHl]; [reflexivity|]. cbn [flat_map].
        rewrite IHl by (intros K; apply NI; now right). f_equal.
        rewrite last_of_cons. destruct (last_of c P); [reflexivity|].
        destruct (Nat.eqb_spec (a_cam x) c) as [K|K]; [|reflexivity]. elim NI. rewrite K. now left. }
      rewrite E. cbn [map]. apply Permutation_sym, Permutation_cons_app, Permutation_sym. exact HR.
Qed.

Variable ncam : nat.

(** the set being collected consists of the arrivals [P] *)
Definition pending (m : img_meas) (P : list arrival) : Prop :=
  length (im_valid m) = ncam /\ length (im_pyr m) = ncam /\
  (forall x, In x P -> a_time x = im_time m /\ (a_cam x < ncam)%nat) /\
  (forall c, (c < ncam)%nat -> match last_of c P with
     | Some im => nth_error (im_valid m) c = Some true /\ nth_error (im_pyr m) c = Some (Some im)
     | None => nth_error (im_valid m) c = Some false end).

Lemma pending_reset : forall m P t, pending m P -> pending (im_reset t m) [].
Proof.
  intros m P t (A & B & C & D). unfold pending, im_reset. cbn [im_valid im_pyr im_time].
  rewrite map_length. split; [exact A|]. split; [exact B|]. split; [intros x []|].
  intros c Hc. cbn. rewrite nth_error_map.
  destruct (nth_error (im_valid m) c) eqn:E; [reflexivity|].
  apply nth_error_None in E. lia.
Qed.

Lemma pending_set : forall m P x, pending m P -> a_time x = im_time m -> (a_cam x < ncam)%nat ->
  pending (im_set (a_cam x) (a_img x) m) (P ++ [x]).
Proof.
  intros m P x (A & B & C & D) T L. unfold pending, im_set. cbn [im_valid im_pyr im_time].
  rewrite !set_at_length. split; [exact A|]. split; [exact B|]. split.
  - intros y Hy. apply in_app_or in Hy. destruct Hy as [Hy|[<-|[]]]; auto.
  - intros c Hc. rewrite last_of_snoc. destruct (Nat.eqb_spec (a_cam x) c) as [<-|NE].
    + split; apply set_at_same; lia.
    + specialize (D c Hc). rewrite !set_at_other by exact NE. exact D.
Qed.

Lemma all_valid_pending : forall m P, pending m P ->
  im_all_valid m = true <-> (forall c, (c < ncam)%nat -> last_of c P <> None).
Proof.
  intros m P (A & B & C & D). unfold im_all_valid. rewrite forallb_forall. split.
  - intros H c Hc E. specialize (D c Hc). rewrite E in D. apply nth_error_In in D.
    specialize (H _ D). discriminate.
  - intros H b Hb. apply In_nth_error in Hb. destruct Hb as (c & Hb).
    assert (Hc : (c < ncam)%nat) by (rewrite <- A; apply nth_error_Some; congruence).
    specialize (D c Hc). specialize (H c Hc). destruct (last_of c P); [|congruence].
    destruct D as (D & _). congruence.
Qed.

(** one arrival *)
Definition base (x : arrival) (m : img_meas) (P : list arrival) : list arrival :=
  if a_time x =? im_time m then P else [].

Lemma feed_pending : forall x m P, pending m P -> (a_cam x < ncam)%nat ->
  let P' := base x m P ++ [x] in
  exists m2, pending m2 P' /\ im_time m2 = a_time x /\
    ((im_all_valid m2 = true /\ feed x m = (im_reset (a_time x) m2, [(m2, a_time x)])) \/
     (im_all_valid m2 = false /\ feed x m = (m2, []))).
Proof.
  intros x m P H L P'. unfold feed.
  set (m1 := if a_time x =? im_time m then m else im_reset (a_time x) m).
  assert (H1 : pending m1 (base x m P)).
  { unfold m1, base. destruct (a_time x =? im_time m); [exact H|now apply (pending_reset m P)]. }
  assert (T1 : a_time x = im_time m1).
  { unfold m1. destruct (Z.eqb_spec (a_time x) (im_time m)); [assumption|reflexivity]. }
  exists (im_set (a_cam x) (a_img x) m1). split; [now apply pending_set|]. split; [now symmetry|].
  cbn zeta. destruct (im_all_valid (im_set (a_cam x) (a_img x) m1)); auto.
Qed.

(** images of a complete measurement *)
Lemma images_complete : forall m P, pending m P -> im_all_valid m = true ->
  images_of m = flat_map (fun c => one (last_of c P)) (seq 0 ncam).
Proof.
  intros m P H V. pose proof (proj1 (all_valid_pending m P H) V) as K.
  destruct H as (A & B & C & D). unfold images_of.
  assert (E : im_pyr m = map (fun c => last_of c P) (seq 0 ncam)).
  { apply list_eq_nth. intros i. destruct (Nat.lt_ge_cases i ncam) as [L|L].
    - specialize (D i L). specialize (K i L). destruct (last_of i P) as [im|] eqn:E; [|congruence].
      destruct D as (_ & ->). rewrite nth_error_map.
      rewrite (nth_error_nth' (seq 0 ncam) O) by (rewrite seq_length; exact L).
      rewrite seq_nth by exact L. cbn. now rewrite E.
    - rewrite (proj2 (nth_error_None (im_pyr m) i)) by lia. symmetry. apply nth_error_None.
      rewrite map_length, seq_length. exact L. }
  rewrite E. clear. induction (seq 0 ncam) as [|c l IH]; [reflexivity|]. cbn. now rewrite IH.
Qed.

(** the invariant of a sequence of arrivals *)
Definition sync (m : img_meas) (U : list (img_meas * Z)) (A : list arrival) : Prop :=
  exists D P R, A = D ++ P /\ pending m P /\
    (forall B x, A = B ++ [x] -> im_time m = a_time x) /\
    Permutation (flat_map (fun u => images_of (fst u)) U ++ R) (map a_img D).

Lemma sync_init : sync (im_init ncam) [] [].
Proof.
  exists [], [], []. split; [reflexivity|]. split.
  - unfold pending, im_init. cbn [im_valid im_pyr im_time]. rewrite !repeat_length.
    split; [reflexivity|]. split; [reflexivity|]. split; [intros x []|].
    intros c Hc. cbn. now apply nth_error_const.
  - split; [|constructor]. intros B x H. now destruct B.
Qed.

Lemma flat_map_snoc : forall (U : list (img_meas * Z)) u,
  flat_map (fun u => images_of (fst u)) (U ++ [u]) =
  flat_map (fun u => images_of (fst u)) U ++ images_of (fst u).
Proof. intros. rewrite flat_map_app. cbn. now rewrite app_nil_r. Qed.

Lemma base_split : forall x m D P, exists D', D ++ P = D' ++ base x m P /\
  (base x m P = P /\ D' = D \/ base x m P = [] /\ D' = D ++ P).
Proof.
  intros x m D P. unfold base. destruct (a_time x =? im_time m).
  - exists D. auto.
  - exists (D ++ P). rewrite app_nil_r. auto.
Qed.

Lemma sync_step : forall m U A x, sync m U A -> (a_cam x < ncam)%nat ->
  sync (fst (feed x m)) (U ++ snd (feed x m)) (A ++ [x]).
Proof.
  intros m U A x (D & P & R & -> & HP & HT & HR) L.
  destruct (feed_pending x m P HP L) as (m2 & HP2 & T2 & HF). cbn zeta in HP2.
  destruct (base_split x m D P) as (D' & ED & EB).
  assert (HR' : exists R', Permutation (flat_map (fun u => images_of (fst u)) U ++ R') (map a_img D')).
  { destruct EB as [[_ ->]|[_ ->]]; [now exists R|].
    exists (R ++ map a_img P). rewrite map_app, app_assoc. now apply Permutation_app_tail. }
  destruct HR' as (R' & HR').
  assert (LT : forall B y, (D ++ P) ++ [x] = B ++ [y] -> y = x).
  { intros B y E. apply app_inj_tail in E. now destruct E. }
  destruct HF as [[V ->]|[V ->]]; cbn [fst snd].
  - (* complete *)
    assert (N : NoDup (seq 0 ncam)) by apply seq_NoDup.
    destruct (last_of_choice (base x m P ++ [x]) (seq 0 ncam) N) as (R2 & HR2).
    rewrite <- (images_complete _ _ HP2 V) in HR2.
    exists ((D ++ P) ++ [x]), [], (R' ++ R2). split; [now rewrite app_nil_r|].
    split; [now apply (pending_reset m2 (base x m P ++ [x]))|].
    split; [intros B y E; now rewrite (LT B y E)|].
    replace (map a_img ((D ++ P) ++ [x])) with (map a_img D' ++ map a_img (base x m P ++ [x]))
      by (rewrite ED, <- map_app, app_assoc; reflexivity).
    rewrite flat_map_snoc. cbn [fst]. rewrite <- HR', <- HR2. rewrite <- !app_assoc. apply Permutation_app_head.
    rewrite !app_assoc. apply Permutation_app_tail. apply Permutation_app_comm.
  - exists D', (base x m P ++ [x]), R'. rewrite app_nil_r.
    split; [now rewrite ED, <- app_assoc|]. split; [exact HP2|].
    split; [intros B y E; now rewrite (LT B y E)|exact HR'].
Qed.

Lemma sync_feeds : forall A m, m = im_init ncam -> (forall x, In x A -> (a_cam x < ncam)%nat) ->
  sync (fst (feeds m A)) (snd (feeds m A)) A.
Proof.
  intros A m -> H. induction A as [|x A IH] using rev_ind; [exact sync_init|].
  rewrite feeds_app. cbn [feeds fst snd]. rewrite app_nil_r. apply sync_step.
  - apply IH. intros y Hy. apply H, in_or_app. now left.
  - apply H, in_or_app. right. now left.
Qed.

(** an update consists of the most recent arrivals *)
Lemma update_recent : forall m U A x m' t, sync m U A -> (a_cam x < ncam)%nat ->
  In (m', t) (snd (feed x m)) ->
  exists D P, A ++ [x] = D ++ P /\ pending m' P /\ t = a_time x /\ im_time m' = t /\
    im_all_valid m' = true.
Proof.
  intros m U A x m' t (D & P & R & -> & HP & HT & HR) L HI.
  destruct (feed_pending x m P HP L) as (m2 & HP2 & T2 & HF). cbn zeta in HP2.
  destruct (base_split x m D P) as (D' & ED & _).
  destruct HF as [[V E]|[V E]]; rewrite E in HI; [|destruct HI].
  destruct HI as [HI|[]]. injection HI as <- <-.
  exists D', (base x m P ++ [x]). split; [now rewrite ED, <- app_assoc|]. auto.
Qed.

(** Images of one time stamp, one per camera, make up an update. *)
Lemma feeds_batch : forall S t m U A, sync m U A ->
  (forall B y, A = B ++ [y] -> a_time y <> t) ->
  (forall x, In x S -> a_time x = t) -> (0 < ncam)%nat ->
  Permutation (map a_cam S) (seq 0 ncam) ->
  exists m', snd (feeds m S) = [(m', t)] /\ im_time m' = t /\
    length (im_pyr m') = ncam /\
    forall x, In x S -> nth_error (im_pyr m') (a_cam x) = Some (Some (a_img x)).
Proof.
  intros S t m U A HS HA HT N0 HP.
  assert (NS : NoDup (map a_cam S)) by (rewrite HP; apply seq_NoDup).
  assert (LS : forall x, In x S -> (a_cam x < ncam)%nat).
  { intros x Hx. assert (K : In (a_cam x) (seq 0 ncam)).
    { apply (Permutation_in _ HP). now apply in_map. } apply in_seq in K. lia. }
  (* every proper prefix is still pending *)
  assert (G : forall S1 S2, S = S1 ++ S2 -> S2 <> [] -> S1 <> [] ->
    snd (feeds m S1) = [] /\ pending (fst (feeds m S1)) S1 /\ im_time (fst (feeds m S1)) = t).
  { induction S1 as [|x S1 IH] using rev_ind; [congruence|]. intros S2 E N2 _.
    assert (Hx : In x S) by (rewrite E; apply in_or_app; left; apply in_or_app; right; now left).
    assert (PB : exists P, pending (fst (feeds m S1)) P /\ base x (fst (feeds m S1)) P = S1 /\
      snd (feeds m S1) = []).
    { destruct S1 as [|y S1].
      - cbn. destruct HS as (D & P & R & EA & HP0 & HTm & _). unfold base.
        destruct (list_eq_dec Nat.eq_dec [] (map a_cam A)) as [EN|EN].
        + destruct A; [|discriminate]. symmetry in EA. apply app_eq_nil in EA. destruct EA as (-> & ->).
          exists []. split; [exact HP0|]. split; [|reflexivity]. now destruct (a_time x =? im_time m).
        + destruct A as [|a0 A0 _] using rev_ind; [elim EN; reflexivity|].
          exists P. split; [exact HP0|]. split; [|reflexivity].
          destruct (Z.eqb_spec (a_time x) (im_time m)) as [K|K]; [|reflexivity].
          exfalso. apply (HA A0 a0 eq_refl). rewrite <- (HTm A0 a0 eq_refl), <- K. now apply HT.
      - destruct (IH (x :: S2)) as (I1 & I2 & I3).
        + rewrite E, <- app_assoc. reflexivity.
        + discriminate.
        + discriminate.
        + exists (y :: S1). split; [exact I2|]. split; [|exact I1]. unfold base.
          rewrite I3, (HT x Hx), Z.eqb_refl. reflexivity. }
    destruct PB as (P & P1 & P2 & P3).
    destruct (feed_pending x (fst (feeds m S1)) P P1 (LS x Hx)) as (m2 & HP2 & T2 & HF).
    cbn zeta in HP2. rewrite P2 in HP2. rewrite (HT x Hx) in T2.
    destruct HF as [[V EF]|[V EF]].
    - exfalso. destruct S2 as [|z S2]; [congruence|].
      assert (Hz : In z S) by (rewrite E; apply in_or_app; right; now left).
      apply (proj1 (all_valid_pending m2 _ HP2) V (a_cam z) (LS z Hz)).
      apply last_of_none. intros K. rewrite E, map_app in NS. cbn [map] in NS.
      apply NoDup_remove_2 in NS. apply NS, in_or_app. now left.
    - rewrite feeds_app. cbn [feeds fst snd]. rewrite EF. cbn [fst snd]. rewrite P3. auto. }
  destruct S as [|x S _] using rev_ind.
  { apply Permutation_length in HP. cbn in HP. rewrite seq_length in HP. lia. }
  assert (Hx : In x (S ++ [x])) by (apply in_or_app; right; now left).
  assert (PB : exists P, pending (fst (feeds m S)) P /\ base x (fst (feeds m S)) P = S /\
    snd (feeds m S) = []).
  { destruct S as [|y S].
    - cbn. destruct HS as (D & P & R & EA & HP0 & HTm & _). unfold base.
      destruct (list_eq_dec Nat.eq_dec [] (map a_cam A)) as [EN|EN].
      + destruct A; [|discriminate]. symmetry in EA. apply app_eq_nil in EA. destruct EA as (-> & ->).
        exists []. split; [exact HP0|]. split; [|reflexivity]. now destruct (a_time x =? im_time m).
      + destruct A as [|a0 A0 _] using rev_ind; [elim EN; reflexivity|].
        exists P. split; [exact HP0|]. split; [|reflexivity].
        destruct (Z.eqb_spec (a_time x) (im_time m)) as [K|K]; [|reflexivity].
        exfalso. apply (HA A0 a0 eq_refl). rewrite <- (HTm A0 a0 eq_refl), <- K. now apply HT.
    - destruct (G (y :: S) [x] eq_refl) as (I1 & I2 & I3); [discriminate|discriminate|].
      exists (y :: S). split; [exact I2|]. split; [|exact I1]. unfold base.
      rewrite I3, (HT x Hx), Z.eqb_refl. reflexivity. }
  destruct PB as (P & P1 & P2 & P3).
  destruct (feed_pending x (fst (feeds m S)) P P1 (LS x Hx)) as (m2 & HP2 & T2 & HF).
  cbn zeta in HP2. rewrite P2 in HP2. rewrite (HT x Hx) in T2, HF.
  assert (V : im_all_valid m2 = true).
  { apply (all_valid_pending m2 _ HP2). intros c Hc K. apply last_of_none in K. apply K.
    apply (Permutation_in _ (Permutation_sym HP)). apply in_seq. lia. }
  destruct HF as [[_ EF]|[V' _]]; [|congruence].
  exists m2. split.
  - rewrite feeds_app. cbn [feeds fst snd]. rewrite EF, P3. reflexivity.
  - split; [exact T2|]. destruct HP2 as (_ & B2 & C2 & D2). split; [exact B2|].
    intros y Hy. specialize (D2 (a_cam y) (LS y Hy)).
    assert (LO : last_of (a_cam y) (S ++ [x]) = Some (a_img y)).
    { destruct (in_split _ _ Hy) as (s1 & s2 & ES). rewrite ES in NS |- *.
      rewrite map_app in NS. cbn [map] in NS. apply NoDup_remove_2 in NS.
      assert (N2 : last_of (a_cam y) s2 = None).
      { apply last_of_none. intros K. apply NS, in_or_app. now right. }
      clear - N2. revert N2. induction s2 as [|z s2 IH] using rev_ind; intros N2.
      - rewrite last_of_snoc, Nat.eqb_refl. reflexivity.
      - rewrite last_of_snoc in N2. rewrite app_comm_cons, app_assoc, last_of_snoc.
        destruct (a_cam z =? a_cam y)%nat; [discriminate|]. now apply IH. }
    rewrite LO in D2. now destruct D2.
Qed.

End Feed.

(** from callbacks to arrivals *)
Section Node.
Context {V Qt Cov Img F : Type}.
Notation event := (event V Qt Cov Img).
Notation action := (action V Qt Cov Img).
Notation ops_t := (filter_ops V Qt Cov Img F).
Notation node := (node V Qt Cov Img F).
Variables (cfg : node_config Qt) (ops : ops_t).

Lemma updates_app : forall l1 l2 : list action, updates (l1 ++ l2) = updates l1 ++ updates l2.
Proof. intros. apply flat_map_app. Qed.

Lemma uap_updates : forall n : node, updates (snd (update_and_publish ops n)) = [].
Proof.
  intros n. unfold update_and_publish. destruct (initialized n); [|reflexivity].
  destruct (f_last_image ops (n_filter n)); cbn [n_filter with_filter];
    match goal with |- context [if ?b then _ else _] => destruct b end; reflexivity.
Qed.

(** the arrival made by one message *)
Definition arrival_of (p : phase V Qt) (e : event) : list (arrival Img) :=
  match p, e with
  | Running, Image cam (Some im) t =>
      if listens (c_cams cfg) cam then [{| a_cam := cam; a_img := im; a_time := t |}] else []
  | _, _ => []
  end.

Lemma arrivals_from_cons : forall (p : phase V Qt) (e : event) (es : list event),
  arrivals_from (c_inverted cfg) (c_cams cfg) p (e :: es) =
  arrival_of p e ++ arrivals_from (c_inverted cfg) (c_cams cfg) (next_phase (c_inverted cfg) p e) es.
Proof.
  intros p e es. cbn [arrivals_from]. destruct p as [from|]; [reflexivity|].
  destruct e as [acc gyr t|cam [im|] t|r q t|r q c t|v t| |r q]; try reflexivity.
  cbn [arrival_of]. destruct (listens (c_cams cfg) cam); reflexivity.
Qed.

Lemma arrivals_from_app : forall (es1 es2 : list event) (p : phase V Qt),
  arrivals_from (c_inverted cfg) (c_cams cfg) p (es1 ++ es2) =
  arrivals_from (c_inverted cfg) (c_cams cfg) p es1 ++
  arrivals_from (c_inverted cfg) (c_cams cfg) (fold_left (next_phase (c_inverted cfg)) es1 p) es2.
Proof.
  induction es1 as [|e es1 IH]; intros es2 p; [reflexivity|].
  cbn [app fold_left]. rewrite !arrivals_from_cons, IH. now rewrite app_assoc.
Qed.

Lemma img_callback_feed : forall cam im t (n : node), phase_of n = Running ->
  n_imgs (fst (img_callback ops cam (Some im) t n)) =
    fst (feed {| a_cam := cam; a_img := im; a_time := t |} (n_imgs n)) /\
  updates (snd (img_callback ops cam (Some im) t n)) =
    snd (feed {| a_cam := cam; a_img := im; a_time := t |} (n_imgs n)).
Proof.
  intros cam im t n H. apply phase_initialized in H. unfold img_callback, feed. rewrite H.
  cbn [a_cam a_img a_time]. cbn zeta.
  match goal with |- context [if im_all_valid ?m then _ else _] => destruct (im_all_valid m) end.
  - split.
    + match goal with |- context [after_add ops ?f ?a ?m] => destruct (after_add_frame ops f a m) as (_&_&_&E&_) end.
      rewrite E. reflexivity.
    + rewrite after_add_snd. change (?a :: ?l) with ([a] ++ l).
      rewrite updates_app, uap_updates. reflexivity.
  - split; reflexivity.
Qed.

Lemma listens_true : forall ncam cam, listens ncam cam = true <-> (cam < ncam)%nat /\ (cam < 2)%nat.
Proof. intros. unfold listens. rewrite andb_true_iff, !Nat.ltb_lt. tauto. Qed.

Hypothesis cams : (0 < c_cams cfg)%nat.

Lemma step_feed : forall (n : node) e,
  n_imgs (fst (step cfg ops n e)) = fst (feeds (n_imgs n) (arrival_of (phase_of n) e)) /\
  updates (snd (step cfg ops n e)) = snd (feeds (n_imgs n) (arrival_of (phase_of n) e)).
Proof.
  intros n e.
  assert (K : forall f a (m : node), n_imgs m = n_imgs n -> updates [a] = [] ->
    n_imgs (fst (after_add ops f a m)) = fst (feeds (n_imgs n) []) /\
    updates (snd (after_add ops f a m)) = snd (feeds (n_imgs n) [])).
  { intros f a m E N. destruct (after_add_frame ops f a m) as (_&_&_&E'&_).
    split; [rewrite E', E; reflexivity|]. rewrite after_add_snd.
    change (a :: ?l) with ([a] ++ l). rewrite updates_app, N, uap_updates. reflexivity. }
  destruct e as [acc gyr t|cam img t|p q t|p q c t|v t| |p q]; cbn [step].
  - assert (arrival_of (phase_of n) (Imu acc gyr t) = []) as -> by (destruct (phase_of n); reflexivity).
    unfold imu_callback. destruct (n_state n); [split; reflexivity|split; reflexivity|now apply K].
  - destruct (phase_of n) as [from|] eqn:P.
    + cbn [arrival_of feeds fst snd].
      assert (I : initialized n = false).
      { destruct (initialized n) eqn:I; [|reflexivity]. apply phase_initialized in I. congruence. }
      assert (J : forall cam, img_callback ops cam img t n = (n, []))
        by (intros c; unfold img_callback; destruct img; [now rewrite I|reflexivity]).
      unfold img_entry. destruct cam as [|[|cam]]; rewrite ?J; try (split; reflexivity).
      destruct (1 <? c_cams cfg)%nat; rewrite ?J; split; reflexivity.
    + destruct img as [im|].
      * cbn [arrival_of]. unfold img_entry. destruct cam as [|[|cam]].
        -- replace (listens (c_cams cfg) 0) with true
             by (symmetry; apply listens_true; lia).
           cbn [feeds fst snd]. rewrite app_nil_r. now apply img_callback_feed.
        -- unfold listens. destruct (1 <? c_cams cfg)%nat; cbn [andb Nat.ltb Nat.leb].
           ++ cbn [feeds fst snd]. rewrite app_nil_r. now apply img_callback_feed.
           ++ split; reflexivity.
        -- destruct (listens (c_cams cfg) (S (S cam))) eqn:E; [|split; reflexivity].
           apply listens_true in E. lia.
      * cbn [arrival_of feeds fst snd]. unfold img_entry, img_callback.
        destruct cam as [|[|cam]]; try (split; reflexivity).
        destruct (1 <? c_cams cfg)%nat; split; reflexivity.
  - assert (arrival_of (phase_of n) (Pose p q t) = []) as -> by (destruct (phase_of n); reflexivity).
    unfold pose_callback. destruct (initialized n); [now apply K|split; reflexivity].
  - assert (arrival_of (phase_of n) (Odometry p q c t) = []) as -> by (destruct (phase_of n); reflexivity).
    unfold odometry_callback. destruct (initialized n); [now apply K|split; reflexivity].
  - assert (arrival_of (phase_of n) (Velocity v t) = []) as -> by (destruct (phase_of n); reflexivity).
    unfold velocity_callback. destruct (initialized n); [now apply K|split; reflexivity].
  - assert (arrival_of (phase_of n) ResetRequest = []) as -> by (destruct (phase_of n); reflexivity).
    unfold request_reset. destruct (initialized n); split; reflexivity.
  - assert (arrival_of (phase_of n) (ResetToPose p q) = []) as -> by (destruct (phase_of n); reflexivity).
    unfold request_reset_to_pose. destruct (initialized n); split; reflexivity.
Qed.

Lemma run_feeds : forall es (n : node),
  n_imgs (fst (run cfg ops n es)) =
    fst (feeds (n_imgs n) (arrivals_from (c_inverted cfg) (c_cams cfg) (phase_of n) es)) /\
  updates (snd (run cfg ops n es)) =
    snd (feeds (n_imgs n) (arrivals_from (c_inverted cfg) (c_cams cfg) (phase_of n) es)).
Proof.
  induction es as [|e es IH]; intros n; [split; reflexivity|].
  rewrite arrivals_from_cons, feeds_app. cbn [run fst snd].
  destruct (step_feed n e) as (E1 & E2). destruct (IH (fst (step cfg ops n e))) as (I1 & I2).
  rewrite step_phase in I1, I2. rewrite E1 in I1, I2. rewrite updates_app, E2, I1, I2. auto.
Qed.

Lemma arrivals_cam : forall (es : list event) (p : phase V Qt) x, In x (arrivals_from (c_inverted cfg) (c_cams cfg) p es) ->
  (a_cam x < c_cams cfg)%nat /\ (a_cam x < 2)%nat.
Proof.
  induction es as [|e es IH]; intros p x; [intros []|].
  rewrite arrivals_from_cons, in_app_iff. intros [H|H]; [|exact (IH _ _ H)].
  destruct p as [from|]; [destruct H|]. destruct e as [| cam [im|] t| | | | |]; try destruct H.
  cbn [arrival_of] in H. destruct (listens (c_cams cfg) cam) eqn:E; [|destruct H].
  destruct H as [<-|[]]. now apply listens_true in E.
Qed.

End Node.
