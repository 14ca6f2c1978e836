(** C02, C60: the times and ranges a feature's statistics hold. *)
From Coq Require Import List ZArith.
From Verif Require Import Util StatModel StatTimeSpec.
Import ListNotations.
Local Open Scope Z_scope.

Section Gen.
Context {T : Type} (O : qops T).
Lemma run_cons s o os : run O s (o :: os) = match step O s o with Some s' => run O s' os | None => None end.
Proof. reflexivity. Qed.
Lemma run_times : forall os (s s' : stat T), run O s os = Some s' ->
  s_init s' = born_at (s_init s) os /\ s_cur s' = now_at (s_cur s) os /\ (s_rq s', s_rv s', s_rg s') = configured (s_rq s, s_rv s, s_rg s) os.
Proof.
  induction os as [|o os IH]; intros s s' H.
  - cbn in H. injection H as <-. auto.
  - rewrite run_cons in H. destruct (step O s o) as [s1|] eqn:E; [|discriminate]. specialize (IH s1 s' H).
    destruct o as [t|i st|t|a b c]; cbn in E.
    + injection E as <-. exact IH.
    + unfold set_status in E. destruct (Nat.ltb i (length (s_cams s))); [|discriminate]. injection E as <-. exact IH.
    + injection E as <-. exact IH.
    + injection E as <-. exact IH.
Qed.
End Gen.

(** The statistics know when the feature was created or last reset, and the time of the frame in
    progress, for every history. *)
Theorem C02_times_recorded : forall (T : Type) (O : qops T) ncam t0 os s, run O (init O ncam t0) os = Some s ->
  s_init s = born_at t0 os /\ s_cur s = now_at t0 os.
Proof. intros T O ncam t0 os s H. destruct (run_times O os _ s H) as (A & B & _). split; assumption. Qed.
Print Assumptions C02_times_recorded.

(** The low-pass ranges are ten frames for the quality and a hundred for the visibility and for the
    global quality until they are configured; a reset keeps the configured ones. *)
Theorem C60_ranges_recorded : forall (T : Type) (O : qops T) ncam t0 os s, run O (init O ncam t0) os = Some s ->
  (s_rq s, s_rv s, s_rg s) = configured (10, 100, 100) os.
Proof. intros T O ncam t0 os s H. exact (proj2 (proj2 (run_times O os _ s H))). Qed.
Print Assumptions C60_ranges_recorded.

Example C02_times_ex : forall (T : Type) (O : qops T), exists s,
  run O (init O 2 7) [OpIncrease 8; OpRanges 3 4 5; OpReset 9; OpStatus 1 TRACKED; OpIncrease 12] = Some s /\ s_init s = 9 /\ s_cur s = 12 /\ s_rq s = 3 /\ s_rv s = 4 /\ s_rg s = 5.
Proof. intros T O. eexists. split; [reflexivity|]. repeat split. Qed.
