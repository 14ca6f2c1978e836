(** C101: corner scores that are not numbers. *)
From Coq Require Import List ZArith Bool Reals Lia Lra.
From Flocq Require Import Core BinarySingleNaN.
From Verif Require Import IeeeModel IeeeSpec IeeeProps IeeeProofs IscoreModel IscoreSpec IscoreProps NanModel NanSpec NanProofs.
Import ListNotations.
Local Open Scope R_scope.

(** The scores computed for candidates are NaN, or finite and moderate: the hypothesis of the theorems below is met. *)
Theorem C101_scores_are_moderate : forall fuse fuse' kc0 kc1 n Bs l1 l2 g, (0 < n <= 16)%nat -> (l1 <= l2 < length Bs)%nat -> (l2 <= 15)%nat ->
  (forall bv, In bv Bs -> snd bv = true -> length (fst bv) = ((n + 2) * (n + 2))%nat /\ intensities (fst bv)) ->
  ml_score32 fuse fuse' kc0 kc1 n Bs l1 l2 = Some g -> score_like (f_s g).
Proof. exact ml_score_like. Qed.

(** A NaN among the candidates is never selected and does not influence which others are. *)
Theorem C101_nan_is_ignored : forall mn l,
  picked mn l B754_nan = false /\ forall s, picked mn l s = picked mn (filter (fun s => negb (is_nan s)) l) s.
Proof.
  intros mn l. split.
  - unfold picked, rel32. rewrite nan_sub, nan_div, lt_nan. destruct (Bleb _ _); reflexivity.
  - intros s. unfold picked. rewrite max_filter. reflexivity.
Qed.
(** The reference score is the best of the candidates that have one. *)
Theorem C101_best_score : forall l, Forall score_like l -> best_number l (max_score32 l).
Proof. exact max_best. Qed.
(** Selected candidates have a number above the minimum as score; the relative score lies in (0,1], 1 for the best. *)
Theorem C101_selected : forall mn l s, finite mn -> 0 <= real mn -> Forall score_like l -> In s l -> picked mn l s = true ->
  finite s /\ real mn < real s /\
  finite (rel32 mn (max_score32 l) s) /\ 0 < real (rel32 mn (max_score32 l) s) <= 1 /\
  (s = max_score32 l -> real (rel32 mn (max_score32 l) s) = 1).
Proof. intros mn l s Fm Pm HL I P. destruct (picked_spec mn l Fm Pm HL s I P) as (A & B & C & D & E). unfold real in *. repeat split; auto; lra. Qed.
(** Every candidate whose score exceeds the minimum by 2^-100 or more is selected. *)
Theorem C101_above_minimum_selected : forall mn l s, finite mn -> 0 <= real mn -> Forall score_like l -> In s l -> number s ->
  / 2 ^ 100 <= real s - real mn -> picked mn l s = true.
Proof.
  intros mn l s Fm Pm HL I N H. apply picked_above; auto. change (B2R s - B2R mn) with (real s - real mn). apply Rle_trans with (2 := H). apply Req_le.
  change (bpow radix2 (-100)) with (bpow radix2 (Z.opp 100)). rewrite bpow_opp. f_equal. change 100%Z with (Z.of_nat 100). rewrite bpow_powerRZ, <- pow_powerRZ. reflexivity.
Qed.

(** Over every history of removals, patch refreshes with any scores at all, and detections: every stored score is a
    number not below the minimum. *)
Theorem C101_stored_scores : forall mn mr es i s, finite mn -> 0 <= real mn -> Forall ev_like es ->
  nrun mn mr es i = Some s -> number s /\ Bleb mn s = true.
Proof. intros mn mr es i s Fm Pm HE E. pose proof (run_above mn mr es Fm Pm HE i s E) as H. split; [exact (number_le mn s Fm H)|exact H]. Qed.
(** and the average score is a number *)
Theorem C101_average_score : forall mn mr es n, finite mn -> 0 <= real mn -> Forall ev_like es -> (Z.of_nat n <= 2 ^ 24)%Z ->
  number (average_score (nrun mn mr es) n).
Proof. intros mn mr es n Fm Pm HE Hn. apply (average_num mn); [exact Fm|now apply run_above|exact Hn]. Qed.

(** "A large enough image difference counts as motion" is false: on the patch of C24 the larger eigenvalue is NaN, and
    no difference, however large, counts. *)
Theorem C101_motion_seen_refuted :
  exists im B, bytes im /\ extracts Plain false 6 im true ex_fw1 (f32_of_Z 4) (f32_of_Z 4) true = Some B /\
    forall fuse kc0 kc1, exists g, compute32 fuse kc0 kc1 6 B = Some g /\ forall err th, moving32 err (f_e1 g) th = false.
Proof.
  destruct C24_score_is_a_number_ieee_refuted as (im & B & Hb & _ & _ & _ & E & K). exists im, B. split; [exact Hb|]. split; [exact E|].
  intros fuse kc0 kc1. destruct (K fuse kc0 kc1) as (g & Eg & _ & N & _). exists g. split; [exact Eg|]. intros err th.
  destruct (nan_dec (f_e1 g)) as [->|N']; [|contradiction]. unfold moving32. rewrite nan_sqrt, div_nan. apply lt_nan.
Qed.

(** The second selection function: its comparison is fit for sorting finite scores, *)
Theorem C101_sort_order_on_numbers : strict_weak_order finite better.
Proof. exact better_swo. Qed.
(** but "the candidates it sorts have scores that are numbers" is false: NaN passes the test against every minimum, and the
    comparison is not a strict weak order on the scores that can be in the list. *)
Theorem C101_sorted_scores_are_numbers_refuted :
  (forall mn l, In B754_nan l -> In B754_nan (kept_new mn l)) /\
  ~ strict_weak_order (fun s => In s (kept_new zero32 [f32_of_Z 1; B754_nan; f32_of_Z 2])) better.
Proof.
  split.
  - intros mn l I. unfold kept_new. apply filter_In. split; [exact I|]. rewrite nan_lt. reflexivity.
  - intros (_ & _ & T).
    assert (K : kept_new zero32 [f32_of_Z 1; B754_nan; f32_of_Z 2] = [f32_of_Z 1; B754_nan; f32_of_Z 2]) by (unfold kept_new; cbn [filter]; replace (Bltb (f32_of_Z 1) zero32) with false by (vm_compute; reflexivity); replace (Bltb (f32_of_Z 2) zero32) with false by (vm_compute; reflexivity); rewrite nan_lt; reflexivity).
    rewrite K in T. destruct (T (f32_of_Z 1) B754_nan (f32_of_Z 2)) as [_ H]; [cbn; auto..| | |].
    + split; vm_compute; reflexivity.
    + split; vm_compute; reflexivity.
    + revert H. vm_compute. discriminate.
Qed.

(** concrete cases: candidates 10, NaN, -1, 3 against the minimum 3 *)
Definition ex_scores : list f32 := [f32_of_Z 10; B754_nan; f32_of_Z (-1); f32_of_Z 3].
Lemma ex_score_like z : (-1000 <= z <= 1000)%Z -> score_like (f32_of_Z z).
Proof. intros H _. destruct (of_Z32 z ltac:(lia)) as [F1 V1]. split; [exact F1|]. unfold real. rewrite V1, <- abs_IZR. apply IZR_le. lia. Qed.
Example C101_ex_like : Forall score_like ex_scores.
Proof.
  unfold ex_scores. apply Forall_cons; [apply ex_score_like; lia|]. apply Forall_cons; [intros H; discriminate H|].
  apply Forall_cons; [apply ex_score_like; lia|]. apply Forall_cons; [apply ex_score_like; lia|]. apply Forall_nil.
Qed.
Example C101_ex_picked : map (picked (f32_of_Z 3) ex_scores) ex_scores = [true; false; false; false].
Proof. vm_compute. reflexivity. Qed.
Example C101_ex_history :
  let st := nrun (f32_of_Z 3) zero32 [Detect ex_scores [(0, 0); (1, 1); (2, 3)]%nat; Refresh 0 B754_nan; Detect [f32_of_Z 6] [(4, 0)]%nat; Refresh 4 (f32_of_Z 4)] in
  Bleb (f32_of_Z 10) (match st 0%nat with Some s => s | None => zero32 end) = true /\ st 1%nat = None /\ st 2%nat = None /\
  Beqb (average_score st 5) (f32_of_Z 7) = true.
Proof. vm_compute. repeat split. Qed.
(** a single NaN would make the average NaN *)
Example C101_ex_average_nan : is_nan (average_score (fun i => if Nat.eqb i 1 then Some B754_nan else Some (f32_of_Z 5)) 3) = true.
Proof. vm_compute. reflexivity. Qed.

Print Assumptions C101_scores_are_moderate.
Print Assumptions C101_nan_is_ignored.
Print Assumptions C101_best_score.
Print Assumptions C101_selected.
Print Assumptions C101_above_minimum_selected.
Print Assumptions C101_stored_scores.
Print Assumptions C101_average_score.
Print Assumptions C101_motion_seen_refuted.
Print Assumptions C101_sort_order_on_numbers.
Print Assumptions C101_sorted_scores_are_numbers_refuted.
