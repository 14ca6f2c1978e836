(** C10 in IEEE-754 arithmetic: the bucket of a candidate is always one of the buckets. *)
From Coq Require Import List ZArith Bool Reals Lia Lra.
From Flocq Require Import Core BinarySingleNaN.
From Verif Require Import IeeeModel IeeeProofs IeeePos StampModel StampProofs NanModel IbuckModel IbuckSpec IbuckProofs.
Import ListNotations.
Local Open Scope R_scope.

(** The bucket filled from the score exists, for every number of buckets an int can hold and whichever overload of pow is called. *)
Theorem C10_ieee_score_bucket : forall nb p, (1 <= nb <= 2147483647)%Z -> pow_in_unit p ->
  exists b, score_bucket nb p = Some b /\ (0 <= b <= nb - 1)%Z.
Proof. exact bucket_ok. Qed.
(** The best candidate, whose relative score is 1, goes into the top bucket. *)
Theorem C10_ieee_best_in_top_bucket : forall nb p, (1 <= nb <= 16777216)%Z -> pow_one p -> score_bucket nb p = Some (nb - 1)%Z.
Proof. exact bucket_top. Qed.
(** A move goes to a bucket that exists and never upwards; at distance zero it is exactly the penalty. *)
Theorem C10_ieee_moves : forall fuse t2 d2 pen b, is_finite t2 = true -> not_negative d2 -> Bltb d2 t2 = true -> within 0 1073741824 pen -> (0 <= b <= 2147483646)%Z ->
  exists b', moved_bucket fuse t2 d2 pen b = Some b' /\ (0 <= b' <= b)%Z /\
  (B2R d2 = 0 -> forall n, B2R pen = IZR n -> b' = Z.max (b - n) 0).
Proof.
  intros fuse t2 d2 pen b Ft Nd L Hp Hb. destruct (lt_finite d2 t2 Ft Nd L) as (Fd & P & LL). apply moved_ok; auto. lra.
Qed.
(** From its score to the end of the call, through any number of comparisons with existing and new features at any distances,
    also infinite or NaN ones, a candidate is in a bucket that exists and is not above the one its score gave it. *)
Theorem C10_ieee_never_out_of_range : forall nb p fuse t2 pen ds, (1 <= nb <= 2147483647)%Z -> pow_in_unit p ->
  is_finite t2 = true -> within 0 1073741824 pen -> Forall not_negative ds ->
  exists b b', score_bucket nb p = Some b /\ compare_all fuse t2 pen b ds = Some b' /\ (0 <= b' <= b)%Z /\ (b <= nb - 1)%Z.
Proof.
  intros nb p fuse t2 pen ds Hn Hp Ft Hpen Hd. destruct (bucket_ok nb p Hn Hp) as (b & E & B). destruct (all_ok fuse t2 pen ds Hpen Ft Hd b ltac:(lia)) as (b' & E' & B').
  exists b, b'. repeat split; auto; lia.
Qed.
(** With an infinite penalty distance the quotient is NaN and its conversion to int is undefined. *)
Theorem C10_ieee_infinite_distance_refuted : exists t2 d2 pen b, not_negative d2 /\ Bltb d2 t2 = true /\ within 0 1073741824 pen /\ (0 <= b <= 2147483646)%Z /\
  forall fuse, moved_bucket fuse t2 d2 pen b = None.
Proof.
  exists (B754_infinity false), (B754_zero false), (g64_of_Z 100), 5%Z. split; [reflexivity|]. split; [reflexivity|]. split; [|split; [lia|]].
  - destruct (of_Z64' 100 ltac:(lia)) as [A B]. split; [exact A|]. rewrite B. lra.
  - intros []; vm_compute; reflexivity.
Qed.
(** With a negative score exponent the power exceeds 1 and can exceed the range of unsigned int: undefined. *)
Theorem C10_ieee_negative_exponent_refuted : exists nb p, (1 <= nb <= 2147483647)%Z /\ 1 <= B2R p /\ is_finite p = true /\ score_bucket nb (PowD p) = None.
Proof.
  exists 100%Z, (g64_of_Z 100000000). destruct (of_Z64' 100000000 ltac:(lia)) as [A B]. split; [lia|]. split; [rewrite B; lra|]. split; [exact A|vm_compute; reflexivity].
Qed.

(** 100 buckets, relative score 1/4 and exponent 1/2; then a feature at half the penalty distance, and a NaN distance *)
Definition half64 : g64 := div64 (g64_of_Z 1) (g64_of_Z 2).
Definition half32 : f32 := binary_normalize 24 128 eq_refl eq_refl mode_NE 1 (-1) false.
Example bucket_example : score_bucket 100 (PowD half64) = Some 50%Z /\ score_bucket 100 (PowF half32) = Some 50%Z /\
  compare_all false (g64_of_Z 100) (g64_of_Z 100) 50 [g64_of_Z 70; B754_nan; g64_of_Z 95] = Some 15%Z /\
  compare_all true (g64_of_Z 100) (g64_of_Z 100) 50 [g64_of_Z 70; B754_nan; g64_of_Z 95] = Some 15%Z.
Proof. repeat split; vm_compute; reflexivity. Qed.
Example hypotheses_example : pow_in_unit (PowD half64) /\ is_finite (g64_of_Z 100) = true /\ within 0 1073741824 (g64_of_Z 100) /\
  Forall not_negative [g64_of_Z 70; B754_nan; g64_of_Z 95].
Proof.
  destruct (of_Z64' 100 ltac:(lia)) as [A B]. split; [|split; [exact A|split; [split; [exact A|rewrite B; lra]|]]].
  - split; [vm_compute; reflexivity|]. assert (E : B2SF half64 = SpecFloat.S754_finite false 4503599627370496 (-53)) by (vm_compute; reflexivity).
    rewrite <- SF2R_B2SF, E. cbn [SF2R]. unfold F2R. cbn. lra.
  - repeat (apply Forall_cons; [vm_compute; reflexivity|]). apply Forall_nil.
Qed.

Print Assumptions C10_ieee_score_bucket.
Print Assumptions C10_ieee_best_in_top_bucket.
Print Assumptions C10_ieee_moves.
Print Assumptions C10_ieee_never_out_of_range.
Print Assumptions C10_ieee_infinite_distance_refuted.
Print Assumptions C10_ieee_negative_exponent_refuted.
