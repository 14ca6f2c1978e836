(** C102: time stamps through the filter. *)
From Coq Require Import List ZArith Bool Reals Lia Lra Sorted.
From Flocq Require Import Core BinarySingleNaN.
From Verif Require Import IeeeModel StampModel StampSpec StampProofs.
Import ListNotations.
Local Open Scope R_scope.

(** Later messages never get an earlier filter time, *)
Theorem C102_order_kept : forall fuse a b, well_formed a -> well_formed b -> (nanos a <= nanos b)%Z ->
  seconds (to_sec fuse a) <= seconds (to_sec fuse b).
Proof. exact to_sec_mono. Qed.
(** and until 2038 messages 239 ns or more apart get different ones. *)
Theorem C102_distinct_times : forall fuse a b, well_formed a -> well_formed b -> (sec a < 2 ^ 31)%Z -> (sec b < 2 ^ 31)%Z ->
  (nanos a + 239 <= nanos b)%Z -> seconds (to_sec fuse a) < seconds (to_sec fuse b).
Proof. exact to_sec_apart. Qed.
(** The time between two measurements at most a second apart is off by at most 239 ns. *)
Theorem C102_intervals : forall fuse a b, well_formed a -> well_formed b -> (sec a < 2 ^ 31)%Z -> (sec b < 2 ^ 31)%Z ->
  (Z.abs (nanos b - nanos a) <= 1000000000)%Z ->
  is_finite (interval (to_sec fuse a) (to_sec fuse b)) = true /\
  Rabs (seconds (interval (to_sec fuse a) (to_sec fuse b)) - IZR (nanos b - nanos a) / 1000000000) <= 239 / 1000000000.
Proof. exact interval_close. Qed.

(** What is published for a measurement carries its stamp up to 119 ns, *)
Theorem C102_published_stamp : forall rd fuse s, rounds rd -> well_formed s -> (sec s < 2 ^ 31)%Z ->
  exists s', from_sec rd (to_sec fuse s) = Some s' /\ well_formed s' /\ (Z.abs (nanos s' - nanos s) <= 119)%Z.
Proof. exact trip31. Qed.
(** exactly while the clock shows less than 2^23 seconds (simulated time). *)
Theorem C102_published_stamp_simulated : forall rd fuse s, rounds rd -> well_formed s -> (sec s < 2 ^ 23)%Z ->
  from_sec rd (to_sec fuse s) = Some s.
Proof. exact trip23. Qed.
(** "What is published for an image carries the stamp of the image" is false for wall-clock time. *)
Theorem C102_exact_stamp_refuted : exists s, well_formed s /\ (sec s < 2 ^ 31)%Z /\
  forall rd fuse, rounds rd -> from_sec rd (to_sec fuse s) <> Some s.
Proof.
  exists {| sec := 1500000000; nsec := 100 |}. split; [unfold well_formed; cbn; lia|]. split; [cbn; lia|]. intros rd fuse HR.
  assert (E : to_sec fuse {| sec := 1500000000; nsec := 100 |} = g64_of_Z 1500000000) by (apply B2SF_inj; destruct fuse; vm_compute; reflexivity).
  rewrite E. intros H. assert (W : well_formed {| sec := 1500000000; nsec := 0 |}) by (unfold well_formed; cbn; lia).
  destruct (of_Z64' 1500000000 ltac:(lia)) as [F1 V1]. destruct (from_sec_val rd (g64_of_Z 1500000000) HR F1 ltac:(rewrite V1; lra)) as (s & Es & _ & _ & A & _).
  rewrite H in Es. injection Es as <-. unfold nanos in A. cbn [sec nsec] in A. rewrite V1 in A. replace (2 ^ 19) with 524288 in A by ring.
  rewrite plus_IZR, mult_IZR in A. apply Rabs_le_inv in A. lra.
Qed.
(** "Messages with different stamps get different filter times" is false. *)
Theorem C102_all_distinct_refuted : exists a b, well_formed a /\ well_formed b /\ (nanos a < nanos b)%Z /\
  forall fuse, to_sec fuse a = to_sec fuse b.
Proof.
  exists {| sec := 1500000000; nsec := 0 |}, {| sec := 1500000000; nsec := 100 |}. repeat split; try (cbn; lia).
  intros fuse. apply B2SF_inj. destruct fuse; vm_compute; reflexivity.
Qed.

(** Filter times that increase give published stamps that increase: for all times from 2^23 seconds on, *)
Theorem C102_published_increasing : forall rd t1 t2, rounds rd -> is_finite t1 = true -> is_finite t2 = true ->
  2 ^ 23 <= seconds t1 -> seconds t1 < seconds t2 -> seconds t2 < 2 ^ 32 - 1 ->
  exists a b, from_sec rd t1 = Some a /\ from_sec rd t2 = Some b /\ well_formed a /\ well_formed b /\ (nanos a < nanos b)%Z.
Proof.
  intros rd t1 t2 HR F1 F2. replace (2 ^ 23) with 8388608 by ring. replace (2 ^ 32 - 1) with 4294967295 by ring. now apply published_strict.
Qed.
(** for all times that come from messages, whatever the clock, *)
Theorem C102_published_history : forall rd fuse l, rounds rd -> Forall (fun s => well_formed s /\ (sec s < 2 ^ 32 - 2)%Z) l ->
  StronglySorted (fun a b => seconds (to_sec fuse a) < seconds (to_sec fuse b)) l ->
  exists l', map (fun s => from_sec rd (to_sec fuse s)) l = map Some l' /\ Forall well_formed l' /\
  StronglySorted (fun a b => (nanos a < nanos b)%Z) l'.
Proof.
  intros rd fuse l HR. induction l as [|a l IH]; intros W So; [exists []; repeat split; constructor|].
  inversion W as [|? ? [Wa La] W']; subst. inversion So as [|? ? So' HA]; subst. destruct (IH W' So') as (l' & E & Wl & Sl).
  pose proof (to_sec_between fuse a Wa) as B. destruct (to_sec_val fuse a Wa) as [Fa _]. unfold seconds in B.
  destruct Wa as [Sa Na]. assert (La' : (sec a <= 4294967293)%Z) by lia. apply IZR_le in La'. destruct Sa as [Sa Sa']. pose proof Sa as Sa2. apply IZR_le in Sa2.
  destruct (from_sec_val rd (to_sec fuse a) HR Fa ltac:(lra)) as (a' & Ea & Wa' & _). exists (a' :: l'). cbn [map]. rewrite Ea, E. split; [reflexivity|]. split; [now constructor|]. constructor; [exact Sl|].
  apply Forall_forall. intros b' Ib. assert (I : In (Some b') (map (fun s => from_sec rd (to_sec fuse s)) l)) by (rewrite E; now apply in_map). apply in_map_iff in I as (b & Eb & I).
  rewrite Forall_forall in HA, W'. destruct (W' b I) as [Wb Lb].
  destruct (published_of_stamps rd fuse a b HR ltac:(split; [split; [exact Sa|exact Sa']|exact Na]) Wb Lb (HA b I)) as (x & y & Ex & Ey & _ & _ & K). congruence.
Qed.
(** and if the rounding of the nanoseconds is monotone, never decreasing ones for all times. *)
Theorem C102_published_nondecreasing : forall rd t1 t2, rounds rd -> monotone rd -> is_finite t1 = true -> is_finite t2 = true ->
  0 <= seconds t1 -> seconds t1 <= seconds t2 -> seconds t2 < 2 ^ 32 - 1 ->
  exists a b, from_sec rd t1 = Some a /\ from_sec rd t2 = Some b /\ well_formed a /\ well_formed b /\ (nanos a <= nanos b)%Z.
Proof.
  intros rd t1 t2 HR HM F1 F2. replace (2 ^ 32 - 1) with 4294967295 by ring. now apply published_mono.
Qed.

(** rounding with halves up is one of the roundings *)
Example C102_ex_rounding : rounds round_up64 /\ monotone round_up64.
Proof. exact round_up_ok. Qed.
Definition ex_stamp : stamp := {| sec := 1500000000; nsec := 123456789 |}.
Example C102_ex_trip : well_formed ex_stamp /\ from_sec round_up64 (to_sec false ex_stamp) = Some {| sec := 1500000000; nsec := 123456717 |}.
Proof. split; [unfold well_formed; cbn; lia|vm_compute; reflexivity]. Qed.
Example C102_ex_carry : from_sec round_up64 (sub64 one64 (binary_normalize 53 1024 q53 q1024 mode_NE 1 (-40) false)) = Some {| sec := 1; nsec := 0 |}.
Proof. vm_compute. reflexivity. Qed.
Example C102_ex_history : StronglySorted (fun a b => seconds (to_sec false a) < seconds (to_sec false b)) [{| sec := 7; nsec := 999999999 |}; {| sec := 8; nsec := 0 |}].
Proof.
  constructor; [constructor; [constructor|constructor]|]. constructor; [|constructor]. 
  destruct (Rle_dec (seconds (to_sec false {| sec := 8; nsec := 0 |})) (seconds (to_sec false {| sec := 7; nsec := 999999999 |}))) as [L|L]; [exfalso|lra].
  assert (K : Bleb (to_sec false {| sec := 8; nsec := 0 |}) (to_sec false {| sec := 7; nsec := 999999999 |}) = true) by (rewrite Bleb_correct; [apply Rle_bool_true, L|vm_compute; reflexivity..]).
  revert K. vm_compute. discriminate.
Qed.

Print Assumptions C102_order_kept.
Print Assumptions C102_distinct_times.
Print Assumptions C102_intervals.
Print Assumptions C102_published_stamp.
Print Assumptions C102_published_stamp_simulated.
Print Assumptions C102_exact_stamp_refuted.
Print Assumptions C102_all_distinct_refuted.
Print Assumptions C102_published_increasing.
Print Assumptions C102_published_history.
Print Assumptions C102_published_nondecreasing.
