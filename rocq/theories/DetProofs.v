(** Proofs for C90. *)
From Coq Require Import List ZArith QArith Qround Qabs Bool Lia Lqa.
From Verif Require Import PatchModel PyrModel PyrSpec PyrProofs DetSpec.
Import ListNotations.
Local Open Scope Q_scope.

Lemma shorter_min im s : is_shorter_side im s <-> s = Z.min (cols im) (rows im).
Proof. unfold is_shorter_side. lia. Qed.
Lemma Qdiv2 x : x / 2 == x * (1 # 2). Proof. reflexivity. Qed.
Lemma keep_within im r k : keep_keypoint im r k = true <-> within im r k.
Proof.
  unfold keep_keypoint, within. rewrite Qle_bool_iff. split.
  - intros H. exists (Z.min (cols im) (rows im)). split; [apply shorter_min; reflexivity|]. rewrite !Qdiv2 in H. 
    cbn [Qpower Qpower_positive pow_pos]. unfold Qpower_positive. cbn [pow_pos]. exact H.
  - intros [s [E H]]. apply shorter_min in E. subst s. rewrite !Qdiv2. unfold Qpower, Qpower_positive in H. cbn [pow_pos] in H. exact H.
Qed.

(** ** the appended candidates *)
Lemma sub_filter {A} (f : A -> bool) xs : sub (filter f xs) xs.
Proof. induction xs as [|x xs IH]; cbn [filter]; [constructor|]. destruct (f x); [apply sub_keep|apply sub_drop]; exact IH. Qed.
Lemma forall2_map {A B} (P : A -> B -> Prop) (f : B -> A) xs : (forall x, P (f x) x) -> Forall2 P (map f xs) xs.
Proof. intros H. induction xs; cbn [map]; constructor; auto. Qed.
Lemma detect_kept py l r kps : exists ks,
  sub ks kps /\ (forall k, In k kps -> within (py_img py l) r k <-> In k ks) /\
  Forall2 (fun p k => peq (level_c (py_ct py) p 0 l) k) (detect py l r kps) ks.
Proof.
  exists (filter (keep_keypoint (py_img py l) r) kps). split; [apply sub_filter|]. split.
  - intros k K. rewrite filter_In, keep_within. tauto.
  - apply forall2_map. intros k. apply level_inverse.
Qed.

Lemma peq_trans a b c : peq a b -> peq b c -> peq a c.
Proof. intros [A B] [C D]. split; [rewrite A|rewrite B]; assumption. Qed.
Lemma peq_sym a b : peq a b -> peq b a.
Proof. intros [A B]. split; symmetry; assumption. Qed.
Lemma forall2_impl {A B} (P Q : A -> B -> Prop) xs ys : (forall x y, P x y -> Q x y) -> Forall2 P xs ys -> Forall2 Q xs ys.
Proof. intros H F. induction F; constructor; auto. Qed.

(** ** the circle *)
Lemma sq_abs_le a b : 0 <= b -> a * a <= b * b -> - b <= a /\ a <= b.
Proof. intros. split; nra. Qed.
Lemma within_mono im r r' k : 0 <= r -> r <= r' -> (0 <= cols im)%Z -> (0 <= rows im)%Z -> within im r k -> within im r' k.
Proof.
  intros R RR C W [s [E H]]. exists s. split; [exact E|]. 
  assert (S : 0 <= inject_Z s) by (change 0 with (inject_Z 0); rewrite <- Zle_Qle; destruct E; lia).
  unfold Qpower, Qpower_positive in *. cbn [pow_pos] in *.
  assert (0 <= r * inject_Z s) by (apply Qmult_le_0_compat; auto).
  assert (r * inject_Z s <= r' * inject_Z s) by (apply Qmult_le_compat_r; auto). nra.
Qed.
Lemma within_inner im r k m : 0 <= r -> (0 <= cols im)%Z -> (0 <= rows im)%Z -> 
  r * inject_Z (Z.min (cols im) (rows im)) + m <= inject_Z (Z.min (cols im) (rows im)) * (1 # 2) ->
  within im r k -> inside im m k.
Proof.
  intros R C W M [s [E H]]. apply shorter_min in E. subst s.
  assert (S : 0 <= inject_Z (Z.min (cols im) (rows im))) by (change 0 with (inject_Z 0); rewrite <- Zle_Qle; lia).
  assert (S1 : inject_Z (Z.min (cols im) (rows im)) <= inject_Z (cols im)) by (rewrite <- Zle_Qle; lia).
  assert (S2 : inject_Z (Z.min (cols im) (rows im)) <= inject_Z (rows im)) by (rewrite <- Zle_Qle; lia).
  unfold Qpower, Qpower_positive in H. cbn [pow_pos] in H. unfold inside. 
  generalize dependent (inject_Z (Z.min (cols im) (rows im))). intros s.
  generalize (inject_Z (cols im)), (inject_Z (rows im)), (fst k), (snd k). intros c w x y.
  intros M H S S1 S2. assert (P : 0 <= r * s) by (apply Qmult_le_0_compat; auto).
  generalize dependent (r * s). intros p M H P.
  assert (NN : forall z : Q, 0 <= z * z) by (intros z; nra).
  pose proof (NN (x - c * (1 # 2))). pose proof (NN (y - w * (1 # 2))).
  destruct (sq_abs_le (x - c * (1 # 2)) p P) as [A1 A2]; [lra|].
  destruct (sq_abs_le (y - w * (1 # 2)) p P) as [B1 B2]; [lra|]. repeat split; lra.
Qed.
Lemma mid_sq c x : 0 <= x -> x <= c -> (x - c * (1 # 2)) * (x - c * (1 # 2)) <= c * c * (1 # 4).
Proof. intros. nra. Qed.
Lemma within_everything im r : (0 <= cols im)%Z -> (0 <= rows im)%Z ->
  (forall k, inside im 0 k -> within im r k) <->
  exists s, is_shorter_side im s /\ inject_Z (cols im * cols im + rows im * rows im) <= (2 * r * inject_Z s) ^ 2.
Proof.
  intros C W. assert (C' : 0 <= inject_Z (cols im)) by (change 0 with (inject_Z 0); rewrite <- Zle_Qle; lia).
  assert (W' : 0 <= inject_Z (rows im)) by (change 0 with (inject_Z 0); rewrite <- Zle_Qle; lia). 
  split.
  - intros H. destruct (H (0, 0)) as [s [E L]]. { unfold inside. cbn [fst snd]. repeat split; lra. }
    exists s. split; [exact E|]. rewrite inject_Z_plus, !inject_Z_mult. unfold Qpower, Qpower_positive in *. cbn [pow_pos fst snd] in *. 
    generalize dependent (inject_Z (cols im)). generalize dependent (inject_Z (rows im)). generalize (inject_Z s). intros. nra.
  - intros [s [E L]] k [[A1 A2] [B1 B2]]. exists s. split; [exact E|]. rewrite inject_Z_plus, !inject_Z_mult in L. unfold Qpower, Qpower_positive in *. cbn [pow_pos] in *. 
    assert (HX := mid_sq (inject_Z (cols im)) (fst k) ltac:(lra) ltac:(lra)).
    assert (HY := mid_sq (inject_Z (rows im)) (snd k) ltac:(lra) ltac:(lra)).
    assert (F : 2 * r * inject_Z s * (2 * r * inject_Z s) == 4 * (r * inject_Z s * (r * inject_Z s))) by ring. rewrite F in L. lra.
Qed.

(** ** candidates lie in the full image *)
Lemma axis_inside usecv ns nw l x : (0 <= nw)%Z ->
  1 <= x -> x <= inject_Z (size_at nw l) - 1 ->
  1 <= tr1 (center1 usecv ns) x l 0 /\ tr1 (center1 usecv ns) x l 0 <= inject_Z nw - 1.
Proof.
  intros N A B. rewrite tr1_eq. destruct (center_bounds usecv ns 0 l ltac:(lia)) as [L U].
  pose proof (size_mul nw 0 l ltac:(lia)) as M. rewrite p2_0 in *. pose proof (p2_ge1 l) as P.
  assert (E : inject_Z (size_at nw 0) == inject_Z nw) by (unfold size_at; cbn [Z.of_nat Z.pow]; rewrite Z.div_1_r; reflexivity).
  rewrite E in M.
  assert (K : kap usecv * (p2 l - 1) / 2 <= p2 l - 1).
  { assert (F : kap usecv * (p2 l - 1) / 2 == kap usecv * (1 # 2) * (p2 l - 1)) by field. rewrite F. destruct usecv; cbn [kap]; lra. }
  assert (D : forall y, y / 1 == y) by (intros; field). rewrite D.
  generalize dependent (p2 l). generalize dependent (inject_Z (size_at nw l)). intros. split; nra.
Qed.
Lemma level_inside usecv py l k : built usecv py -> inside (py_img py l) 1 k -> inside (py_img py 0) 1 (level_c (py_ct py) k l 0).
Proof.
  intros [w [h [Hw [Hh [Sz Ct]]]]] [[A1 A2] [B1 B2]]. destruct (Sz l) as [E1 E2], (Sz 0%nat) as [F1 F2]. unfold inside.
  rewrite E1 in A2. rewrite E2 in B2. rewrite F1, F2.
  assert (Z0 : forall n, size_at n 0 = n) by (intros; unfold size_at; cbn [Z.of_nat Z.pow]; apply Z.div_1_r). rewrite !Z0.
  split.
  - pose proof (axis_inside usecv h w l (fst k) Hw A1 A2) as G. unfold tr1 in G. unfold level_c. cbn [fst]. rewrite !Ct. exact G.
  - pose proof (axis_inside usecv w h l (snd k) Hh B1 B2) as G. unfold tr1 in G. unfold level_c. cbn [snd]. rewrite !Ct. exact G.
Qed.
Lemma detect_inside usecv py l r kps : built usecv py ->
  (forall k, In k kps -> inside (py_img py l) 1 k) -> forall p, In p (detect py l r kps) -> inside (py_img py 0) 1 p.
Proof.
  intros B H p P. unfold detect in P. apply in_map_iff in P as [k [<- K]]. apply filter_In in K as [K _]. 
  apply (level_inside usecv); auto.
Qed.
