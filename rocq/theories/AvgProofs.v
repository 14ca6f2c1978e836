From Coq Require Import List Reals Lra Lia Arith.
From Verif Require Import PatchModel PatchProofs GradSpec AvgModel AvgSpec.
Import ListNotations.
Local Open Scope R_scope.

Definition lsum (l : list R) : R := fold_right Rplus 0 l.
Lemma fold_plus (g : R -> R) l a : fold_left (fun e d => e + g d) l a = a + lsum (map g l).
Proof. revert a. induction l as [|d l IH]; intros a; cbn; [lra|]. rewrite IH. unfold lsum. lra. Qed.
Lemma lsum_app a b : lsum (a ++ b) = lsum a + lsum b.
Proof. unfold lsum. induction a; cbn; [lra|]. rewrite IHa. lra. Qed.
Lemma sum_seq (f : nat -> R) k : lsum (map f (seq 0 k)) = sum k f.
Proof. induction k; [reflexivity|]. rewrite seq_S, map_app, lsum_app, IHk. cbn. lra. Qed.
Lemma sum_seq_from (f : nat -> R) a k : lsum (map f (seq a k)) = sum k (fun j => f (a + j)%nat).
Proof.
  rewrite <- sum_seq. f_equal. revert a f. induction k as [|k IH]; intros a f; cbn [seq map]; [reflexivity|].
  rewrite Nat.add_0_r. f_equal. rewrite (IH (S a) f), (IH 1%nat (fun j => f (a + j)%nat)). apply map_ext. intros j. f_equal. lia.
Qed.
Lemma lsum_flat {A} (g : A -> list R) l : lsum (flat_map g l) = lsum (map (fun a => lsum (g a)) l).
Proof. induction l; cbn; [reflexivity|]. rewrite lsum_app, IHl. reflexivity. Qed.

(** the difference list *)
Definition dlist (n : nat) (P P' : patches) (l1 l2 : nat) : list R :=
  flat_map (fun l => map (fun i => value P l i - value P' l i) (seq 0 (n * n))) (seq l1 (l2 + 1 - l1)).
Lemma pixel_value n P l2 l i : filled n P l2 -> (l <= l2)%nat -> (i < n * n)%nat -> pixel_at P l i = Some (value P l i).
Proof.
  intros [L F] Hl Hi. unfold pixel_at, value. rewrite (nth_error_nth' P nil) by lia. cbn [bind].
  apply nth_error_nth'. rewrite F; [auto|]. apply nth_In. lia.
Qed.
Lemma diff_some n P P' l1 l2 : filled n P l2 -> filled n P' l2 -> differences n P P' l1 l2 = Some (dlist n P P' l1 l2).
Proof.
  intros H H'. unfold differences, dlist. rewrite <- seqo_map_inv. f_equal.
  assert (G : forall ls, (forall l, In l ls -> (l <= l2)%nat) -> 
    flat_map (fun l => map (fun i => bind (pixel_at P l i) (fun a => bind (pixel_at P' l i) (fun b => Some (a - b)))) (seq 0 (n * n))) ls =
    map Some (flat_map (fun l => map (fun i => value P l i - value P' l i) (seq 0 (n * n))) ls)).
  { induction ls as [|l ls IH]; intros HL; cbn [flat_map map]; [reflexivity|]. rewrite map_app, <- IH by (intros; apply HL; now right).
    f_equal. rewrite map_map. apply map_ext_in. intros i Hi. apply in_seq in Hi.
    rewrite (pixel_value n P l2), (pixel_value n P' l2) by (auto; try lia; apply HL; now left). reflexivity. }
  apply G. intros l Hl. apply in_seq in Hl. lia.
Qed.
Lemma dlist_in n P P' l1 l2 d : In d (dlist n P P' l1 l2) <-> exists l i, (l1 <= l <= l2)%nat /\ (i < n * n)%nat /\ d = value P l i - value P' l i.
Proof.
  unfold dlist. rewrite in_flat_map. split.
  - intros (l&Hl&H). apply in_map_iff in H as (i&<-&Hi). apply in_seq in Hl, Hi. exists l, i. repeat split; lia.
  - intros (l&i&Hl&Hi&->). exists l. split; [apply in_seq; lia|]. apply in_map_iff. exists i. split; [auto|apply in_seq; lia].
Qed.
Lemma dlist_length n P P' l1 l2 : length (dlist n P P' l1 l2) = ((l2 + 1 - l1) * (n * n))%nat.
Proof. unfold dlist. rewrite (flat_length _ (n * n)); [now rewrite seq_length|]. intros. now rewrite map_length, seq_length. Qed.
Lemma dlist_mean n P P' l1 l2 (g : R -> R) : 
  level_average n l1 l2 (fun l i => g (value P l i - value P' l i)) = lsum (map g (dlist n P P' l1 l2)) / INR (length (dlist n P P' l1 l2)).
Proof.
  unfold level_average. rewrite dlist_length, (mult_INR (l2 + 1 - l1)). f_equal. unfold dlist. 
  rewrite <- (sum_seq_from (fun l => sum (n * n) (fun i => g (value P l i - value P' l i))) l1).
  generalize (seq l1 (l2 + 1 - l1)). intros ls. induction ls as [|l ls IH]; [reflexivity|]. cbn [map flat_map]. rewrite map_app, lsum_app, <- IH.
  cbn [lsum fold_right]. f_equal. now rewrite map_map, sum_seq.
Qed.

(** list statistics *)
Definition lmean (ds : list R) : R := lsum ds / INR (length ds).
Definition lvar (ds : list R) : R := lsum (map (fun d => (d - lmean ds) ^ 2) ds) / INR (length ds).
Lemma avg_some n P P' l1 l2 : (l1 <= l2)%nat -> filled n P l2 -> filled n P' l2 ->
  average_difference n P P' l1 l2 = Some (sqrt (lvar (dlist n P P' l1 l2))).
Proof.
  intros Hl H H'. unfold average_difference. rewrite diff_some by auto. cbn [bind].
  assert (C : avg_count n l1 l2 = INR (length (dlist n P P' l1 l2))).
  { unfold avg_count. rewrite dlist_length. f_equal. replace (l2 + 1 - l1)%nat with (l2 - l1 + 1)%nat by lia. lia. }
  rewrite C. f_equal. f_equal. unfold lvar, lmean.
  rewrite (fold_plus (fun d => (d - _) ^ 2)). change (fold_left Rplus) with (fold_left (fun e d => e + (fun x => x) d)). rewrite fold_plus, map_id, !Rplus_0_l.
  reflexivity.
Qed.
Lemma lsum_map_ext (f g : R -> R) l : (forall d, f d = g d) -> lsum (map f l) = lsum (map g l).
Proof. intros H. f_equal. apply map_ext. auto. Qed.
Lemma lsum_nonneg l : (forall d, In d l -> 0 <= d) -> 0 <= lsum l.
Proof. unfold lsum. induction l as [|d l IH]; intros H; cbn; [lra|]. pose proof (H d (or_introl eq_refl)). specialize (IH (fun x Hx => H x (or_intror Hx))). lra. Qed.
Lemma sq_nonneg x : 0 <= x ^ 2. Proof. rewrite <- Rsqr_pow2. apply Rle_0_sqr. Qed.
Lemma lsum_sq_zero (f : R -> R) l : lsum (map (fun d => f d ^ 2) l) = 0 <-> forall d, In d l -> f d = 0.
Proof.
  induction l as [|d l IH]; cbn [map lsum fold_right In].
  - split; [tauto|auto].
  - fold (lsum (map (fun d => f d ^ 2) l)).
    assert (N : 0 <= lsum (map (fun d => f d ^ 2) l)) by (apply lsum_nonneg; intros x Hx; apply in_map_iff in Hx as (y&<-&_); apply sq_nonneg).
    pose proof (sq_nonneg (f d)). split.
    + intros E. assert (Z1 : f d ^ 2 = 0) by lra. assert (Z2 : lsum (map (fun d => f d ^ 2) l) = 0) by lra.
      intros x [<-|Hx]; [|apply IH; auto]. rewrite <- Rsqr_pow2 in Z1. now apply Rsqr_0_uniq.
    + intros E. rewrite (proj2 IH) by (intros; apply E; now right). rewrite (E d) by now left. ring.
Qed.
Lemma lvar_nonneg ds : 0 <= lvar ds.
Proof.
  unfold lvar. destruct ds as [|d ds]; [cbn; unfold Rdiv; lra|]. apply Rmult_le_pos; [|left; apply Rinv_0_lt_compat, lt_0_INR; cbn; lia].
  apply lsum_nonneg. intros x Hx. apply in_map_iff in Hx as (y&<-&_). apply sq_nonneg.
Qed.
Lemma lsum_const_mul c l : lsum (map (fun d => c * d) l) = c * lsum l.
Proof. induction l; cbn; [ring|]. unfold lsum in IHl. rewrite IHl. ring. Qed.
Lemma lsum_shift c l : lsum (map (fun d => d + c) l) = lsum l + INR (length l) * c.
Proof. induction l as [|d l IH]; [cbn; ring|]. cbn [map length]. rewrite S_INR. cbn [lsum fold_right]. fold (lsum (map (fun d => d + c) l)) (lsum l). rewrite IH. ring. Qed.
Lemma lsum_expand c l : lsum (map (fun d => (d - c) ^ 2) l) = lsum (map (fun d => d ^ 2) l) - 2 * c * lsum l + INR (length l) * c ^ 2.
Proof.
  induction l as [|d l IH]; [cbn; ring|]. cbn [map length]. rewrite S_INR. cbn [lsum fold_right].
  fold (lsum (map (fun d => (d - c) ^ 2) l)) (lsum l) (lsum (map (fun d => d ^ 2) l)). rewrite IH. ring.
Qed.
Lemma len_pos {A} (l : list A) : l <> [] -> 0 < INR (length l).
Proof. intros H. apply lt_0_INR. destruct l; [congruence|cbn; lia]. Qed.
Lemma lvar_min ds c : ds <> [] -> lvar ds <= lsum (map (fun d => (d - c) ^ 2) ds) / INR (length ds) /\
  (lsum (map (fun d => (d - c) ^ 2) ds) / INR (length ds) = lvar ds -> c = lmean ds).
Proof.
  intros H. apply len_pos in H. set (N := INR (length ds)) in *.
  assert (E : lsum (map (fun d => (d - c) ^ 2) ds) / N = lvar ds + (c - lmean ds) ^ 2).
  { unfold lvar. fold N. rewrite !lsum_expand. fold N. unfold lmean. fold N. field. lra. }
  rewrite E. pose proof (sq_nonneg (c - lmean ds)). split; [lra|]. intros Z. assert (Z1 : (c - lmean ds) ^ 2 = 0) by lra.
  rewrite <- Rsqr_pow2 in Z1. apply Rsqr_0_uniq in Z1. lra.
Qed.
Lemma lmean_opp ds : lmean (map Ropp ds) = - lmean ds.
Proof. unfold lmean. rewrite map_length. rewrite (lsum_map_ext Ropp (fun d => (-1) * d)) by (intros; ring). rewrite lsum_const_mul. unfold Rdiv. ring. Qed.
Lemma lvar_opp ds : lvar (map Ropp ds) = lvar ds.
Proof. unfold lvar. rewrite lmean_opp, map_length, map_map. f_equal. apply lsum_map_ext. intros. ring. Qed.
Lemma lvar_shift c ds : lvar (map (fun d => d + c) ds) = lvar ds.
Proof.
  destruct ds as [|d0 ds0]; [reflexivity|]. set (ds := d0 :: ds0). assert (N : 0 < INR (length ds)) by (apply len_pos; discriminate).
  unfold lvar. rewrite map_length, map_map. f_equal. apply lsum_map_ext. intros d. f_equal.
  unfold lmean. rewrite map_length, lsum_shift. field. lra.
Qed.
Lemma lvar_zero ds : ds <> [] -> lvar ds = 0 <-> exists c, forall d, In d ds -> d = c.
Proof.
  intros H. pose proof (len_pos _ H) as N. split.
  - intros E. exists (lmean ds). unfold lvar in E. assert (Z : lsum (map (fun d => (d - lmean ds) ^ 2) ds) = 0).
    { apply Rmult_eq_reg_r with (/ INR (length ds)); [unfold Rdiv in E; rewrite E; ring|]. apply Rinv_neq_0_compat. lra. }
    intros d Hd. pose proof (proj1 (lsum_sq_zero (fun d => d - lmean ds) ds) Z d Hd). lra.
  - intros (c&Hc). destruct (lvar_min ds c H) as [L _]. pose proof (lvar_nonneg ds).
    rewrite (proj2 (lsum_sq_zero (fun d => d - c) ds)) in L by (intros d Hd; rewrite (Hc d Hd); ring). unfold Rdiv in L. lra.
Qed.

(** symmetric *)
Lemma dlist_sym n P P' l1 l2 : dlist n P' P l1 l2 = map Ropp (dlist n P P' l1 l2).
Proof.
  unfold dlist. rewrite (flat_map_concat_map _ (seq l1 _)), (flat_map_concat_map _ (seq l1 _)), concat_map, map_map. f_equal. apply map_ext. intros l.
  rewrite map_map. apply map_ext. intros; ring.
Qed.
Lemma dlist_brighter n b P P' l1 l2 : filled n P l2 -> dlist n (brighter b P) P' l1 l2 = map (fun d => d + b) (dlist n P P' l1 l2).
Proof.
  intros [L F]. unfold dlist. rewrite (flat_map_concat_map _ (seq l1 _)), (flat_map_concat_map _ (seq l1 _)), concat_map, map_map. f_equal. 
  apply map_ext_in. intros l Hl. apply in_seq in Hl. rewrite map_map. apply map_ext_in. intros i Hi. apply in_seq in Hi.
  assert (value (brighter b P) l i = value P l i + b); [|lra].
  unfold value, brighter. change (@nil R) with (map (fun v => v + b) nil) at 1. rewrite map_nth.
  rewrite (nth_indep _ 0 (0 + b)) by (rewrite map_length, F; [lia|apply nth_In; lia]). now rewrite (map_nth (fun v => v + b)).
Qed.
Lemma brighter_filled n b P l2 : filled n P l2 -> filled n (brighter b P) l2.
Proof.
  intros [L F]. unfold brighter. split; [now rewrite map_length|]. intros p Hp. apply in_map_iff in Hp as (q&<-&Hq). rewrite map_length. auto.
Qed.
Lemma avg_symmetric n P P' l1 l2 : (l1 <= l2)%nat -> filled n P l2 -> filled n P' l2 ->
  average_difference n P P' l1 l2 = average_difference n P' P l1 l2.
Proof. intros. rewrite !avg_some by auto. now rewrite (dlist_sym n P P'), lvar_opp. Qed.
Lemma avg_brighter n P P' l1 l2 b : (l1 <= l2)%nat -> filled n P l2 -> filled n P' l2 ->
  average_difference n (brighter b P) P' l1 l2 = average_difference n P P' l1 l2.
Proof. intros. rewrite !avg_some by auto using brighter_filled. now rewrite dlist_brighter, lvar_shift. Qed.
Lemma dlist_nonempty n P P' l1 l2 : (0 < n)%nat -> (l1 <= l2)%nat -> dlist n P P' l1 l2 <> [].
Proof. intros Hn Hl E. assert (L : length (dlist n P P' l1 l2) = 0%nat) by now rewrite E. rewrite dlist_length in L. nia. Qed.
Lemma mse_eq n P P' l1 l2 b : mse n P P' l1 l2 b = lsum (map (fun d => (d - b) ^ 2) (dlist n P P' l1 l2)) / INR (length (dlist n P P' l1 l2)).
Proof.
  unfold mse. rewrite <- (dlist_mean n P P' l1 l2 (fun d => (d - b) ^ 2)). unfold level_average. f_equal.
  generalize (l2 + 1 - l1)%nat. induction n0 as [|k IH]; [reflexivity|]. cbn [sum]. rewrite IH. f_equal.
  generalize (n * n)%nat. induction n0 as [|j IH2]; [reflexivity|]. cbn [sum]. rewrite IH2. f_equal. f_equal. ring.
Qed.
Lemma avg_best_offset n P P' l1 l2 : (0 < n)%nat -> (l1 <= l2)%nat -> filled n P l2 -> filled n P' l2 ->
  exists r b, average_difference n P P' l1 l2 = Some r /\ 0 <= r /\ r ^ 2 = mse n P P' l1 l2 b /\ forall b', r ^ 2 <= mse n P P' l1 l2 b'.
Proof.
  intros Hn Hl H H'. rewrite avg_some by auto. set (ds := dlist n P P' l1 l2). pose proof (dlist_nonempty n P P' l1 l2 Hn Hl) as NE. fold ds in NE.
  exists (sqrt (lvar ds)), (lmean ds). split; [reflexivity|]. split; [apply sqrt_pos|].
  assert (S : sqrt (lvar ds) ^ 2 = lvar ds) by (rewrite <- Rsqr_pow2; apply Rsqr_sqrt, lvar_nonneg).
  rewrite S. split; [rewrite mse_eq; reflexivity|]. intros b'. rewrite mse_eq. apply (lvar_min ds b' NE).
Qed.
Lemma avg_zero n P P' l1 l2 : (0 < n)%nat -> (l1 <= l2)%nat -> filled n P l2 -> filled n P' l2 ->
  average_difference n P P' l1 l2 = Some 0 <-> exists b, forall l i, (l1 <= l <= l2)%nat -> (i < n * n)%nat -> value P l i = value P' l i + b.
Proof.
  intros Hn Hl H H'. rewrite avg_some by auto. set (ds := dlist n P P' l1 l2). pose proof (dlist_nonempty n P P' l1 l2 Hn Hl) as NE. fold ds in NE.
  assert (E : Some (sqrt (lvar ds)) = Some 0 <-> lvar ds = 0).
  { split; [intros E; injection E as E; apply sqrt_eq_0; [apply lvar_nonneg|auto]|intros ->; now rewrite sqrt_0]. }
  rewrite E, lvar_zero by auto. split; intros (c&Hc); exists c.
  - intros l i Li Ii. assert (value P l i - value P' l i = c); [|lra]. apply Hc. apply dlist_in. eauto 10.
  - intros d Hd. apply dlist_in in Hd as (l&i&Li&Ii&->). specialize (Hc l i Li Ii). lra.
Qed.

(** ** triangle inequality *)
Definition l2sum (f : nat -> R) (ks : list nat) : R := lsum (map (fun k => f k ^ 2) ks).
Lemma l2_nonneg f ks : 0 <= l2sum f ks.
Proof. apply lsum_nonneg. intros x Hx. apply in_map_iff in Hx as (y&<-&_). apply sq_nonneg. Qed.
Lemma l2_quad f g ks t : l2sum (fun k => f k + t * g k) ks = l2sum f ks + 2 * t * lsum (map (fun k => f k * g k) ks) + t ^ 2 * l2sum g ks.
Proof. unfold l2sum. induction ks as [|k ks IH]; [cbn; ring|]. cbn [map lsum fold_right]. unfold lsum in IH. rewrite IH. ring. Qed.
Lemma cauchy f g ks : lsum (map (fun k => f k * g k) ks) <= sqrt (l2sum f ks) * sqrt (l2sum g ks).
Proof.
  set (c := lsum _). pose proof (l2_nonneg f ks) as A. pose proof (l2_nonneg g ks) as B.
  destruct (Rle_dec c 0) as [N|P]; [apply Rle_trans with 0; [auto|apply Rmult_le_pos; apply sqrt_pos]|].
  rewrite <- sqrt_mult by auto. apply Rsqr_incr_0; [|lra|apply sqrt_pos]. rewrite Rsqr_sqrt by (apply Rmult_le_pos; auto). unfold Rsqr.
  destruct (Req_dec (l2sum g ks) 0) as [Z|NZ].
  - exfalso. pose proof (l2_nonneg (fun k => f k + (- (l2sum f ks + 1) / (2 * c)) * g k) ks) as Q. rewrite l2_quad, Z in Q. fold c in Q.
    replace (2 * (- (l2sum f ks + 1) / (2 * c)) * c) with (- (l2sum f ks + 1)) in Q by (field; lra). lra.
  - pose proof (l2_nonneg (fun k => f k + (- c / l2sum g ks) * g k) ks) as Q. rewrite l2_quad in Q. fold c in Q.
    assert (G : 0 < l2sum g ks) by lra.
    replace (l2sum f ks + 2 * (- c / l2sum g ks) * c + (- c / l2sum g ks) ^ 2 * l2sum g ks) with ((l2sum f ks * l2sum g ks - c * c) / l2sum g ks) in Q by (field; lra).
    assert (0 <= l2sum f ks * l2sum g ks - c * c); [|lra].
    apply Rmult_le_reg_r with (/ l2sum g ks); [now apply Rinv_0_lt_compat|]. unfold Rdiv in Q. lra.
Qed.
Lemma minkowski f g ks : sqrt (l2sum (fun k => f k + g k) ks) <= sqrt (l2sum f ks) + sqrt (l2sum g ks).
Proof.
  pose proof (sqrt_pos (l2sum f ks)). pose proof (sqrt_pos (l2sum g ks)).
  apply Rsqr_incr_0; [|apply sqrt_pos|lra]. rewrite Rsqr_sqrt by apply l2_nonneg.
  rewrite Rsqr_plus, !Rsqr_sqrt by apply l2_nonneg. pose proof (cauchy f g ks) as C. pose proof (l2_quad f g ks 1) as E.
  replace (l2sum (fun k => f k + g k) ks) with (l2sum (fun k => f k + 1 * g k) ks) by (unfold l2sum; f_equal; apply map_ext; intros; ring).
  rewrite E. lra.
Qed.
(** the difference list is indexed by positions *)
Lemma dlist_add n P P' P'' l1 l2 : dlist n P P'' l1 l2 = map (fun p => fst p + snd p) (combine (dlist n P P' l1 l2) (dlist n P' P'' l1 l2)).
Proof.
  unfold dlist. generalize (seq l1 (l2 + 1 - l1)). induction l as [|l ls IH]; [reflexivity|]. cbn [flat_map].
  set (A := map (fun i => value P l i - value P' l i) (seq 0 (n * n))). set (B := map (fun i => value P' l i - value P'' l i) (seq 0 (n * n))).
  assert (E : forall (a b a' b' : list R), length a = length b -> combine (a ++ a') (b ++ b') = combine a b ++ combine a' b').
  { induction a as [|x a IHa]; intros [|y b] a' b' HL; try discriminate; [reflexivity|]. cbn. f_equal. apply IHa. injection HL; auto. }
  rewrite E by (unfold A, B; now rewrite !map_length). rewrite map_app, <- IH. f_equal. unfold A, B.
  generalize (seq 0 (n * n)). induction l0 as [|i is IHi]; [reflexivity|]. cbn [map combine fst snd]. f_equal; [ring|]. apply IHi.
Qed.
Lemma sd_triangle ds es : length ds = length es -> 
  sqrt (lvar (map (fun p => fst p + snd p) (combine ds es))) <= sqrt (lvar ds) + sqrt (lvar es).
Proof.
  intros L. destruct ds as [|d0 ds0]; [destruct es; [|discriminate]; cbn; unfold lvar; cbn; unfold Rdiv; rewrite Rmult_0_l, sqrt_0; lra|].
  set (ds := d0 :: ds0) in *. assert (NE : 0 < INR (length ds)) by (apply len_pos; discriminate). set (fs := map _ _).
  assert (LF : length fs = length ds) by (unfold fs; rewrite map_length, combine_length; lia).
  assert (IDX : forall l : list R, l = map (fun k => nth k l 0) (seq 0 (length l))).
  { induction l as [|x l IH]; [reflexivity|]. cbn [length seq map]. cbn [nth]. f_equal. rewrite <- seq_shift, map_map. exact IH. }
  assert (V : forall l, length l = length ds -> lvar l = l2sum (fun k => nth k l 0 - lmean l) (seq 0 (length ds)) / INR (length ds)).
  { intros l HL. unfold lvar. rewrite HL. f_equal. set (g := fun d => (d - lmean l) ^ 2).
    assert (G : map g l = map (fun k => g (nth k l 0)) (seq 0 (length l))) by (rewrite <- (map_map (fun k => nth k l 0) g), <- IDX; reflexivity).
    rewrite G, HL. reflexivity. }
  assert (SM : lsum fs = lsum ds + lsum es).
  { unfold fs. clear -L. revert es L. generalize ds. induction ds1 as [|x a IH]; intros [|y b] L; try discriminate; [cbn; ring|].
    cbn [combine map fst snd lsum fold_right]. unfold lsum in IH. rewrite IH by (injection L; auto). ring. }
  rewrite (V fs LF), (V ds eq_refl), (V es (eq_sym L)).
  rewrite !sqrt_div by (try apply l2_nonneg; auto). rewrite <- Rdiv_plus_distr. apply Rmult_le_compat_r; [left; apply Rinv_0_lt_compat, sqrt_lt_R0; auto|].
  eapply Rle_trans; [|apply minkowski]. right. f_equal. unfold l2sum. f_equal. apply map_ext_in. intros k Hk. apply in_seq in Hk. f_equal.
  assert (M : lmean fs = lmean ds + lmean es) by (unfold lmean; rewrite LF, <- L, SM; field; lra). rewrite M.
  assert (nth k fs 0 = nth k ds 0 + nth k es 0); [|lra].
  rewrite (nth_indep fs 0 ((fun p => fst p + snd p) (0, 0))) by lia. unfold fs. rewrite (map_nth (fun p => fst p + snd p)), combine_nth by auto. reflexivity.
Qed.
Lemma avg_triangle n P P' P'' l1 l2 : (l1 <= l2)%nat -> filled n P l2 -> filled n P' l2 -> filled n P'' l2 ->
  exists a b c, average_difference n P P' l1 l2 = Some a /\ average_difference n P' P'' l1 l2 = Some b /\ average_difference n P P'' l1 l2 = Some c /\ c <= a + b.
Proof.
  intros Hl H H' H''. rewrite !avg_some by auto. do 3 eexists. split; [reflexivity|]. split; [reflexivity|]. split; [reflexivity|].
  rewrite (dlist_add n P P' P''). apply sd_triangle. now rewrite !dlist_length.
Qed.
