(** Candidate generation enumerates the grid (C37). *)
From Coq Require Import List ZArith Bool Lia FinFun.
From Verif Require Import Util FsetModel CandModel CandSpec.
Import ListNotations.
Local Open Scope Z_scope.

Lemma in_axis n u : 0 <= n -> (In u (axis n) <-> - n <= u <= n).
Proof.
  intros Hn. unfold axis. rewrite in_map_iff. split.
  - intros (k & <- & Hk). apply in_seq in Hk. lia.
  - intros H. exists (Z.to_nat (u + n)). split; [lia|]. apply in_seq. lia.
Qed.
Lemma nodup_axis n : NoDup (axis n).
Proof. apply FinFun.Injective_map_NoDup; [intros a b; lia|apply seq_NoDup]. Qed.
Lemma in_grid n u v : 0 <= n -> (In (u, v) (grid n) <-> (- n <= u <= n) /\ (- n <= v <= n)).
Proof.
  intros Hn. unfold grid. rewrite in_flat_map. split.
  - intros (a & Ha & Hv). apply in_map_iff in Hv as (b & E & Hb). injection E as -> ->. apply in_axis in Ha, Hb; auto.
  - intros [Hu Hv]. exists u. split; [now apply in_axis|]. apply in_map. now apply in_axis.
Qed.
Lemma nodup_grid n : NoDup (grid n).
Proof.
  unfold grid. assert (G : forall l : list Z, NoDup l -> NoDup (flat_map (fun u => map (pair u) (axis n)) l)).
  { induction l as [|a l IH]; intros H; cbn; [constructor|]. inversion H as [|? ? Na Nl]; subst.
    assert (A : NoDup (map (pair a) (axis n))) by (apply FinFun.Injective_map_NoDup; [intros x y; congruence|apply nodup_axis]).
    revert A. generalize (map_length (pair a) (axis n)). intros _.
    assert (D : forall p, In p (map (pair a) (axis n)) -> ~ In p (flat_map (fun u => map (pair u) (axis n)) l)).
    { intros p Hp Hq. apply in_map_iff in Hp as (b & <- & _). apply in_flat_map in Hq as (c & Hc & Hq). apply in_map_iff in Hq as (d & E & _). injection E as -> ->. contradiction. }
    revert D. generalize (map (pair a) (axis n)) as m. induction m as [|p m IHm]; intros D A; cbn; [now apply IH|].
    inversion A; subst. constructor; [|apply IHm; [intros q Hq; apply D; now right|assumption]].
    rewrite in_app_iff. intros [K|K]; [contradiction|]. apply (D p); [now left|exact K]. }
  apply G, nodup_axis.
Qed.
Lemma length_axis n : length (axis n) = Z.to_nat (2 * n + 1).
Proof. unfold axis. now rewrite map_length, seq_length. Qed.
Lemma length_grid n : length (grid n) = (Z.to_nat (2 * n + 1) * Z.to_nat (2 * n + 1))%nat.
Proof.
  unfold grid. assert (G : forall l : list Z, length (flat_map (fun u => map (pair u) (axis n)) l) = (length l * Z.to_nat (2 * n + 1))%nat).
  { induction l as [|a l IH]; [reflexivity|]. cbn. rewrite app_length, map_length, length_axis, IH. reflexivity. }
  rewrite G, length_axis. reflexivity.
Qed.

(** the [k]-th sample of the grid *)
Lemma nth_axis n k : (k < Z.to_nat (2 * n + 1))%nat -> nth_error (axis n) k = Some (Z.of_nat k - n).
Proof.
  intros H. unfold axis. rewrite nth_error_map. assert (E : nth_error (seq 0 (Z.to_nat (2 * n + 1))) k = Some k).
  { rewrite (nth_error_nth' _ 0%nat) by (now rewrite seq_length). now rewrite seq_nth. }
  now rewrite E.
Qed.
Lemma nth_flat {A B} (f : A -> list B) (w : nat) l a b : (forall x, In x l -> length (f x) = w) -> (b < w)%nat ->
  nth_error (flat_map f l) (a * w + b) = match nth_error l a with Some x => nth_error (f x) b | None => None end.
Proof.
  intros Hw Hb. revert a. induction l as [|x l IH]; intros a; cbn [flat_map].
  - rewrite (proj2 (nth_error_None _ _)) by (cbn; lia). destruct a; reflexivity.
  - destruct a as [|a].
    + cbn. rewrite nth_error_app1; [reflexivity|]. rewrite Hw; [exact Hb|now left].
    + rewrite nth_error_app2; rewrite Hw; try (now left); [|nia]. replace (S a * w + b - w)%nat with (a * w + b)%nat by nia.
      apply IH. intros y Hy. apply Hw. now right.
Qed.
Lemma nth_grid n k : 0 <= n -> (k < length (grid n))%nat ->
  nth_error (grid n) k = Some (Z.quot (Z.of_nat k) (2 * n + 1) - n, Z.rem (Z.of_nat k) (2 * n + 1) - n).
Proof.
  intros Hn Hk. rewrite length_grid in Hk. set (w := Z.to_nat (2 * n + 1)) in *. assert (Ew : 2 * n + 1 = Z.of_nat w) by lia. assert (W : (0 < w)%nat) by lia.
  rewrite Z.quot_div_nonneg, Z.rem_mod_nonneg by lia. rewrite Ew, <- Nat2Z.inj_div, <- Nat2Z.inj_mod.
  rewrite (Nat.div_mod k w) at 1 by lia. rewrite (Nat.mul_comm w). unfold grid. rewrite (nth_flat _ w).
  - rewrite nth_axis by (apply Nat.div_lt_upper_bound; lia). rewrite nth_error_map, nth_axis by (apply Nat.mod_upper_bound; lia). reflexivity.
  - intros x _. rewrite map_length. apply length_axis.
  - apply Nat.mod_upper_bound. lia.
Qed.

Lemma grid_len n : 0 <= n -> Z.of_nat (length (grid n)) = (2 * n + 1) * (2 * n + 1).
Proof. intros Hn. rewrite length_grid. nia. Qed.

Section P.
Variable n : Z.
Variable inside : Z -> Z -> bool.
Hypothesis Hn : 0 <= n.
Hypothesis Hmax : (2 * n + 1) * (2 * n + 1) < int_max.
Notation g := (grid n).
Notation ok := (fun p : Z * Z => inside (fst p) (snd p)).

Let len_g := grid_len n Hn.

(** what remains to be visited when the counter is [k] *)
Lemma next_ok : forall m k fuel, (length g - k <= m)%nat -> (k <= length g)%nat -> (m < fuel)%nat ->
  exists r k', next_sample n inside fuel (Z.of_nat k) = Ok (r, Z.of_nat k') /\ (k < k')%nat /\
   match filter ok (skipn k g) with
   | [] => r = None /\ k' = S (length g)
   | p :: l => r = Some p /\ (k' <= length g)%nat /\ l = filter ok (skipn k' g)
   end.
Proof.
  induction m as [|m IH]; intros k fuel Hm Hk Hf; (destruct fuel as [|fuel]; [lia|]); pose proof len_g as LG.
  - assert (k = length g) by lia. subst k. exists None, (S (length g)). cbn [next_sample].
    replace (int_max <? Z.of_nat (length g) + 1) with false by (symmetry; apply Z.ltb_ge; lia).
    replace (Z.of_nat (length g) + 1 =? 0) with false by (symmetry; apply Z.eqb_neq; lia).
    replace (2 * n + 1 =? 0) with false by (symmetry; apply Z.eqb_neq; lia). rewrite Z.add_simpl_r, LG, Z.quot_mul by lia.
    replace (n <? 2 * n + 1 - n) with true by (symmetry; apply Z.ltb_lt; lia). rewrite <- LG. split; [f_equal; f_equal; lia|]. split; [lia|].
    now rewrite skipn_all.
  - destruct (Nat.eq_dec k (length g)) as [->|NE]; [apply IH; lia|].
    assert (Lk : (k < length g)%nat) by lia. pose proof (nth_grid n k Hn Lk) as NG.
    set (u := Z.quot (Z.of_nat k) (2 * n + 1) - n) in *. set (v := Z.rem (Z.of_nat k) (2 * n + 1) - n) in *.
    assert (Bu : u <= n). { apply nth_error_In in NG. apply in_grid in NG; lia. }
    assert (SK : skipn k g = (u, v) :: skipn (S k) g).
    { clear - NG. clearbody u v. revert NG. generalize g as l. induction k as [|k IH]; intros [|a l] H; cbn in *; try discriminate; [now injection H as ->|]. now apply IH. }
    cbn [next_sample].
    replace (int_max <? Z.of_nat k + 1) with false by (symmetry; apply Z.ltb_ge; lia).
    replace (Z.of_nat k + 1 =? 0) with false by (symmetry; apply Z.eqb_neq; lia).
    replace (2 * n + 1 =? 0) with false by (symmetry; apply Z.eqb_neq; lia). rewrite Z.add_simpl_r. fold u v.
    replace (n <? u) with false by (symmetry; apply Z.ltb_ge; lia). rewrite SK. cbn [filter fst snd].
    replace (Z.of_nat k + 1) with (Z.of_nat (S k)) by lia.
    destruct (inside u v).
    + exists (Some (u, v)), (S k). split; [reflexivity|]. split; [lia|]. split; [reflexivity|]. split; [lia|reflexivity].
    + destruct (IH (S k) fuel) as (r & k' & E & L & M); try lia. exists r, k'. split; [exact E|]. split; [lia|exact M].
Qed.

(** once exhausted, always exhausted *)
Lemma next_done fuel k : (length g <= k)%nat -> Z.of_nat k + 1 <= int_max -> (0 < fuel)%nat ->
  next_sample n inside fuel (Z.of_nat k) = Ok (None, Z.of_nat (S k)).
Proof.
  intros Hk Hb Hf. destruct fuel as [|fuel]; [lia|]. cbn [next_sample]. pose proof len_g as LG.
  replace (int_max <? Z.of_nat k + 1) with false by (symmetry; apply Z.ltb_ge; lia).
  replace (Z.of_nat k + 1 =? 0) with false by (symmetry; apply Z.eqb_neq; lia).
  replace (2 * n + 1 =? 0) with false by (symmetry; apply Z.eqb_neq; lia). rewrite Z.add_simpl_r.
  assert (Q : 2 * n + 1 <= Z.quot (Z.of_nat k) (2 * n + 1)).
  { rewrite Z.quot_div_nonneg by lia. apply Z.div_le_lower_bound; lia. }
  replace (n <? Z.quot (Z.of_nat k) (2 * n + 1) - n) with true by (symmetry; apply Z.ltb_lt; lia). f_equal. f_equal. lia.
Qed.

Lemma samples_done fuel j : forall k, (length g <= k)%nat -> Z.of_nat k + Z.of_nat j <= int_max -> (0 < fuel)%nat ->
  samples n inside fuel j (Z.of_nat k) = Ok (repeat None j, Z.of_nat (k + j)).
Proof.
  induction j as [|j IH]; intros k Hk Hb Hf; cbn [samples repeat]; [now rewrite Nat.add_0_r|].
  rewrite next_done by lia. cbn [rbind fst snd]. rewrite IH by lia. cbn [rbind fst snd]. f_equal. f_equal. lia.
Qed.

Lemma samples_from fuel : (length g < fuel)%nat -> forall l k, (k <= length g)%nat -> filter ok (skipn k g) = l ->
  forall j, Z.of_nat (length g) + Z.of_nat j <= int_max ->
  exists c, samples n inside fuel (length l + j) (Z.of_nat k) = Ok (map Some l ++ repeat None j, c).
Proof.
  intros Hf. induction l as [|p l IH]; intros k Hk Hl j Hj; cbn [length plus samples map app].
  - destruct j as [|j]; [eexists; reflexivity|]. cbn [samples repeat].
    destruct (next_ok (length g - k) k fuel) as (r & k' & E & L & M); try lia. rewrite Hl in M. destruct M as [-> ->]. rewrite E. cbn [rbind fst snd].
    rewrite samples_done by lia. cbn [rbind fst snd]. eexists. reflexivity.
  - destruct (next_ok (length g - k) k fuel) as (r & k' & E & L & M); try lia. rewrite Hl in M. destruct M as (-> & L' & M). rewrite E. cbn [rbind fst snd].
    destruct (IH k' L' (eq_sym M) j Hj) as (c & ->). cbn [rbind fst snd]. eexists. reflexivity.
Qed.

Lemma samples_all fuel j : (length g < fuel)%nat -> Z.of_nat (length g) + Z.of_nat j <= int_max ->
  exists c, samples n inside fuel (length (filter ok g) + j) 0 = Ok (map Some (filter ok g) ++ repeat None j, c).
Proof. intros Hf Hj. apply (samples_from fuel Hf (filter ok g) 0); [lia|reflexivity|exact Hj]. Qed.
End P.

(** a grid too large for the counter: undefined behaviour when nothing is inside the ellipse *)
Lemma overflow n : 0 <= n -> int_max <= (2 * n + 1) * (2 * n + 1) -> exists fuel0, forall fuel, (fuel0 <= fuel)%nat -> next_sample n (fun _ _ => false) fuel 0 = UB.
Proof.
  intros Hn Hb. assert (G : forall m k, int_max - k = Z.of_nat m -> 0 <= k -> forall fuel, (S m <= fuel)%nat -> next_sample n (fun _ _ => false) fuel k = UB).
  { induction m as [|m IH]; intros k Hk H0 fuel Hf; (destruct fuel as [|fuel]; [lia|]); cbn [next_sample].
    - replace (int_max <? k + 1) with true by (symmetry; apply Z.ltb_lt; lia). reflexivity.
    - replace (int_max <? k + 1) with false by (symmetry; apply Z.ltb_ge; lia).
      replace (k + 1 =? 0) with false by (symmetry; apply Z.eqb_neq; lia).
      replace (2 * n + 1 =? 0) with false by (symmetry; apply Z.eqb_neq; lia). rewrite Z.add_simpl_r.
      assert (Q : Z.quot k (2 * n + 1) < 2 * n + 1) by (rewrite Z.quot_div_nonneg by lia; apply Z.div_lt_upper_bound; lia).
      replace (n <? Z.quot k (2 * n + 1) - n) with false by (symmetry; apply Z.ltb_ge; lia). apply IH; lia. }
  exists (S (Z.to_nat int_max)). intros fuel Hf. apply (G (Z.to_nat int_max) 0); [|lia|exact Hf]. rewrite Z2Nat.id; [lia|]. unfold int_max. lia.
Qed.
