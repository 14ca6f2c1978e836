(** Proofs for the covariance area. *)
From Coq Require Import List Reals Arith Bool Lia Lra Permutation.
From Verif Require Import AlignModel AlignLoop CovModel CovSpec.
Import ListNotations.
Local Open Scope R_scope.

(** ** layout *)
Lemma size_of_app a b : size_of (a ++ b) = (size_of a + size_of b)%nat.
Proof. unfold size_of. induction a as [|x a IH]; cbn; [reflexivity|]. rewrite IH. lia. Qed.
Lemma state_ids ncam nmax npose : let l := state_layout ncam nmax npose in
  get_id l _pos 0 = 0%nat /\ get_id l _vel 0 = 3%nat /\ get_id l _acb 0 = 6%nat /\ get_id l _gyb 0 = 9%nat /\ get_id l _att 0 = 12%nat /\
  (forall i, get_id l _vep i = 15 + 3 * i)%nat /\ (forall i, get_id l _vea i = 15 + 3 * ncam + 3 * i)%nat /\
  (forall i, get_id l _fea i = 15 + 6 * ncam + 3 * i)%nat /\
  (forall i, get_id l _pop i = 15 + 6 * ncam + 3 * nmax + 3 * i)%nat /\
  (forall i, get_id l _poa i = 15 + 6 * ncam + 3 * nmax + 3 * npose + 3 * i)%nat /\
  (size_of l = 15 + 6 * ncam + 3 * nmax + 6 * npose)%nat.
Proof. cbv zeta. unfold get_id, size_of. cbn. repeat split; intros; lia. Qed.
(** every index belongs to exactly one sub-element *)
Lemma get_id_cover l k : (k < size_of l)%nat -> exists e i, (e < length l)%nat /\ (i < fst (nth e l (0, 0)%nat))%nat /\
  (get_id l e i <= k < get_id l e i + snd (nth e l (0, 0)%nat))%nat.
Proof.
  unfold get_id. revert k. induction l as [|[c d] l IH]; intros k H; [cbn in H; lia|]. cbn [size_of fold_right fst snd] in H.
  destruct (Nat.lt_ge_cases k (c * d)) as [L|L].
  - exists 0%nat, (k / d)%nat. cbn [firstn size_of fold_right nth fst snd length]. assert (d <> 0)%nat by lia.
    pose proof (Nat.mod_upper_bound k d H0). pose proof (Nat.div_mod k d H0).
    assert (k / d < c)%nat by (apply Nat.div_lt_upper_bound; lia). repeat split; lia.
  - destruct (IH (k - c * d)%nat) as (e&i&He&Hi&Hk); [unfold size_of; lia|]. exists (S e), i.
    cbn [firstn nth length]. change (size_of ((c, d) :: firstn e l)) with (c * d + size_of (firstn e l))%nat. repeat split; try lia; auto.
Qed.
Lemma size_firstn_le l e : (size_of (firstn e l) <= size_of l)%nat.
Proof. rewrite <- (firstn_skipn e l) at 2. rewrite size_of_app. lia. Qed.
Lemma get_id_end l e i : (e < length l)%nat -> (i < fst (nth e l (0, 0)%nat))%nat ->
  (get_id l e i + snd (nth e l (0, 0)%nat) <= size_of (firstn (S e) l))%nat.
Proof.
  unfold get_id. revert e i. induction l as [|[c d] l IH]; intros e i He Hi; [cbn in He; lia|]. destruct e.
  - cbn in *. nia.
  - cbn [firstn nth length] in *. specialize (IH e i ltac:(lia) Hi). cbn [firstn] in IH.
    change (size_of ((c, d) :: ?x)) with (c * d + size_of x)%nat. lia.
Qed.
Lemma firstn_mono l a b : (a <= b)%nat -> (size_of (firstn a l) <= size_of (firstn b l))%nat.
Proof.
  intros H. rewrite <- (firstn_skipn a (firstn b l)), size_of_app, firstn_firstn, Nat.min_l by lia. lia.
Qed.
Lemma get_id_disjoint l e i e' i' k : (e < length l)%nat -> (i < fst (nth e l (0, 0)%nat))%nat -> (e' < length l)%nat -> (i' < fst (nth e' l (0, 0)%nat))%nat ->
  (get_id l e i <= k < get_id l e i + snd (nth e l (0, 0)%nat))%nat -> (get_id l e' i' <= k < get_id l e' i' + snd (nth e' l (0, 0)%nat))%nat ->
  e = e' /\ i = i'.
Proof.
  intros He Hi He' Hi' H H'. pose proof (get_id_end l e i He Hi). pose proof (get_id_end l e' i' He' Hi').
  assert (e = e').
  { destruct (Nat.lt_trichotomy e e') as [L|[E|L]]; [|exact E|].
    - pose proof (firstn_mono l (S e) e' L). unfold get_id in *. lia.
    - pose proof (firstn_mono l (S e') e L). unfold get_id in *. lia. }
  subst e'. split; [reflexivity|]. unfold get_id in *. set (d := snd _) in *. clearbody d. set (s := size_of _) in *. clearbody s.
  destruct (Nat.lt_trichotomy i i') as [L|[E|L]]; [|exact E|]; nia.
Qed.

(** ** reset *)
Lemma inb_spec r h i : inb r h i = true <-> (r <= i < r + h)%nat.
Proof. unfold inb. rewrite andb_true_iff, Nat.leb_le, Nat.ltb_lt. lia. Qed.
Lemma inb_false r h i : inb r h i = false <-> ~ (r <= i < r + h)%nat.
Proof. rewrite <- inb_spec. destruct (inb r h i); split; congruence. Qed.
Ltac binb := repeat match goal with |- context [inb ?r ?h ?i] => let E := fresh "E" in destruct (inb r h i) eqn:E; [apply inb_spec in E|apply inb_false in E] end.
Definition reset_expected (id : nat) (init cov : mat) (i j : nat) : R :=
  if inb id 3 i then (if inb id 3 j then init (init_index id i) (init_index id j) else 0)
  else if inb id 3 j then 0 else cov i j.
Lemma reset_value D id init cov i j : (id + 3 <= D)%nat -> (i < D)%nat -> (j < D)%nat ->
  reset_feature D id init cov i j = reset_expected id init cov i j.
Proof.
  intros HD Hi Hj. unfold reset_feature, set_block, zero, sub, reset_expected, init_index.
  binb; cbn [andb]; try lia; try reflexivity;
    repeat match goal with |- context [Nat.eqb ?a ?b] => destruct (Nat.eqb_spec a b); try lia end; try reflexivity; f_equal; lia.
Qed.

(** ** quadratic forms *)
Lemma fsum_nonneg n f : (forall i, (i < n)%nat -> 0 <= f i) -> 0 <= fsum n f.
Proof. induction n as [|n IH]; intros H; cbn; [lra|]. pose proof (H n ltac:(lia)). specialize (IH ltac:(auto)). lra. Qed.
Lemma fsum_block n id g : (id + 3 <= n)%nat -> fsum n (fun i => if inb id 3 i then g (i - id)%nat else 0) = fsum 3 g.
Proof.
  intros H. replace n with (id + (3 + (n - id - 3)))%nat by lia. rewrite !fsum_split.
  rewrite (fsum_ext id _ (fun _ => 0)), fsum_zero by (intros i Hi; binb; [lia|reflexivity]).
  rewrite (fsum_ext (n - id - 3) _ (fun _ => 0)), fsum_zero by (intros i Hi; binb; [lia|reflexivity]).
  rewrite (fsum_ext 3 _ g); [ring|]. intros i Hi. binb; [|lia]. f_equal. lia.
Qed.
Lemma quad_ext n a b x : (forall i j, (i < n)%nat -> (j < n)%nat -> a i j = b i j) -> quad n a x = quad n b x.
Proof. intros H. unfold quad. apply fsum_ext. intros i Hi. apply fsum_ext. intros j Hj. rewrite H by auto. ring. Qed.
Lemma quad_plus n a b x : quad n (fun i j => a i j + b i j) x = quad n a x + quad n b x.
Proof. unfold quad. rewrite <- fsum_plus. apply fsum_ext. intros i Hi. rewrite <- fsum_plus. apply fsum_ext. intros. ring. Qed.
Lemma quad_block n id f x : (id + 3 <= n)%nat ->
  quad n (fun i j => if inb id 3 i then (if inb id 3 j then f (i - id)%nat (j - id)%nat else 0) else 0) x = quad 3 f (fun k => x (id + k)%nat).
Proof.
  intros H. unfold quad. rewrite <- (fsum_block n id) by auto. apply fsum_ext. intros i Hi. binb.
  - rewrite <- (fsum_block n id) by auto. apply fsum_ext. intros j Hj. binb; [|ring]. replace (id + (i - id))%nat with i by lia. replace (id + (j - id))%nat with j by lia. reflexivity.
  - rewrite (fsum_ext n _ (fun _ => 0)) by (intros; ring). apply fsum_zero.
Qed.
Lemma reset_quad D id init cov x : (id + 3 <= D)%nat ->
  quad D (reset_feature D id init cov) x =
  quad D cov (fun i => if inb id 3 i then 0 else x i) + quad 3 init (fun k => x (id + match k with O => 2 | S k => k end)%nat).
Proof.
  intros H. transitivity (quad D (fun i j => (if inb id 3 i then 0 else 1) * cov i j * (if inb id 3 j then 0 else 1)) x +
    quad 3 (fun a b => init (init_index 0 a) (init_index 0 b)) (fun k => x (id + k)%nat)).
  - rewrite <- (quad_block D id) by auto. rewrite <- quad_plus. apply quad_ext. intros i j Hi Hj. rewrite reset_value by auto. unfold reset_expected, init_index.
    binb; try ring. repeat match goal with |- context [Nat.eqb ?a ?b] => destruct (Nat.eqb_spec a b); try lia end; rewrite ?Nat.sub_0_r; ring.
  - f_equal.
    + unfold quad. apply fsum_ext. intros i Hi. apply fsum_ext. intros j Hj. binb; ring.
    + unfold quad. cbn [fsum init_index Nat.eqb Nat.sub Nat.add]. rewrite !Nat.add_0_r. ring.
Qed.
Lemma reset_symmetric D id init cov : (id + 3 <= D)%nat -> symmetric D cov -> symmetric 3 init -> symmetric D (reset_feature D id init cov).
Proof.
  intros H S I i j Hi Hj. rewrite !reset_value by auto. unfold reset_expected. binb; auto. apply I; unfold init_index;
  match goal with |- context [Nat.eqb ?a ?b] => destruct (Nat.eqb_spec a b); lia end.
Qed.
Lemma reset_psd D id init cov : (id + 3 <= D)%nat -> psd D cov -> psd 3 init -> psd D (reset_feature D id init cov).
Proof. intros H P I x. rewrite reset_quad by auto. pose proof (P (fun i => if inb id 3 i then 0 else x i)). pose proof (I (fun k => x (id + match k with O => 2 | S k => k end)%nat)). lra. Qed.

(** ** congruence, sub-matrices *)
Lemma fsum_mult_l n c f : fsum n (fun i => c * f i) = c * fsum n f. Proof. apply fsum_scale. Qed.
Lemma fsum_mult_r n c f : fsum n (fun i => f i * c) = fsum n f * c.
Proof. rewrite (fsum_ext n _ (fun i => c * f i)) by (intros; ring). rewrite fsum_scale. ring. Qed.
Lemma fsum4 n D (F : nat -> nat -> nat -> nat -> R) :
  fsum n (fun i => fsum n (fun j => fsum D (fun k => fsum D (fun l => F i j k l)))) =
  fsum D (fun k => fsum D (fun l => fsum n (fun i => fsum n (fun j => F i j k l)))).
Proof.
  transitivity (fsum n (fun i => fsum D (fun k => fsum n (fun j => fsum D (fun l => F i j k l))))).
  { apply fsum_ext. intros i Hi. apply fsum_swap. }
  rewrite fsum_swap. apply fsum_ext. intros k Hk.
  transitivity (fsum n (fun i => fsum D (fun l => fsum n (fun j => F i j k l)))).
  { apply fsum_ext. intros i Hi. apply fsum_swap. }
  apply fsum_swap.
Qed.
Lemma fsum_prod n a b : fsum n a * fsum n b = fsum n (fun i => fsum n (fun j => a i * b j)).
Proof. rewrite <- fsum_mult_r. apply fsum_ext. intros i Hi. rewrite fsum_scale. reflexivity. Qed.
Lemma transform_quad n D jac cov y : quad n (transform_cov n D jac cov) y = quad D cov (fun k => fsum n (fun i => y i * jac i k)).
Proof.
  unfold quad, transform_cov.
  transitivity (fsum n (fun i => fsum n (fun j => fsum D (fun k => fsum D (fun l => (y i * jac i k) * cov k l * (y j * jac j l)))))).
  { apply fsum_ext; intros i Hi. apply fsum_ext; intros j Hj. rewrite <- fsum_scale, <- fsum_mult_r. apply fsum_ext; intros k Hk.
    rewrite <- fsum_scale, <- fsum_mult_r. apply fsum_ext; intros l Hl. ring. }
  rewrite fsum4. apply fsum_ext; intros k Hk. apply fsum_ext; intros l Hl.
  rewrite (Rmult_comm (fsum n _)), Rmult_assoc, fsum_prod, <- fsum_scale. apply fsum_ext; intros i Hi. rewrite <- fsum_scale. apply fsum_ext; intros j Hj. ring.
Qed.
Lemma transform_sym n D jac cov : symmetric D cov -> symmetric n (transform_cov n D jac cov).
Proof.
  intros S i j _ _. unfold transform_cov. rewrite fsum_swap. apply fsum_ext; intros l Hl. apply fsum_ext; intros k Hk. rewrite S by auto. ring.
Qed.
Lemma transform_ok n D jac cov : covariance D cov -> covariance n (transform_cov n D jac cov).
Proof. intros [S P]. split; [now apply transform_sym|]. intros y. rewrite transform_quad. apply P. Qed.
Lemma add_block_ok n r f m : (r + 3 <= n)%nat -> covariance 3 f -> covariance n m -> covariance n (add_block r 3 f m).
Proof.
  intros H [Sf Pf] [Sm Pm]. split.
  - intros i j Hi Hj. unfold add_block. rewrite (Sm i j) by auto. binb; cbn [andb]; try reflexivity. f_equal. apply Sf; lia.
  - intros x. rewrite (quad_ext n _ (fun i j => m i j + (if inb r 3 i then (if inb r 3 j then f (i - r)%nat (j - r)%nat else 0) else 0))).
    + rewrite quad_plus, quad_block by auto. pose proof (Pm x). pose proof (Pf (fun k => x (r + k)%nat)). lra.
    + intros i j Hi Hj. unfold add_block. binb; cbn; ring.
Qed.
Lemma rate_cov_ok D noise att dt : (att + 3 <= D)%nat -> 0 < dt -> covariance D noise -> covariance 3 (rate_cov noise att dt).
Proof.
  intros H Hd [S P]. split.
  - intros i j Hi Hj. unfold rate_cov, sub. rewrite S by lia. reflexivity.
  - intros x. pose proof (P (fun k => if inb att 3 k then x (k - att)%nat else 0)) as Q.
    rewrite (quad_ext 3 _ (fun i j => / dt * noise (att + i)%nat (att + j)%nat)) by (intros; unfold rate_cov, sub; field; lra).
    assert (E : quad D noise (fun k => if inb att 3 k then x (k - att)%nat else 0) = quad 3 (fun i j => noise (att + i) (att + j))%nat x).
    { unfold quad. rewrite <- (fsum_block D att (fun i => fsum 3 (fun j => x i * noise (att + i)%nat (att + j)%nat * x j))) by auto. apply fsum_ext. intros i Hi. binb.
      - rewrite <- (fsum_block D att (fun j => x (i - att)%nat * noise (att + (i - att))%nat (att + j)%nat * x j)) by auto. apply fsum_ext. intros j Hj. binb; [|ring].
        replace (att + (i - att))%nat with i by lia. replace (att + (j - att))%nat with j by lia. reflexivity.
      - rewrite (fsum_ext D _ (fun _ => 0)) by (intros; ring). apply fsum_zero. }
    rewrite E in Q. unfold quad in *. rewrite (fsum_ext 3 _ (fun i => / dt * fsum 3 (fun j => x i * noise (att + i)%nat (att + j)%nat * x j))).
    + rewrite fsum_scale. apply Rmult_le_pos; [|exact Q]. left. now apply Rinv_0_lt_compat.
    + intros i Hi. rewrite <- fsum_scale. apply fsum_ext. intros j Hj. ring.
Qed.
Lemma add_block_quad n r f m x : (r + 3 <= n)%nat -> quad n (add_block r 3 f m) x = quad n m x + quad 3 f (fun k => x (r + k)%nat).
Proof.
  intros H. rewrite (quad_ext n _ (fun i j => m i j + (if inb r 3 i then (if inb r 3 j then f (i - r)%nat (j - r)%nat else 0) else 0))).
  - rewrite quad_plus, quad_block by auto. reflexivity.
  - intros i j Hi Hj. unfold add_block. binb; cbn; ring.
Qed.
Lemma rate_cov_quad D noise att dt x : (att + 3 <= D)%nat -> dt <> 0 ->
  quad 3 (rate_cov noise att dt) x = quad D noise (fun k => if inb att 3 k then x (k - att)%nat else 0) / dt.
Proof.
  intros H Hd. rewrite (quad_ext 3 _ (fun i j => / dt * noise (att + i)%nat (att + j)%nat)) by (intros; unfold rate_cov, sub; field; lra).
  assert (E : quad D noise (fun k => if inb att 3 k then x (k - att)%nat else 0) = quad 3 (fun i j => noise (att + i) (att + j))%nat x).
  { unfold quad. rewrite <- (fsum_block D att (fun i => fsum 3 (fun j => x i * noise (att + i)%nat (att + j)%nat * x j))) by auto. apply fsum_ext. intros i Hi. binb.
    - rewrite <- (fsum_block D att (fun j => x (i - att)%nat * noise (att + (i - att))%nat (att + j)%nat * x j)) by auto. apply fsum_ext. intros j Hj. binb; [|ring].
      replace (att + (i - att))%nat with i by lia. replace (att + (j - att))%nat with j by lia. reflexivity.
    - rewrite (fsum_ext D _ (fun _ => 0)) by (intros; ring). apply fsum_zero. }
  rewrite E. unfold quad, Rdiv. rewrite Rmult_comm, <- fsum_scale. apply fsum_ext. intros i Hi. rewrite <- fsum_scale. apply fsum_ext. intros j Hj. ring.
Qed.
Lemma bias_entry a m i j : (i < 3)%nat -> (j < 3)%nat -> entry3 (bias_message a m) i j = m (a + i)%nat (a + j)%nat.
Proof. intros Hi Hj. destruct i as [|[|[|]]], j as [|[|[|]]]; try lia; reflexivity. Qed.
(** arbitrary index selection *)
Lemma select_quad n D (f : nat -> nat) m y : (forall i, (i < n)%nat -> (f i < D)%nat) ->
  quad n (fun i j => m (f i) (f j)) y = quad n (transform_cov n D (fun i k => if Nat.eqb k (f i) then 1 else 0) m) y.
Proof.
  intros H. apply quad_ext. intros i j Hi Hj. unfold transform_cov.
  rewrite (fsum_ext D _ (fun k => (if Nat.eqb k (f i) then 1 else 0) * m k (f j))); [now rewrite fsum_delta by auto|].
  intros k Hk. rewrite (fsum_ext D _ (fun l => (if Nat.eqb l (f j) then 1 else 0) * ((if Nat.eqb k (f i) then 1 else 0) * m k l))) by (intros; ring).
  now rewrite fsum_delta by auto.
Qed.
Lemma select_ok n D (f : nat -> nat) m : (forall i, (i < n)%nat -> (f i < D)%nat) -> covariance D m -> covariance n (fun i j => m (f i) (f j)).
Proof.
  intros H [S P]. split; [intros i j Hi Hj; apply S; auto|]. intros y. rewrite (select_quad n D) by auto. apply transform_ok; split; auto.
Qed.
Lemma cov_message_entry a b m i j : (i < 6)%nat -> (j < 6)%nat -> entry6 (cov_message a b m) i j = m (pick a b i) (pick a b j).
Proof. intros Hi Hj. unfold entry6. do 6 (destruct i; [do 6 (destruct j; [reflexivity|]); lia|]). lia. Qed.
Lemma cov_message_length a b m : length (cov_message a b m) = 36%nat. Proof. reflexivity. Qed.
Lemma covariance_ext n a b : (forall i j, (i < n)%nat -> (j < n)%nat -> a i j = b i j) -> covariance n a -> covariance n b.
Proof.
  intros H [S P]. split; [intros i j Hi Hj; rewrite <- !H by auto; now apply S|]. intros x. rewrite <- (quad_ext n a b) by auto. apply P.
Qed.
Lemma cov_message_ok D a b m : (a + 3 <= D)%nat -> (b + 3 <= D)%nat -> covariance D m -> covariance 6 (entry6 (cov_message a b m)).
Proof.
  intros Ha Hb C. apply (covariance_ext 6 (fun i j => m (pick a b i) (pick a b j))).
  - intros i j Hi Hj. now rewrite cov_message_entry.
  - apply (select_ok 6 D); [|exact C]. intros i Hi. unfold pick. destruct (Nat.leb_spec 3 i); lia.
Qed.

(** ** median *)
Lemma collect_in r slots x : In x (collect r slots) <-> exists o, In (true, o) slots /\ s_front o = true /\ s_unc o / s_depth o < r /\ s_par o = x.
Proof.
  unfold collect. rewrite in_map_iff. split.
  - intros ([v o]&E&H). apply filter_In in H as [H1 H2]. cbn in *. apply andb_true_iff in H2 as [H2 H3]. apply andb_true_iff in H2 as [-> H2].
    exists o. repeat split; auto. unfold confident in H3. destruct (Rlt_dec _ _); [auto|discriminate].
  - intros (o&H1&H2&H3&H4). exists (true, o). split; [exact H4|]. apply filter_In. split; [exact H1|]. cbn. rewrite H2. unfold confident. destruct (Rlt_dec _ _); [reflexivity|lra].
Qed.
Lemma count_perm p l l' : Permutation l l' -> count p l = count p l'.
Proof.
  unfold count. induction 1; cbn; auto.
  - destruct (p x); cbn; lia.
  - destruct (p x), (p y); cbn; lia.
  - lia.
Qed.
Lemma count_app p a b : count p (a ++ b) = (count p a + count p b)%nat.
Proof. unfold count. now rewrite filter_app, app_length. Qed.
Lemma count_le p l : (count p l <= length l)%nat.
Proof. unfold count. induction l as [|x l IH]; cbn; [lia|]. destruct (p x); cbn; lia. Qed.
Lemma count_0 p l : (forall x, In x l -> p x = false) -> count p l = 0%nat.
Proof. unfold count. induction l as [|x l IH]; intros H; cbn; [reflexivity|]. rewrite (H x) by now left. apply IH. intros; apply H. now right. Qed.
Lemma pivot_counts l k m : (k < length l)%nat -> nth k l 0 = m -> (forall j, (j < k)%nat -> nth j l 0 <= m) -> (forall j, (k < j < length l)%nat -> m <= nth j l 0) ->
  (count (below m) l <= k)%nat /\ (count (above m) l <= length l - 1 - k)%nat.
Proof.
  intros Hk Hm Lo Hi. pose proof (firstn_skipn k l) as E. assert (Lf : length (firstn k l) = k) by (rewrite firstn_length; lia).
  pose proof (skipn_length k l) as Ls. destruct (skipn k l) as [|x r] eqn:Sk; [cbn in Ls; lia|].
  assert (X : x = m). { rewrite <- Hm, <- E, app_nth2, Lf, Nat.sub_diag by lia. reflexivity. }
  cbn [length] in Ls. assert (B : forall y, In y r -> m <= y).
  { intros y Hy. apply (In_nth _ _ 0) in Hy as (j&Hj&<-). specialize (Hi (k + 1 + j)%nat ltac:(lia)). rewrite <- E, app_nth2, Lf in Hi by lia.
    replace (k + 1 + j - k)%nat with (S j) in Hi by lia. exact Hi. }
  assert (A : forall y, In y (firstn k l) -> y <= m).
  { intros y Hy. apply (In_nth _ _ 0) in Hy as (j&Hj&<-). specialize (Lo j ltac:(lia)). rewrite <- E, app_nth1 in Lo by lia. exact Lo. }
  rewrite <- E, !count_app. change (x :: r) with ([x] ++ r). rewrite !count_app.
  assert (count (below m) [x] = 0%nat /\ count (above m) [x] = 0%nat) as [C1 C2].
  { subst x. unfold count, below, above. cbn. destruct (Rlt_dec m m); [lra|]. split; reflexivity. }
  rewrite C1, C2. rewrite (count_0 (below m) r), (count_0 (above m) (firstn k l)).
  - pose proof (count_le (below m) (firstn k l)). pose proof (count_le (above m) r). rewrite !app_length. cbn [length]. lia.
  - intros y Hy. unfold above. destruct (Rlt_dec m y); [|reflexivity]. specialize (A y Hy). lra.
  - intros y Hy. unfold below. destruct (Rlt_dec y m); [|reflexivity]. specialize (B y Hy). lra.
Qed.
Lemma median_ok f init r slots : nth_element_spec f -> (3 < length (collect r slots))%nat ->
  let l := collect r slots in let m := median f init r slots in
  In m l /\ (2 * count (below m) l <= length l)%nat /\ (2 * count (above m) l <= length l)%nat.
Proof.
  intros F H l m. destruct (F l (length l / 2)%nat) as (P&Lo&Hi); [apply Nat.div_lt; unfold l; lia|].
  assert (K : (length l / 2 < length l)%nat) by (apply Nat.div_lt; unfold l; lia).
  assert (Em : m = nth (length l / 2) (f l (length l / 2)%nat) 0). { unfold m, median. fold l. destruct (Nat.ltb_spec 3 (length l)); [reflexivity|unfold l in *; lia]. }
  pose proof (Permutation_length P) as LP.
  destruct (pivot_counts (f l (length l / 2)%nat) (length l / 2)%nat m) as [C1 C2]; [lia|now rewrite Em|rewrite Em; exact Lo|rewrite Em, <- LP; exact Hi|].
  rewrite <- LP in C2. rewrite <- (count_perm _ l _ P) in C1. rewrite <- (count_perm _ l _ P) in C2. pose proof (Nat.div_mod (length l) 2 ltac:(lia)). pose proof (Nat.mod_upper_bound (length l) 2 ltac:(lia)).
  split; [|lia]. apply (Permutation_in _ (Permutation_sym P)). rewrite Em. apply nth_In. lia.
Qed.
(** counting bounds pin the value: any two elements at the same rank are equal *)
Lemma rank_unique l k m m' : In m l -> In m' l -> (count (below m) l <= k)%nat -> (count (above m) l <= length l - 1 - k)%nat ->
  (count (below m') l <= k)%nat -> (count (above m') l <= length l - 1 - k)%nat -> (k < length l)%nat -> m = m'.
Proof.
  assert (G : forall m m', m < m' -> (count (above m) l <= length l - 1 - k)%nat -> (count (below m') l <= k)%nat -> (k < length l)%nat -> False).
  { clear. intros m m' L A B K. assert (length l <= count (above m) l + count (below m') l)%nat; [|lia].
    clear A B K. unfold count. induction l as [|x l IH]; cbn; [lia|]. unfold above at 1, below at 1.
    destruct (Rlt_dec m x), (Rlt_dec x m'); cbn; lia || lra. }
  intros _ _ B A B' A' K. destruct (Rtotal_order m m') as [L|[E|L]]; [|exact E|]; exfalso; [apply (G m m')|apply (G m' m)]; auto.
Qed.
Lemma median_unique f f' init r slots : nth_element_spec f -> nth_element_spec f' -> median f init r slots = median f' init r slots.
Proof.
  intros F F'. unfold median. destruct (Nat.ltb_spec 3 (length (collect r slots))) as [H|H]; [|reflexivity]. set (l := collect r slots) in *. clearbody l.
  assert (K : (length l / 2 < length l)%nat) by (apply Nat.div_lt; lia). set (k := (length l / 2)%nat) in *. clearbody k.
  assert (G : forall f, nth_element_spec f -> let m := nth k (f l k) 0 in In m l /\ (count (below m) l <= k)%nat /\ (count (above m) l <= length l - 1 - k)%nat).
  { intros g G m. destruct (G l k K) as (P&Lo&Hi). pose proof (Permutation_length P) as LP.
    destruct (pivot_counts (g l k) k m) as [C1 C2]; auto; [lia|rewrite <- LP; auto|]. rewrite <- LP in C2. rewrite <- (count_perm _ l _ P) in C1. rewrite <- (count_perm _ l _ P) in C2.
    split; [|split; auto]. apply (Permutation_in _ (Permutation_sym P)). apply nth_In. lia. }
  destruct (G f F) as (?&?&?), (G f' F') as (?&?&?). eapply (rank_unique l k); eauto.
Qed.

(** ** odometry noise *)
Lemma product_sym_iff n a b : symmetric n a -> symmetric n b ->
  (symmetric n (mmul n a b) <-> forall i j, (i < n)%nat -> (j < n)%nat -> mmul n a b i j = mmul n b a i j).
Proof.
  intros A B. assert (E : forall i j, (i < n)%nat -> (j < n)%nat -> mmul n a b j i = mmul n b a i j).
  { intros i j Hi Hj. unfold mmul. apply fsum_ext. intros k Hk. rewrite A, B by auto. ring. }
  split; intros H i j Hi Hj; [rewrite H by auto; now apply E|rewrite E by auto; symmetry; now apply H].
Qed.
Lemma mmul_diag n a b i j : diagonal n a -> (i < n)%nat -> mmul n a b i j = a i i * b i j.
Proof.
  intros D Hi. unfold mmul. rewrite (fsum_ext n _ (fun k => (if Nat.eqb k i then 1 else 0) * (a i i * b k j))); [now rewrite fsum_delta|].
  intros k Hk. destruct (Nat.eqb_spec k i); [subst; ring|]. rewrite D by auto. ring.
Qed.
Lemma scaled_ok n c m : 0 <= c -> covariance n m -> covariance n (fun i j => c * m i j).
Proof.
  intros Hc [S P]. split; [intros i j Hi Hj; rewrite S by auto; reflexivity|]. intros x. specialize (P x). unfold quad in *.
  rewrite (fsum_ext n _ (fun i => c * fsum n (fun j => x i * m i j * x j))).
  - rewrite fsum_scale. now apply Rmult_le_pos.
  - intros i Hi. rewrite <- fsum_scale. apply fsum_ext. intros; ring.
Qed.
(** block-diagonal product: position and attitude noise each a multiple of the identity *)
Lemma block_noise_ok cp ca (m : mat) : 0 <= cp -> 0 <= ca -> covariance 6 m -> (forall i j, (i < 3)%nat -> (3 <= j < 6)%nat -> m i j = 0) ->
  covariance 6 (fun i j => (if (i <? 3)%nat then cp else ca) * m i j).
Proof.
  intros Hp Ha [S P] Z. split.
  - intros i j Hi Hj. rewrite S by auto. destruct (Nat.ltb_spec i 3), (Nat.ltb_spec j 3); try reflexivity; [rewrite (S j i), Z by lia|rewrite Z by lia]; ring.
  - intros x. pose proof (P (fun i => if (i <? 3)%nat then x i else 0)) as P1. pose proof (P (fun i => if (i <? 3)%nat then 0 else x i)) as P2.
    assert (E : quad 6 (fun i j => (if (i <? 3)%nat then cp else ca) * m i j) x =
      cp * quad 6 m (fun i => if (i <? 3)%nat then x i else 0) + ca * quad 6 m (fun i => if (i <? 3)%nat then 0 else x i)).
    { unfold quad. rewrite <- !fsum_scale, <- fsum_plus. apply fsum_ext. intros i Hi. rewrite <- !fsum_scale, <- fsum_plus. apply fsum_ext. intros j Hj.
      destruct (Nat.ltb_spec i 3), (Nat.ltb_spec j 3); try ring; [rewrite Z by lia|rewrite (S i j), Z by lia]; ring. }
    rewrite E. pose proof (Rmult_le_pos _ _ Hp P1). pose proof (Rmult_le_pos _ _ Ha P2). lra.
Qed.
Lemma cleared_noise_ok cp ca default measured : 0 <= cp -> 0 <= ca ->
  (forall i j, (i < 6)%nat -> (j < 6)%nat -> default i j = if Nat.eqb i j then (if (i <? 3)%nat then cp else ca) else 0) ->
  covariance 6 measured -> covariance 6 (update_noise true true false default measured).
Proof.
  intros Hp Ha Df C. set (m' := set_block 0 3 3 3 zero (set_block 3 0 3 3 zero measured)).
  assert (C' : covariance 6 m').
  { destruct C as [S P]. split.
    - intros i j Hi Hj. unfold m', set_block, zero. binb; cbn [andb]; try lia; auto.
    - intros x. pose proof (P (fun i => if (i <? 3)%nat then x i else 0)) as P1. pose proof (P (fun i => if (i <? 3)%nat then 0 else x i)) as P2.
      assert (E : quad 6 m' x = quad 6 measured (fun i => if (i <? 3)%nat then x i else 0) + quad 6 measured (fun i => if (i <? 3)%nat then 0 else x i)).
      { unfold quad. rewrite <- fsum_plus. apply fsum_ext. intros i Hi. rewrite <- fsum_plus. apply fsum_ext. intros j Hj. unfold m', set_block, zero.
        binb; cbn [andb]; destruct (Nat.ltb_spec i 3), (Nat.ltb_spec j 3); try lia; ring. }
      rewrite E. lra. }
  apply (covariance_ext 6 (fun i j => (if (i <? 3)%nat then cp else ca) * m' i j)).
  - intros i j Hi Hj. unfold update_noise. cbn [Bool.eqb].
    assert (M : forall i j, (i < 6)%nat -> mmul 6 default measured i j = (if (i <? 3)%nat then cp else ca) * measured i j).
    { clear - Df. intros i j Hi. rewrite mmul_diag; [|intros a b A B N; rewrite Df by auto; destruct (Nat.eqb_spec a b); [lia|reflexivity]|auto].
      rewrite Df, Nat.eqb_refl by auto. reflexivity. }
    unfold m', set_block, zero. binb; cbn [andb]; rewrite ?M by auto; ring.
  - apply block_noise_ok; auto. intros i j Hi Hj. unfold m', set_block, zero. binb; cbn [andb]; try lia; reflexivity.
Qed.
Lemma uniform_noise_ok c ep ea default measured : 0 <= c ->
  (forall i j, (i < 6)%nat -> (j < 6)%nat -> default i j = if Nat.eqb i j then c else 0) ->
  covariance 6 measured -> ep = ea -> covariance 6 (update_noise true ep ea default measured).
Proof.
  intros Hc Df C <-. unfold update_noise. replace (Bool.eqb ep ep) with true by now destruct ep. apply (covariance_ext 6 (fun i j => c * measured i j)).
  - intros i j Hi Hj. rewrite mmul_diag; [|intros a b A B N; rewrite Df by auto; destruct (Nat.eqb_spec a b); [lia|reflexivity]|auto]. rewrite Df, Nat.eqb_refl by auto. reflexivity.
  - now apply scaled_ok.
Qed.
