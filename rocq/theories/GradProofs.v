From Coq Require Import List ZArith QArith Qreals Reals Bool Arith Lia Lra Psatz.
From Verif Require Import PatchModel PatchSpec PatchProofs GradModel GradSpec.
Import ListNotations.
Local Open Scope R_scope.

(** ** sums *)
Lemma sum_ext k f g : (forall i, (i < k)%nat -> f i = g i) -> sum k f = sum k g.
Proof. induction k as [|k IH]; intros H; cbn; [reflexivity|]. rewrite IH, H by auto. reflexivity. Qed.
Lemma sum_plus k f g : sum k (fun i => f i + g i) = sum k f + sum k g.
Proof. induction k as [|k IH]; cbn; [lra|]. rewrite IH. lra. Qed.
Lemma sum_scale k a f : sum k (fun i => a * f i) = a * sum k f.
Proof. induction k as [|k IH]; cbn; [lra|]. rewrite IH. lra. Qed.
Lemma sum_nonneg k f : (forall i, (i < k)%nat -> 0 <= f i) -> 0 <= sum k f.
Proof. induction k as [|k IH]; intros H; cbn; [lra|]. specialize (IH ltac:(auto)). specialize (H k ltac:(lia)). lra. Qed.
Lemma sum_first k f : sum (S k) f = f 0%nat + sum k (fun i => f (S i)).
Proof. induction k as [|k IH]; [cbn; lra|]. change (sum (S (S k)) f) with (sum (S k) f + f (S k)). rewrite IH. cbn. lra. Qed.
Lemma sum_const k a : sum k (fun _ => a) = INR k * a.
Proof. induction k as [|k IH]; cbn [sum]; [cbn; lra|]. rewrite IH, S_INR. lra. Qed.

Fixpoint lsum {A} (f : A -> R) (l : list A) : R := match l with [] => 0 | a :: r => f a + lsum f r end.
Lemma lsum_app {A} (f : A -> R) l m : lsum f (l ++ m) = lsum f l + lsum f m.
Proof. induction l; cbn; [lra|]. rewrite IHl. lra. Qed.
Lemma lsum_map_seq {A} (f : A -> R) (g : nat -> A) k a : lsum f (map g (seq a k)) = sum k (fun i => f (g (a + i)%nat)).
Proof.
  revert a. induction k as [|k IH]; intros a; [reflexivity|]. cbn [seq map lsum]. rewrite IH, sum_first.
  f_equal; [f_equal; f_equal; lia|]. apply sum_ext. intros. f_equal. f_equal. lia.
Qed.
Lemma lsum_flat {A B} (f : B -> R) (g : A -> list B) l : lsum f (flat_map g l) = lsum (fun a => lsum f (g a)) l.
Proof. induction l; cbn; [reflexivity|]. rewrite lsum_app, IHl. reflexivity. Qed.

Lemma lsum_id {A} (f : A -> R) l : lsum f l = lsum (fun x => x) (map f l).
Proof. induction l; cbn; [reflexivity|]. now rewrite IHl. Qed.

(** ** the loop computes the sums *)
Definition inner_grads (n : nat) (B : list R) : list (R * R) :=
  flat_map (fun y => map (fun x => (gx n B x y, gy n B x y)) (seq 0 n)) (seq 0 n).

Lemma grad_at_ok n B x y : length B = ((n + 2) * (n + 2))%nat -> (x < n)%nat -> (y < n)%nat ->
  grad_at n B x y = Some (gx n B x y, gy n B x y).
Proof.
  intros L Hx Hy. unfold grad_at. cbv zeta.
  assert (K : forall i, (i < length B)%nat -> nth_error B i = Some (nth i B 0)) by (intros; now apply nth_error_nth').
  rewrite !K by (rewrite L; nia). cbn [bind]. f_equal. unfold gx, gy, px. f_equal.
  - replace ((y + 1) * (n + 2) + 1 + x + 1)%nat with ((y + 1) * (n + 2) + (x + 2))%nat by lia.
    replace ((y + 1) * (n + 2) + 1 + x - 1)%nat with ((y + 1) * (n + 2) + x)%nat by lia. lra.
  - replace ((y + 1) * (n + 2) + 1 + x + (n + 2))%nat with ((y + 2) * (n + 2) + (x + 1))%nat by lia.
    replace ((y + 1) * (n + 2) + 1 + x - (n + 2))%nat with (y * (n + 2) + (x + 1))%nat by lia. lra.
Qed.
Lemma map_flat {A B C} (h : B -> C) (g : A -> list B) l : map h (flat_map g l) = flat_map (fun a => map h (g a)) l.
Proof. induction l; cbn; [reflexivity|]. now rewrite map_app, IHl. Qed.
Lemma flat_ext_in {A B} (f g : A -> list B) l : (forall a, In a l -> f a = g a) -> flat_map f l = flat_map g l.
Proof. induction l; cbn; intros H; [reflexivity|]. rewrite H by auto. rewrite IHl by auto. reflexivity. Qed.
Lemma grads_ok n B : length B = ((n + 2) * (n + 2))%nat -> grads n B = Some (inner_grads n B).
Proof.
  intros L. unfold grads. 
  assert (E : flat_map (fun y => map (fun x => grad_at n B x y) (seq 0 n)) (seq 0 n) = map Some (inner_grads n B)).
  { unfold inner_grads. rewrite map_flat. apply flat_ext_in. intros y Hy. apply in_seq in Hy. rewrite map_map.
    apply map_ext_in. intros x Hx. apply in_seq in Hx. apply grad_at_ok; auto; lia. }
  rewrite E. apply seqo_map_inv.
Qed.

Lemma fold_hess l : forall h, fold_left hadd_outer l h =
  {| hxx := hxx h + lsum (fun g => fst g * fst g) l; hxy := hxy h + lsum (fun g => fst g * snd g) l; hyy := hyy h + lsum (fun g => snd g * snd g) l;
     hx := hx h + lsum fst l; hy := hy h + lsum snd l; h1 := h1 h + lsum (fun _ => 1) l |}.
Proof.
  induction l as [|[a b] l IH]; intros h; cbn [fold_left lsum].
  - destruct h; cbn. f_equal; lra.
  - rewrite IH. cbn [hadd_outer hxx hxy hyy hx hy h1 fst snd]. f_equal; lra.
Qed.
Lemma inner_total n B (f : R * R -> R) : lsum f (inner_grads n B) = total n (fun x y => f (gx n B x y, gy n B x y)).
Proof.
  unfold inner_grads, total. rewrite lsum_flat.
  pose proof (lsum_map_seq (fun a => lsum f (map (fun x => (gx n B x a, gy n B x a)) (seq 0 n))) (fun y => y) n 0) as E.
  rewrite map_id in E. rewrite E. apply sum_ext. intros y _. rewrite lsum_map_seq. reflexivity.
Qed.

Definition hess_of (n : nat) (B : list R) : hess :=
  {| hxx := total n (fun x y => gx n B x y * gx n B x y); hxy := total n (fun x y => gx n B x y * gy n B x y);
     hyy := total n (fun x y => gy n B x y * gy n B x y); hx := total n (gx n B); hy := total n (gy n B); h1 := INR (n * n) |}.
Lemma compute_ok n B : length B = ((n + 2) * (n + 2))%nat -> compute n B = Some (params_of n (hess_of n B)).
Proof.
  intros L. unfold compute. rewrite grads_ok by auto. cbn [bind]. do 2 f_equal. rewrite fold_hess. cbn [hzero hxx hxy hyy hx hy h1].
  unfold hess_of. rewrite !inner_total. cbn [fst snd].
  assert (E : total n (fun _ _ : nat => 1) = INR (n * n)).
  { unfold total. rewrite (sum_ext _ _ (fun _ => INR n * 1)) by (intros; apply sum_const). rewrite sum_const, mult_INR. lra. }
  rewrite E. f_equal; unfold total; cbn [fst snd]; try lra.
Qed.

(** ** eigenvalues of a positive semidefinite 2x2 matrix *)
Definition psd2 (a b c : R) : Prop := forall u v, 0 <= a * u * u + 2 * b * u * v + c * v * v.
Lemma psd_det a b c : psd2 a b c -> 0 <= a /\ 0 <= c /\ b * b <= a * c.
Proof.
  intros H. pose proof (H 1 0) as H1. pose proof (H 0 1) as H2. assert (A : 0 <= a) by lra. assert (C : 0 <= c) by lra.
  split; [auto|]. split; [auto|]. destruct (Req_dec c 0) as [Z|Z].
  - subst c. destruct (Req_dec b 0) as [Zb|Zb]; [subst; lra|]. exfalso.
    pose proof (H 1 (- (a + 1) / (2 * b))) as K.
    replace (a * 1 * 1 + 2 * b * 1 * (- (a + 1) / (2 * b)) + 0 * (- (a + 1) / (2 * b)) * (- (a + 1) / (2 * b))) with (-1) in K by (field; auto). lra.
  - pose proof (H c (- b)) as K. assert (0 < c) by lra. assert (c * (a * c - b * b) >= 0) by lra.
    assert (0 <= a * c - b * b); [|lra]. destruct (Rle_dec 0 (a * c - b * b)); [auto|]. nra.
Qed.
Lemma eig_props a b c : psd2 a b c ->
  eigenvalue a b c (eig0 a c b) /\ eigenvalue a b c (eig1 a c b) /\ 0 <= eig0 a c b <= eig1 a c b /\ eig0 a c b + eig1 a c b = a + c.
Proof.
  intros P. apply psd_det in P as (A&C&D).
  assert (DI : 0 <= (a + c) * (a + c) - 4 * (a * c - b * b)) by (pose proof (Rle_0_sqr (a - c)); pose proof (Rle_0_sqr b); unfold Rsqr in *; lra).
  set (q := sqrt ((a + c) * (a + c) - 4 * (a * c - b * b))).
  assert (Q : q * q = (a + c) * (a + c) - 4 * (a * c - b * b)) by (apply sqrt_sqrt; exact DI).
  assert (QP : 0 <= q) by apply sqrt_pos.
  unfold eig0, eig1. fold q.
  assert (EV : forall l, l * l - (a + c) * l + (a * c - b * b) = 0 -> eigenvalue a b c l).
  { intros l E. destruct (Req_dec b 0) as [Zb|Zb].
    - subst b. destruct (Req_dec l a) as [La|La].
      + exists 1, 0. split; [left; lra|]. subst; split; lra.
      + exists 0, 1. split; [right; lra|]. split; [lra|]. assert ((l - a) * (l - c) = 0) by lra. 
        apply Rmult_integral in H as [H|H]; lra.
    - exists b, (l - a). split; [auto|]. split; [lra|]. lra. }
  assert (QL : q <= a + c) by nra.
  split; [apply EV; nra|]. split; [apply EV; nra|]. split; lra.
Qed.

Lemma psd_total n B : psd2 (hxx (hess_of n B)) (hxy (hess_of n B)) (hyy (hess_of n B)).
Proof.
  intros u v. cbn.
  replace (_ + _ + _) with (total n (fun x y => (gx n B x y * u + gy n B x y * v) * (gx n B x y * u + gy n B x y * v))).
  - unfold total. apply sum_nonneg. intros. apply sum_nonneg. intros. apply Rle_0_sqr.
  - unfold total. symmetry.
    transitivity (sum n (fun y => u * u * sum n (fun x => gx n B x y * gx n B x y) + 2 * u * v * sum n (fun x => gx n B x y * gy n B x y) + v * v * sum n (fun x => gy n B x y * gy n B x y))).
    + rewrite !sum_plus, !sum_scale. ring.
    + apply sum_ext. intros y _. rewrite <- !sum_scale, <- !sum_plus. apply sum_ext. intros. ring.
Qed.
Lemma psd_scale a b c k : 0 <= k -> psd2 a b c -> psd2 (k * a) (k * b) (k * c).
Proof. intros K P u v. pose proof (P u v). nra. Qed.
Lemma psd_plus a b c a' b' c' : psd2 a b c -> psd2 a' b' c' -> psd2 (a + a') (b + b') (c + c').
Proof. intros P P' u v. pose proof (P u v). pose proof (P' u v). lra. Qed.
Lemma psd_div a b c k : 0 < k -> psd2 a b c -> psd2 (a / k) (b / k) (c / k).
Proof.
  intros K P. unfold Rdiv. rewrite !(Rmult_comm _ (/ k)). apply psd_scale; auto. apply Rlt_le, Rinv_0_lt_compat, K.
Qed.

Lemma compute_spec n B : (0 < n)%nat -> length B = ((n + 2) * (n + 2))%nat ->
  exists g, compute n B = Some g /\
    eigenvalue (sxx n B) (sxy n B) (syy n B) (g_e0 g) /\ eigenvalue (sxx n B) (sxy n B) (syy n B) (g_e1 g) /\
    0 <= g_e0 g <= g_e1 g /\ g_s g = g_e0 g + g_e1 g /\ g_s g = sxx n B + syy n B.
Proof.
  intros N L. rewrite compute_ok by auto. eexists; split; [reflexivity|]. cbn [params_of g_e0 g_e1 g_s].
  assert (K : 0 < INR (n * n)) by (apply lt_0_INR; nia).
  destruct (eig_props _ _ _ (psd_div _ _ _ _ K (psd_total n B))) as (A&C&D&E).
  repeat match goal with |- _ /\ _ => split end; auto; lra.
Qed.

(** ** state machine *)
Lemma prun_app rnd n p a b : prun rnd n p (a ++ b) = bind (prun rnd n p a) (fun p' => prun rnd n p' b).
Proof. revert p. induction a as [|o a IH]; intros p; cbn; [reflexivity|]. destruct (pstep rnd n p o); cbn; auto. Qed.

Definition coherent (n : nat) (B : list R) (p : patch) : Prop :=
  p_border p = Some B /\ (p_valid p = true -> compute n B = Some (p_params p)).
Lemma compute_gradients_coherent n B p p' : coherent n B p -> compute_gradients n p = Some p' ->
  coherent n B p' /\ compute n B = Some (p_params p') /\ p_patch p' = p_patch p.
Proof.
  intros [Hb Hv] H. unfold compute_gradients in H. destruct (p_valid p) eqn:V.
  - injection H as <-. split; [split; auto|]. split; auto.
  - rewrite Hb in H. cbn [bind] in H. destruct (compute n B) eqn:C; [|discriminate]. cbn [bind] in H. injection H as <-.
    split; [split; auto; reflexivity|]. split; reflexivity.
Qed.
Lemma pstep_coherent rnd n B p o p' : with_border o = false -> coherent n B p -> pstep rnd n p o = Some p' -> coherent n B p'.
Proof.
  intros W C H. destruct o as [im ident w cx cy b| | |]; cbn in *.
  - subst b. destruct (extract rnd n im ident w cx cy false); [|discriminate]. injection H as <-. destruct C. split; cbn; auto. discriminate.
  - unfold get_score in H. destruct (compute_gradients n p) eqn:E; [|discriminate]. injection H as <-.
    now apply (compute_gradients_coherent n B p p0).
  - unfold get_hessian in H. destruct (compute_gradients n p) eqn:E; [|discriminate]. injection H as <-.
    now apply (compute_gradients_coherent n B p p0).
  - unfold patch_from_border in H. destruct (p_border p) eqn:E; [|discriminate]. injection H as <-. destruct C. split; cbn; auto. congruence.
Qed.
Lemma prun_coherent rnd n B ops : forall p p', (forall o, In o ops -> with_border o = false) -> coherent n B p -> prun rnd n p ops = Some p' -> coherent n B p'.
Proof.
  induction ops as [|o ops IH]; intros p p' W C H; cbn in H; [injection H as <-; auto|].
  destruct (pstep rnd n p o) eqn:E; [|discriminate]. cbn [bind] in H. apply (IH p0 p'); auto.
  - intros; apply W; now right.
  - apply (pstep_coherent rnd n B p o); auto. apply W; now left.
Qed.

Lemma last_border rnd n p0 pre e post p B : 
  prun rnd n p0 (pre ++ e :: post) = Some p -> with_border e = true -> data_of rnd n e = Some B ->
  (forall o, In o post -> with_border o = false) -> coherent n B p.
Proof.
  intros H W D NB. rewrite prun_app in H. destruct (prun rnd n p0 pre) as [p1|]; [|discriminate]. cbn [bind prun] in H.
  destruct (pstep rnd n p1 e) as [p2|] eqn:E; [|discriminate]. cbn [bind] in H.
  apply (prun_coherent rnd n B post p2 p NB); auto. destruct e as [im ident w cx cy b| | |]; try discriminate. cbn in W. subst b.
  cbn in D, E. destruct (extract rnd n im ident w cx cy true); [|discriminate]. cbn in D, E. injection D as <-. injection E as <-.
  split; cbn; [reflexivity|discriminate].
Qed.

Lemma data_length rnd n e B : Nat.Even n -> with_border e = true -> data_of rnd n e = Some B -> length B = ((n + 2) * (n + 2))%nat.
Proof.
  intros Ev W D. destruct e as [im ident w cx cy b| | |]; try discriminate. cbn in W. subst b. cbn in D.
  destruct (extract rnd n im ident w cx cy true) eqn:E; [|discriminate]. injection D as <-. rewrite map_length.
  apply (extract_length rnd n im ident w cx cy true); auto.
Qed.

Lemma score_current rnd n p0 pre e post p B : Nat.Even n -> (0 < n)%nat ->
  prun rnd n p0 (pre ++ e :: post) = Some p -> with_border e = true -> data_of rnd n e = Some B ->
  (forall o, In o post -> with_border o = false) ->
  exists p', get_score n p = Some (p', sxx n B + syy n B) /\ get_hessian n p = Some (p', hess_of n B).
Proof.
  intros Ev N H W D NB. pose proof (last_border _ _ _ _ _ _ _ _ H W D NB) as C.
  pose proof (data_length _ _ _ _ Ev W D) as L. pose proof (compute_ok n B L) as CO.
  destruct (compute_spec n B N L) as (g&G&_&_&_&_&S).
  unfold get_score, get_hessian. 
  destruct (compute_gradients n p) as [p'|] eqn:E.
  - destruct (compute_gradients_coherent n B p p' C E) as (_&P&_). exists p'. cbn [bind].
    assert (p_params p' = g) by congruence. assert (g = params_of n (hess_of n B)) by congruence. 
    split; do 2 f_equal; [congruence|]. rewrite H0, H1. reflexivity.
  - exfalso. unfold compute_gradients in E. destruct C as [Cb Cv]. destruct (p_valid p); [discriminate|]. rewrite Cb in E. cbn [bind] in E. rewrite G in E. discriminate.
Qed.

(** the plain patch follows the last extraction *)
Lemma map_firstn {A B} (f : A -> B) k l : map f (firstn k l) = firstn k (map f l).
Proof. revert l; induction k; intros [|a l]; cbn; [reflexivity..|]. now rewrite IHk. Qed.
Lemma map_skipn {A B} (f : A -> B) k l : map f (skipn k l) = skipn k (map f l).
Proof. revert l; induction k; intros [|a l]; cbn; [reflexivity..|]. now rewrite IHk. Qed.
Lemma inner_r_map n l : inner_r n (map Q2R l) = map Q2R (inner_patch n l).
Proof.
  unfold inner_r, inner_patch. rewrite map_flat. apply flat_map_ext. intros y. now rewrite map_firstn, map_skipn.
Qed.
Lemma patch_current rnd n p0 pre im ident w cx cy b post p l : Nat.Even n ->
  prun rnd n p0 (pre ++ Extract im ident w cx cy b :: post) = Some p ->
  (forall o, In o post -> o = Score \/ o = Hessian) ->
  extract rnd n im ident w cx cy false = Some l -> p_patch p = Some (map Q2R l).
Proof.
  intros Ev H NB X. rewrite prun_app in H. destruct (prun rnd n p0 pre) as [p1|]; [|discriminate]. cbn [bind prun] in H.
  destruct (pstep rnd n p1 _) as [p2|] eqn:E; [|discriminate]. cbn [bind] in H.
  assert (P2 : p_patch p2 = Some (map Q2R l)).
  { cbn [pstep] in E. destruct (extract rnd n im ident w cx cy b) eqn:EX; [|discriminate]. cbn [bind] in E. injection E as <-. destruct b; cbn.
    - apply extract_inner in EX; auto. rewrite inner_r_map. congruence.
    - congruence. }
  clear E. revert p2 P2 H. induction post as [|o post IH]; intros p2 P2 H; cbn in H; [congruence|].
  destruct (pstep rnd n p2 o) as [p3|] eqn:E; [|discriminate]. cbn [bind] in H. apply (IH ltac:(intros; apply NB; now right) p3); auto.
  assert (K : forall q, compute_gradients n p2 = Some q -> p_patch q = p_patch p2).
  { intros q. unfold compute_gradients. destruct (p_valid p2); [congruence|]. destruct (p_border p2); [|discriminate]. cbn.
    destruct (compute n l0); [|discriminate]. cbn. intros Q. injection Q as <-. reflexivity. }
  destruct (NB o ltac:(now left)) as [-> | ->]; cbn in E; unfold get_score, get_hessian in E;
    destruct (compute_gradients n p2) eqn:C; try discriminate; cbn in E; injection E as <-; rewrite (K _ eq_refl); auto.
Qed.

(** ** several levels *)
Definition hlevels (n : nat) (Bs : list (list R * bool)) (i cnt : nat) (f : hess -> R) : R :=
  sum cnt (fun j => if lvl_ok Bs (i + j) then f (hess_of n (lvl Bs (i + j))) * (/ 4) ^ (i + j) else 0).
Lemma nat_eq_INR a : INR (a) = INR a. Proof. reflexivity. Qed.

Lemma hlev_S n Bs i cnt f : hlevels n Bs i (S cnt) f = (if lvl_ok Bs i then f (hess_of n (lvl Bs i)) * (/ 4) ^ i else 0) + hlevels n Bs (S i) cnt f.
Proof.
  unfold hlevels. rewrite sum_first. replace (i + 0)%nat with i by lia. f_equal. apply sum_ext. intros j _.
  replace (i + S j)%nat with (S i + j)%nat by lia. reflexivity.
Qed.
Lemma ml_loop_ok n junk Bs : (forall bv, In bv Bs -> snd bv = true -> length (fst bv) = ((n + 2) * (n + 2))%nat) ->
  forall cnt i h count, (i + cnt <= length Bs)%nat ->
  exists H c, ml_loop n (fresh_mlp n junk Bs) i cnt h count = Some (H, c) /\
    INR c = INR count + sum cnt (fun j => if lvl_ok Bs (i + j) then 1 else 0) /\
    hxx H = hxx h + hlevels n Bs i cnt hxx /\ hxy H = hxy h + hlevels n Bs i cnt hxy /\ hyy H = hyy h + hlevels n Bs i cnt hyy.
Proof.
  intros LB. induction cnt as [|cnt IH]; intros i h count Hi; cbn [ml_loop].
  - exists h, count. split; [reflexivity|]. unfold hlevels; cbn [sum]. repeat match goal with |- _ /\ _ => split end; lra.
  - unfold fresh_mlp at 1. rewrite nth_error_map.
    assert (NE : nth_error Bs i = Some (nth i Bs (nil, false))) by (apply nth_error_nth'; lia).
    rewrite NE. cbn [option_map bind fst snd]. change (snd (nth i Bs (nil, false))) with (lvl_ok Bs i). change (fst (nth i Bs (nil, false))) with (lvl Bs i).
    assert (CS : forall f, sum (S cnt) (fun j => if lvl_ok Bs (i + j) then f (i + j)%nat else 0) = (if lvl_ok Bs i then f i else 0) + sum cnt (fun j => if lvl_ok Bs (S i + j) then f (S i + j)%nat else 0)).
    { intros f. rewrite sum_first. replace (i + 0)%nat with i by lia. f_equal. apply sum_ext. intros j _. replace (i + S j)%nat with (S i + j)%nat by lia. reflexivity. }
    destruct (lvl_ok Bs i) eqn:V.
    + assert (L : length (lvl Bs i) = ((n + 2) * (n + 2))%nat) by (apply (LB (nth i Bs (nil, false))); auto; apply nth_In; lia).
      unfold get_hessian, compute_gradients. cbn [store p_valid p_border bind]. rewrite compute_ok by auto. cbn [bind snd p_params params_of g_H].
      destruct (IH (S i) (hadd_scaled h ((/ 4) ^ i) (hess_of n (lvl Bs i))) (S count) ltac:(lia)) as (H&c&E&C&X1&X2&X3).
      exists H, c. split; [exact E|]. rewrite !hlev_S, V. rewrite (CS (fun _ => 1)). rewrite C, S_INR, X1, X2, X3. cbn [hadd_scaled hxx hxy hyy].
      repeat match goal with |- _ /\ _ => split end; lra.
    + destruct (IH (S i) h count ltac:(lia)) as (H&c&E&C&X1&X2&X3).
      exists H, c. split; [exact E|]. rewrite !hlev_S, V. rewrite (CS (fun _ => 1)). rewrite C, X1, X2, X3.
      repeat match goal with |- _ /\ _ => split end; lra.
Qed.
Lemma psd_levels n Bs i cnt : psd2 (hlevels n Bs i cnt hxx) (hlevels n Bs i cnt hxy) (hlevels n Bs i cnt hyy).
Proof.
  unfold hlevels. induction cnt as [|cnt IH]; cbn [sum]; [intros u v; lra|]. apply psd_plus; auto.
  destruct (lvl_ok Bs (i + cnt)); [|intros u v; lra]. rewrite !(Rmult_comm _ ((/ 4) ^ _)). apply psd_scale; [apply pow_le; lra|apply psd_total].
Qed.

Lemma ml_score_spec n junk Bs l1 l2 : (0 < n)%nat -> (l1 <= l2 < length Bs)%nat ->
  (forall bv, In bv Bs -> snd bv = true -> length (fst bv) = ((n + 2) * (n + 2))%nat) ->
  exists g, ml_score n (fresh_mlp n junk Bs) l1 l2 = Some g /\
  ((forall i, (l1 <= i <= l2)%nat -> lvl_ok Bs i = false) -> g_s g = -1) /\
  forall i, (l1 <= i <= l2)%nat -> lvl_ok Bs i = true ->
    let a := level_mean Bs l1 l2 (sxx n) in let b := level_mean Bs l1 l2 (sxy n) in let c := level_mean Bs l1 l2 (syy n) in
    eigenvalue a b c (g_e0 g) /\ eigenvalue a b c (g_e1 g) /\ 0 <= g_e0 g <= g_e1 g /\ g_s g = g_e0 g + g_e1 g /\ g_s g = a + c.
Proof.
  intros N L12 LB. unfold ml_score.
  destruct (ml_loop_ok n junk Bs LB (l2 + 1 - l1) l1 hzero 0%nat ltac:(lia)) as (H&c&E&C&X1&X2&X3).
  rewrite E. cbn [bind]. cbn [hzero hxx hxy hyy] in X1, X2, X3. rewrite Rplus_0_l in X1, X2, X3. cbn [INR] in C. rewrite Rplus_0_l in C.
  destruct (Nat.ltb_spec 0 c) as [CP|CZ].
  - eexists. split; [reflexivity|]. cbn [g_s g_e0 g_e1]. split.
    + intros AllF. exfalso. rewrite (sum_ext _ _ (fun _ => 0)) in C. 2: { intros i Hi. rewrite AllF by lia. reflexivity. }
      rewrite sum_const in C. apply lt_0_INR in CP. lra.
    + intros i Hi V. cbv zeta.
      assert (KP : 0 < INR (c * n * n)) by (apply lt_0_INR; nia).
      assert (CPos : INR c <> 0) by (apply not_0_INR; lia).
      assert (NPos : INR (n * n) <> 0) by (apply not_0_INR; nia).
      assert (M : forall f h, (forall B, f B = h (hess_of n B) / INR (n * n)) -> level_mean Bs l1 l2 f = hlevels n Bs l1 (l2 + 1 - l1) h / INR (c * n * n)).
      { intros f h F. unfold level_mean, valid_levels. rewrite <- C. unfold hlevels.
        replace (INR (c * n * n)) with (INR c * INR (n * n)) by (rewrite !mult_INR; lra).
        transitivity (sum (l2 + 1 - l1) (fun j => / INR (n * n) * (if lvl_ok Bs (l1 + j) then h (hess_of n (lvl Bs (l1 + j))) * (/ 4) ^ (l1 + j) else 0)) / INR c).
        - f_equal. apply sum_ext. intros j _. destruct (lvl_ok Bs (l1 + j)); [|lra]. rewrite F, pow_inv. field. split; [apply pow_nonzero; lra|auto].
        - rewrite sum_scale. field. auto. }
      rewrite (M (sxx n) hxx), (M (sxy n) hxy), (M (syy n) hyy) by (intros; reflexivity).
      rewrite X1, X2, X3.
      destruct (eig_props _ _ _ (psd_div _ _ _ _ KP (psd_levels n Bs l1 (l2 + 1 - l1)))) as (A&B&D&F).
      repeat match goal with |- _ /\ _ => split end; auto; lra.
  - eexists. split; [reflexivity|]. split; [reflexivity|]. intros i Hi V. exfalso.
    assert (c = 0%nat) by lia. subst c. cbn [INR] in C.
    assert (K : forall k, (l1 + k <= l2 + 1)%nat -> (i < l1 + k)%nat -> 1 <= sum k (fun j => if lvl_ok Bs (l1 + j) then 1 else 0)).
    { induction k as [|k IH]; intros K1 K2; [lia|]. cbn [sum].
      destruct (Nat.eq_dec i (l1 + k)) as [->|Ne].
      - rewrite V. assert (0 <= sum k (fun j => if lvl_ok Bs (l1 + j) then 1 else 0)); [|lra].
        apply sum_nonneg. intros j _. destruct (lvl_ok Bs (l1 + j)); lra.
      - specialize (IH ltac:(lia) ltac:(lia)). destruct (lvl_ok Bs (l1 + k)); lra. }
    specialize (K (l2 + 1 - l1)%nat ltac:(lia) ltac:(lia)). lra.
Qed.

(** ** an edge *)
Definition edge_patch (n : nat) (k : R) : list R := flat_map (fun _ => map (fun x => k * INR x) (seq 0 (n + 2))) (seq 0 (n + 2)).
Lemma edge_px n k x y : (x < n + 2)%nat -> (y < n + 2)%nat -> px (n + 2) (edge_patch n k) x y = k * INR x.
Proof.
  intros Hx Hy. unfold px, edge_patch. apply nth_error_nth.
  rewrite (flat_nth _ (n + 2)) by (auto; intros; now rewrite map_length, seq_length).
  rewrite (nth_error_nth' _ 0%nat) by (rewrite seq_length; lia). rewrite nth_error_map, (nth_error_nth' _ 0%nat) by (rewrite seq_length; lia).
  rewrite !seq_nth by lia. reflexivity.
Qed.
Lemma edge_score n bound : (0 < n)%nat ->
  exists B g, length B = ((n + 2) * (n + 2))%nat /\ compute n B = Some g /\ g_e0 g = 0 /\ bound < g_s g.
Proof.
  intros N. set (k := Rabs bound + 1). exists (edge_patch n k).
  assert (L : length (edge_patch n k) = ((n + 2) * (n + 2))%nat).
  { unfold edge_patch. rewrite (flat_length _ (n + 2)); [now rewrite seq_length|]. intros. now rewrite map_length, seq_length. }
  assert (GX : forall x y, (x < n)%nat -> (y < n)%nat -> gx n (edge_patch n k) x y = k).
  { intros x y Hx Hy. unfold gx. rewrite !edge_px by lia. rewrite plus_INR. cbn. lra. }
  assert (GY : forall x y, (x < n)%nat -> (y < n)%nat -> gy n (edge_patch n k) x y = 0).
  { intros x y Hx Hy. unfold gy. rewrite !edge_px by lia. lra. }
  assert (TT : forall f a, (forall x y, (x < n)%nat -> (y < n)%nat -> f x y = a) -> mean n f = a).
  { intros f a F. unfold mean, total. rewrite (sum_ext n _ (fun _ => INR n * a)).
    - rewrite sum_const, mult_INR. field. apply not_0_INR. lia.
    - intros y Hy. rewrite (sum_ext n _ (fun _ => a)) by auto. apply sum_const. }
  assert (SX : sxx n (edge_patch n k) = k * k) by (apply TT; intros; rewrite GX; auto).
  assert (SY : syy n (edge_patch n k) = 0) by (apply TT; intros; rewrite GY; auto; ring).
  assert (SXY : sxy n (edge_patch n k) = 0) by (apply TT; intros; rewrite GX, GY; auto; ring).
  destruct (compute_spec n _ N L) as (g&C&E0&E1&O&S&T). exists g. split; [exact L|]. split; [exact C|].
  rewrite SX, SY in T. pose proof (Rabs_pos bound). pose proof (Rle_abs bound).
  split.
  - rewrite SX, SY, SXY in E0, E1. destruct E0 as (v&w&NZ&P1&P2). destruct E1 as (v'&w'&NZ'&P1'&P2').
    assert (K : k * k > 0) by (unfold k; nra).
    destruct (Req_dec w 0) as [W|W].
    + assert (V : v <> 0) by (destruct NZ; auto; congruence). assert (g_e0 g = k * k).
      { apply (Rmult_eq_reg_r v); auto; lra. } lra.
    + apply (Rmult_eq_reg_r w); auto. lra.
  - rewrite T. unfold k. nra.
Qed.
Lemma ml_level_score_spec n junk Bs l : (0 < n)%nat -> (l < length Bs)%nat ->
  (lvl_ok Bs l = true -> length (lvl Bs l) = ((n + 2) * (n + 2))%nat) ->
  ml_level_score n (fresh_mlp n junk Bs) l = Some (if lvl_ok Bs l then sxx n (lvl Bs l) + syy n (lvl Bs l) else -1).
Proof.
  intros N HL L. unfold ml_level_score, fresh_mlp. rewrite nth_error_map, (nth_error_nth' _ (nil, false)) by auto.
  cbn [option_map bind fst snd]. change (snd (nth l Bs (nil, false))) with (lvl_ok Bs l). change (fst (nth l Bs (nil, false))) with (lvl Bs l).
  destruct (lvl_ok Bs l); [|reflexivity]. unfold get_score, compute_gradients. cbn [store p_valid p_border bind].
  destruct (compute_spec n _ N (L eq_refl)) as (g&C&_&_&_&_&T). rewrite C. cbn. congruence.
Qed.

(** ** examples for C25 *)
Definition ex_flat : image := {| cols := 9; rows := 9; pix := fun _ _ => 50%Q |}.
Definition ex_ramp : image := {| cols := 9; rows := 9; pix := fun u _ => inject_Z (10 * u) |}.
Definition ex_id : warp := {| w00 := 1; w01 := 0; w10 := 0; w11 := 1 |}.
Lemma data_flat : exists B, data_of exact 2 (Extract ex_flat true ex_id 4 4 true) = Some B /\ sxx 2 B + syy 2 B = 0.
Proof.
  unfold data_of. eexists. split; [vm_compute extract; cbn [option_map]; reflexivity|].
  unfold sxx, syy, mean, total, gx, gy, px. cbn -[Q2R]. unfold Q2R. cbn. lra.
Qed.
Lemma data_ramp : exists B, data_of exact 2 (Extract ex_ramp true ex_id 4 4 true) = Some B /\ sxx 2 B + syy 2 B = 100.
Proof.
  unfold data_of. eexists. split; [vm_compute extract; cbn [option_map]; reflexivity|].
  unfold sxx, syy, mean, total, gx, gy, px. cbn -[Q2R]. unfold Q2R. cbn. lra.
Qed.
Lemma stale_score : exists n p0 e1 e2 p s B2,
  with_border e1 = true /\ e2 = Extract ex_flat true ex_id 4 4 false /\
  prun exact n p0 [e1; e2] = Some p /\
  data_of exact n (Extract ex_flat true ex_id 4 4 true) = Some B2 /\
  (exists p', get_score n p = Some (p', s)) /\ s <> sxx n B2 + syy n B2.
Proof.
  destruct data_flat as (B2&D2&S2). destruct data_ramp as (B1&D1&S1).
  assert (K : exists p, prun exact 2 (new_patch hzero) [Extract ex_ramp true ex_id 4 4 true; Extract ex_flat true ex_id 4 4 false] = Some p).
  { cbn [prun pstep]. vm_compute extract. cbn [bind]. eexists. reflexivity. }
  destruct K as (p&P).
  destruct (score_current exact 2 (new_patch hzero) [] _ _ p B1 ltac:(exists 1%nat; reflexivity) ltac:(lia) P eq_refl D1) as (p'&G&_).
  { intros o [<-|[]]. reflexivity. }
  exists 2%nat, (new_patch hzero), (Extract ex_ramp true ex_id 4 4 true), (Extract ex_flat true ex_id 4 4 false), p, (sxx 2 B1 + syy 2 B1), B2.
  repeat match goal with |- _ /\ _ => split end; eauto. lra.
Qed.
Lemma ramp_run : exists p B, prun exact 2 (new_patch hzero) [Extract ex_ramp true ex_id 4 4 true; Score; Hessian; Score] = Some p
  /\ data_of exact 2 (Extract ex_ramp true ex_id 4 4 true) = Some B /\ sxx 2 B + syy 2 B = 100.
Proof.
  destruct data_ramp as (B&D&S). 
  assert (K : exists p1, prun exact 2 (new_patch hzero) [Extract ex_ramp true ex_id 4 4 true] = Some p1).
  { cbn [prun pstep]. vm_compute extract. cbn [bind]. eexists. reflexivity. }
  destruct K as (p1&P1).
  assert (KK : exists p, prun exact 2 p1 [Score; Hessian; Score] = Some p).
  { destruct (score_current exact 2 (new_patch hzero) [] _ [] p1 B ltac:(exists 1%nat; reflexivity) ltac:(lia) P1 eq_refl D ltac:(intros o [])) as (p'&G1&G2).
    cbn [prun pstep]. rewrite G1. cbn [bind fst]. 
    assert (V : p_valid p' = true).
    { unfold get_score in G1. destruct (compute_gradients 2 p1) eqn:E; [|discriminate]. cbn in G1. injection G1 as <- _.
      unfold compute_gradients in E. destruct (p_valid p1) eqn:V1; [congruence|]. destruct (p_border p1); [|discriminate]. cbn [bind] in E.
      destruct (compute 2 l); [|discriminate]. cbn in E. injection E as <-. reflexivity. }
    unfold get_hessian, get_score, compute_gradients. rewrite V. cbn [bind fst]. rewrite V. cbn [bind fst]. eauto. }
  destruct KK as (p&P). exists p, B. split; [|auto].
  change [Extract ex_ramp true ex_id 4 4 true; Score; Hessian; Score] with ([Extract ex_ramp true ex_id 4 4 true] ++ [Score; Hessian; Score]).
  rewrite prun_app, P1. exact P.
Qed.
