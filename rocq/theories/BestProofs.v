(** The correction is the best linear estimate. *)
From Coq Require Import Reals ZArith List Bool Arith Lia Lra.
From Verif Require Import Geo Lie DistModel FiltModel OutModel CamModel InnoModel UpdModel CovModel CovSpec CovProofs BornModel SlotModel SlotSpec SlotProofs KalSpec KalProofs BestSpec.
Import ListNotations.
Local Open Scope R_scope.

Lemma dot_ext a c : (forall u, dot u a = dot u c) -> a = c.
Proof.
  intros E. destruct a as [[a1 a2] a3], c as [[c1 c2] c3]. pose proof (E (1, 0, 0)) as E1. pose proof (E (0, 1, 0)) as E2. pose proof (E (0, 0, 1)) as E3.
  unfold dot, vx, vy, vz in *. cbn [fst snd] in *. f_equal; [f_equal|]; lra.
Qed.
Section Best.
Variables (n : dims) (P : bmat) (H : list row) (Rn W : list (list R)).
Hypothesis V : valid_cov n P.
Hypothesis N : good_noise (length H) Rn.
Let k := length H.
Let h i := nth i H zrow.
Let Sm := inn_cov n P H Rn.
Hypothesis HW : inverse_of k Sm W.
Let b (x : tangent) i := rsum (segs n) (fun s => dot (x s) (PHt n P (h i) s)).
Let opt (x : tangent) i := irsum k (fun j => entry W i j * b x j).

Lemma cross_any x (a : nat -> R) : rsum (segs n) (fun s => rsum (segs n) (fun t => dot (x s) (mv (P s t) (comb H a t)))) = irsum k (fun i => a i * b x i).
Proof.
  transitivity (rsum (segs n) (fun s => irsum k (fun i => a i * dot (x s) (PHt n P (h i) s)))).
  - apply rsum_ext; intros s _. unfold PHt.
    transitivity (rsum (segs n) (fun t => irsum k (fun i => a i * dot (x s) (mv (P s t) (h i t))))).
    + apply rsum_ext; intros t _. unfold comb. rewrite mv_isum, dot_isum_r. apply irsum_ext; intros i _. now rewrite mv_scale, dot_scale_r.
    + rewrite rsum_irsum. apply irsum_ext; intros i _. now rewrite rsum_scale, dot_vsum_r.
  - rewrite rsum_irsum. apply irsum_ext; intros i _. apply rsum_scale.
Qed.
Lemma expand_any x a : variance n P (fun s => vsub (x s) (comb H a s)) = variance n P x - 2 * irsum k (fun i => a i * b x i) + variance n P (comb H a).
Proof.
  assert (C2 : rsum (segs n) (fun s => rsum (segs n) (fun t => dot (comb H a s) (mv (P s t) (x t)))) = irsum k (fun i => a i * b x i)).
  { rewrite <- cross_any, rsum_swap. apply rsum_ext; intros t Ht. apply rsum_ext; intros s Hs.
    rewrite (vc_sym n P V s t (in_segs n s Hs) (in_segs n t Ht)), dot_comm, mv_dot, mt_mt. reflexivity. }
  pose proof (cross_any x a) as C1.
  assert (E : variance n P (fun s => vsub (x s) (comb H a s)) = variance n P x + (-1) * rsum (segs n) (fun s => rsum (segs n) (fun t => dot (x s) (mv (P s t) (comb H a t))))
     + (-1) * rsum (segs n) (fun s => rsum (segs n) (fun t => dot (comb H a s) (mv (P s t) (x t)))) + variance n P (comb H a)).
  { unfold variance. rewrite <- !rsum_scale, <- !rsum_add. apply rsum_ext; intros s _. rewrite <- !rsum_scale, <- !rsum_add. apply rsum_ext; intros t _.
    rewrite mv_sub, dot_sub_l, !dot_sub_r. ring. }
  rewrite E, C1, C2. ring.
Qed.
(** the remaining error of an estimator with the weights [a] *)
Lemma quadratic x a : variance n P (fun s => vsub (x s) (comb H a s)) + form k Rn a = variance n P x - 2 * irsum k (fun i => a i * b x i) + form k Sm a.
Proof. rewrite expand_any. pose proof (form_s n P H Rn N a) as F. fold k Sm in F. rewrite F. ring. Qed.
Lemma irsum_sub m f g : irsum m (fun i => f i - g i) = irsum m f - irsum m g.
Proof.
  transitivity (irsum m (fun i => f i + (-1) * g i)); [apply irsum_ext; intros; ring|]. rewrite irsum_add, irsum_scale. ring.
Qed.
Lemma S_opt x i : (i < k)%nat -> irsum k (fun j => entry Sm i j * opt x j) = b x i.
Proof. intros Hi. exact (s_v n P H Rn W HW x i Hi). Qed.
Lemma form_diff x a : form k Sm (fun i => a i - opt x i) = form k Sm a - 2 * irsum k (fun i => a i * b x i) + irsum k (fun i => opt x i * b x i).
Proof.
  assert (A1 : form k Sm (fun i => a i - opt x i) = form k Sm a - irsum k (fun i => irsum k (fun j => a i * entry Sm i j * opt x j))
    - irsum k (fun i => irsum k (fun j => opt x i * entry Sm i j * a j)) + irsum k (fun i => irsum k (fun j => opt x i * entry Sm i j * opt x j))).
  { unfold form. rewrite <- !irsum_sub, <- irsum_add. apply irsum_ext; intros i _. rewrite <- !irsum_sub, <- irsum_add. apply irsum_ext; intros j _. ring. }
  assert (A2 : irsum k (fun i => irsum k (fun j => a i * entry Sm i j * opt x j)) = irsum k (fun i => a i * b x i)).
  { apply irsum_ext; intros i Hi. rewrite <- (S_opt x i Hi), <- irsum_scale. apply irsum_ext; intros; ring. }
  assert (A3 : irsum k (fun i => irsum k (fun j => opt x i * entry Sm i j * a j)) = irsum k (fun i => a i * b x i)).
  { rewrite irsum_swap, <- A2. apply irsum_ext; intros i Hi. apply irsum_ext; intros j Hj. unfold Sm. rewrite (s_sym n P H Rn V N i j Hi Hj). ring. }
  assert (A4 : irsum k (fun i => irsum k (fun j => opt x i * entry Sm i j * opt x j)) = irsum k (fun i => opt x i * b x i)).
  { apply irsum_ext; intros i Hi. rewrite <- (S_opt x i Hi), <- irsum_scale. apply irsum_ext; intros; ring. }
  rewrite A1, A2, A3, A4. ring.
Qed.
Lemma form_nonneg a : 0 <= form k Sm a.
Proof. pose proof (form_s n P H Rn N a) as F. fold k Sm in F. rewrite F. pose proof (vc_psd n P V (comb H a)). pose proof (noise_nonneg H Rn N a) as G. fold k in G. lra. Qed.
Lemma error_var_val L x : error_variance n P H Rn L x = variance n (update_cov n P H W) x + form k Sm (fun i => weight n L x i - opt x i).
Proof.
  unfold error_variance. fold k. change (fun s => vsub (x s) (isum k (fun i => vscale (weight n L x i) (nth i H zrow s)))) with (fun s => vsub (x s) (comb H (weight n L x) s)).
  rewrite quadratic, form_diff, (red_value n P H W x). fold k. unfold opt, b, h. ring.
Qed.
(** the gain of the filter *)
Definition kgain : gain := fun i s => isum k (fun j => vscale (entry W i j) (PHt n P (h j) s)).
Lemma kgain_weight x i : weight n kgain x i = opt x i.
Proof.
  unfold weight, kgain, opt. transitivity (rsum (segs n) (fun s => irsum k (fun j => entry W i j * dot (x s) (PHt n P (h j) s)))).
  { apply rsum_ext; intros s _. rewrite dot_isum_r. apply irsum_ext; intros j _. apply dot_scale_r. }
  rewrite rsum_irsum. apply irsum_ext; intros j _. apply rsum_scale.
Qed.
Lemma form_zero a : (forall i, a i = 0) -> form k Sm a = 0.
Proof.
  intros Z. unfold form. rewrite (irsum_ext k _ (fun _ => 0)); [apply irsum_0|]. intros i _. rewrite (irsum_ext k _ (fun _ => 0)); [apply irsum_0|]. intros j _. rewrite Z. ring.
Qed.
Lemma kgain_var x : variance n (update_cov n P H W) x = error_variance n P H Rn kgain x.
Proof. rewrite error_var_val, form_zero; [ring|]. intros i. rewrite kgain_weight. ring. Qed.
Lemma kgain_best L x : error_variance n P H Rn kgain x <= error_variance n P H Rn L x.
Proof. rewrite <- kgain_var, (error_var_val L x). pose proof (form_nonneg (fun i => weight n L x i - opt x i)). lra. Qed.
Lemma gain_applied z r s : length z = k -> (forall i, (i < k)%nat -> nth i z 0 = r i) -> gain_mul n P H W z s = applied k kgain r s.
Proof.
  intros L Z. apply dot_ext. intros u. unfold gain_mul, applied, kgain. fold k. rewrite !dot_isum_r, L.
  transitivity (irsum k (fun i => irsum k (fun j => entry W i j * r j * dot u (PHt n P (h i) s)))).
  { apply irsum_ext; intros i _. rewrite dot_scale_r, Rmult_comm, <- irsum_scale. apply irsum_ext; intros j Hj. rewrite (Z j Hj). unfold h. ring. }
  rewrite irsum_swap. apply irsum_ext; intros j Hj. rewrite dot_scale_r, dot_isum_r, <- irsum_scale. apply irsum_ext; intros i Hi. rewrite dot_scale_r.
  destruct HW as [WS _]. rewrite (WS i j Hi Hj). ring.
Qed.
Lemma gain_best z r : length z = k -> (forall i, (i < k)%nat -> nth i z 0 = r i) -> best_estimate n P H Rn r (gain_mul n P H W z) (update_cov n P H W).
Proof.
  intros L Z. exists kgain. split; [intros s; now apply gain_applied|]. split; [exact kgain_var|exact kgain_best].
Qed.
(** there is only one best gain *)
Lemma form_0_inv a : form k Sm a = 0 -> forall i, (i < k)%nat -> a i = 0.
Proof.
  intros Z i Hi. destruct (Req_EM_T (a i) 0) as [E|E]; [exact E|]. assert (0 < form k Sm a); [|lra]. apply (s_posdef n P H Rn V N). exists i. now split.
Qed.
Lemma best_gain_weight K : (forall L v, error_variance n P H Rn K v <= error_variance n P H Rn L v) -> forall v i, (i < k)%nat -> weight n K v i = opt v i.
Proof.
  intros B v i Hi. specialize (B kgain v). rewrite <- kgain_var, (error_var_val K v) in B. pose proof (form_nonneg (fun i => weight n K v i - opt v i)) as F.
  assert (Z : form k Sm (fun i => weight n K v i - opt v i) = 0) by lra. pose proof (form_0_inv _ Z i Hi) as Y. cbv beta in Y. lra.
Qed.
End Best.
