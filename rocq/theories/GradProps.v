(** C24 (corner score) and C25 (gradient cache). *)
From Coq Require Import List ZArith QArith Qreals Reals Bool Arith Lia Lra.
From Verif Require Import PatchModel PatchSpec PatchProofs GradModel GradSpec GradProofs.
Import ListNotations.
Local Open Scope R_scope.

(** ** C24 *)
(** The bordered array is read in range only (the result is not [None]) and the reported values are the
    eigenvalues of the averaged gradient matrix; the score is their sum. *)
Theorem C24_eigenvalues : forall n B, (0 < n)%nat -> length B = ((n + 2) * (n + 2))%nat ->
  exists g, compute n B = Some g /\
    eigenvalue (sxx n B) (sxy n B) (syy n B) (g_e0 g) /\ eigenvalue (sxx n B) (sxy n B) (syy n B) (g_e1 g) /\
    0 <= g_e0 g <= g_e1 g /\ g_s g = g_e0 g + g_e1 g /\ g_s g = sxx n B + syy n B.
Proof. exact compute_spec. Qed.
(** "the score is the smaller eigenvalue" (as documented) is false, by any margin: along an edge the
    smaller eigenvalue is 0 and the score arbitrarily large. *)
Theorem C24_score_is_smaller_eigenvalue_refuted : forall n bound, (0 < n)%nat ->
  exists B g, length B = ((n + 2) * (n + 2))%nat /\ compute n B = Some g /\ g_e0 g = 0 /\ bound < g_s g.
Proof. exact edge_score. Qed.
(** Several levels: the same for the average over the valid levels, level i weighted by 1/4^i; the score
    is -1 when no level is valid, hence non-negative exactly when one is. *)
Theorem C24_multilevel : forall n junk Bs l1 l2, (0 < n)%nat -> (l1 <= l2 < length Bs)%nat ->
  (forall bv, In bv Bs -> snd bv = true -> length (fst bv) = ((n + 2) * (n + 2))%nat) ->
  exists g, ml_score n (fresh_mlp n junk Bs) l1 l2 = Some g /\
  ((forall i, (l1 <= i <= l2)%nat -> lvl_ok Bs i = false) -> g_s g = -1) /\
  forall i, (l1 <= i <= l2)%nat -> lvl_ok Bs i = true ->
    let a := level_mean Bs l1 l2 (sxx n) in let b := level_mean Bs l1 l2 (sxy n) in let c := level_mean Bs l1 l2 (syy n) in
    eigenvalue a b c (g_e0 g) /\ eigenvalue a b c (g_e1 g) /\ 0 <= g_e0 g <= g_e1 g /\ g_s g = g_e0 g + g_e1 g /\ g_s g = a + c.
Proof. exact ml_score_spec. Qed.
(** one level only *)
Theorem C24_single_level : forall n junk Bs l, (0 < n)%nat -> (l < length Bs)%nat ->
  (lvl_ok Bs l = true -> length (lvl Bs l) = ((n + 2) * (n + 2))%nat) ->
  ml_level_score n (fresh_mlp n junk Bs) l = Some (if lvl_ok Bs l then sxx n (lvl Bs l) + syy n (lvl Bs l) else -1).
Proof. exact ml_level_score_spec. Qed.

Example C24_ex_mean : sxx 2 [0;2;4;6; 0;2;4;6; 0;2;4;6; 0;2;4;6] = 4 /\ syy 2 [0;2;4;6; 0;2;4;6; 0;2;4;6; 0;2;4;6] = 0.
Proof. split; unfold sxx, syy, mean, total, gx, gy, px; cbn; lra. Qed.

(** ** C25 *)
(** Whatever happened before (any state, any operations), after an extraction with border and any number
    of further operations that do not extract with border, score and Hessian are those of the data
    of that extraction. *)
Theorem C25_score_of_last_bordered : forall rnd n p0 pre e post p B, Nat.Even n -> (0 < n)%nat ->
  prun rnd n p0 (pre ++ e :: post) = Some p -> with_border e = true -> data_of rnd n e = Some B ->
  (forall o, In o post -> with_border o = false) ->
  exists p', get_score n p = Some (p', sxx n B + syy n B) /\
    get_hessian n p = Some (p',
      {| hxx := total n (fun x y => gx n B x y * gx n B x y); hxy := total n (fun x y => gx n B x y * gy n B x y);
         hyy := total n (fun x y => gy n B x y * gy n B x y);
         hx := total n (fun x y => gx n B x y); hy := total n (fun x y => gy n B x y); h1 := INR (n * n) |}).
Proof. exact score_current. Qed.
(** The plain patch always belongs to the last extraction, with or without border. *)
Theorem C25_patch_of_last_extraction : forall rnd n p0 pre im ident w cx cy b post p l, Nat.Even n ->
  prun rnd n p0 (pre ++ Extract im ident w cx cy b :: post) = Some p ->
  (forall o, In o post -> o = Score \/ o = Hessian) ->
  extract rnd n im ident w cx cy false = Some l -> p_patch p = Some (map Q2R l).
Proof. exact patch_current. Qed.
(** After an extraction without border the score still describes the earlier bordered extraction. *)
Theorem C25_score_of_last_extraction_refuted : exists n p0 e1 e2 p s B2,
  with_border e1 = true /\ e2 = Extract ex_flat true ex_id 4 4 false /\
  prun exact n p0 [e1; e2] = Some p /\
  data_of exact n (Extract ex_flat true ex_id 4 4 true) = Some B2 /\
  (exists p', get_score n p = Some (p', s)) /\ s <> sxx n B2 + syy n B2.
Proof. exact stale_score. Qed.

Example C25_ex : exists p B, prun exact 2 (new_patch hzero) [Extract ex_ramp true ex_id 4 4 true; Score; Hessian; Score] = Some p
  /\ data_of exact 2 (Extract ex_ramp true ex_id 4 4 true) = Some B /\ sxx 2 B + syy 2 B = 100.
Proof. exact ramp_run. Qed.

Print Assumptions C24_eigenvalues.
Print Assumptions C24_score_is_smaller_eigenvalue_refuted.
Print Assumptions C24_multilevel.
Print Assumptions C24_single_level.
Print Assumptions C25_score_of_last_bordered.
Print Assumptions C25_patch_of_last_extraction.
Print Assumptions C25_score_of_last_extraction_refuted.
