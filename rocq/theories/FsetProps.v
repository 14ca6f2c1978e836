(** Properties C05-C10: the feature set. *)
From Coq Require Import List ZArith QArith Qround Bool Lia Lqa.
From Verif Require Import Util FsetModel FsetSpec FsetProofs FsetAdd FsetGridModel FsetFinal FsetGrid FsetSep.
Import ListNotations.
Local Open Scope Z_scope.

(** ** C05 *)
Theorem C05_allocation_takes_lowest_free_slot : forall Patch (fs fs' : fset Patch) i,
  make_new fs = (fs', Some i) ->
  free fs i /\ (forall j, (j < i)%nat -> exists g, live fs j g) /\
  (exists f, live fs' i f /\ f_idx f = fs_maxIdx fs) /\
  (forall j, j <> i -> nth_error (fs_slots fs') j = nth_error (fs_slots fs) j) /\
  capacity fs' = capacity fs /\ n_live fs' = S (n_live fs).
Proof. exact @allocate_free_slot. Qed.
Print Assumptions C05_allocation_takes_lowest_free_slot.

Theorem C05_allocation_fails_iff_full : forall Patch (fs : fset Patch),
  (snd (make_new fs) = None <-> n_free fs = 0%nat) /\ (n_free fs = 0%nat -> fst (make_new fs) = fs).
Proof. exact @allocate_fails_iff_full. Qed.
Print Assumptions C05_allocation_fails_iff_full.

Theorem C05_live_ids_distinct : forall Patch (fs : fset Patch) os,
  let s := fs_run (fs_reset fs) os in
  (forall i j f g, live s i f -> live s j g -> i <> j -> f_idx f <> f_idx g) /\
  (n_live s <= capacity fs)%nat.
Proof. exact @live_ids_distinct. Qed.
Print Assumptions C05_live_ids_distinct.

Theorem C05_ids_never_reused : forall Patch (fs s1 s2 : fset Patch) os1 os2 i1 i2 f1 f2,
  make_new (fs_run fs os1) = (s1, Some i1) -> live s1 i1 f1 ->
  ~ In FsReset os2 ->
  make_new (fs_run s1 os2) = (s2, Some i2) -> live s2 i2 f2 ->
  f_idx f1 < f_idx f2.
Proof. exact @ids_never_reused. Qed.
Print Assumptions C05_ids_never_reused.

(** adding candidates keeps the ids distinct, too *)
Theorem C05_candidates_keep_ids_distinct : forall Patch p (cs : list (cand Patch)) proj choose (fs fs' : fset Patch) news,
  add_best p cs proj choose fs = Ok (fs', news) -> 0 <= fs_maxIdx fs -> ids_ok fs ->
  0 <= fs_maxIdx fs' /\ ids_ok fs'.
Proof. exact @add_keeps_ids. Qed.
Print Assumptions C05_candidates_keep_ids_distinct.

(** ** C06 *)
Theorem C06_budget_and_capacity_respected : forall Patch p (cs : list (cand Patch)) proj choose (fs fs' : fset Patch) news,
  add_best p cs proj choose fs = Ok (fs', news) ->
  Z.of_nat (length news) <= Z.max 0 (p_max p) /\ (length news <= n_free fs)%nat /\
  capacity fs' = capacity fs /\
  NoDup (map fst news) /\
  (forall i, In i (map fst news) <-> free fs i /\ exists f, live fs' i f) /\
  (forall i, ~ In i (map fst news) -> nth_error (fs_slots fs') i = nth_error (fs_slots fs) i) /\
  n_live fs' = (n_live fs + length news)%nat.
Proof. exact @add_respects_budget. Qed.
Print Assumptions C06_budget_and_capacity_respected.

Theorem C06_added_feature_is_the_candidate : forall Patch p (cs : list (cand Patch)) proj choose (fs fs' : fset Patch) news k i c,
  add_best p cs proj choose fs = Ok (fs', news) ->
  nth_error news k = Some (i, c) ->
  exists cd, nth_error cs c = Some cd /\
    live fs' i {| f_idx := fs_maxIdx fs + Z.of_nat k; f_cam := p_cam p; f_c := cd_c cd; f_warpid := true; f_patch := cd_p cd |}.
Proof. exact @add_writes_candidate. Qed.
Print Assumptions C06_added_feature_is_the_candidate.

(** ** C07 *)
Theorem C07_each_candidate_once_and_above_min_score :
  forall Patch p (cs : list (cand Patch)) proj choose (fs fs' : fset Patch) news,
  sane p -> add_best p cs proj choose fs = Ok (fs', news) ->
  NoDup (map snd news) /\
  (forall i c, In (i, c) news -> exists cd, nth_error cs c = Some cd /\ (p_min p < score cd)%Q /\
      ((-1 <= p_min p)%Q -> cd_in cd = true /\ (p_min p < cd_s cd)%Q)) /\
  ((forall cd, In cd cs -> (score cd <= p_min p)%Q) -> fs' = fs /\ news = []).
Proof. exact @add_once_and_good. Qed.
Print Assumptions C07_each_candidate_once_and_above_min_score.

(** ** C08 *)
Theorem C08_adds_exactly_the_maximum :
  forall Patch p (cs : list (cand Patch)) proj choose (fs fs' : fset Patch) news,
  sane p -> p_req p = true -> 0 <= p_max p -> add_best p cs proj choose fs = Ok (fs', news) ->
  Z.of_nat (length news) = Z.min (p_max p) (Z.min (Z.of_nat (n_free fs)) (Z.of_nat (n_eligible p cs))).
Proof. exact @add_fills_to_max. Qed.
Print Assumptions C08_adds_exactly_the_maximum.

(** good candidates that are further apart than the penalty distance are all added, with or without that request *)
Theorem C08_separated_candidates_are_all_added : forall Patch p (cs : list (cand Patch)) proj choose (fs fs' : fset Patch) news,
  sane p -> 2 <= p_nb p -> (forall r, (0 < r <= 1)%Q -> (0 < p_pow p r)%Q) ->
  separated p cs (in_view proj fs) ->
  0 <= p_max p -> add_best p cs proj choose fs = Ok (fs', news) ->
  Z.of_nat (length news) = Z.min (p_max p) (Z.min (Z.of_nat (n_free fs)) (Z.of_nat (n_eligible p cs))).
Proof. exact @separated_all_added. Qed.
Print Assumptions C08_separated_candidates_are_all_added.

(** ** C09 *)
(** the best score the levels refer to *)
Theorem C09_best_score : forall Patch (cs : list (cand Patch)), is_best cs (max_score cs).
Proof. exact @max_score_best. Qed.
Print Assumptions C09_best_score.

(** The k-th candidate added had, after subtracting the losses caused by every live feature in view and by
    every candidate added before it in the same call, at least level 1. *)
Theorem C09_penalised_candidates_not_added :
  forall Patch p (cs : list (cand Patch)) proj choose (fs fs' : fset Patch) news k i c cd,
  sane p -> p_req p = false ->
  add_best p cs proj choose fs = Ok (fs', news) ->
  nth_error news k = Some (i, c) -> nth_error cs c = Some cd ->
  (1 + total_loss p (in_view proj fs ++ flat_map (fun n => cand_pos cs (snd n)) (firstn k news)) (cd_c cd)
   <= inject_Z (level_of p (max_score cs) cd))%Q.
Proof. intros Patch p cs proj choose fs fs' news k i c cd. rewrite <- existing_in_view. apply add_penalty. Qed.
Print Assumptions C09_penalised_candidates_not_added.

Theorem C09_no_coinciding_features :
  forall Patch p (cs : list (cand Patch)) proj choose (fs fs' : fset Patch) news,
  sane p -> p_req p = false -> ~ (p_dist p == 0)%Q -> (inject_Z (p_nb p) - 1 <= p_pen p)%Q ->
  add_best p cs proj choose fs = Ok (fs', news) ->
  forall i c cd, In (i, c) news -> nth_error cs c = Some cd ->
  (forall j f pos, live fs j f -> proj f = Some pos -> ~ ((fst pos == fst (cd_c cd))%Q /\ (snd pos == snd (cd_c cd))%Q)) /\
  (forall i' c' cd', In (i', c') news -> i' <> i -> nth_error cs c' = Some cd' ->
      ~ ((fst (cd_c cd') == fst (cd_c cd))%Q /\ (snd (cd_c cd') == snd (cd_c cd))%Q)).
Proof. exact @no_coinciding_added. Qed.
Print Assumptions C09_no_coinciding_features.

(** ** C10 *)
Theorem C10_bucketing_never_out_of_range :
  forall Patch p (cs : list (cand Patch)) proj choose (fs : fset Patch),
  sane p -> exists fs' news, add_best p cs proj choose fs = Ok (fs', news).
Proof. exact @add_defined. Qed.
Print Assumptions C10_bucketing_never_out_of_range.

Theorem C10_grid_variant_defined_with_room :
  forall Patch (g : gparams) (cs : list (cand Patch)) proj (fs : fset Patch),
  1 <= g_cols g <= int_max -> 1 <= g_rows g <= int_max ->
  (0 <= g_dist g <= inject_Z int_max)%Q ->
  (forall c, In c cs -> cd_in c = true ->
     (0 <= fst (cd_c c) <= inject_Z (g_cols g) - 1)%Q /\ (0 <= snd (cd_c c) <= inject_Z (g_rows g) - 1)%Q) ->
  (forall i f pos, live fs i f -> proj f = Some pos ->
     (- inject_Z int_max <= fst pos <= inject_Z int_max)%Q /\ (- inject_Z int_max <= snd pos <= inject_Z int_max)%Q) ->
  g_max g <= Z.of_nat (n_free fs) ->
  exists fs' news, add_best_new g cs proj fs = Ok (fs', news) /\
    Z.of_nat (length news) <= Z.max 0 (g_max g) /\
    NoDup (map snd news) /\
    (forall i, In i (map fst news) <-> free fs i /\ exists f, live fs' i f) /\
    (forall i, ~ In i (map fst news) -> nth_error (fs_slots fs') i = nth_error (fs_slots fs) i) /\
    (forall c, In c (map snd news) -> exists cd, nth_error cs c = Some cd /\ cd_in cd = true /\ (g_min g <= cd_s cd)%Q).
Proof. exact @grid_variant_defined. Qed.
Print Assumptions C10_grid_variant_defined_with_room.

(** the grid-based variant takes candidates in order of decreasing score *)
Theorem C10_grid_variant_best_first :
  forall Patch (g : gparams) (cs : list (cand Patch)) proj (fs fs' : fset Patch) news,
  add_best_new g cs proj fs = Ok (fs', news) ->
  forall k k' i i' c c' cd cd', (k < k')%nat -> nth_error news k = Some (i, c) -> nth_error news k' = Some (i', c') ->
    nth_error cs c = Some cd -> nth_error cs c' = Some cd' -> (cd_s cd' <= cd_s cd)%Q.
Proof. intros Patch g. exact (grid_order g). Qed.
Print Assumptions C10_grid_variant_best_first.

(** ** Concrete cases *)
Definition ft (i : Z) (x y : Q) : feature nat := {| f_idx := i; f_cam := 0; f_c := (x, y); f_warpid := true; f_patch := 0%nat |}.
Definition sl (v : bool) (f : feature nat) : slot nat := {| sl_valid := v; sl_feat := f |}.
Definition ex_fs : fset nat := {| fs_slots := [sl false (ft 0 0 0); sl true (ft 4 50 50); sl false (ft 1 9 9)]; fs_maxIdx := 7 |}.
Definition cd (x y s : Q) (i : bool) (n : nat) : cand nat := {| cd_c := (x, y); cd_in := i; cd_s := s; cd_p := n |}.
Definition ex_cs : list (cand nat) := [cd 50 50 90 true 10; cd 10 10 80 true 11; cd 11 10 70 true 12; cd 90 90 60 true 13; cd 5 5 99 false 14; cd 30 30 0 true 15].
Definition ex_p (req : bool) (nbk : Z) (pen : Q) : params :=
  {| p_nb := nbk; p_pow := fun q => q; p_dist := 20; p_pen := pen; p_max := 5; p_req := req; p_min := 0; p_cam := 0 |}.
Definition same_cam (f : feature nat) : option (Q * Q) := Some (f_c f).

Example ex_sane : sane (ex_p false 100 100) /\ sane (ex_p true 100 100).
Proof.
  split; split; cbn [p_nb p_pow p_pen ex_p];
    first [unfold int_max; lia | intros r Hr; split; [lra|]; change (inject_Z (2 ^ 32 - 1)) with (4294967295 # 1)%Q; change (inject_Z (100 - 1)) with (99#1)%Q; lra | split; unfold Qle; vm_compute; discriminate].
Qed.

(** only the two unpenalised candidates are added, into the free slots 0 and 2 *)
Example ex_not_required :
  match add_best (ex_p false 100 100) ex_cs same_cam (fun k n => k) ex_fs with
  | Ok (fs', news) => news = [(0, 1); (2, 3)]%nat /\ map sl_valid (fs_slots fs') = [true; true; true]
                      /\ map (fun s => f_idx (sl_feat s)) (fs_slots fs') = [7; 4; 8]
  | _ => False
  end.
Proof. vm_compute. auto. Qed.

Example ex_required :
  match add_best (ex_p true 100 100) ex_cs same_cam (fun k n => k) {| fs_slots := fs_slots ex_fs ++ fs_slots ex_fs ++ fs_slots ex_fs; fs_maxIdx := 7 |} with
  | Ok (fs', news) => length news = 4%nat /\ n_eligible (ex_p true 100 100) ex_cs = 4%nat
  | _ => False
  end.
Proof. vm_compute. auto. Qed.

(** zero buckets: out-of-range bucket index *)
Theorem C10_zero_buckets_refuted : exists p (cs : list (cand nat)) fs,
  p_nb p = 0 /\ (0 <= p_pen p)%Q /\ add_best p cs same_cam (fun k n => k) fs = UB.
Proof. exists (ex_p false 0 100), ex_cs, ex_fs. split; [reflexivity|]. split; [discriminate|]. vm_compute. reflexivity. Qed.
Print Assumptions C10_zero_buckets_refuted.

(** negative penalty: candidates move above the top bucket *)
Theorem C10_negative_penalty_refuted : exists p (cs : list (cand nat)) fs,
  1 <= p_nb p /\ (p_pen p < 0)%Q /\ add_best p cs same_cam (fun k n => k) fs = UB.
Proof. exists (ex_p false 100 (-50)), ex_cs, ex_fs. split; [cbn; lia|]. split; [reflexivity|]. vm_compute. reflexivity. Qed.
Print Assumptions C10_negative_penalty_refuted.

(** the grid-based variant on a full set *)
Definition full_fs : fset nat := {| fs_slots := [sl true (ft 0 500 500)]; fs_maxIdx := 1 |}.
Definition ex_g (mx : Z) : gparams := {| g_cols := 100; g_rows := 100; g_cam := 0; g_max := mx; g_min := 0; g_dist := 20; g_w := fun _ _ => 1%Q |}.
Theorem C10_grid_variant_full_set_refuted : exists g (cs : list (cand nat)) fs,
  n_free fs = 0%nat /\ add_best_new g cs same_cam fs = UB.
Proof. exists (ex_g 1), ex_cs, full_fs. split; [reflexivity|]. vm_compute. reflexivity. Qed.
Print Assumptions C10_grid_variant_full_set_refuted.

Example ex_grid_with_room :
  match add_best_new (ex_g 2) ex_cs same_cam ex_fs with
  | Ok (_, news) => news = [(0, 0); (2, 1)]%nat
  | _ => False
  end.
Proof. vm_compute. auto. Qed.

(** a minimum score below -1 lets candidates outside the image through *)
Theorem C07_low_min_score_refuted : exists p (cs : list (cand nat)) fs fs' news,
  sane p /\ add_best p cs same_cam (fun k n => k) fs = Ok (fs', news) /\
  exists i c cd, In (i, c) news /\ nth_error cs c = Some cd /\ cd_in cd = false.
Proof.
  exists {| p_nb := 100; p_pow := fun q => q; p_dist := 20; p_pen := 100; p_max := 5; p_req := true; p_min := -2; p_cam := 0 |}.
  exists [cd 5 5 99 false 14], ex_fs.
  eexists; eexists. split; [|split; [vm_compute; reflexivity|]].
  - split; cbn [p_nb p_pow p_pen];
      first [unfold int_max; lia | intros r Hr; split; [lra|]; change (inject_Z (2 ^ 32 - 1)) with (4294967295 # 1)%Q; change (inject_Z (100 - 1)) with (99#1)%Q; lra | split; unfold Qle; vm_compute; discriminate].
  - exists 0%nat, 0%nat. eexists. split; [left; reflexivity|]. split; reflexivity.
Qed.
Print Assumptions C07_low_min_score_refuted.

(** slot history *)
Example ex_slots :
  let s := fs_run (fs_reset ex_fs) [FsMake; FsMake; FsInvalidate 0; FsMake] in
  map (fun x => (sl_valid x, f_idx (sl_feat x))) (fs_slots s) = [(true, 2); (true, 1); (false, 1)].
Proof. reflexivity. Qed.
