(** C06 without any restriction on parameters, and the grid-based variant. *)
From Coq Require Import List ZArith QArith Qround Bool Lia Lqa Permutation Sorted.
From Verif Require Import Util FsetModel FsetSpec FsetProofs FsetBuckets FsetAdd FsetGridModel.
Import ListNotations.
Local Open Scope Z_scope.

Section Uncond.
Context {Patch : Type}.
Notation cand := (cand Patch).
Variable p : params.
Variable cs : list cand.
Variable choose : nat -> nat -> nat.
Variable fs0 : fset Patch.

Definition uinv (st : @addst Patch) : Prop :=
  set_inv p cs fs0 (a_fs st) (a_new st) /\ a_cnt st = Z.of_nat (length (a_new st)) /\
  Z.of_nat (length (a_new st)) <= Z.max 0 (p_max p).

Lemma u_add_one b st st' : uinv st -> a_cnt st < p_max p -> add_one p cs choose b st = Ok st' -> uinv st'.
Proof.
  intros (H1 & H2 & H3) Hlt. unfold add_one.
  destruct (pick _ _ _) as [nf|]; [|discriminate].
  destruct (nth_error cs nf) as [c|] eqn:Ec; [|discriminate].
  destruct (bk_erase _ _ _) as [bk1| |]; cbn [rbind]; try discriminate.
  destruct (make_new (a_fs st)) as [fs1 [ind|]] eqn:Em; [|discriminate].
  destruct (move_all _ _ _ _ _) as [bk2| |]; cbn [rbind]; try discriminate.
  intros H; injection H as <-. split; [|cbn [a_cnt a_new a_fs length]; lia].
  cbn [a_fs a_new]. eapply set_inv_step; eauto.
Qed.

Lemma u_while b : forall fuel st st', uinv st -> add_while fuel p cs choose b st = Ok st' -> uinv st'.
Proof.
  induction fuel as [|fuel IH]; intros st st' Hi; cbn [add_while];
    destruct (nonempty _ && (a_cnt st <? p_max p)) eqn:Ea; cbn [andb];
    try (destruct (negb _)); try discriminate; try (intros H; injection H as <-; exact Hi).
  apply andb_prop in Ea as [_ Ea]. apply Z.ltb_lt in Ea.
  destruct (add_one p cs choose b st) as [st1| |] eqn:E1; cbn [rbind]; try discriminate.
  apply IH. eapply u_add_one; eauto.
Qed.

Lemma u_fold : forall bs r st', fold_left (fun rs b => rbind rs (add_while (length cs) p cs choose b)) bs r = Ok st' ->
  (forall st, r = Ok st -> uinv st) -> uinv st'.
Proof.
  induction bs as [|b bs IH]; intros r st' H Hr; cbn in H; [auto|].
  apply (IH _ _ H). intros st1 H1. destruct r as [st| |]; cbn in H1; try discriminate.
  eapply u_while; eauto.
Qed.

End Uncond.

Lemma set_inv_refl {Patch} p (cs : list (cand Patch)) fs : set_inv p cs fs fs [].
Proof.
  split; cbn; auto; try lia.
  - intros [|k] i c H; discriminate.
  - constructor.
Qed.

Lemma add_best_set {Patch} p (cs : list (cand Patch)) proj choose fs fs' news :
  add_best p cs proj choose fs = Ok (fs', news) ->
  set_inv p cs fs fs' (rev news) /\ Z.of_nat (length news) <= Z.max 0 (p_max p).
Proof.
  unfold add_best. destruct (Qle_bool _ _).
  { intros H; injection H as <- <-. split; [apply set_inv_refl|cbn; lia]. }
  destruct (p_nb p <? 0); [discriminate|].
  destruct (fill _ _ _) as [bk| |]; cbn [rbind]; try discriminate.
  destruct (penalise_existing _ _ _ _) as [bk1| |]; cbn [rbind]; try discriminate.
  destruct (add_loop _ _ _ _) as [st| |] eqn:El; cbn [rbind]; try discriminate.
  intros H; injection H as <- <-.
  unfold add_loop in El. apply u_fold with (fs0 := fs) in El.
  - destruct El as (H1 & H2 & H3). rewrite rev_involutive, rev_length. auto.
  - intros st1 H; injection H as <-. split; [|cbn; lia]. apply set_inv_refl.
Qed.

(** what set_inv says about the returned slots *)
Lemma set_inv_newly {Patch} p (cs : list (cand Patch)) fs fs' news :
  set_inv p cs fs fs' (rev news) ->
  (forall i, In i (map fst news) <-> free fs i /\ exists f, live fs' i f).
Proof.
  intros [L N O ND I V] i. rewrite rev_involutive in N. rewrite map_rev in O. split.
  - intros Hi. apply in_map_iff in Hi as [[i' c] [E Hi]]; cbn in E; subst i'.
    apply In_nth_error in Hi as [k Hk]. destruct (N _ _ _ Hk) as [Hf [cd [_ Hs]]]. split; auto.
    unfold live. unfold new_slot in Hs. eauto.
  - intros [[f Hf] [g Hg]]. destruct (in_dec Nat.eq_dec i (map fst news)) as [|Hn]; auto. exfalso.
    unfold live in Hg. rewrite O in Hg; [congruence|]. intros Hi; apply Hn. apply in_rev; auto.
Qed.

Section GridP.
Context {Patch : Type}.
Notation cand := (cand Patch).
Variable g : gparams.

Definition pp : params :=
  {| p_nb := 0; p_pow := fun q => q; p_dist := 0; p_pen := 0; p_max := g_max g; p_req := false; p_min := g_min g; p_cam := g_cam g |}.

Hypothesis Hdim : 1 <= g_cols g /\ 1 <= g_rows g.

Lemma ncx_pos : 1 <= ncx g. Proof. unfold ncx. assert (0 <= (g_cols g - 1) / 10) by (apply Z.div_pos; lia). lia. Qed.
Lemma ncy_pos : 1 <= ncy g. Proof. unfold ncy. assert (0 <= (g_rows g - 1) / 10) by (apply Z.div_pos; lia). lia. Qed.

Lemma wt_add_ok w i q : 0 <= i < Z.of_nat (length w) ->
  exists w', wt_add w i q = Ok w' /\ length w' = length w.
Proof.
  intros H. unfold wt_add.
  replace (0 <=? i) with true by (symmetry; apply Z.leb_le; lia).
  replace (i <? Z.of_nat (length w)) with true by (symmetry; apply Z.ltb_lt; lia).
  cbn. eexists; split; [reflexivity|]. apply upd_nth_length.
Qed.

Lemma in_zrange a b x : In x (zrange a b) -> a <= x < b.
Proof.
  unfold zrange. intros H. apply in_map_iff in H as [k [<- Hk]]. apply in_seq in Hk. lia.
Qed.

Lemma fold_res_ok {A} (Q : A -> Prop) (f : res A -> Z -> res A) :
  forall l (w : A), Q w ->
  (forall x w, In x l -> Q w -> exists w', f (Ok w) x = Ok w' /\ Q w') ->
  exists w', fold_left f l (Ok w) = Ok w' /\ Q w'.
Proof.
  induction l as [|x l IH]; intros w Hw H; cbn; [eauto|].
  destruct (H x w (or_introl eq_refl) Hw) as [w1 [-> H1]]. apply IH; auto. intros y w' Hy; apply H; right; auto.
Qed.

Lemma add_weights_ok nr xc yc w : Z.of_nat (length w) = ncell g ->
  exists w', add_weights g nr xc yc w = Ok w' /\ Z.of_nat (length w') = ncell g.
Proof.
  intros Hw. unfold add_weights. apply fold_res_ok with (Q := fun w => Z.of_nat (length w) = ncell g); auto.
  intros x w1 Hx Hw1. apply fold_res_ok with (Q := fun w => Z.of_nat (length w) = ncell g); auto.
  intros y w2 Hy Hw2. apply in_zrange in Hx, Hy. cbn [rbind].
  destruct (wt_add_ok w2 (x * ncy g + y) (g_w g (x - xc) (y - yc))) as [w3 [-> Hl]].
  - rewrite Hw2. unfold ncell. pose proof ncx_pos; pose proof ncy_pos. split; nia.
  - exists w3; split; auto. lia.
Qed.

(** a pixel inside the image is in a cell of the grid *)
Definition in_image (c : Q * Q) : Prop :=
  (0 <= fst c /\ fst c <= inject_Z (g_cols g) - 1 /\ 0 <= snd c /\ snd c <= inject_Z (g_rows g) - 1)%Q.
Definition moderate (c : Q * Q) : Prop :=
  (- inject_Z int_max <= fst c <= inject_Z int_max /\ - inject_Z int_max <= snd c <= inject_Z int_max)%Q.

Lemma inject_Z_int_max_nonneg : (0 <= inject_Z int_max)%Q.
Proof. change 0%Q with (inject_Z 0). rewrite <- Zle_Qle. unfold int_max; lia. Qed.

Lemma cell_coord_mod q : (- inject_Z int_max <= q <= inject_Z int_max)%Q -> exists z, cell_coord q = Some z.
Proof.
  intros H. unfold cell_coord, to_int.
  pose proof inject_Z_int_max_nonneg as Hi.
  assert (H1 : (q / 10 <= inject_Z int_max)%Q) by (apply Qle_shift_div_r; lra).
  assert (H2 : (inject_Z (- int_max) <= q / 10)%Q).
  { rewrite inject_Z_opp. apply Qle_shift_div_l; lra. }
  apply Qtrunc_le in H1; [|unfold int_max; lia].
  apply Qtrunc_ge in H2; [|unfold int_max; lia].
  replace (int_min <=? Qtrunc (q / 10)) with true by (symmetry; apply Z.leb_le; unfold int_min, int_max in *; lia).
  replace (Qtrunc (q / 10) <=? int_max) with true by (symmetry; apply Z.leb_le; lia).
  cbn; eauto.
Qed.

Lemma cell_coord_in q n : 1 <= n <= int_max -> (0 <= q <= inject_Z n - 1)%Q ->
  exists z, cell_coord q = Some z /\ 0 <= z < (n - 1) / 10 + 1.
Proof.
  intros Hn Hq.
  assert (Hni : (inject_Z n <= inject_Z int_max)%Q) by (rewrite <- Zle_Qle; lia).
  pose proof inject_Z_int_max_nonneg as Hi.
  destruct (cell_coord_mod q) as [z Hz]; [lra|]. exists z; split; auto.
  unfold cell_coord, to_int in Hz. destruct (_ && _); [|discriminate]. injection Hz as <-.
  unfold Qtrunc. destruct (Qlt_le_dec (q / 10) 0) as [Hlt|Hge].
  - exfalso. assert (0 <= q / 10)%Q by (apply Qle_shift_div_l; lra). lra.
  - split.
    + rewrite <- (Qfloor_Z 0). apply Qfloor_resp_le; auto.
    + enough (Qfloor (q / 10) <= (n - 1) / 10) by lia.
      apply Z.div_le_lower_bound; [lia|].
      rewrite <- (Qfloor_Z (n - 1)). rewrite <- (Qfloor_Z (10 * Qfloor (q / 10))). apply Qfloor_resp_le.
      rewrite inject_Z_mult. pose proof (Qfloor_le (q / 10)) as Hf.
      unfold Zminus. rewrite inject_Z_plus. change (inject_Z 10) with 10%Q. change (inject_Z (- (1))) with (-1)%Q.
      assert (10 * (q / 10) == q)%Q by field. lra.
Qed.

Definition entry_ok (cs : list cand) (e : entry Patch) : Prop :=
  nth_error cs (e_i e) = Some (e_c e) /\ cd_in (e_c e) = true /\ (g_min g <= cd_s (e_c e))%Q /\
  0 <= e_b e < ncell g.

Lemma collect_ok (cs : list cand) :
  g_cols g <= int_max -> g_rows g <= int_max ->
  (forall c, In c cs -> cd_in c = true -> in_image (cd_c c)) ->
  exists l, collect g cs = Ok l /\ Forall (entry_ok cs) l /\ NoDup (map e_i l).
Proof.
  intros Hc Hr Himg. unfold collect.
  assert (G : forall cs' k l, (forall i, nth_error cs (k + i)%nat = nth_error cs' i) ->
    Forall (entry_ok cs) l -> NoDup (map e_i l) -> (forall e, In e l -> (e_i e < k)%nat) ->
    exists l', fold_left (fun rl ic => rbind rl (fun l =>
      let c := snd ic in
      if cd_in c && negb (Qltb' (cd_s c) (g_min g)) then
        match cell_coord (fst (cd_c c)), cell_coord (snd (cd_c c)) with
        | Some xc, Some yc => Ok (l ++ [{| e_i := fst ic; e_c := c; e_b := xc * ncy g + yc |}])
        | _, _ => UB
        end
      else Ok l)) (combine (seq k (length cs')) cs') (Ok l) = Ok l' /\ Forall (entry_ok cs) l' /\ NoDup (map e_i l')).
  { induction cs' as [|c cs' IH]; intros k l Hs Hl Hnd Hlt; [exists l; cbn; auto|].
    cbn [length seq combine fold_left rbind fst snd].
    assert (Hk : nth_error cs k = Some c) by (rewrite <- (Nat.add_0_r k), Hs; reflexivity).
    assert (Hs' : forall i, nth_error cs (S k + i)%nat = nth_error cs' i).
    { intros i. rewrite Nat.add_succ_comm. rewrite Hs. reflexivity. }
    cbv zeta. destruct (cd_in c && negb (Qltb' (cd_s c) (g_min g))) eqn:Ec.
    - apply andb_prop in Ec as [Ec1 Ec2]. apply negb_true_iff, Qltb'_false in Ec2.
      destruct (Himg c (nth_error_In _ _ Hk) Ec1) as (I1 & I2 & I3 & I4).
      destruct (cell_coord_in (fst (cd_c c)) (g_cols g)) as [x [-> Hx]]; [lia|lra|].
      destruct (cell_coord_in (snd (cd_c c)) (g_rows g)) as [y [-> Hy]]; [lia|lra|].
      fold (ncx g) in Hx. fold (ncy g) in Hy.
      apply IH; auto.
      + apply Forall_app; split; auto. constructor; auto. split; auto. split; auto. split; auto. cbn [e_b].
        unfold ncell. split; nia.
      + rewrite map_app. cbn [map e_i]. apply NoDup_app_comm || idtac.
        apply (Permutation_NoDup (Permutation_cons_append (map e_i l) k)). constructor; auto.
        intros Hin. apply in_map_iff in Hin as [e [He Hin]]. specialize (Hlt _ Hin). lia.
      + intros e He. apply in_app_iff in He as [He|[<-|[]]]; [specialize (Hlt _ He); lia|cbn; lia].
    - apply IH; auto. intros e He; specialize (Hlt _ He); lia. }
  apply G; auto; try constructor. intros e [].
Qed.

Lemma ins_perm (e : entry Patch) l : Permutation (ins e l) (e :: l).
Proof.
  induction l as [|d l IH]; cbn; auto. destruct (Qltb' _ _); auto.
  rewrite IH. apply perm_swap.
Qed.
Lemma sort_perm (l : list (entry Patch)) : Permutation (sort l) l.
Proof. induction l as [|e l IH]; cbn; auto. rewrite ins_perm. constructor; auto. Qed.

Lemma grid_loop_ok (cs : list cand) fs0 nr : forall es fs w news,
  Forall (entry_ok cs) es -> NoDup (map e_i es) ->
  (forall e, In e es -> ~ In (e_i e) (map snd news)) ->
  Z.of_nat (length w) = ncell g -> set_inv pp cs fs0 fs news ->
  Z.of_nat (length news) <= Z.max 0 (g_max g) -> (g_max g <= Z.of_nat (n_free fs0)) ->
  NoDup (map snd news) ->
  (forall c, In c (map snd news) -> exists cd, nth_error cs c = Some cd /\ cd_in cd = true /\ (g_min g <= cd_s cd)%Q) ->
  exists fs' news', grid_loop g nr es fs w (Z.of_nat (length news)) news = Ok (fs', news') /\
    set_inv pp cs fs0 fs' (rev news') /\ Z.of_nat (length news') <= Z.max 0 (g_max g) /\
    NoDup (map snd news') /\
    (forall c, In c (map snd news') -> exists cd, nth_error cs c = Some cd /\ cd_in cd = true /\ (g_min g <= cd_s cd)%Q).
Proof.
  assert (Hend : forall fs news, set_inv pp cs fs0 fs news -> Z.of_nat (length news) <= Z.max 0 (g_max g) ->
    NoDup (map snd news) ->
    (forall c, In c (map snd news) -> exists cd, nth_error cs c = Some cd /\ cd_in cd = true /\ (g_min g <= cd_s cd)%Q) ->
    exists fs' news', Ok (fs, rev news) = Ok (fs', news') /\
    set_inv pp cs fs0 fs' (rev news') /\ Z.of_nat (length news') <= Z.max 0 (g_max g) /\
    NoDup (map snd news') /\
    (forall c, In c (map snd news') -> exists cd, nth_error cs c = Some cd /\ cd_in cd = true /\ (g_min g <= cd_s cd)%Q)).
  { intros fs news H1 H2 H3 H4. exists fs, (rev news). rewrite rev_involutive, rev_length, map_rev.
    split; auto. split; auto. split; auto. split; [apply NoDup_rev; auto|]. intros c Hc. apply H4. apply in_rev; auto. }
  induction es as [|e es IH]; intros fs w news Hes Hnd Hdj Hw Hset Hlen Hmax Hnds Hel; cbn [grid_loop].
  - apply Hend; auto.
  - destruct (Z.ltb_spec (Z.of_nat (length news)) (g_max g)) as [Hlt|Hge]; [|apply Hend; auto].
    apply Forall_cons_iff in Hes as [(E1 & E2 & E3 & E4) Hes]. cbn in Hnd. apply NoDup_cons_iff in Hnd as [Hn1 Hnd].
    unfold wt_get. replace (0 <=? e_b e) with true by (symmetry; apply Z.leb_le; lia).
    destruct (nth_error w (Z.to_nat (e_b e))) as [q|] eqn:Eq.
    2:{ apply nth_error_None in Eq. lia. }
    destruct (Qltb' q 100).
    + destruct (make_new fs) as [fs1 [ind|]] eqn:Em.
      2:{ exfalso. apply make_new_none in Em as [_ Hz]. destruct Hset as [L _ _ _ _ V].
          pose proof (n_live_free fs). pose proof (n_live_free fs0). unfold capacity in *. lia. }
      destruct (add_weights_ok nr (e_b e / ncy g) (e_b e mod ncy g) w Hw) as [w1 [-> Hw1]]. cbn [rbind].
      replace (Z.of_nat (length news) + 1) with (Z.of_nat (length ((ind, e_i e) :: news))) by (cbn [length]; lia).
      apply IH; auto.
      * intros d Hd [Heq|Hin]; cbn in *.
        -- apply Hn1. rewrite Heq. apply in_map; auto.
        -- apply (Hdj d); auto.
      * exact (set_inv_step pp cs (fun _ _ => O) fs0 fs fs1 news ind (e_i e) (e_c e) Hset Em E1).
      * cbn [length]. lia.
      * cbn. constructor; auto. apply Hdj; left; auto.
      * cbn. intros c [<-|Hc]; eauto.
    + apply IH; auto. intros d Hd. apply Hdj; right; auto.
Qed.

Lemma grid_safe (cs : list cand) proj fs :
  g_cols g <= int_max -> g_rows g <= int_max ->
  (0 <= g_dist g <= inject_Z int_max)%Q ->
  (forall c, In c cs -> cd_in c = true -> in_image (cd_c c)) ->
  (forall pos, In pos (existing proj fs) -> moderate pos) ->
  g_max g <= Z.of_nat (n_free fs) ->
  exists fs' news, add_best_new g cs proj fs = Ok (fs', news) /\
    set_inv pp cs fs fs' (rev news) /\ Z.of_nat (length news) <= Z.max 0 (g_max g) /\
    NoDup (map snd news) /\
    (forall c, In c (map snd news) -> exists cd, nth_error cs c = Some cd /\ cd_in cd = true /\ (g_min g <= cd_s cd)%Q).
Proof.
  intros Hc Hr Hd Himg Hmod Hmax. unfold add_best_new.
  destruct (cell_coord_mod (g_dist g)) as [nr Hnr].
  { pose proof inject_Z_int_max_nonneg. lra. }
  unfold cell_coord in Hnr. rewrite Hnr.
  pose proof ncx_pos as Hx. pose proof ncy_pos as Hy.
  assert (Hcell : 1 <= ncell g) by (unfold ncell; nia).
  replace (ncell g <? 1) with false by (symmetry; apply Z.ltb_ge; lia).
  destruct (collect_ok cs Hc Hr Himg) as [l [-> [Hl1 Hl2]]]. cbn [rbind].
  destruct l as [|e l].
  { exists fs, []. split; auto. split; [apply set_inv_refl|]. split; [cbn; lia|]. split; [constructor|intros c []]. }
  set (l0 := e :: l) in *.
  assert (Hw : exists w, weigh_existing g nr (existing proj fs) (repeat 0%Q (Z.to_nat (ncell g))) = Ok w /\ Z.of_nat (length w) = ncell g).
  { unfold weigh_existing. assert (H0 : Z.of_nat (length (repeat 0%Q (Z.to_nat (ncell g)))) = ncell g) by (rewrite repeat_length; lia).
    revert H0 Hmod. generalize (repeat 0%Q (Z.to_nat (ncell g))) as w. generalize (existing proj fs) as ex. clear -Hdim.
    induction ex as [|pos ex IH]; intros w Hw Hmod; cbn [fold_left rbind]; [eauto|].
    destruct (Hmod pos (or_introl eq_refl)) as [M1 M2].
    destruct (cell_coord_mod _ M1) as [x ->]. destruct (cell_coord_mod _ M2) as [y ->].
    destruct (add_weights_ok nr x y w Hw) as [w1 [-> Hw1]]. apply IH; auto. intros q Hq; apply Hmod; right; auto. }
  destruct Hw as [w [-> Hw]]. cbn [rbind].
  change 0 with (Z.of_nat (length (@nil (nat * nat)))) at 1.
  apply grid_loop_ok; auto.
  - apply Forall_forall. intros x Hin. apply (Permutation_in _ (sort_perm l0)) in Hin.
    rewrite Forall_forall in Hl1; auto.
  - apply (Permutation_NoDup (l := map e_i l0)); auto. apply Permutation_map, Permutation_sym, sort_perm.
  - apply set_inv_refl.
  - cbn; lia.
  - constructor.
  - intros c [].
Qed.

(** candidates are taken in order of decreasing score *)
Lemma ins_sorted (e : entry Patch) l : StronglySorted (fun a b => (cd_s (e_c b) <= cd_s (e_c a))%Q) l ->
  StronglySorted (fun a b => (cd_s (e_c b) <= cd_s (e_c a))%Q) (ins e l).
Proof.
  induction 1 as [|d l Hs IH Hd]; cbn; [repeat constructor|].
  unfold Qltb'. destruct (Qlt_le_dec (cd_s (e_c e)) (cd_s (e_c d))) as [Hl|Hl].
  - constructor; auto. apply Forall_forall. intros x Hx. apply (Permutation_in _ (ins_perm e l)) in Hx. destruct Hx as [<-|Hx]; [lra|].
    rewrite Forall_forall in Hd. auto.
  - constructor; [constructor; auto|]. constructor; auto. eapply Forall_impl; [|exact Hd]. cbn. intros a Ha. lra.
Qed.
Lemma sort_sorted (l : list (entry Patch)) : StronglySorted (fun a b => (cd_s (e_c b) <= cd_s (e_c a))%Q) (sort l).
Proof. induction l; cbn; [constructor|]. now apply ins_sorted. Qed.

Lemma collect_entries (cs : list cand) l : collect g cs = Ok l -> Forall (fun e => nth_error cs (e_i e) = Some (e_c e)) l.
Proof.
  unfold collect.
  assert (G : forall cs' k l0 l, (forall i, nth_error cs (k + i)%nat = nth_error cs' i) ->
    Forall (fun e : entry Patch => nth_error cs (e_i e) = Some (e_c e)) l0 ->
    fold_left (fun rl ic => rbind rl (fun l =>
      let c := snd ic in
      if cd_in c && negb (Qltb' (cd_s c) (g_min g)) then
        match cell_coord (fst (cd_c c)), cell_coord (snd (cd_c c)) with
        | Some xc, Some yc => Ok (l ++ [{| e_i := fst ic; e_c := c; e_b := xc * ncy g + yc |}])
        | _, _ => UB
        end
      else Ok l)) (combine (seq k (length cs')) cs') (Ok l0) = Ok l -> Forall (fun e => nth_error cs (e_i e) = Some (e_c e)) l).
  { induction cs' as [|c cs' IH]; intros k l0 l1 Hk H0 E; cbn in E; [injection E as <-; auto|].
    assert (Hk' : forall i, nth_error cs (S k + i)%nat = nth_error cs' i) by (intros i; specialize (Hk (S i)); cbn [nth_error] in Hk; rewrite <- Hk; f_equal; lia).
    destruct (cd_in c && negb (Qltb' (cd_s c) (g_min g))); [|now apply (IH (S k) l0)].
    assert (Hub : forall l2, fold_left (fun (rl : res (list (entry Patch))) (ic : nat * cand) => rbind rl (fun l =>
      let c := snd ic in
      if cd_in c && negb (Qltb' (cd_s c) (g_min g)) then
        match cell_coord (fst (cd_c c)), cell_coord (snd (cd_c c)) with
        | Some xc, Some yc => Ok (l ++ [{| e_i := fst ic; e_c := c; e_b := xc * ncy g + yc |}])
        | _, _ => UB
        end
      else Ok l)) l2 UB = UB) by (induction l2; cbn; auto).
    destruct (cell_coord (fst (cd_c c))); [|cbn in E; rewrite Hub in E; discriminate].
    destruct (cell_coord (snd (cd_c c))); [|cbn in E; rewrite Hub in E; discriminate].
    cbn in E. apply (IH (S k) (l0 ++ [{| e_i := k; e_c := c; e_b := z * ncy g + z0 |}])); auto.
    apply Forall_app. split; auto. constructor; [|constructor]. cbn. rewrite <- (Nat.add_0_r k). now rewrite (Hk 0%nat). }
  intros E. apply (G cs 0%nat [] l); auto.
Qed.

Lemma grid_loop_order (cs : list cand) nr : forall es fs w cnt news fs' r,
  Forall (fun e => nth_error cs (e_i e) = Some (e_c e)) es ->
  StronglySorted (fun a b => (cd_s (e_c b) <= cd_s (e_c a))%Q) es ->
  grid_loop g nr es fs w cnt news = Ok (fs', r) ->
  exists l : list (nat * nat), r = (rev news ++ l)%list /\ Forall (fun n => exists e, In e es /\ e_i e = snd n) l /\ StronglySorted (fun n m => forall cn cm, nth_error cs (snd n) = Some cn -> nth_error cs (snd m) = Some cm -> (cd_s cm <= cd_s cn)%Q) l.
Proof.
  assert (Hend : forall (es : list (entry Patch)) (news : list (nat * nat)), exists l : list (nat * nat), rev news = (rev news ++ l)%list /\ Forall (fun n => exists e, In e es /\ e_i e = snd n) l /\ StronglySorted (fun n m => forall cn cm, nth_error cs (snd n) = Some cn -> nth_error cs (snd m) = Some cm -> (cd_s cm <= cd_s cn)%Q) l).
  { intros es news. exists []. rewrite app_nil_r. repeat constructor. }
  induction es as [|e es IH]; intros fs w cnt news fs' r Hes Hs E; cbn [grid_loop] in E.
  { injection E as _ <-. apply Hend. }
  destruct (cnt <? g_max g); [|injection E as _ <-; apply Hend].
  destruct (wt_get w (e_b e)) as [q|]; [|discriminate].
  apply Forall_cons_iff in Hes as [He Hes]. apply StronglySorted_inv in Hs as [Hs Hle].
  assert (Hw : forall l, Forall (fun n : nat * nat => exists e, In e es /\ e_i e = snd n) l -> Forall (fun n => exists e0, In e0 (e :: es) /\ e_i e0 = snd n) l).
  { intros l. apply Forall_impl. intros n [x [Hx1 Hx2]]. exists x. split; [right|]; auto. }
  destruct (Qltb' q 100).
  - destruct (make_new fs) as [fs1 [ind|]]; [|discriminate].
    destruct (add_weights g nr (e_b e / ncy g) (e_b e mod ncy g) w) as [w1| |]; cbn [rbind] in E; try discriminate.
    destruct (IH _ _ _ _ _ _ Hes Hs E) as (l & -> & F & So). exists ((ind, e_i e) :: l). cbn [rev]. rewrite <- app_assoc. cbn [app]. split; auto. split.
    + constructor; [exists e; split; [left|]; auto|auto].
    + constructor; auto. eapply Forall_impl; [|exact F]. cbn. intros n [x [Hx1 Hx2]] cn cm Hn Hm.
      rewrite Forall_forall in Hle. specialize (Hle x Hx1). rewrite Forall_forall in Hes. specialize (Hes x Hx1). cbn in Hle. rewrite <- Hx2 in Hm. congruence.
  - destruct (IH _ _ _ _ _ _ Hes Hs E) as (l & -> & F & So). exists l. auto.
Qed.

Lemma grid_order (cs : list cand) proj fs fs' news : add_best_new g cs proj fs = Ok (fs', news) ->
  forall k k' i i' c c' cd cd', (k < k')%nat -> nth_error news k = Some (i, c) -> nth_error news k' = Some (i', c') ->
    nth_error cs c = Some cd -> nth_error cs c' = Some cd' -> (cd_s cd' <= cd_s cd)%Q.
Proof.
  unfold add_best_new. destruct (to_int _) as [nr|]; [|discriminate]. destruct (ncell g <? 1); [discriminate|].
  destruct (collect g cs) as [l| |] eqn:El; cbn [rbind]; try discriminate. destruct l as [|e0 l].
  { intros E. injection E as _ <-. intros [|k] ? ? ? ? ? ? ? ? H; discriminate. }
  destruct (weigh_existing _ _ _ _) as [w| |]; cbn [rbind]; try discriminate. intros E.
  apply (grid_loop_order cs) in E.
  - destruct E as (r & -> & _ & So). cbn [rev app]. clear -So. intros k k' i i' c c' cd cd' Hk H1 H2 H3 H4.
    clear -So H3 H4 Hk H1 H2. revert So.
    assert (G : StronglySorted (fun n m => forall cn cm, nth_error cs (snd n) = Some cn -> nth_error cs (snd m) = Some cm -> (cd_s cm <= cd_s cn)%Q) r -> forall k' k, (k < k')%nat -> nth_error r k = Some (i, c) -> nth_error r k' = Some (i', c') -> (cd_s cd' <= cd_s cd)%Q).
    { clear -H3 H4. induction 1 as [|n r So IH F]; intros k' k Hk H1 H2; [destruct k; discriminate|].
      destruct k as [|k], k' as [|k']; try lia; cbn in H1, H2.
      - injection H1 as ->. apply nth_error_In in H2. rewrite Forall_forall in F. apply (F _ H2); auto.
      - apply (IH k' k); auto; lia. }
    intros So; exact (G So k' k Hk H1 H2).
  - apply Forall_forall. intros x Hx. apply (Permutation_in _ (sort_perm _)) in Hx. apply collect_entries in El. rewrite Forall_forall in El; auto.
  - apply sort_sorted.
Qed.

End GridP.
