From Coq Require Import List ZArith Bool Arith Lia Permutation.
From Verif Require Import Util CopyModel CopySpec.
Import ListNotations.

Section P.
Variable V : Type.
Variables v_co v_di v_st v_mp : V.
Notation heap := (heap V). Notation slot := (slot V). Notation fstate := (fstate V). Notation world := (world V).
Notation load := (load V). Notation store := (store V). Notation free := (free V). Notation deref := (deref V).

Definition live (h : heap) (a : nat) : Prop := load h a <> None.
Definition off (A : list nat) (h h' : heap) : Prop := forall a, ~ In a A -> live h a -> load h' a = load h a.
Definition keeps (h h' : heap) : Prop := forall a, live h a -> live h' a.
Definition disj (A B : list nat) : Prop := forall a, In a A -> ~ In a B.

(** ** cells *)
Lemma load_upd_eq h a v : live h a -> load (upd_nth a (fun _ => v) h) a = v.
Proof.
  unfold live, CopyModel.load; intros H; rewrite nth_error_upd_nth_eq.
  destruct (nth_error h a) as [[x|]|]; cbn in *; try congruence. destruct v; reflexivity.
Qed.
Lemma load_upd_ne h a b v : a <> b -> load (upd_nth a (fun _ => v) h) b = load h b.
Proof. intros H; unfold CopyModel.load; rewrite nth_error_upd_nth_ne by auto; reflexivity. Qed.
Lemma store_ok h a v : live h a -> exists h', store h a v = Some h' /\ load h' a = Some v /\ (forall b, b <> a -> load h' b = load h b).
Proof.
  intros H; unfold CopyModel.store; destruct (load h a) eqn:E; [|congruence].
  eexists; split; [reflexivity|split]. - apply load_upd_eq; congruence. - intros b Hb; apply load_upd_ne; congruence.
Qed.
Lemma free_ok h a : live h a -> exists h', free h a = Some h' /\ load h' a = None /\ (forall b, b <> a -> load h' b = load h b).
Proof.
  intros H; unfold CopyModel.free; destruct (load h a) eqn:E; [|congruence].
  eexists; split; [reflexivity|split]. - apply load_upd_eq; congruence. - intros b Hb; apply load_upd_ne; congruence.
Qed.
Lemma upd_same (h : heap) a v : load h a = Some v -> upd_nth a (fun _ => Some v) h = h.
Proof.
  unfold CopyModel.load; revert a; induction h as [|x h IH]; intros [|a]; cbn; try congruence.
  - destruct x; congruence. - intros H; f_equal; auto.
Qed.
Lemma store_same h a v : load h a = Some v -> store h a v = Some h.
Proof. intros H; unfold CopyModel.store; rewrite H, upd_same; auto. Qed.
Lemma load_app_old h v a : live h a -> load (h ++ [Some v]) a = load h a.
Proof.
  unfold live, CopyModel.load; intros H; destruct (Nat.lt_ge_cases a (length h)) as [L|L].
  - rewrite nth_error_app1; auto. - apply nth_error_None in L; rewrite L in H; congruence.
Qed.
Lemma load_app_new h v : load (h ++ [Some v]) (length h) = Some v.
Proof. unfold CopyModel.load; rewrite nth_error_app2, Nat.sub_diag; auto. Qed.
Lemma live_lt h a : live h a -> a < length h.
Proof.
  unfold live, CopyModel.load; intros H; destruct (Nat.lt_ge_cases a (length h)) as [L|L]; auto.
  apply nth_error_None in L; rewrite L in H; congruence.
Qed.
Lemma load_app_none h v a : ~ live h a -> a <> length h -> load (h ++ [Some v]) a = None.
Proof.
  unfold live, CopyModel.load; intros H N; destruct (Nat.lt_ge_cases a (length h)) as [L|L].
  - rewrite nth_error_app1 by auto. destruct (nth_error h a) as [[x|]|]; auto. exfalso; apply H; discriminate.
  - replace (nth_error (h ++ [Some v]) a) with (@None (option V)); auto.
    symmetry; apply nth_error_None; rewrite app_length; cbn; lia.
Qed.

(** ** slots as built by the constructor *)
Definition mk (idx : Z) (p q : V) (a b c d : nat) (v : bool) (e : V) : slot :=
  {| sl_co := a; sl_di := b;
     sl_fm := {| f_idx := idx; f_prev := p; f_pred := q; f_co := Some a; f_di := Some b; f_st := Some c; f_mp := Some d;
                 w_co := None; w_di := None; w_st := Some c; w_mp := Some d |};
     sl_valid := v; sl_err := e |}.
Inductive good : slot -> Prop := good_i idx p q a b c d v e : good (mk idx p q a b c d v e).
Definition opt (p : option nat) : list nat := match p with Some a => [a] | None => [] end.
Definition addrs (s : slot) : list nat := sl_co _ s :: sl_di _ s :: opt (f_st _ (sl_fm _ s)) ++ opt (f_mp _ (sl_fm _ s)).
Definition patch (h : heap) (s : slot) : option V := deref h (f_mp _ (sl_fm _ s)).
Definition alive (h : heap) (A : list nat) : Prop := forall a, In a A -> live h a.

Lemma off_refl A h : off A h h. Proof. intros a _ _; reflexivity. Qed.
Lemma keeps_refl h : keeps h h. Proof. intros a; auto. Qed.
Lemma keeps_trans h1 h2 h3 : keeps h1 h2 -> keeps h2 h3 -> keeps h1 h3.
Proof. intros A B a H; auto. Qed.
Lemma off_trans A h1 h2 h3 : off A h1 h2 -> keeps h1 h2 -> off A h2 h3 -> off A h1 h3.
Proof. intros X K Y a N L; rewrite Y, X; auto. Qed.
Lemma off_mono A B h h' : incl A B -> off A h h' -> off B h h'.
Proof. intros I X a N L; apply X; auto. Qed.
Lemma alive_keeps h h' A : keeps h h' -> alive h A -> alive h' A.
Proof. intros K L a H; auto. Qed.
Lemma see_off A h h' s : off A h h' -> good s -> disj (addrs s) A -> alive h (addrs s) -> see V h' s = see V h s /\ patch h' s = patch h s.
Proof.
  intros F G D L; destruct G; unfold see, patch; cbn.
  assert (Q : forall x, In x (addrs (mk idx p q a b c d v e)) -> load h' x = load h x) by (intros x I; apply F; auto).
  unfold addrs in Q; cbn in Q. rewrite !Q by auto 6. auto.
Qed.

(** ** assignment *)
Lemma slot_assign_ok h d s :
  good d -> good s -> NoDup (addrs d) -> disj (addrs d) (addrs s) -> alive h (addrs d) -> alive h (addrs s) ->
  exists h' d', slot_assign V h d s = Some (h', d') /\ good d' /\ addrs d' = addrs d /\ off (addrs d) h h' /\ keeps h h' /\
    see V h' d' = see V h s /\ patch h' d' = patch h d.
Proof.
  intros [idx p q a b c m v e] [idx' p' q' a' b' c' m' v' e'] N D L L'.
  unfold alive, disj, addrs in *; cbn in *.
  inversion N as [|? ? N1 N2]; subst; inversion N2 as [|? ? N3 N4]; subst; inversion N4 as [|? ? N5 N6]; subst; cbn in *.
  assert (La : live h a) by auto 8. assert (Lb : live h b) by auto 8. assert (Lc : live h c) by auto 8. assert (Lm : live h m) by auto 8.
  assert (La' : live h a') by auto 8. assert (Lb' : live h b') by auto 8. assert (Lc' : live h c') by auto 8.
  assert (Da := D a ltac:(auto 8)). assert (Db := D b ltac:(auto 8)). assert (Dc := D c ltac:(auto 8)).
  clear D L L' N N2 N4 N6. unfold slot_assign; cbn.
  destruct (load h a') as [va|] eqn:Ea; [|congruence]. destruct (load h b') as [vb|] eqn:Eb; [|congruence].
  destruct (load h c') as [vc|] eqn:Ec; [|congruence].
  destruct (store_ok h a va La) as (h1 & S1 & A1 & B1); rewrite S1.
  assert (Lb1 : live h1 b) by (unfold live; rewrite B1 by (intuition congruence); exact Lb).
  destruct (store_ok h1 b vb Lb1) as (h2 & S2 & A2 & B2); rewrite S2.
  assert (E2 : load h2 c' = Some vc) by (rewrite B2, B1 by (intuition congruence); auto).
  unfold fm_assign; cbn; rewrite E2.
  assert (Lc2 : live h2 c) by (unfold live; rewrite B2, B1 by (intuition congruence); exact Lc).
  destruct (store_ok h2 c vc Lc2) as (h3 & S3 & A3 & B3); rewrite S3.
  exists h3, (mk idx' p' q' a b c m v' e').
  split; [reflexivity|]. split; [constructor|]. split; [reflexivity|].
  assert (F : forall x, x <> a -> x <> b -> x <> c -> load h3 x = load h x) by (intros x X Y Z; rewrite B3, B2, B1; auto).
  assert (H3a : load h3 a = Some va) by (rewrite B3, B2 by (intuition congruence); auto).
  assert (H3b : load h3 b = Some vb) by (rewrite B3 by (intuition congruence); auto).
  split. { intros x X _; cbn in X; apply F; intuition congruence. }
  split. { intros x X. unfold live in *. destruct (Nat.eq_dec x a); [congruence|]. destruct (Nat.eq_dec x b); [congruence|]. destruct (Nat.eq_dec x c); [congruence|]. rewrite F; auto. }
  unfold see, patch; cbn. rewrite H3a, H3b, A3, Ea, Eb, Ec, F by (intuition congruence). auto.
Qed.

Lemma disj_sub A B C D : disj A B -> incl C A -> incl D B -> disj C D.
Proof. intros X I J a HC HD; exact (X a (I a HC) (J a HD)). Qed.
Lemma NoDup_app_inv' {A} (l1 l2 : list A) : NoDup (l1 ++ l2) -> NoDup l1 /\ NoDup l2 /\ (forall x, In x l1 -> ~ In x l2).
Proof.
  induction l1 as [|x l IH]; cbn; intros H; [split; [constructor|split; [auto|intros x []]]|].
  inversion H; subst; destruct (IH H3) as (A1 & A2 & A3). split; [|split; [auto|]].
  - constructor; auto. intros I; apply H2, in_or_app; auto.
  - intros y [->|I] J; [apply H2, in_or_app; auto|exact (A3 y I J)].
Qed.
Lemma NoDup_app_mk {A} (l1 l2 : list A) : NoDup l1 -> NoDup l2 -> (forall x, In x l1 -> ~ In x l2) -> NoDup (l1 ++ l2).
Proof.
  induction 1 as [|x l N M IH]; cbn; auto; intros B D. constructor.
  - rewrite in_app_iff; intros [I|I]; auto. apply (D x); cbn; auto.
  - apply IH; [auto|intros y I; apply D; cbn; auto].
Qed.

Definition aset (l : list slot) : list nat := flat_map addrs l.
Lemma sees_off A h h' l : off A h h' -> Forall good l -> disj (aset l) A -> alive h (aset l) ->
  map (see V h') l = map (see V h) l /\ map (patch h') l = map (patch h) l.
Proof.
  intros F; induction 1 as [|s l G _ IH]; cbn [aset flat_map map]; intros D L; auto.
  destruct (see_off A h h' s F G) as [E1 E2].
  { eapply disj_sub; [exact D| |apply incl_refl]; apply incl_appl, incl_refl. } { intros a I; apply L, in_or_app; auto. }
  destruct IH as [I1 I2].
  { eapply disj_sub; [exact D| |apply incl_refl]; apply incl_appr, incl_refl. } { intros a I; apply L, in_or_app; auto. }
  split; f_equal; auto.
Qed.

Lemma slots_assign_ok : forall ds ss h,
  length ds = length ss -> Forall good ds -> Forall good ss -> NoDup (aset ds) -> disj (aset ds) (aset ss) -> alive h (aset ds) -> alive h (aset ss) ->
  exists h' l, slots_assign V h ds ss = Some (h', l) /\ Forall good l /\ aset l = aset ds /\ length l = length ds /\ off (aset ds) h h' /\ keeps h h' /\
    map (see V h') l = map (see V h) ss /\ map (patch h') l = map (patch h) ds.
Proof.
  induction ds as [|d ds IH]; intros [|s ss] h Len Gd Gs N D L L'; cbn in Len; try discriminate.
  - exists h, []; cbn; repeat split; auto using off_refl, keeps_refl.
  - inversion Gd as [|? ? Gd1 Gd2]; inversion Gs as [|? ? Gs1 Gs2]; subst; cbn [aset flat_map] in *.
    destruct (NoDup_app_inv' _ _ N) as (N1 & N2 & N3).
    destruct (slot_assign_ok h d s Gd1 Gs1 N1) as (h1 & d' & E1 & G1 & A1 & O1 & K1 & S1 & P1).
    { eapply disj_sub; [exact D| |]; apply incl_appl, incl_refl. } { intros a I; apply L, in_or_app; auto. } { intros a I; apply L', in_or_app; auto. }
    assert (Lds : alive h (aset ds)) by (intros a I; apply L, in_or_app; auto).
    assert (Lss : alive h (aset ss)) by (intros a I; apply L', in_or_app; auto).
    destruct (IH ss h1) as (h2 & l & E2 & G2 & A2 & Le & O2 & K2 & S2 & P2); auto.
    { eapply disj_sub; [exact D| |]; apply incl_appr, incl_refl. } { eapply alive_keeps; eauto. } { eapply alive_keeps; eauto. }
    exists h2, (d' :: l). cbn [slots_assign]; rewrite E1, E2. split; [reflexivity|].
    split; [constructor; auto|]. cbn [aset flat_map]. unfold aset in A2; rewrite A1, A2. split; [reflexivity|]. split; [cbn; congruence|].
    split. { eapply off_trans; [|exact K1|]. { eapply off_mono; [|exact O1]; apply incl_appl, incl_refl. } { eapply off_mono; [|exact O2]; apply incl_appr, incl_refl. } }
    split; [eapply keeps_trans; eauto|]. cbn [map].
    destruct (see_off (aset ds) h1 h2 d' O2 G1) as [X1 X2].
    { rewrite A1; exact N3. } { rewrite A1; eapply alive_keeps; [exact K1|]; intros a I; apply L, in_or_app; auto. }
    destruct (sees_off (addrs d) h h1 ss O1 Gs2) as [Y1 _]; auto.
    { intros a I J; apply (D a); apply in_or_app; auto. }
    destruct (sees_off (addrs d) h h1 ds O1 Gd2) as [_ Y2]; auto.
    { intros a I J; exact (N3 a J I). }
    rewrite X1, X2, S1, P1, S2, P2, Y1, Y2. auto.
Qed.
Lemma slots_assign_self h l : Forall good l -> alive h (aset l) -> slots_assign V h l l = Some (h, l).
Proof.
  induction 1 as [|s l G _ IH]; cbn [slots_assign aset flat_map]; intros L; auto.
  assert (E : slot_assign V h s s = Some (h, s)).
  { assert (Ls : alive h (addrs s)) by (intros a I; apply L, in_or_app; auto).
    destruct G; unfold alive, live, addrs in Ls; cbn in Ls; unfold slot_assign; cbn.
    assert (L1 := Ls a ltac:(auto)); assert (L2 := Ls b ltac:(auto)); assert (L3 := Ls c ltac:(auto)).
    destruct (load h a) eqn:Ea; [|congruence]. destruct (load h b) eqn:Eb; [|congruence]. destruct (load h c) eqn:Ec; [|congruence].
    rewrite (store_same h a), (store_same h b) by auto. unfold fm_assign; cbn. rewrite Ec, store_same; auto. }
  rewrite E, IH; auto. intros a I; apply L, in_or_app; auto.
Qed.

(** ** construction *)
Lemma slot_new_ok h : exists s, slot_new V v_co v_di v_st v_mp h = (h ++ [Some v_co; Some v_di; Some v_st; Some v_mp], s) /\ good s /\
  addrs s = [length h; S (length h); S (S (length h)); S (S (S (length h)))].
Proof.
  unfold slot_new, allocate_missing, alloc, missing; cbn.
  rewrite <- !app_assoc, !app_length; cbn. rewrite ?Nat.add_1_r, ?Nat.add_succ_r, ?Nat.add_0_r.
  eexists; split; [reflexivity|]. split; [apply good_i|reflexivity].
Qed.
Lemma slots_new_ok : forall n h, exists x l, slots_new V v_co v_di v_st v_mp n h = (h ++ x, l) /\ Forall good l /\ length l = n /\ NoDup (aset l) /\
  (forall a, In a (aset l) <-> length h <= a < length h + length x) /\ Forall (fun o => o <> None) x.
Proof.
  induction n as [|n IH]; intros h.
  - exists [], []; cbn. rewrite app_nil_r. repeat split; auto; try constructor; try lia; intros; lia.
  - cbn [slots_new]. destruct (slot_new_ok h) as (s & E & G & A); rewrite E.
    destruct (IH (h ++ [Some v_co; Some v_di; Some v_st; Some v_mp])) as (x & l & E2 & G2 & L2 & N2 & I2 & X2); rewrite E2.
    exists ([Some v_co; Some v_di; Some v_st; Some v_mp] ++ x), (s :: l). rewrite app_assoc. split; [reflexivity|].
    split; [constructor; auto|]. split; [cbn; congruence|]. rewrite app_length in I2; cbn in I2.
    cbn [aset flat_map]; rewrite A. split.
    { apply NoDup_app_mk; auto. - repeat constructor; cbn; lia. - intros y Hy Hl. apply I2 in Hl. cbn in Hy; lia. }
    split. { intros a; rewrite in_app_iff. fold (aset l). rewrite I2, app_length; cbn. lia. }
    cbn; repeat constructor; auto; discriminate.
Qed.

Lemma slot_new_eq h : slot_new V v_co v_di v_st v_mp h =
  (h ++ [Some v_co; Some v_di; Some v_st; Some v_mp], mk (-1) v_co v_co (length h) (S (length h)) (S (S (length h))) (S (S (S (length h)))) false v_mp).
Proof.
  unfold slot_new, allocate_missing, alloc, missing; cbn.
  rewrite <- !app_assoc, !app_length; cbn. rewrite ?Nat.add_1_r, ?Nat.add_succ_r, ?Nat.add_0_r. reflexivity.
Qed.
Lemma load_mid h l k v : nth_error l k = Some (Some v) -> load (h ++ l) (k + length h) = Some v.
Proof. intros H; unfold CopyModel.load; rewrite nth_error_app2 by lia. replace (k + length h - length h) with k by lia. rewrite H; reflexivity. Qed.
Lemma slots_new_content : forall n h y, exists x l, slots_new V v_co v_di v_st v_mp n h = (h ++ x, l) /\
  map (see V ((h ++ x) ++ y)) l = repeat {| n_idx := -1; n_valid := false; n_prev := v_co; n_pred := v_co; n_err := v_mp; n_co := Some v_co; n_di := Some v_di; n_st := Some v_st |} n /\
  map (patch ((h ++ x) ++ y)) l = repeat (Some v_mp) n.
Proof.
  induction n as [|n IH]; intros h y.
  - exists [], []; rewrite app_nil_r; cbn; auto.
  - cbn [slots_new]. rewrite slot_new_eq.
    destruct (IH (h ++ [Some v_co; Some v_di; Some v_st; Some v_mp]) y) as (x & l & E & Q1 & Q2). rewrite E.
    exists ([Some v_co; Some v_di; Some v_st; Some v_mp] ++ x). eexists. rewrite app_assoc. split; [reflexivity|].
    cbn [map repeat]. rewrite Q1, Q2. unfold see, patch; cbn [mk sl_fm sl_valid sl_err f_idx f_prev f_pred f_co f_di f_st f_mp CopyModel.deref].
    rewrite <- !app_assoc.
    rewrite (load_mid h _ 0 v_co), (load_mid h _ 1 v_di), (load_mid h _ 2 v_st), (load_mid h _ 3 v_mp) by reflexivity. auto.
Qed.

(** ** destruction *)
Lemma slot_destroy_ok h s : good s -> NoDup (addrs s) -> alive h (addrs s) ->
  exists h', slot_destroy V (Some h) s = Some h' /\ (forall a, In a (addrs s) -> load h' a = None) /\ (forall a, ~ In a (addrs s) -> load h' a = load h a).
Proof.
  intros [idx p q a b c m v e] N L. unfold alive, addrs in *; cbn in *.
  inversion N as [|? ? N1 N2]; subst; inversion N2 as [|? ? N3 N4]; subst; inversion N4 as [|? ? N5 N6]; subst; cbn in *.
  assert (La : live h a) by auto 8. assert (Lb : live h b) by auto 8. assert (Lc : live h c) by auto 8. assert (Lm : live h m) by auto 8.
  clear N N2 N4 N6 L. unfold slot_destroy, fm_destroy; cbn.
  destruct (free_ok h c) as (h1 & E1 & A1 & B1); [exact Lc|]. rewrite E1; cbn.
  destruct (free_ok h1 m) as (h2 & E2 & A2 & B2); [unfold live; rewrite B1 by (intuition congruence); exact Lm|]. rewrite E2; cbn.
  destruct (free_ok h2 a) as (h3 & E3 & A3 & B3); [unfold live; rewrite B2, B1 by (intuition congruence); exact La|]. rewrite E3; cbn.
  destruct (free_ok h3 b) as (h4 & E4 & A4 & B4); [unfold live; rewrite B3, B2, B1 by (intuition congruence); exact Lb|]. rewrite E4; cbn.
  exists h4; split; [reflexivity|]; split.
  - intros x [<-|[<-|[<-|[<-|[]]]]]; [rewrite B4|exact A4|rewrite B4, B3, B2|rewrite B4, B3]; intuition congruence.
  - intros x X; rewrite B4, B3, B2, B1 by (intuition congruence); reflexivity.
Qed.
Lemma slots_destroy_ok : forall l h, Forall good l -> NoDup (aset l) -> alive h (aset l) ->
  exists h', fold_left (slot_destroy V) l (Some h) = Some h' /\ (forall a, In a (aset l) -> load h' a = None) /\ (forall a, ~ In a (aset l) -> load h' a = load h a).
Proof.
  induction l as [|s l IH]; intros h G N L; cbn [fold_left aset flat_map] in *.
  - exists h; repeat split; auto. intros a [].
  - inversion G; subst. destruct (NoDup_app_inv' _ _ N) as (N1 & N2 & N3).
    destruct (slot_destroy_ok h s) as (h1 & E1 & A1 & B1); auto. { intros a I; apply L, in_or_app; auto. }
    rewrite E1. destruct (IH h1) as (h2 & E2 & A2 & B2); auto.
    { intros a I; unfold live; rewrite B1. - apply L, in_or_app; auto. - intros J; exact (N3 a J I). }
    exists h2; split; [exact E2|split].
    + intros a I; apply in_app_or in I; destruct I as [I|I]; auto. rewrite B2; auto.
    + intros a I; rewrite B2, B1; auto; intros J; apply I, in_or_app; auto.
Qed.

(** ** programs *)
Definition oaddrs (o : option fstate) : list nat := match o with Some s => aset (s_slots _ s) | None => [] end.
Definition alls (l : list (option fstate)) : list nat := flat_map oaddrs l.
Definition imgs1 (s : fstate) : list nat := flat_map opt (s_img _ s).
Definition oimgs (o : option fstate) : list nat := match o with Some s => imgs1 s | None => [] end.
Definition imgs (l : list (option fstate)) : list nat := flat_map oimgs l.
Variables nMax nCam : nat.
Definition okstate (o : option fstate) : Prop := match o with Some s => Forall good (s_slots _ s) /\ length (s_slots _ s) = nMax | None => True end.
Record inv (w : world) : Prop := {
  i_ok : Forall okstate (w_states _ w);
  i_nd : NoDup (alls (w_states _ w));
  i_al : alive (w_heap _ w) (alls (w_states _ w));
  i_im : alive (w_heap _ w) (imgs (w_states _ w));
  i_dj : disj (alls (w_states _ w)) (imgs (w_states _ w)) }.

Lemma get_nth (w : world) i s : get_state V w i = Some s -> nth_error (w_states _ w) i = Some (Some s).
Proof. unfold get_state; destruct (nth_error _ i) as [o|] eqn:E; intros H; congruence. Qed.
Lemma set_perm : forall l i s o, nth_error l i = Some (Some s) -> 
  exists l1 l2, l = l1 ++ Some s :: l2 /\ set_state V i o l = l1 ++ o :: l2 /\ length l1 = i.
Proof.
  induction l as [|x l IH]; intros [|i] s o H; cbn in H; try discriminate.
  - injection H as ->. exists [], l; auto.
  - destruct (IH i s o H) as (l1 & l2 & E1 & E2 & E3). exists (x :: l1), l2; unfold set_state in *; cbn; repeat split; [rewrite E1 at 1; auto|rewrite E2; auto|rewrite E3; auto].
Qed.
Lemma in_alls l a : In a (alls l) <-> exists i s, nth_error l i = Some (Some s) /\ In a (aset (s_slots _ s)).
Proof.
  unfold alls; rewrite in_flat_map; split.
  - intros ([s|] & I & J); [|destruct J]. apply In_nth_error in I; destruct I as [i I]; eauto.
  - intros (i & s & I & J). exists (Some s); split; auto. eapply nth_error_In; eauto.
Qed.
Lemma in_imgs l a : In a (imgs l) <-> exists i s, nth_error l i = Some (Some s) /\ In (Some a) (s_img _ s).
Proof.
  unfold imgs; rewrite in_flat_map; split.
  - intros ([s|] & I & J); [|destruct J]. apply In_nth_error in I; destruct I as [i I]. exists i, s; split; auto.
    cbn in J; unfold imgs1 in J; rewrite in_flat_map in J; destruct J as ([b|] & J & K); [|destruct K]. destruct K as [->|[]]; auto.
  - intros (i & s & I & J). exists (Some s); split; [eapply nth_error_In; eauto|]. cbn; unfold imgs1; rewrite in_flat_map. exists (Some a); cbn; auto.
Qed.
Lemma two_disj l i j s t : NoDup (alls l) -> i <> j -> nth_error l i = Some (Some s) -> nth_error l j = Some (Some t) ->
  disj (aset (s_slots _ s)) (aset (s_slots _ t)).
Proof.
  intros N Hij Hi Hj. destruct (set_perm l i s None Hi) as (l1 & l2 & E & _ & Len).
  intros a A B. rewrite E in N. unfold alls in N. rewrite flat_map_app in N; cbn in N.
  apply NoDup_app_inv' in N; destruct N as (N1 & N2 & N3). apply NoDup_app_inv' in N2; destruct N2 as (N4 & N5 & N6).
  assert (J : In (Some t) l1 \/ In (Some t) l2).
  { rewrite E in Hj. destruct (Nat.lt_ge_cases j (length l1)).
    - rewrite nth_error_app1 in Hj by auto. left; eapply nth_error_In; eauto.
    - rewrite nth_error_app2 in Hj by auto. destruct (j - length l1) as [|k] eqn:K; [lia|]. cbn in Hj. right; eapply nth_error_In; eauto. }
  destruct J as [J|J].
  - apply (N3 a); [apply in_flat_map; exists (Some t); auto|apply in_or_app; auto].
  - apply (N6 a); auto. apply in_flat_map; exists (Some t); auto.
Qed.

Lemma set_ok l i s s' : nth_error l i = Some (Some s) -> aset (s_slots _ s') = aset (s_slots _ s) -> alls (set_state V i (Some s') l) = alls l.
Proof.
  intros H E; destruct (set_perm l i s (Some s') H) as (l1 & l2 & E1 & E2 & _). rewrite E2, E1. unfold alls; rewrite !flat_map_app; cbn. rewrite E; reflexivity.
Qed.
Lemma set_imgs l i s s' a : nth_error l i = Some (Some s) -> In a (imgs (set_state V i (Some s') l)) -> In a (imgs l) \/ In (Some a) (s_img _ s').
Proof.
  intros H. destruct (set_perm l i s (Some s') H) as (l1 & l2 & E1 & E2 & _). rewrite E2, E1. unfold imgs. rewrite !flat_map_app. cbn.
  rewrite !in_app_iff. intros [I|[I|I]]; auto. right. unfold imgs1 in I; apply in_flat_map in I; destruct I as ([b|] & I & J); [|destruct J]. destruct J as [->|[]]; auto.
Qed.
Lemma set_oks l i o : Forall okstate l -> okstate o -> Forall okstate (set_state V i o l).
Proof. intros; apply Forall_upd_nth; auto. Qed.
Lemma get_set_eq h' l i s o : nth_error l i = Some (Some s) -> get_state V {| w_heap := h'; w_states := set_state V i o l |} i = o.
Proof. unfold get_state, set_state; cbn; intros H; rewrite nth_error_upd_nth_eq, H; reflexivity. Qed.
Lemma get_set_ne h' l i j o : i <> j -> get_state V {| w_heap := h'; w_states := set_state V i o l |} j = match nth_error l j with Some x => x | None => None end.
Proof. unfold get_state, set_state; cbn; intros H; rewrite nth_error_upd_nth_ne; auto. Qed.

(** what the world preserves of states not named *)
Definition frame (w w' : world) (i : nat) : Prop := content V w' i = content V w i /\ patches V w' i = patches V w i.
Lemma frame_off (w w' : world) A i s : get_state V w i = Some s -> get_state V w' i = Some s -> Forall good (s_slots _ s) ->
  off A (w_heap _ w) (w_heap _ w') -> disj (aset (s_slots _ s)) A -> alive (w_heap _ w) (aset (s_slots _ s)) -> frame w w' i.
Proof.
  intros G G' Gd F D L. unfold frame, content, patches; rewrite G, G'; cbn.
  destruct (sees_off A _ _ _ F Gd D L) as [E1 E2]. unfold patch in E2. rewrite E1, E2; auto.
Qed.
Lemma inv_get w i s : inv w -> get_state V w i = Some s -> Forall good (s_slots _ s) /\ length (s_slots _ s) = nMax /\ alive (w_heap _ w) (aset (s_slots _ s)) /\ NoDup (aset (s_slots _ s)) /\
   disj (aset (s_slots _ s)) (imgs (w_states _ w)).
Proof.
  intros [O N A I D] G; apply get_nth in G.
  pose proof (proj1 (Forall_forall _ _) O _ (nth_error_In _ _ G)) as K; cbn in K. destruct K as [K1 K2].
  split; auto. split; auto. split; [|split].
  - intros a J; apply A, in_alls; eauto.
  - destruct (set_perm _ _ _ None G) as (l1 & l2 & E & _ & _). rewrite E in N. unfold alls in N. rewrite flat_map_app in N; cbn in N.
    apply NoDup_app_inv' in N; destruct N as (_ & N & _). apply NoDup_app_inv' in N; destruct N as (N & _); exact N.
  - intros a J; apply D, in_alls; eauto.
Qed.

Notation step := (step V v_co v_di v_st v_mp nMax nCam).
Notation run := (run V v_co v_di v_st v_mp nMax nCam).

Lemma aset_upd_plain l k idx p q v e : aset (upd_nth k (plain_slot V idx p q v e) l) = aset l.
Proof. revert k; induction l as [|s l IH]; intros [|k]; cbn [upd_nth aset flat_map]; auto. unfold aset in IH; rewrite IH; reflexivity. Qed.
Lemma good_plain l k idx p q v e : Forall good l -> Forall good (upd_nth k (plain_slot V idx p q v e) l).
Proof. intros H; apply Forall_upd_nth; auto. intros x []; apply good_i. Qed.

Definition others (w w' : world) (o : op V) : Prop := forall i s, changes V i o = false -> get_state V w i = Some s -> get_state V w' i = Some s /\ frame w w' i.

Lemma step_new w rest : inv w -> exists w', step w (ONew V rest) = Some w' /\ inv w' /\ others w w' (ONew V rest) /\ w_states _ w' <> [].
Proof.
  intros I. cbn. unfold state_new. destruct (slots_new_ok nMax (w_heap _ w)) as (x & l & E & G & L & N & A & X); rewrite E.
  eexists; split; [reflexivity|]. destruct I as [O N0 A0 I0 D0].
  assert (Old : forall a, live (w_heap _ w) a -> load (w_heap _ w ++ x) a = load (w_heap _ w) a).
  { intros a La. unfold CopyModel.load. rewrite nth_error_app1; auto. apply live_lt; auto. }
  assert (K : keeps (w_heap _ w) (w_heap _ w ++ x)) by (intros a La; unfold live; rewrite Old; auto).
  assert (Ial : alls (w_states _ w ++ [Some {| s_slots := l; s_max := 0%Z; s_img := repeat None nCam; s_pyr := repeat v_mp nCam; s_rest := rest |}]) = alls (w_states _ w) ++ aset l).
  { unfold alls; rewrite flat_map_app; cbn; rewrite app_nil_r; reflexivity. }
  assert (Iim : imgs (w_states _ w ++ [Some {| s_slots := l; s_max := 0%Z; s_img := repeat None nCam; s_pyr := repeat v_mp nCam; s_rest := rest |}]) = imgs (w_states _ w)).
  { unfold imgs; rewrite flat_map_app; cbn; unfold imgs1; cbn. replace (flat_map opt (repeat None nCam)) with (@nil nat); [rewrite !app_nil_r; reflexivity|].
    clear; induction nCam; cbn; auto. }
  assert (New : forall a, In a (aset l) -> ~ live (w_heap _ w) a). { intros a Ha La; apply A in Ha; apply live_lt in La; lia. }
  split; [|split]; cbn [w_states w_heap]; [constructor; cbn [w_states w_heap]| |].
  - apply Forall_app; split; auto. constructor; auto. cbn; auto.
  - rewrite Ial. apply NoDup_app_mk; auto. intros a Ha Hl; exact (New a Hl (A0 a Ha)).
  - rewrite Ial. intros a Ha; apply in_app_or in Ha; destruct Ha as [Ha|Ha]; [apply K, A0; auto|].
    apply A in Ha. unfold live, CopyModel.load. rewrite nth_error_app2 by lia.
    destruct (nth_error x (a - length (w_heap _ w))) as [[v|]|] eqn:Ex; try discriminate.
    + exfalso. apply nth_error_In in Ex. rewrite Forall_forall in X. exact (X _ Ex eq_refl).
    + apply nth_error_None in Ex; lia.
  - rewrite Iim; eapply alive_keeps; eauto.
  - rewrite Ial, Iim. intros a Ha Hi; apply in_app_or in Ha; destruct Ha as [Ha|Ha]; [exact (D0 a Ha Hi)|exact (New a Ha (I0 a Hi))].
  - intros i s _ Gi.
    assert (Gi' : get_state V {| w_heap := w_heap _ w ++ x; w_states := w_states _ w ++ [Some {| s_slots := l; s_max := 0%Z; s_img := repeat None nCam; s_pyr := repeat v_mp nCam; s_rest := rest |}] |} i = Some s).
    { unfold get_state; cbn. pose proof (get_nth _ _ _ Gi) as Gn. rewrite nth_error_app1, Gn; auto. apply nth_error_Some; congruence. }
    split; auto. destruct (inv_get w i s) as (g1 & g2 & g3 & g4 & g5); [constructor; auto|auto|].
    apply (frame_off w _ [] i s); auto. { intros a _ La; cbn; auto. } intros a _ [].
  - destruct (w_states _ w); discriminate.
Qed.

Lemma step_assign w i j d s : inv w -> get_state V w i = Some d -> get_state V w j = Some s ->
  exists w', step w (OAssign V i j) = Some w' /\ inv w' /\ others w w' (OAssign V i j) /\ content V w' i = content V w j /\ patches V w' i = patches V w i /\
    images V w' i = images V w j /\ (forall k, k <> i -> images V w' k = images V w k) .
Proof.
  intros I Gi Gj. pose proof (inv_get w i d I Gi) as (g1 & g2 & g3 & g4 & g5). pose proof (inv_get w j s I Gj) as (k1 & k2 & k3 & k4 & k5).
  assert (E : exists h' l, slots_assign V (w_heap _ w) (s_slots _ d) (s_slots _ s) = Some (h', l) /\ Forall good l /\ aset l = aset (s_slots _ d) /\ length l = length (s_slots _ d) /\
     off (aset (s_slots _ d)) (w_heap _ w) h' /\ keeps (w_heap _ w) h' /\ map (see V h') l = map (see V (w_heap _ w)) (s_slots _ s) /\ map (patch h') l = map (patch (w_heap _ w)) (s_slots _ d)).
  { destruct (Nat.eq_dec i j) as [->|Ne].
    - replace s with d in * by congruence. exists (w_heap _ w), (s_slots _ d). rewrite slots_assign_self by auto. repeat split; auto using off_refl, keeps_refl.
    - apply slots_assign_ok; auto; [congruence|]. eapply two_disj; eauto using get_nth. apply I. }
  destruct E as (h' & l & E & Gl & Al & Ll & F & K & S1 & P1).
  cbn; rewrite Gi, Gj. unfold state_assign; rewrite E. eexists; split; [reflexivity|].
  set (d' := {| s_slots := l; s_max := s_max _ s; s_img := s_img _ s; s_pyr := s_pyr _ s; s_rest := s_rest _ s |}).
  pose proof (get_nth _ _ _ Gi) as Ni. pose proof (get_nth _ _ _ Gj) as Nj.
  assert (As : alls (set_state V i (Some d') (w_states _ w)) = alls (w_states _ w)) by (eapply set_ok; eauto).
  assert (Is : incl (imgs (set_state V i (Some d') (w_states _ w))) (imgs (w_states _ w))).
  { intros a Ha. eapply set_imgs in Ha; eauto. destruct Ha as [Ha|Ha]; auto. apply in_imgs; exists j, s; auto. }
  destruct I as [O N0 A0 I0 D0]. split; [constructor; cbn [w_states w_heap]|split; [|split; [|split; [|split]]]].
  - apply set_oks; auto. cbn; split; auto; congruence.
  - rewrite As; auto.
  - rewrite As; eapply alive_keeps; eauto.
  - intros a Ha; apply K, I0; auto.
  - rewrite As; intros a Ha Hi; exact (D0 a Ha (Is a Hi)).
  - intros k t Ck Gk; cbn in Ck; apply Nat.eqb_neq in Ck.
    assert (Gk' : get_state V {| w_heap := h'; w_states := set_state V i (Some d') (w_states _ w) |} k = Some t).
    { rewrite get_set_ne by auto. rewrite (get_nth _ _ _ Gk); auto. }
    split; auto. destruct (inv_get w k t) as (t1 & t2 & t3 & t4 & t5); [constructor; auto|auto|].
    eapply (frame_off w _ (aset (s_slots _ d)) k t); eauto. eapply two_disj; eauto using get_nth.
  - unfold content. rewrite (get_set_eq h' _ _ _ _ Ni), Gj. cbn. rewrite S1; reflexivity.
  - unfold patches. rewrite (get_set_eq h' _ _ _ _ Ni), Gi. cbn. f_equal; exact P1.
  - unfold images. rewrite (get_set_eq h' _ _ _ _ Ni), Gj. cbn. f_equal. apply map_ext_in. intros [a|] Ha; auto. cbn. apply F.
    + intros J. apply (g5 a J). apply in_imgs; exists j, s; auto.
    + apply I0, in_imgs; exists j, s; auto.
  - intros k Ne. unfold images. rewrite get_set_ne by auto. fold (get_state V w k). destruct (get_state V w k) as [t|] eqn:Gk; auto. cbn. f_equal.
    apply map_ext_in. intros [a|] Ha; auto. cbn. pose proof (get_nth _ _ _ Gk) as Nk. apply F.
    + intros J. apply (g5 a J). apply in_imgs; exists k, t; auto.
    + apply I0, in_imgs; exists k, t; auto.
Qed.

Lemma good_ptr s p : good s -> exists a, part_ptr V p (sl_fm _ s) = Some a /\ In a (addrs s).
Proof. intros []; destruct p; cbn; eexists; split; try reflexivity; unfold addrs; cbn; auto 8. Qed.

Lemma step_write w i k p v : inv w -> exists w', step w (OWrite V i k p v) = Some w' /\ inv w' /\ others w w' (OWrite V i k p v).
Proof.
  intros I. assert (T : inv w /\ others w w (OWrite V i k p v)) by (split; auto; intros m s _ G; repeat split; auto).
  cbn. destruct (get_state V w i) as [s|] eqn:G; [|eauto]. destruct (nth_error (s_slots _ s) k) as [sl|] eqn:Ek; [|eauto]. clear T.
  pose proof (inv_get w i s I G) as (g1 & g2 & g3 & g4 & g5).
  assert (Gs : good sl) by (rewrite Forall_forall in g1; apply g1; eapply nth_error_In; eauto).
  destruct (good_ptr sl p Gs) as (a & Ea & Ia). rewrite Ea; cbn.
  assert (Ja : In a (aset (s_slots _ s))) by (apply in_flat_map; exists sl; split; auto; eapply nth_error_In; eauto).
  destruct (store_ok (w_heap _ w) a v (g3 a Ja)) as (h' & Es & L1 & L2); rewrite Es. eexists; split; [reflexivity|].
  assert (K : keeps (w_heap _ w) h') by (intros x X; unfold live in *; destruct (Nat.eq_dec x a); [congruence|rewrite L2; auto]).
  pose proof I as I'. destruct I as [O N0 A0 I0 D0]. split; [constructor; cbn; auto; eapply alive_keeps; eauto|].
  intros m t Cm Gm; cbn in Cm; apply Nat.eqb_neq in Cm. split; [exact Gm|].
  destruct (inv_get w m t) as (t1 & t2 & t3 & t4 & t5); auto.
  eapply (frame_off w _ (aset (s_slots _ s)) m t); eauto.
  - intros x X _; cbn; apply L2; intros ->; auto.
  - eapply two_disj; eauto using get_nth.
Qed.

(** replacing a state by one with the same slots' addresses, heap unchanged *)
Lemma step_swap w i s s' h' : inv w -> get_state V w i = Some s -> aset (s_slots _ s') = aset (s_slots _ s) -> Forall good (s_slots _ s') -> length (s_slots _ s') = length (s_slots _ s) ->
  (forall a, live (w_heap _ w) a -> ~ In a (imgs (w_states _ w)) -> load h' a = load (w_heap _ w) a) -> keeps (w_heap _ w) h' ->
  (forall a, In (Some a) (s_img _ s') -> In a (imgs (w_states _ w)) \/ (live h' a /\ ~ live (w_heap _ w) a)) ->
  let w' := {| w_heap := h'; w_states := set_state V i (Some s') (w_states _ w) |} in
  inv w' /\ (forall k t, k <> i -> get_state V w k = Some t -> get_state V w' k = Some t /\ frame w w' k).
Proof.
  intros I G E Gd Le F K Im w'. pose proof (inv_get w i s I G) as (g1 & g2 & g3 & g4 & g5). pose proof I as I'. destruct I as [O N0 A0 I0 D0]. pose proof (get_nth _ _ _ G) as Ni.
  assert (As : alls (set_state V i (Some s') (w_states _ w)) = alls (w_states _ w)) by (eapply set_ok; eauto).
  split; [unfold w'; constructor; cbn [w_states w_heap]|].
  - apply set_oks; auto; cbn; split; auto; congruence.
  - rewrite As; auto.
  - rewrite As; eapply alive_keeps; eauto.
  - intros a Ha. eapply set_imgs in Ha; eauto. destruct Ha as [Ha|Ha]; [apply K, I0; auto|]. apply Im in Ha; destruct Ha as [Ha|[Ha _]]; [apply K, I0; auto|exact Ha].
  - rewrite As; intros a Ha Hi. eapply set_imgs in Hi; eauto. destruct Hi as [Hi|Hi]; [exact (D0 a Ha Hi)|]. apply Im in Hi; destruct Hi as [Hi|[_ Hi]]; [exact (D0 a Ha Hi)|exact (Hi (A0 a Ha))].
  - intros k t Ne Gk. assert (Gk' : get_state V w' k = Some t) by (unfold w'; rewrite get_set_ne by auto; rewrite (get_nth _ _ _ Gk); auto).
    split; auto. destruct (inv_get w k t) as (t1 & t2 & t3 & t4 & t5); auto.
    eapply (frame_off w w' (imgs (w_states _ w)) k t); eauto. intros a Na La; apply F; auto.
Qed.

Lemma step_plain w i k idx p q v e : inv w -> exists w', step w (OPlain V i k idx p q v e) = Some w' /\ inv w' /\ others w w' (OPlain V i k idx p q v e).
Proof.
  intros I. assert (T : inv w /\ others w w (OPlain V i k idx p q v e)) by (split; auto; intros m s _ G; repeat split; auto).
  cbn. destruct (get_state V w i) as [s|] eqn:G; [|eauto]. clear T. eexists; split; [reflexivity|].
  pose proof (inv_get w i s I G) as (g1 & g2 & g3 & g4 & g5).
  destruct (step_swap w i s (with_slots V s (upd_nth k (plain_slot V idx p q v e) (s_slots _ s))) (w_heap _ w)) as [J1 J2]; cbn; auto using keeps_refl.
  - apply aset_upd_plain. - apply good_plain; auto. - apply upd_nth_length.
  - intros a Ha; left. apply in_imgs; exists i, s; split; auto using get_nth.
  - split; auto. intros m t Cm Gm; cbn in Cm; apply Nat.eqb_neq in Cm. auto.
Qed.
Lemma step_count w i m r : inv w -> exists w', step w (OCount V i m r) = Some w' /\ inv w' /\ others w w' (OCount V i m r).
Proof.
  intros I. assert (T : inv w /\ others w w (OCount V i m r)) by (split; auto; intros x s _ G; repeat split; auto).
  cbn. destruct (get_state V w i) as [s|] eqn:G; [|eauto]. clear T. eexists; split; [reflexivity|].
  pose proof (inv_get w i s I G) as (g1 & g2 & g3 & g4 & g5).
  destruct (step_swap w i s {| s_slots := s_slots _ s; s_max := m; s_img := s_img _ s; s_pyr := s_pyr _ s; s_rest := r |} (w_heap _ w)) as [J1 J2]; cbn; auto using keeps_refl.
  - intros a Ha; left. apply in_imgs; exists i, s; split; auto using get_nth.
  - split; auto. intros x t Cm Gm; cbn in Cm; apply Nat.eqb_neq in Cm. auto.
Qed.
Lemma step_draw w i c v : inv w -> exists w', step w (ODraw V i c v) = Some w' /\ inv w' /\ others w w' (ODraw V i c v).
Proof.
  intros I. assert (T : inv w /\ others w w (ODraw V i c v)) by (split; auto; intros x s _ G; repeat split; auto).
  cbn. destruct (get_state V w i) as [s|] eqn:G; [|eauto]. clear T. pose proof (inv_get w i s I G) as (g1 & g2 & g3 & g4 & g5).
  unfold draw. destruct (nth_error (s_img _ s) c) as [[a|]|] eqn:Ec.
  - assert (Ha : In a (imgs (w_states _ w))) by (apply in_imgs; exists i, s; split; auto using get_nth; eapply nth_error_In; eauto).
    destruct (store_ok (w_heap _ w) a v (i_im w I a Ha)) as (h' & Es & L1 & L2). rewrite Es; cbn. eexists; split; [reflexivity|].
    destruct (step_swap w i s s h') as [J1 J2]; auto.
    + intros x Lx Nx; apply L2; intros ->; auto.
    + intros x X; unfold live in *; destruct (Nat.eq_dec x a); [congruence|rewrite L2; auto].
    + intros x Hx; left. apply in_imgs; exists i, s; split; auto using get_nth.
    + split; auto. intros x t Cm Gm; cbn in Cm; apply Nat.eqb_neq in Cm. auto.
  - cbn. eexists; split; [reflexivity|].
    assert (K : keeps (w_heap _ w) (w_heap _ w ++ [Some v])) by (intros x X; unfold live; rewrite load_app_old; auto).
    destruct (step_swap w i s {| s_slots := s_slots _ s; s_max := s_max _ s; s_img := upd_nth c (fun _ => Some (length (w_heap _ w))) (s_img _ s); s_pyr := s_pyr _ s; s_rest := s_rest _ s |} (w_heap _ w ++ [Some v])) as [J1 J2]; cbn; auto.
    + intros x Lx _; apply load_app_old; auto.
    + intros x Hx. apply In_nth_error in Hx; destruct Hx as [m Hm]. destruct (Nat.eq_dec c m) as [->|Ne].
      * rewrite nth_error_upd_nth_eq, Ec in Hm; cbn in Hm. injection Hm as <-. right; split; [unfold live; rewrite load_app_new; discriminate|].
        intros X; apply live_lt in X; lia.
      * rewrite nth_error_upd_nth_ne in Hm by auto. left; apply in_imgs; exists i, s; split; auto using get_nth. eapply nth_error_In; eauto.
    + split; auto. intros x t Cm Gm; cbn in Cm; apply Nat.eqb_neq in Cm. auto.
  - eexists; split; [reflexivity|]. destruct (step_swap w i s s (w_heap _ w)) as [J1 J2]; auto using keeps_refl.
    + intros x Hx; left. apply in_imgs; exists i, s; split; auto using get_nth.
    + split; auto. intros x t Cm Gm; cbn in Cm; apply Nat.eqb_neq in Cm. auto.
Qed.
Lemma step_destroy w i : inv w -> exists w', step w (ODestroy V i) = Some w' /\ inv w' /\ others w w' (ODestroy V i) /\
  (forall s, get_state V w i = Some s -> get_state V w' i = None /\ (forall a, In a (aset (s_slots _ s)) -> load (w_heap _ w') a = None) /\
      (forall a, ~ In a (aset (s_slots _ s)) -> load (w_heap _ w') a = load (w_heap _ w) a)).
Proof.
  intros I. cbn. destruct (get_state V w i) as [s|] eqn:G.
  2:{ exists w; repeat split; auto; try congruence; try apply I. }
  pose proof (inv_get w i s I G) as (g1 & g2 & g3 & g4 & g5). pose proof (get_nth _ _ _ G) as Ni.
  unfold state_destroy. destruct (slots_destroy_ok (s_slots _ s) (w_heap _ w) g1 g4 g3) as (h' & E & A1 & B1); rewrite E. eexists; split; [reflexivity|].
  destruct (set_perm _ _ _ None Ni) as (l1 & l2 & E1 & E2 & _). pose proof I as I'. destruct I as [O N0 A0 I0 D0].
  assert (Sub : forall a, In a (alls (set_state V i None (w_states _ w))) -> In a (alls (w_states _ w)) /\ ~ In a (aset (s_slots _ s))).
  { rewrite E1 in N0; unfold alls in N0; rewrite flat_map_app in N0; cbn in N0. apply NoDup_app_inv' in N0; destruct N0 as (N1 & N2 & N3). apply NoDup_app_inv' in N2; destruct N2 as (N4 & N5 & N6).
    rewrite E2, E1. intros a; unfold alls. rewrite !flat_map_app; cbn. rewrite !in_app_iff. intros [Ha|Ha]; split; auto.
    - intros J; apply (N3 a Ha), in_or_app; auto. - intros J; exact (N6 a J Ha). }
  assert (SubI : incl (imgs (set_state V i None (w_states _ w))) (imgs (w_states _ w))).
  { rewrite E2, E1. intros a; unfold imgs; rewrite !flat_map_app; cbn. rewrite !in_app_iff; tauto. }
  split; [constructor; cbn [w_states w_heap]|split].
  - apply set_oks; auto; exact Logic.I.
  - rewrite E1 in N0. rewrite E2. unfold alls in *. rewrite flat_map_app in *; cbn in *. apply NoDup_app_inv' in N0; destruct N0 as (N1 & N2 & N3). apply NoDup_app_inv' in N2; destruct N2 as (N4 & N5 & N6).
    apply NoDup_app_mk; auto. intros a Ha Hb; apply (N3 a Ha), in_or_app; auto.
  - intros a Ha; apply Sub in Ha; destruct Ha as [Ha Hb]. unfold live; rewrite B1 by auto. apply A0; auto.
  - intros a Ha; apply SubI in Ha. unfold live; rewrite B1. + apply I0; auto. + intros J; exact (g5 a J Ha).
  - intros a Ha Hi; apply Sub in Ha; exact (D0 a (proj1 Ha) (SubI a Hi)).
  - intros k t Ck Gk; cbn in Ck; apply Nat.eqb_neq in Ck. cbn in *.
    assert (Gk' : get_state V {| w_heap := h'; w_states := set_state V i None (w_states _ w) |} k = Some t) by (rewrite get_set_ne by auto; rewrite (get_nth _ _ _ Gk); auto).
    split; auto. destruct (inv_get w k t) as (t1 & t2 & t3 & t4 & t5); auto.
    eapply (frame_off w _ (aset (s_slots _ s)) k t); eauto. { intros a Na _; cbn; auto. } eapply two_disj; eauto using get_nth.
  - intros s0 Es; injection Es as <-. split; [eapply (get_set_eq h'); eauto|]. cbn; auto.
Qed.

Lemma inv_empty : inv (empty V).
Proof. constructor; cbn; try constructor; intros a []. Qed.
Lemma step_ok w o : inv w -> copy_constructs V o = false -> exists w', step w o = Some w' /\ inv w' /\ others w w' o.
Proof.
  intros I C. destruct o as [r|i j|i|i k p v|i k idx p q v e|i m r|i c v|i]; cbn [copy_constructs] in C; try discriminate.
  - destruct (step_new w r I) as (w' & ? & ? & ? & _); eauto.
  - destruct (get_state V w i) as [d|] eqn:Gi; [destruct (get_state V w j) as [s|] eqn:Gj|].
    + destruct (step_assign w i j d s I Gi Gj) as (w' & ? & ? & ? & _); eauto.
    + exists w; cbn [CopyModel.step]; rewrite Gi, Gj; repeat split; auto; try apply I.
    + exists w; cbn [CopyModel.step]; rewrite Gi; repeat split; auto; try apply I.
  - apply step_write; auto.
  - apply step_plain; auto.
  - apply step_count; auto.
  - apply step_draw; auto.
  - destruct (step_destroy w i I) as (w' & ? & ? & ? & _); eauto.
Qed.
Lemma run_ok : forall os w, inv w -> ordinary V os -> exists w', run w os = Some w' /\ inv w'.
Proof.
  induction os as [|o os IH]; intros w I N; cbn [CopyModel.run]; [eauto|]. inversion N; subst.
  destruct (step_ok w o I H1) as (w1 & -> & I1 & _). auto.
Qed.
Lemma run_others : forall os w w' i s, inv w -> ordinary V os -> Forall (fun o => changes V i o = false) os -> get_state V w i = Some s -> run w os = Some w' ->
  get_state V w' i = Some s /\ frame w w' i.
Proof.
  induction os as [|o os IH]; intros w w' i s I N C G E; cbn [CopyModel.run] in E.
  - injection E as <-. repeat split; auto.
  - inversion N; inversion C; subst. destruct (step_ok w o I H1) as (w1 & E1 & I1 & O1). rewrite E1 in E.
    destruct (O1 i s H5 G) as [G1 [F1 F2]]. destruct (IH w1 w' i s I1 H2 H6 G1 E) as [G2 [F3 F4]]. split; auto. split; congruence.
Qed.
Lemma run_app os1 os2 w : run w (os1 ++ os2) = match run w os1 with Some w' => run w' os2 | None => None end.
Proof. revert w; induction os1 as [|o os IH]; intros w; cbn [CopyModel.run app]; auto. destruct (step w o); auto. Qed.

(** ** nothing leaks *)
Definition noleak (w : world) : Prop := forall a, live (w_heap _ w) a -> In a (alls (w_states _ w)).
Lemma nil_in (l : list nat) : (forall a, ~ In a l) -> l = [].
Proof. destruct l as [|a l]; auto. intros H; destruct (H a); cbn; auto. Qed.
Lemma step_noleak w o w' : inv w -> noleak w -> imgs (w_states _ w) = [] -> copy_constructs V o = false -> draws V o = false -> step w o = Some w' ->
  noleak w' /\ imgs (w_states _ w') = [].
Proof.
  intros I L Im C D E. destruct o as [r|i j|i|i k p v|i k idx p q v e|i m r|i c v|i]; cbn [copy_constructs draws] in C, D; try discriminate.
  - cbn in E. unfold state_new in E. destruct (slots_new_ok nMax (w_heap _ w)) as (x & l & E1 & G & Le & N & A & X); rewrite E1 in E. injection E as <-; cbn. split.
    + intros a Ha; cbn in *. unfold alls; rewrite flat_map_app; cbn. rewrite app_nil_r. apply in_or_app.
      destruct (Nat.lt_ge_cases a (length (w_heap _ w))) as [Lt|Ge].
      * left; apply L. unfold live, CopyModel.load in *. rewrite nth_error_app1 in Ha by auto; auto.
      * right; apply A. split; auto. apply live_lt in Ha. rewrite app_length in Ha; auto.
    + unfold imgs in *; rewrite flat_map_app, Im; cbn. unfold imgs1; cbn. rewrite app_nil_r. clear; induction nCam; cbn; auto.
  - destruct (get_state V w i) as [d|] eqn:Gi; [destruct (get_state V w j) as [s|] eqn:Gj|]; [|cbn in E; rewrite Gi, Gj in E; injection E as <-; auto|cbn in E; rewrite Gi in E; injection E as <-; auto].
    cbn in E; rewrite Gi, Gj in E. unfold state_assign in E.
    pose proof (inv_get w i d I Gi) as (g1 & g2 & g3 & g4 & g5). pose proof (inv_get w j s I Gj) as (k1 & k2 & k3 & k4 & k5).
    assert (Z : exists h' l, slots_assign V (w_heap _ w) (s_slots _ d) (s_slots _ s) = Some (h', l) /\ aset l = aset (s_slots _ d) /\ (forall a, live h' a -> live (w_heap _ w) a)).
    { clear E. destruct (Nat.eq_dec i j) as [->|Ne].
      - replace s with d in * by congruence. exists (w_heap _ w), (s_slots _ d). rewrite slots_assign_self by auto. auto.
      - assert (Dj : disj (aset (s_slots _ d)) (aset (s_slots _ s))) by (eapply two_disj; eauto using get_nth; apply I).
        destruct (slots_assign_ok (s_slots _ d) (s_slots _ s) (w_heap _ w)) as (h' & l & E & Gl & Al & _ & F & K & _); auto; [congruence|].
        exists h', l; repeat split; auto. intros a Ha. destruct (load (w_heap _ w) a) eqn:Ea; [unfold live; congruence|].
        destruct (in_dec Nat.eq_dec a (aset (s_slots _ d))) as [Ia|Ia]; [auto|]. exfalso.
        clear - E Ea Ha Ia.
        revert Ha. unfold live. cut (load h' a = load (w_heap _ w) a); [congruence|].
        revert E Ia. generalize (w_heap _ w), (s_slots _ d), (s_slots _ s), l. clear. intros h ds ss; revert h ss.
        induction ds as [|d ds IH]; intros h [|s ss] l E Ia; cbn in E; try (injection E as <- _; reflexivity).
        destruct (slot_assign V h d s) as [[h1 d']|] eqn:E1; [|discriminate]. destruct (slots_assign V h1 ds ss) as [[h2 l']|] eqn:E2; [|discriminate]. injection E as <- _.
        cbn in Ia. rewrite (IH _ _ _ E2) by (intros J; apply Ia; right; right; apply in_or_app; auto).
        unfold slot_assign in E1. destruct (load h (sl_co V s)); [|discriminate]. destruct (load h (sl_di V s)); [|discriminate].
        destruct (store h (sl_co V d) v) as [x1|] eqn:Y1; [|discriminate]. destruct (store x1 (sl_di V d) v0) as [x2|] eqn:Y2; [|discriminate].
        unfold fm_assign in E1. destruct (deref x2 _); [|discriminate]. unfold assign_ptr in E1. destruct (f_st V (sl_fm V d)) as [c|] eqn:Ec; [|discriminate].
        destruct (store x2 c v1) as [x3|] eqn:Y3; [|discriminate]. injection E1 as <- _.
        assert (Q : forall g b u g', store g b u = Some g' -> b <> a -> load g' a = load g a).
        { intros g b u g' Hs Hb; unfold CopyModel.store in Hs; destruct (load g b); [|discriminate]; injection Hs as <-; apply load_upd_ne; auto. }
        rewrite (Q _ _ _ _ Y3), (Q _ _ _ _ Y2), (Q _ _ _ _ Y1); auto; intros ->; apply Ia; cbn; auto. }
    destruct Z as (h' & l & Z1 & Z2 & Z3). rewrite Z1 in E. injection E as <-; cbn. pose proof (get_nth _ _ _ Gi) as Ni.
    split.
    + intros a Ha; cbn in *. erewrite set_ok; eauto.
    + apply nil_in; intros a Ha.
      eapply set_imgs in Ha; eauto. rewrite Im in Ha; destruct Ha as [[]|Ha]. cbn in Ha.
      assert (Hb : In a (imgs (w_states _ w))) by (apply in_imgs; exists j, s; split; auto using get_nth). rewrite Im in Hb; destruct Hb.
  - cbn in E. destruct (get_state V w i) as [s|] eqn:G; [|injection E as <-; auto]. destruct (nth_error (s_slots _ s) k) as [sl|]; [|injection E as <-; auto].
    unfold assign_ptr in E; destruct (part_ptr V p (sl_fm _ sl)) as [a|]; [|discriminate]. unfold CopyModel.store in E. destruct (load (w_heap _ w) a) eqn:Ea; [|discriminate]. injection E as <-; cbn.
    split; auto. intros b Hb; cbn in *. apply L. unfold live in *. destruct (Nat.eq_dec b a); [congruence|]. rewrite load_upd_ne in Hb; auto.
  - cbn in E. destruct (get_state V w i) as [s|] eqn:G; [|injection E as <-; auto]. injection E as <-; cbn. pose proof (get_nth _ _ _ G) as Ni. split.
    + intros a Ha; cbn in *. erewrite set_ok; eauto. apply aset_upd_plain.
    + apply nil_in; intros a Ha.
      eapply set_imgs in Ha; eauto. rewrite Im in Ha; destruct Ha as [[]|Ha]. cbn in Ha.
      assert (Hb : In a (imgs (w_states _ w))) by (apply in_imgs; exists i, s; split; auto using get_nth). rewrite Im in Hb; destruct Hb.
  - cbn in E. destruct (get_state V w i) as [s|] eqn:G; [|injection E as <-; auto]. injection E as <-; cbn. pose proof (get_nth _ _ _ G) as Ni. split.
    + intros a Ha; cbn in *. erewrite set_ok; eauto.
    + apply nil_in; intros a Ha.
      eapply set_imgs in Ha; eauto. rewrite Im in Ha; destruct Ha as [[]|Ha]. cbn in Ha.
      assert (Hb : In a (imgs (w_states _ w))) by (apply in_imgs; exists i, s; split; auto using get_nth). rewrite Im in Hb; destruct Hb.
  - destruct (get_state V w i) as [s|] eqn:G; [|cbn in E; rewrite G in E; injection E as <-; auto].
    destruct (step_destroy w i I) as (w1 & E1 & _ & _ & Q). rewrite E1 in E; injection E as <-. destruct (Q s G) as (Q1 & Q2 & Q3).
    cbn in E1. rewrite G in E1. destruct (state_destroy V (w_heap _ w) s) as [h'|]; [|discriminate]. injection E1 as <-. cbn in *. pose proof (get_nth _ _ _ G) as Ni.
    destruct (set_perm _ _ _ None Ni) as (l1 & l2 & P1 & P2 & _). split.
    + intros a Ha; cbn in *. destruct (in_dec Nat.eq_dec a (aset (s_slots _ s))) as [Ia|Ia]; [exfalso; apply Ha; auto|].
      assert (La : live (w_heap _ w) a) by (unfold live in *; rewrite <- Q3; auto). apply L in La. rewrite P1 in La. rewrite P2. unfold alls in *. rewrite flat_map_app, in_app_iff in *; cbn in *. rewrite in_app_iff in La. tauto.
    + rewrite P2. rewrite P1 in Im. unfold imgs in *. rewrite flat_map_app in *; cbn in *. apply app_eq_nil in Im; destruct Im as [-> Im]. apply app_eq_nil in Im; tauto.
Qed.
Lemma run_noleak : forall os w w', inv w -> noleak w -> imgs (w_states _ w) = [] -> ordinary V os -> Forall (fun o => draws V o = false) os -> run w os = Some w' -> noleak w'.
Proof.
  induction os as [|o os IH]; intros w w' I L Im N D E; cbn [CopyModel.run] in E; [injection E as <-; auto|].
  inversion N; inversion D; subst. destruct (step_ok w o I H1) as (w1 & E1 & I1 & _). rewrite E1 in E.
  destruct (step_noleak w o w1) as [L1 Im1]; auto. eauto.
Qed.
End P.
