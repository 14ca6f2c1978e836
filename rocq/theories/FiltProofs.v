From Coq Require Import Reals ZArith List Bool Arith Lia Lra Permutation.
From Verif Require Import Geo Lie DistModel DistSpec DistProofs FiltModel FiltSpec.
Import ListNotations.
Local Open Scope R_scope.

(** ** block rows *)
Definition fsum (row : seg -> M3) (v : tangent) (l : list seg) : V3 :=
  fold_right (fun s acc => vadd (mv (row s) (v s)) acc) v0 l.
Lemma fsum_app row v l l' : fsum row v (l ++ l') = vadd (fsum row v l) (fsum row v l').
Proof. induction l as [|s l IH]; cbn [app fsum fold_right]; [now rewrite vadd_0_l|]. fold (fsum row v (l ++ l')) (fsum row v l). now rewrite IH, vadd_assoc. Qed.
Lemma fsum_zero row v l : (forall s, In s l -> row s = mzero) -> fsum row v l = v0.
Proof.
  induction l as [|s l IH]; intros H; [reflexivity|]. cbn [fsum fold_right]. fold (fsum row v l).
  rewrite IH by (intros; apply H; now right). rewrite (H s) by now left. generalize (v s). intros a. unfold mzero. veq.
Qed.
Lemma fsum_support row v S : forall l, NoDup l -> NoDup S -> incl S l ->
  (forall s, In s l -> ~ In s S -> row s = mzero) -> fsum row v l = fsum row v S.
Proof.
  induction S as [|a S IH]; intros l Nl NS I H.
  - apply fsum_zero. intros s Hs. apply H; auto.
  - assert (Ha : In a l) by (apply I; now left). apply in_split in Ha as (l1 & l2 & ->).
    inversion NS; subst. pose proof (NoDup_remove_1 _ _ _ Nl) as N1. pose proof (NoDup_remove_2 _ _ _ Nl) as N2.
    assert (E : fsum row v (l1 ++ l2) = fsum row v S).
    { apply IH; auto.
      - intros s Hs. assert (Hin : In s (l1 ++ a :: l2)) by (apply I; now right). apply in_app_or in Hin as [?|[->|?]]; [apply in_or_app; auto|now elim H2|apply in_or_app; auto].
      - intros s Hs Hn. apply H; [apply in_app_or in Hs as [?|?]; apply in_or_app; cbn; auto|]. intros [->|?]; auto. }
    rewrite fsum_app in E |- *. cbn [fsum fold_right]. fold (fsum row v l2) (fsum row v S). rewrite <- E, !vadd_assoc.
    f_equal. apply vadd_comm.
Qed.
Lemma map_NoDup {A} (f : nat -> A) n : (forall a b, f a = f b -> a = b) -> NoDup (map f (seq 0 n)).
Proof. intros I. apply FinFun.Injective_map_NoDup; [exact I|apply seq_NoDup]. Qed.
Lemma segs_in n s : In s (segs n) <-> seg_in n s.
Proof.
  unfold segs. rewrite !in_app_iff. unfold seg_in.
  assert (M : forall (f : nat -> seg) k, In s (map f (seq 0 k)) <-> exists c, f c = s /\ (c < k)%nat).
  { intros f k. rewrite in_map_iff. split; intros (c & E & H); exists c; split; auto; apply in_seq in H || apply in_seq; lia. }
  rewrite !M. cbn [In].
  split.
  - intros [[<-|[<-|[<-|[<-|[<-|[]]]]]]|[(c & <- & H)|[(c & <- & H)|[(c & <- & H)|[(c & <- & H)|(c & <- & H)]]]]]; auto.
  - intros H. destruct s; try (left; now auto 10); right; eauto 10.
Qed.
Lemma NoDup_app_disj {A} (l l' : list A) : NoDup l -> NoDup l' -> (forall x, In x l -> ~ In x l') -> NoDup (l ++ l').
Proof.
  induction 1 as [|a l Ha Hl IH]; intros N D; cbn; auto. constructor.
  - rewrite in_app_iff. intros [?|?]; [tauto|]. apply (D a); cbn; auto.
  - apply IH; auto. intros x Hx. apply D. now right.
Qed.
Lemma segs_NoDup n : NoDup (segs n).
Proof.
  unfold segs. repeat first [apply NoDup_app_disj | apply map_NoDup; congruence].
  - repeat (constructor; [cbn; intuition discriminate|]). constructor.
  - intros s; rewrite !in_map_iff; intros (c & <- & _) (c' & E & _); discriminate.
  - intros s; rewrite in_app_iff, !in_map_iff; intros (c & <- & _) [(c' & E & _)|(c' & E & _)]; discriminate.
  - intros s; rewrite !in_app_iff, !in_map_iff; intros (c & <- & _) [(c' & E & _)|[(c' & E & _)|(c' & E & _)]]; discriminate.
  - intros s; rewrite !in_app_iff, !in_map_iff; intros (c & <- & _) [(c' & E & _)|[(c' & E & _)|[(c' & E & _)|(c' & E & _)]]]; discriminate.
  - intros s; rewrite !in_app_iff, !in_map_iff; intros H [(c' & <- & _)|[(c' & <- & _)|[(c' & <- & _)|[(c' & <- & _)|(c' & <- & _)]]]]; cbn in H; intuition discriminate.
Qed.
Lemma row_support n row v S : NoDup S -> (forall s, In s S -> seg_in n s) ->
  (forall s, seg_in n s -> ~ In s S -> row s = mzero) -> row_mul n row v = fsum row v S.
Proof.
  intros N I Z. apply fsum_support; auto using segs_NoDup.
  - intros s Hs. apply segs_in; auto.
  - intros s Hs. apply Z, segs_in, Hs.
Qed.

(** ** small algebra *)
Lemma vscale_0 v : vscale 0 v = v0. Proof. veq. Qed.
Lemma vscale_v0 k : vscale k v0 = v0. Proof. veq. Qed.
Lemma vsub_0_r a : vsub a v0 = a. Proof. veq. Qed.
Lemma mv_0 m : mv m v0 = v0. Proof. veq. Qed.
Lemma mzero_mv v : mv mzero v = v0. Proof. unfold mzero. veq. Qed.
Lemma dM_exp_line v M : dM (fun t => mm (expm (vscale t v)) M) (mm (skew v) M).
Proof.
  eapply dM_eq; [apply dM_mm; [apply dM_expm_0 with (a := v); [apply vscale_0|apply dV_scale_line]|apply dM_const]|].
  cbv beta. rewrite vscale_0, expm_0. generalize (skew v). intros s. veq.
Qed.
Lemma dM_exp_line_k k v M : dM (fun t => mm (expm (vscale k (vscale t v))) M) (mm (skew (vscale k v)) M).
Proof.
  eapply dM_ext; [|apply (dM_exp_line (vscale k v) M)]. intros t. cbv beta. do 2 f_equal. veq.
Qed.
Lemma dV_line_k a k b : dV (fun t => vadd a (vscale k (vscale t b))) (vscale k b).
Proof. eapply dV_ext; [|apply (dV_line a (vscale k b))]. intros t. cbv beta. f_equal. veq. Qed.

Lemma Nmul_cross Q a b : is_rot Q -> cross (Nmul Q a b) (nor Q) = Mmul Q a b.
Proof.
  intros H. unfold Nmul, Mmul.
  assert (E1 : cross (perp1 Q) (nor Q) = vneg (perp2 Q)) by (unfold perp1, perp2, nor; rewrite rot_cross by auto; veq).
  assert (E2 : cross (perp2 Q) (nor Q) = perp1 Q) by (unfold perp1, perp2, nor; rewrite rot_cross by auto; veq).
  rewrite <- E1, <- E2. generalize (perp1 Q) (perp2 Q) (nor Q). intros. veq.
Qed.
Lemma Mmul_nor Q a b : is_rot Q -> dot (nor Q) (Mmul Q a b) = 0.
Proof. intros H. rewrite <- (Nmul_cross Q a b H). generalize (Nmul Q a b) (nor Q). intros. geo. ring. Qed.
Lemma col_sum Q y : is_rot Q ->
  vadd (vscale (dot (perp1 Q) y) (perp1 Q)) (vadd (vscale (dot (perp2 Q) y) (perp2 Q)) (vscale (dot (nor Q) y) (nor Q))) = y.
Proof.
  intros H. assert (E : mv Q (mv (mt Q) y) = y) by now apply rot_inv_r. rewrite <- E at 4. clear E H. unfold perp1, perp2, nor. veq.
Qed.
Lemma Mmul_MT Q y : is_rot Q -> dot (nor Q) y = 0 -> Mmul Q (dot (M1 Q) y) (dot (M2c Q) y) = y.
Proof.
  intros H Z. rewrite <- (col_sum Q y H) at 3. rewrite Z. unfold Mmul, M1, M2c.
  generalize (perp1 Q) (perp2 Q) (nor Q). intros. veq.
Qed.
Lemma nor_mm E Q : nor (mm E Q) = mv E (nor Q). Proof. apply mv_mm. Qed.
Lemma dV_nor_box Q u : is_rot Q -> dV (fun t => nor (mm (expm (Nmul Q (t * vx u) (t * vy u))) Q)) (Mmul Q (vx u) (vy u)).
Proof.
  intros H. eapply dV_ext with (f := fun t => mv (mm (expm (vscale t (Nmul Q (vx u) (vy u)))) Q) (0, 0, 1)).
  { intros t. cbv beta. unfold nor. do 3 f_equal. unfold Nmul. generalize (perp1 Q) (perp2 Q). intros. veq. }
  eapply dV_eq; [apply dV_mv; [apply dM_exp_line|apply dV_const]|].
  rewrite mv_0, vadd_0_r, mv_mm, skew_cross. now apply Nmul_cross.
Qed.

(** ** the bearing *)
Lemma dV_dm dt a cv cr d e a' cv' cr' d' e' :
  dV a a' -> dV cv cv' -> dV cr cr' -> dR d d' -> dV e e' -> d 0 <> 0 ->
  dV (fun t => vadd (dm0 dt (a t) (cv t) (cr t) (d t)) (e t))
     (vadd (vscale (- dt) (vadd (vadd (vscale (/ d 0) (vadd (cross a' (cv 0)) (cross (a 0) cv')))
                                      (vscale (- d' / (d 0 * d 0)) (cross (a 0) (cv 0))))
                          (vsub cr' (vadd (vscale (dot (a 0) (cr 0)) a') (vscale (dot a' (cr 0) + dot (a 0) cr') (a 0))))))
           e').
Proof.
  intros A CV CR D E N.
  apply dV_add; auto.
  eapply dV_ext with (f := fun t => vscale (- dt) (vadd (vscale (/ d t) (cross (a t) (cv t))) (vsub (cr t) (vscale (dot (a t) (cr t)) (a t))))).
  { intros t. unfold dm0, proj. generalize (/ d t). intros k. cbv beta. generalize (a t) (cv t) (cr t). intros x y z. clear. veq. }
  eapply dV_eq.
  - apply dV_scal, dV_add.
    + apply dV_scale; [apply dR_inv; eauto|apply dV_cross; eauto].
    + apply dV_sub; eauto. apply dV_scale; eauto. apply dR_dot; eauto.
  - cbv beta. generalize (a 0) (cv 0) (cr 0) (/ d 0) (- d' / (d 0 * d 0)). clear. intros. veq.
Qed.
Lemma dV_bearing f a f' a' : dV f f' -> dV a a' ->
  dV (fun t => mv (expm (f t)) (a t)) (vadd (cross (mv (Lmat (f 0)) f') (mv (expm (f 0)) (a 0))) (mv (expm (f 0)) a')).
Proof.
  intros F A. eapply dV_eq; [apply dV_mv; [apply dM_expm; eauto|eauto]|]. cbv beta. now rewrite mv_mm, skew_cross.
Qed.

(** the extrinsics along a curve *)
Definition vq (x : state) (v : tangent) (c : nat) : V3 := if a_calib (x_aux x) then v (Vea c) else v0.
Definition vr (x : state) (v : tangent) (c : nat) : V3 := if a_calib (x_aux x) then v (Vep c) else v0.
Lemma qCM_box x v c : dM (fun t => qCM (boxplus x (along v t)) c) (mm (skew (vq x v c)) (qCM x c)).
Proof.
  unfold qCM, vq, boxplus, along. cbn [x_aux x_vea]. destruct (a_calib (x_aux x)); [apply dM_exp_line|].
  eapply dM_eq; [apply dM_const|]. generalize (a_qCM (x_aux x) c). intros. veq.
Qed.
Lemma MrMC_box x v c : dV (fun t => MrMC (boxplus x (along v t)) c) (vr x v c).
Proof. unfold MrMC, vr, boxplus, along. cbn [x_aux x_vep]. destruct (a_calib (x_aux x)); [apply dV_line|apply dV_const]. Qed.
Lemma qCM_box0 x v c : qCM (boxplus x (along v 0)) c = qCM x c.
Proof. unfold qCM, boxplus, along. cbn [x_aux x_vea]. now rewrite vscale_0, expm_0, mm_1_l. Qed.
Lemma MrMC_box0 x v c : MrMC (boxplus x (along v 0)) c = MrMC x c.
Proof. unfold MrMC, boxplus, along. cbn [x_aux x_vep]. now rewrite vscale_0, vadd_0_r. Qed.
Lemma cam_of_box n x v i : cam_of n (x_fea (boxplus x v) i) = cam_of n (x_fea x i).
Proof. reflexivity. Qed.
Lemma cam_of_lt n f c : cam_of n f = Some c -> (c < d_cam n)%nat.
Proof. unfold cam_of. destruct (_ && _)%bool eqn:E; [|discriminate]. intros [= <-]. apply andb_true_iff in E as [E1 E2]. lia. Qed.
Lemma qCM_rot n x c : wf n x -> (c < d_cam n)%nat -> is_rot (qCM x c).
Proof. intros W H. unfold qCM. destruct (a_calib _); [apply (wf_vea n x W)|apply (wf_aux n x W)]; auto. Qed.
Lemma cross_add_l a b c : cross (vadd a b) c = vadd (cross a c) (cross b c). Proof. veq. Qed.
