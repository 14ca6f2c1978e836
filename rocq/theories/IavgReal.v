(** How far the measured difference is from the exact one. *)
From Coq Require Import List ZArith Bool Reals Arith Lia Lra Psatz.
From Flocq Require Import Core BinarySingleNaN Relative.
From Verif Require Import IeeeModel IeeeReal IeeeProofs IeeePos IeeeSpec IpyrProofs IscoreModel IscoreSpec IscoreReal StampProofs IavgModel IavgSpec IavgProofs.
Import ListNotations.
Local Open Scope R_scope.

Notation v := (/ 9007199254740992).
Notation w := (/ 10000000000000000000000000000000000000000).
Lemma eta_w : 0 < eta <= w.
Proof. pose proof eta_pos. pose proof eta_small. lra. Qed.
Lemma rerr32 x : Rabs (r32 x - x) <= u * Rabs x + w.
Proof. pose proof (rerr x). pose proof eta_w. lra. Qed.
Lemma rerr64 x : Rabs (r64 x - x) <= v * Rabs x + w.
Proof.
  destruct (error_N_FLT radix2 (-1074) 53 eq_refl (fun t => negb (Z.even t)) x) as (e1 & e2 & H1 & H2 & _ & E).
  change (round radix2 (FLT_exp (-1074) 53) (Znearest (fun t => negb (Z.even t))) x) with (r64 x) in E. rewrite E.
  replace (x * (1 + e1) + e2 - x) with (e1 * x + e2) by ring. eapply Rle_trans; [apply Rabs_triang|].
  change (bpow radix2 (Z.opp 53 + 1)) with (/ 4503599627370496) in H1. rewrite Rabs_mult. pose proof (Rabs_pos x). pose proof eta_w.
  assert (pw (-1074) <= pw (-149)) by (apply bpow_le; lia). fold eta in H0. pose proof (bpow_gt_0 radix2 (-1074)).
  apply Rplus_le_compat; [apply Rmult_le_compat_r; lra|]. unfold eta in *. lra.
Qed.
(** one square added *)
Lemma square_err (e x : f32) k : (0 <= k < 16777215)%Z -> F e -> 0 <= B2R e <= 1048576 * IZR k -> small 1024 x ->
  Rabs (B2R (add_square e x) - (B2R e + B2R x * B2R x)) <= 2 * u * (B2R e + B2R x * B2R x) + 4 * w.
Proof.
  intros Hk Fe He Sx. destruct (add_square_val e x k Hk Fe He Sx) as (_ & _ & ->). destruct He as [He _]. set (q := B2R x * B2R x). assert (Hq : 0 <= q) by apply Rle_0_sqr.
  set (s := r64 q). assert (Hs : 0 <= s) by (unfold s; rewrite <- (rndf_0 53 1024); apply r64_mono; exact Hq).
  set (t := r64 (B2R e + s)). assert (Ht : 0 <= t) by (unfold t; rewrite <- (rndf_0 53 1024); apply r64_mono; lra).
  pose proof (rerr64 q) as A. fold s in A. rewrite (Rabs_pos_eq q) in A by exact Hq. pose proof (rerr64 (B2R e + s)) as B. fold t in B. rewrite (Rabs_pos_eq (_ + s)) in B by lra.
  pose proof (rerr32 t) as C. rewrite (Rabs_pos_eq t) in C by exact Ht. set (r := r32 t) in *. clearbody r t s q. set (z := B2R e) in *. clearbody z.
  apply Rabs_le_inv in A, B, C. apply Rabs_le. lra.
Qed.

(** sums of reals *)
Definition sq (l : list R) : R := total (map (fun x => x * x) l).
Lemma sq_cons a l : sq (a :: l) = a * a + sq l. Proof. reflexivity. Qed.
Lemma sq_pos l : 0 <= sq l.
Proof. induction l as [|a l IH]; [apply Rle_refl|]. rewrite sq_cons. pose proof (Rle_0_sqr a). unfold Rsqr in *. lra. Qed.
Definition cnt (l : list R) : R := INR (length l).
(** root mean square *)
Definition rms (l : list R) : R := sqrt (sq l / cnt l).
Lemma cnt_cons a l : cnt (a :: l) = cnt l + 1. Proof. unfold cnt. cbn [length]. apply S_INR. Qed.
Lemma rms_sq l : l <> [] -> rms l * rms l * cnt l = sq l /\ 0 <= rms l /\ 0 < cnt l.
Proof.
  intros H. assert (K : 0 < cnt l) by (unfold cnt; destruct l; [contradiction|]; cbn [length]; rewrite S_INR; pose proof (pos_INR (length l)); lra).
  split; [|split; [apply sqrt_pos|exact K]]. unfold rms. rewrite sqrt_sqrt; [field; lra|]. unfold Rdiv. apply Rmult_le_pos; [apply sq_pos|]. left. now apply Rinv_0_lt_compat.
Qed.
(** the mean absolute value is at most the root mean square *)
Definition sabs (l : list R) : R := total (map Rabs l).
Lemma sabs_cons a l : sabs (a :: l) = Rabs a + sabs l. Proof. reflexivity. Qed.
Lemma sabs_t l t : 2 * t * sabs l <= sq l + cnt l * (t * t).
Proof.
  induction l as [|a l IH]; [unfold sabs, sq, cnt; cbn; lra|]. rewrite sabs_cons, sq_cons, cnt_cons.
  assert (0 <= (Rabs a - t) * (Rabs a - t)) by apply Rle_0_sqr. assert (Rabs a * Rabs a = a * a) by (rewrite <- Rabs_mult; apply Rabs_pos_eq, Rle_0_sqr). nra.
Qed.
Lemma sabs_rms l : l <> [] -> sabs l <= cnt l * rms l.
Proof.
  intros H. destruct (rms_sq l H) as (E & P & K). pose proof (sabs_t l (rms l)) as T. destruct (Req_dec (rms l) 0) as [Z|Z].
  - rewrite Z, Rmult_0_r. rewrite Z, !Rmult_0_l in E. clear T P Z H K. revert E. induction l as [|a l IH]; [intros _; apply Rle_refl|]. rewrite sabs_cons, sq_cons. intros E. pose proof (Rle_0_sqr a). pose proof (sq_pos l). unfold Rsqr in *.
    assert (a * a = 0) by lra. assert (a = 0) by nra. subst a. rewrite Rabs_R0. assert (sabs l <= 0) by (apply IH; lra). lra.
  - assert (0 < rms l) by lra. nra.
Qed.
(** moving every value by at most d moves the root mean square by at most d *)
Lemma rms_le l l' d : 0 <= d -> Forall2 (fun x y => Rabs (x - y) <= d) l l' -> l <> [] -> rms l' <= rms l + d.
Proof.
  intros Hd H Hl. destruct (rms_sq l Hl) as (E & P & K). assert (S : sq l' <= sq l + 2 * d * sabs l + cnt l * (d * d) /\ cnt l' = cnt l).
  { clear Hl E P K. induction H as [|x y l l' Hxy _ IH]; [unfold sq, sabs, cnt; cbn; lra|]. destruct IH as [IH IL]. rewrite sabs_cons, !sq_cons, !cnt_cons, IL. split; [|reflexivity].
    assert (y * y <= x * x + 2 * d * Rabs x + d * d); [|nra]. assert (Rabs y <= Rabs x + d) by (replace y with (x - (x - y)) by ring; eapply Rle_trans; [apply Rabs_triang|]; rewrite Rabs_Ropp; lra).
    assert (Rabs y * Rabs y = y * y) by (rewrite <- Rabs_mult; apply Rabs_pos_eq, Rle_0_sqr). assert (Rabs x * Rabs x = x * x) by (rewrite <- Rabs_mult; apply Rabs_pos_eq, Rle_0_sqr). pose proof (Rabs_pos x). pose proof (Rabs_pos y).
    assert (Rabs y * Rabs y <= (Rabs x + d) * (Rabs x + d)) by (apply Rmult_le_compat; lra). nra. }
  destruct S as [S C]. pose proof (sabs_rms l Hl). unfold rms at 1. rewrite C. rewrite <- (sqrt_square (rms l + d)) by lra. apply sqrt_le_1_alt.
  apply Rmult_le_reg_r with (cnt l); [exact K|]. unfold Rdiv. rewrite Rmult_assoc, Rinv_l, Rmult_1_r by lra. nra.
Qed.
Lemma rms_close l l' d : 0 <= d -> Forall2 (fun x y => Rabs (x - y) <= d) l l' -> l <> [] -> Rabs (rms l' - rms l) <= d.
Proof.
  intros Hd H Hl. pose proof (rms_le l l' d Hd H Hl). assert (H' : Forall2 (fun x y => Rabs (x - y) <= d) l' l) by (clear -H; induction H; constructor; [rewrite Rabs_minus_sym; assumption|assumption]).
  assert (l' <> []) by (intros ->; inversion H; subst; contradiction). pose proof (rms_le l' l d Hd H' H1). apply Rabs_le. lra.
Qed.
(** roots of perturbed squares *)
Lemma sqrt_close q X e s : 0 <= X -> 0 <= e <= 1 -> 0 <= s -> 0 <= q -> Rabs (q - X * X) <= e * (X * X) + s * s -> Rabs (sqrt q - X) <= e * X + s.
Proof.
  intros HX He Hs Hq H. apply Rabs_le_inv in H. assert (0 <= e * X) by nra. apply Rabs_le. split.
  - destruct (Rle_dec (X - e * X) s) as [L|L]; [pose proof (sqrt_pos q); lra|]. apply Rnot_le_lt in L.
    assert (X - e * X - s <= sqrt q); [|lra]. rewrite <- (sqrt_square (X - e * X - s)) by lra. apply sqrt_le_1_alt.
    assert (0 <= (1 - e) * X) by nra. assert (s * s <= (X - e * X) * s) by nra. assert ((1 - e) * (1 - e) <= 1 - e) by nra. assert (((1 - e) * (1 - e)) * (X * X) <= (1 - e) * (X * X)) by (apply Rmult_le_compat_r; nra). nra.
  - assert (sqrt q <= X + e * X + s); [|lra]. rewrite <- (sqrt_square (X + e * X + s)) by lra. apply sqrt_le_1_alt. assert (0 <= e * (X * X)) by (apply Rmult_le_pos; nra). assert (0 <= X * s) by nra. assert (0 <= (e * X) * s) by nra. nra.
Qed.

(** the loops *)
Section Loops.
Variable K : R.
Hypothesis HK : 1 <= K <= 32768.
Notation c := (/ 32768).
(** float differences against exact ones *)
Definition near (d : f32) (D : R) : Prop := small 512 d /\ Rabs (B2R d - D) <= 2 * c.
Lemma near_sub (x y : f32) : small 256 x -> small 256 y -> near (sub32 x y) (B2R x - B2R y).
Proof.
  intros Hx Hy. destruct (sub_small x y 256 256 512 Hx Hy ltac:(lra) ltac:(lia)) as [S V]. split; [exact S|]. rewrite V. eapply Rle_trans; [apply rerr32|].
  assert (Rabs (B2R x - B2R y) <= 512); [|lra]. destruct Hx as [_ Hx], Hy as [_ Hy]. apply Rabs_le_inv in Hx, Hy. apply Rabs_le. lra.
Qed.
Lemma sum_err ds Ds : Forall2 near ds Ds -> forall k s S, small (512 * IZR (Z.of_nat k)) s -> (Z.of_nat (k + length ds) <= 32768)%Z -> INR (k + length ds) <= K ->
  Rabs (B2R s - S) <= INR k * (c * (K + 3)) -> Rabs (B2R (fold_left add32 ds s) - (S + total Ds)) <= INR (k + length ds) * (c * (K + 3)).
Proof.
  induction 1 as [|d D ds Ds [[Fd Hd] Nd] _ IH]; intros k s S [Fs Hs] L LK E; cbn [fold_left length] in *; [cbn; rewrite Nat.add_0_r, Rplus_0_r; exact E|].
  change (total (D :: Ds)) with (D + total Ds). replace (S + (D + total Ds)) with ((S + D) + total Ds) by ring. replace (k + Datatypes.S (length ds))%nat with (Datatypes.S k + length ds)%nat in * by lia.
  assert (B : Rabs (B2R s + B2R d) <= 512 * IZR (Z.of_nat (Datatypes.S k))) by (rewrite Nat2Z.inj_succ, succ_IZR; eapply Rle_trans; [apply Rabs_triang|]; lra).
  assert (Q : 512 * IZR (Z.of_nat (Datatypes.S k)) = IZR (512 * Z.of_nat (Datatypes.S k))) by (rewrite mult_IZR; reflexivity).
  assert (IZR (512 * Z.of_nat (Datatypes.S k)) <= 16777216) by (apply IZR_le; lia).
  destruct (add_err s d Fs Fd) as [A V]; [lra|]. apply IH; try assumption.
  - split; [exact A|]. rewrite V, Q. apply r32_abs_le; [lia|lra].
  - rewrite V. pose proof (rerr32 (B2R s + B2R d)) as X. set (r := r32 (B2R s + B2R d)) in *. clearbody r.
    assert (KK : IZR (Z.of_nat (Datatypes.S k)) <= K). { rewrite <- INR_IZR_INZ. eapply Rle_trans; [|exact LK]. apply le_INR. lia. }
    rewrite S_INR. assert (Rabs (r - (B2R s + B2R d)) <= c * K + w) by lra. apply Rabs_le_inv in E, Nd, H0. apply Rabs_le. lra.
Qed.
Lemma squares_err off xs : small 512 off -> forall ds, Forall2 (fun d x => small 512 d /\ B2R (sub32 d off) = x) ds xs ->
  forall k e S, F e -> 0 <= B2R e <= 1048576 * IZR (Z.of_nat k) -> (Z.of_nat (k + length ds) <= 32768)%Z -> 0 <= S -> INR (k + length ds) <= K ->
  Rabs (B2R e - S) <= INR k * (/ 4194304 * S + 5 * w) ->
  Rabs (B2R (fold_left (fun e d => add_square e (sub32 d off)) ds e) - (S + sq xs)) <= INR (k + length ds) * (/ 4194304 * (S + sq xs) + 5 * w).
Proof.
  intros Ho ds H. induction H as [|d x ds xs [Hd Hx] _ IH]; intros k e S Fe He L HS LK E; cbn [fold_left length] in *; [unfold sq; cbn; rewrite Nat.add_0_r, Rplus_0_r; exact E|].
  rewrite sq_cons. replace (S + (x * x + sq xs)) with ((S + x * x) + sq xs) by ring. replace (k + Datatypes.S (length ds))%nat with (Datatypes.S k + length ds)%nat in * by lia.
  destruct (sub_small d off 512 512 1024 Hd Ho ltac:(lra) ltac:(lia)) as [Sd _].
  destruct (add_square_val e (sub32 d off) (Z.of_nat k) ltac:(lia) Fe He Sd) as (A & B & _). replace (Z.of_nat k + 1)%Z with (Z.of_nat (Datatypes.S k)) in B by lia.
  pose proof (square_err e (sub32 d off) (Z.of_nat k) ltac:(lia) Fe He Sd) as X. rewrite Hx in X. assert (0 <= x * x) by apply Rle_0_sqr.
  apply IH; try assumption; [lra|]. set (r := B2R (add_square e (sub32 d off))) in *. clearbody r. set (z := B2R e) in *. clearbody z. set (q := x * x) in *. clearbody q.
  assert (KK : 0 <= INR k <= 32768). { split; [apply pos_INR|]. apply Rle_trans with K; [|lra]. eapply Rle_trans; [|exact LK]. apply le_INR. lia. }
  rewrite S_INR. set (m := INR k) in *. clearbody m.
  assert (M1 : 0 <= m * S <= 32768 * S) by (split; [apply Rmult_le_pos|apply Rmult_le_compat_r]; lra). assert (M2 : 0 <= m * q) by (apply Rmult_le_pos; lra).
  assert (M3 : 0 <= m * w <= 32768 * w) by lra.
  replace ((m + 1) * (/ 4194304 * (S + q) + 5 * w)) with (/ 4194304 * (m * S) + / 4194304 * (m * q) + 5 * (m * w) + / 4194304 * S + / 4194304 * q + 5 * w) by ring.
  replace (m * (/ 4194304 * S + 5 * w)) with (/ 4194304 * (m * S) + 5 * (m * w)) in E by ring. set (a := m * S) in *. set (b := m * q) in *. set (f := m * w) in *. clearbody a b f.
  apply Rabs_le_inv in E, X. apply Rabs_le. lra.
Qed.
End Loops.

Lemma Forall2_flat_map {A B C} (Q : B -> C -> Prop) (f : A -> list B) (g : A -> list C) l : (forall a, In a l -> Forall2 Q (f a) (g a)) -> Forall2 Q (flat_map f l) (flat_map g l).
Proof. induction l as [|a l IH]; cbn; intros H; [constructor|]. apply Forall2_app; [apply H; now left|apply IH; intros; apply H; now right]. Qed.
Lemma Forall2_map2 {A B C} (Q : B -> C -> Prop) (f : A -> B) (g : A -> C) l : (forall a, In a l -> Q (f a) (g a)) -> Forall2 Q (map f l) (map g l).
Proof. induction l as [|a l IH]; cbn; intros H; [constructor|]. constructor; [apply H; now left|apply IH; intros; apply H; now right]. Qed.
Lemma F2_len {A B} {Q : A -> B -> Prop} {l l'} : Forall2 Q l l' -> length l = length l'.
Proof. induction 1; cbn; congruence. Qed.
Lemma Forall2_imp {A B} (Q Q' : A -> B -> Prop) l l' : (forall a b, Q a b -> Q' a b) -> Forall2 Q l l' -> Forall2 Q' l l'.
Proof. intros H. induction 1; constructor; auto. Qed.
Lemma Forall2_mapl {A B C} (Q : A -> B -> Prop) (Q' : C -> B -> Prop) (f : A -> C) l l' : (forall a b, Q a b -> Q' (f a) b) -> Forall2 Q l l' -> Forall2 Q' (map f l) l'.
Proof. intros H. induction 1; constructor; auto. Qed.
Lemma Forall2_mapr {A B C} (Q : A -> B -> Prop) (Q' : A -> C -> Prop) (f : B -> C) l l' : (forall a b, Q a b -> Q' a (f b)) -> Forall2 Q l l' -> Forall2 Q' l (map f l').
Proof. intros H. induction 1; constructor; auto. Qed.
Lemma F2_self {A B} (Q : A -> Prop) (f : A -> B) l : Forall Q l -> Forall2 (fun a b => Q a /\ f a = b) l (map f l).
Proof. induction 1; constructor; auto. Qed.
Lemma deviation_rms l : deviation l = rms (map (fun d => d - mean l) l).
Proof. unfold deviation, rms, mean at 1, sq, cnt. now rewrite !map_map, !map_length. Qed.

Section Acc.
Variables (n l1 l2 : nat) (P P' : list (list f32)).
Hypothesis H : grey_patch n P l1 l2.
Hypothesis H' : grey_patch n P' l1 l2.
Hypothesis N : (0 < n)%nat.
Hypothesis L : (l1 <= l2)%nat.
Hypothesis C : (Z.of_nat (n * n * (l2 - l1 + 1)) <= 32768)%Z.
Let ds := dl n P P' l1 l2.
Let Ds := exact_differences n P P' l1 l2.
Let k := (n * n * (l2 - l1 + 1))%nat.
Let K := INR k.
Notation c := (/ 32768).
Lemma K_range : 1 <= K <= 32768.
Proof.
  pose proof (kpos n l1 l2 N L) as A. fold k in A. unfold K. rewrite INR_IZR_INZ. split; apply IZR_le; unfold k in *; lia.
Qed.
Lemma near_all : Forall2 near ds Ds.
Proof.
  apply Forall2_flat_map. intros l Hl. apply in_seq in Hl. apply Forall2_map2. intros i Hi. apply in_seq in Hi.
  apply near_sub; [exact (px_ok n P l1 l2 l i H ltac:(lia) ltac:(lia))|exact (px_ok n P' l1 l2 l i H' ltac:(lia) ltac:(lia))].
Qed.
Lemma ds_len : length ds = k. Proof. apply dl_len. exact L. Qed.
Lemma Ds_len : length Ds = k. Proof. rewrite <- ds_len. symmetry. apply (F2_len near_all). Qed.
Let off := div32 (fold_left add32 ds zero32) (count32 n l1 l2).
Lemma off_close : small 512 off /\ Rabs (B2R off - mean Ds) <= c * (K + 5).
Proof.
  pose proof (off_ok n l1 l2 P P' H H' N L C) as So. fold ds off in So. split; [exact So|]. pose proof K_range as HK.
  pose proof (sum_err K ds Ds near_all 0 zero32 0) as E. rewrite ds_len in E. cbn [Nat.add] in E.
  assert (E' : Rabs (B2R (fold_left add32 ds zero32) - (0 + total Ds)) <= K * (c * (K + 3))).
  { apply E; [split; [reflexivity|cbn; rewrite Rabs_R0; lra]|exact C|apply Rle_refl|]. cbn [INR]. rewrite Rmult_0_l, Rminus_0_r. cbn. rewrite Rabs_R0. lra. }
  clear E. rewrite Rplus_0_l in E'.
  pose proof (sum_small ds (dl_small n P P' l1 l2 H H') 0 zero32) as S. rewrite ds_len in S. cbn [Nat.add] in S. destruct S as [Fs Hs]; [split; [reflexivity|cbn; rewrite Rabs_R0; lra]|exact C|].
  destruct (quot_small (fold_left add32 ds zero32) 512 (Z.of_nat k) 512 (kbound n l1 l2 N L C) Fs) as [_ Vo]; [lia|reflexivity|exact Hs|].
  assert (Vo' : B2R off = r32 (B2R (fold_left add32 ds zero32) / K)) by (unfold K; rewrite INR_IZR_INZ; exact Vo). clear Vo.
  rewrite <- INR_IZR_INZ in Hs. fold K in Hs. set (s := B2R (fold_left add32 ds zero32)) in *. clearbody s. rewrite Vo'. clear Vo'.
  assert (B : Rabs (s / K) <= 512). { unfold Rdiv. rewrite Rabs_mult, Rabs_inv, (Rabs_pos_eq K) by lra. apply Rmult_le_reg_r with K; [lra|]. rewrite Rmult_assoc, Rinv_l by lra. lra. }
  assert (M : Rabs (s / K - mean Ds) <= c * (K + 3)).
  { unfold mean. rewrite Ds_len. fold K. replace (s / K - total Ds / K) with ((s - total Ds) / K) by (field; lra). unfold Rdiv. rewrite Rabs_mult, Rabs_inv, (Rabs_pos_eq K) by lra. apply Rmult_le_reg_r with K; [lra|]. rewrite Rmult_assoc, Rinv_l by lra. lra. }
  pose proof (rerr32 (s / K)) as R1. set (r := r32 (s / K)) in *. clearbody r. set (x := s / K) in *. clearbody x. assert (Rabs (r - x) <= c + w) by lra. apply Rabs_le_inv in H0, M. apply Rabs_le. lra.
Qed.
Let xs := map (fun d => B2R (sub32 d off)) ds.
Lemma xs_close : Forall2 (fun x y => Rabs (x - y) <= c * (K + 10)) (map (fun D => D - mean Ds) Ds) xs.
Proof.
  destruct off_close as [So Eo]. unfold xs. 
  assert (G : Forall2 (fun y x => Rabs (x - y) <= c * (K + 10)) (map (fun d => B2R (sub32 d off)) ds) (map (fun D => D - mean Ds) Ds)).
  { apply (Forall2_mapl (fun d y => small 512 d /\ Rabs (B2R d - (y + mean Ds)) <= 2 * c)).
    - intros d y [Sd Ed]. destruct (sub_small d off 512 512 1024 Sd So ltac:(lra) ltac:(lia)) as [_ ->]. pose proof (rerr32 (B2R d - B2R off)) as R1.
      assert (Rabs (B2R d - B2R off) <= 1024). { destruct Sd as [_ A], So as [_ B]. apply Rabs_le_inv in A, B. apply Rabs_le. lra. }
      set (r := r32 (B2R d - B2R off)) in *. clearbody r. assert (R2 : Rabs (r - (B2R d - B2R off)) <= 2 * c + w) by lra. apply Rabs_le_inv in R2, Ed, Eo. apply Rabs_le. lra.
    - apply (Forall2_mapr near); [|exact near_all]. intros d D [A B]. split; [exact A|]. replace (D - mean Ds + mean Ds) with D by ring. exact B. }
  clear - G. induction G; constructor; auto.
Qed.
Lemma acc : exists r, average_difference32 n P P' l1 l2 = Some r /\ Rabs (B2R r - deviation Ds) <= (K + 10) / 32000 + (K + 2) / 4000000 * deviation Ds.
Proof.
  pose proof K_range as HK. destruct off_close as [So _]. unfold average_difference32. rewrite (diffs n P P' l1 l2 H H'). cbn [obind]. fold ds. fold off. eexists. split; [reflexivity|].
  assert (Sds : Forall (small 512) ds) by exact (dl_small n P P' l1 l2 H H').
  pose proof (squares_small off So ds Sds 0 zero32 eq_refl) as S. cbv zeta in S. rewrite ds_len in S. cbn [Nat.add] in S. destruct S as [Fs Hs]; [cbn; lra|exact C|].
  assert (E : Rabs (B2R (fold_left (fun e d => add_square e (sub32 d off)) ds zero32) - (0 + sq xs)) <= INR (0 + length ds) * (/ 4194304 * (0 + sq xs) + 5 * w)).
  { assert (G : Forall2 (fun d x => small 512 d /\ B2R (sub32 d off) = x) ds xs) by (unfold xs; apply F2_self; exact Sds).
    refine (squares_err K HK off xs So ds G 0 zero32 0 eq_refl _ _ _ _ _).
    - cbn. lra.
    - rewrite ds_len. exact C.
    - lra.
    - rewrite ds_len. apply Rle_refl.
    - cbn [INR]. rewrite Rmult_0_l, Rminus_0_r. cbn. rewrite Rabs_R0. lra. }
  rewrite ds_len in E. cbn [Nat.add] in E. fold K in E. rewrite Rplus_0_l in E. set (e := fold_left (fun e d => add_square e (sub32 d off)) ds zero32) in *.
  destruct (quot_small e 1048576 (Z.of_nat k) 1048576 (kbound n l1 l2 N L C) Fs) as [[Fq Hq] Vq]; [lia|reflexivity|rewrite Rabs_pos_eq; lra|].
  change (f32_of_Z (Z.of_nat k)) with (count32 n l1 l2) in *. rewrite <- INR_IZR_INZ in Vq, Hs. fold K in Vq, Hs. set (q := div32 e (count32 n l1 l2)) in *.
  assert (Ek : 0 <= B2R e / K) by (unfold Rdiv; apply Rmult_le_pos; [lra|left; apply Rinv_0_lt_compat; lra]).
  assert (Q0 : 0 <= B2R q) by (rewrite Vq, <- (rndf_0 24 128); apply r32_mono; exact Ek).
  rewrite Rabs_pos_eq in Hq by exact Q0. destruct (sqrt_ok q Fq (conj Q0 Hq)) as (_ & _ & ->).
  assert (Lx : xs <> []) by (intros A; assert (Z : length xs = 0%nat) by (now rewrite A); unfold xs in Z; rewrite map_length, ds_len in Z; unfold K in HK; rewrite Z in HK; cbn in HK; lra).
  destruct (rms_sq xs Lx) as (X1 & X2 & _). assert (Ck : cnt xs = K) by (unfold cnt, xs; now rewrite map_length, ds_len). rewrite Ck in X1. set (X := rms xs) in *.
  assert (Q1 : Rabs (B2R q - X * X) <= ((K + 1) * / 4194304) * (X * X) + (3 * / 100000000000000000000) * (3 * / 100000000000000000000)).
  { assert (A1 : Rabs (B2R e / K - X * X) <= / 4194304 * (K * (X * X)) + 5 * w).
    { replace (B2R e / K - X * X) with ((B2R e - sq xs) / K) by (rewrite <- X1; field; lra). unfold Rdiv. rewrite Rabs_mult, Rabs_inv, (Rabs_pos_eq K) by lra. apply Rmult_le_reg_r with K; [lra|]. rewrite Rmult_assoc, Rinv_l by lra. rewrite <- X1 in E |- *. lra. }
    pose proof (rerr32 (B2R e / K)) as A2. rewrite <- Vq, (Rabs_pos_eq (B2R e / K)) in A2 by exact Ek. assert (XX : 0 <= X * X) by apply Rle_0_sqr. set (y := X * X) in *. assert (KY : 0 <= K * y <= 32768 * y) by (split; [apply Rmult_le_pos|apply Rmult_le_compat_r]; lra).
    replace ((K + 1) * / 4194304 * y) with (/ 4194304 * (K * y) + / 4194304 * y) by ring. set (ky := K * y) in *. set (b := B2R e / K) in *. set (a := B2R q) in *. clearbody a b ky y. apply Rabs_le_inv in A1, A2. apply Rabs_le. lra. }
  apply sqrt_close in Q1; [|exact X2|lra|lra|exact Q0].
  pose proof (rerr32 (sqrt (B2R q))) as R1. rewrite (Rabs_pos_eq (sqrt _)) in R1 by apply sqrt_pos.
  assert (T1 : Rabs (X - deviation Ds) <= c * (K + 10)).
  { rewrite deviation_rms. apply rms_close; [lra|exact xs_close|]. intros A. pose proof (F2_len xs_close) as B. rewrite A in B. cbn in B. destruct xs; [now apply Lx|discriminate]. }
  assert (T0 : 0 <= deviation Ds) by (unfold deviation; apply sqrt_pos). set (T := deviation Ds) in *. clearbody T. set (r := r32 (sqrt (B2R q))) in *. clearbody r. set (z := sqrt (B2R q)) in *. clearbody z. clearbody X. clear - HK Q1 R1 T1 T0 X2.
  assert (KX : (K + 2) * X <= (K + 2) * T + 32770 * (c * (K + 10))).
  { apply Rabs_le_inv in T1. apply Rle_trans with ((K + 2) * (T + c * (K + 10))); [apply Rmult_le_compat_l; lra|]. rewrite Rmult_plus_distr_l. apply Rplus_le_compat_l. apply Rmult_le_compat_r; lra. }
  assert (KX1 : 0 <= (K + 1) * X <= 32769 * X) by (split; [apply Rmult_le_pos|apply Rmult_le_compat_r]; lra).
  assert (KT : 0 <= (K + 2) * T) by (apply Rmult_le_pos; lra).
  replace ((K + 2) * X) with ((K + 1) * X + X) in KX by ring. replace ((K + 1) * / 4194304 * X) with (/ 4194304 * ((K + 1) * X)) in Q1 by ring. replace ((K + 2) / 4000000 * T) with (/ 4000000 * ((K + 2) * T)) by (unfold Rdiv; ring).
  set (a := (K + 1) * X) in *. set (b := (K + 2) * T) in *. clearbody a b K. apply Rabs_le_inv in Q1, R1, T1. apply Rabs_le. lra.
Qed.
End Acc.
