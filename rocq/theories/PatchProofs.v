From Coq Require Import List ZArith QArith Qround Qabs Bool Lia Lqa.
From Verif Require Import PatchModel PatchSpec.
Import ListNotations.
Local Open Scope Q_scope.

(** ** booleans *)
Lemma Qltb_true a b : Qltb a b = true <-> a < b.
Proof.
  unfold Qltb. rewrite negb_true_iff. split; intros H.
  - apply Qnot_le_lt. intros L. apply Qle_bool_iff in L. congruence.
  - destruct (Qle_bool b a) eqn:E; auto. apply Qle_bool_iff in E. lra.
Qed.
Lemma Qltb_false a b : Qltb a b = false <-> b <= a.
Proof.
  unfold Qltb. rewrite negb_false_iff. apply Qle_bool_iff.
Qed.

(** ** grids *)
Lemma seqo_some {A} (l : list (option A)) : (forall o, In o l -> o <> None) -> exists r, seqo l = Some r.
Proof.
  induction l as [|[a|] l IH]; intros H; cbn.
  - eauto.
  - destruct IH as [r ->]; [intros; apply H; now right|]. eauto.
  - exfalso. apply (H None); [now left|auto].
Qed.
Lemma seqo_map {A} (l : list (option A)) r : seqo l = Some r -> l = map Some r.
Proof.
  revert r. induction l as [|[a|] l IH]; intros r H; cbn in H; [injection H as <-; reflexivity| |discriminate].
  destruct (seqo l) eqn:E; [|discriminate]. injection H as <-. cbn. f_equal. auto.
Qed.
Lemma seqo_map_inv {A} (r : list A) : seqo (map Some r) = Some r.
Proof. induction r; cbn; [reflexivity|]. now rewrite IHr. Qed.

Lemma in_zrange k x : In x (zrange k) <-> (0 <= x < k)%Z.
Proof.
  unfold zrange. rewrite in_map_iff. split.
  - intros (n&<-&H). apply in_seq in H. lia.
  - intros H. exists (Z.to_nat x). split; [lia|]. apply in_seq. lia.
Qed.
Lemma zrange_length k : length (zrange k) = Z.to_nat k.
Proof. unfold zrange. now rewrite map_length, seq_length. Qed.
Lemma zrange_nth k i : (i < Z.to_nat k)%nat -> nth_error (zrange k) i = Some (Z.of_nat i).
Proof.
  intros H. unfold zrange. rewrite nth_error_map.
  rewrite (nth_error_nth' _ 0%nat) by (rewrite seq_length; lia). rewrite seq_nth by lia. reflexivity.
Qed.

Lemma grid_some {A} k (f : Z -> Z -> option A) :
  (forall x y, (0 <= x < k)%Z -> (0 <= y < k)%Z -> f x y <> None) -> exists l, grid k f = Some l.
Proof.
  intros H. apply seqo_some. intros o Ho. apply in_flat_map in Ho as (y&Hy&Ho). apply in_map_iff in Ho as (x&<-&Hx).
  apply in_zrange in Hx, Hy. auto.
Qed.
Lemma flat_nth {A B} (g : A -> list B) n : (forall a, length (g a) = n) -> forall l y x, (x < n)%nat -> 
  nth_error (flat_map g l) (y * n + x) = match nth_error l y with Some a => nth_error (g a) x | None => None end.
Proof.
  intros Hn l. induction l as [|a l IH]; intros y x Hx; cbn [flat_map].
  - destruct y, (_ + x)%nat; reflexivity.
  - destruct y as [|y]; cbn [nth_error].
    + rewrite nth_error_app1 by (rewrite Hn; lia). reflexivity.
    + rewrite nth_error_app2 by (rewrite Hn; lia). rewrite Hn. rewrite <- IH by auto. f_equal. lia.
Qed.
Lemma flat_length {A B} (g : A -> list B) n l : (forall a, length (g a) = n) -> length (flat_map g l) = (length l * n)%nat.
Proof. intros H. induction l; cbn; [reflexivity|]. rewrite app_length, H, IHl. lia. Qed.

Lemma grid_nth {A} k (f : Z -> Z -> option A) l : grid k f = Some l ->
  forall x y, (x < Z.to_nat k)%nat -> (y < Z.to_nat k)%nat ->
  exists a, nth_error l (y * Z.to_nat k + x) = Some a /\ f (Z.of_nat x) (Z.of_nat y) = Some a.
Proof.
  intros H x y Hx Hy. unfold grid in H. apply seqo_map in H.
  assert (LG : forall y, length (map (fun x => f x y) (zrange k)) = Z.to_nat k) by (intros; now rewrite map_length, zrange_length).
  pose proof (flat_nth (fun y => map (fun x => f x y) (zrange k)) (Z.to_nat k) LG (zrange k) y x Hx) as F.
  rewrite H, (zrange_nth k y Hy), !nth_error_map, (zrange_nth k x Hx) in F.
  destruct (nth_error l _) eqn:E; cbn in F; [|discriminate]. injection F as F. eauto.
Qed.
Lemma grid_length {A} k (f : Z -> Z -> option A) l : grid k f = Some l -> length l = (Z.to_nat k * Z.to_nat k)%nat.
Proof.
  intros H. unfold grid in H. apply seqo_map in H. rewrite <- (map_length Some), <- H.
  rewrite (flat_length _ (Z.to_nat k)); [now rewrite zrange_length|]. intros. now rewrite map_length, zrange_length.
Qed.
Lemma grid_ext {A} k (f g : Z -> Z -> option A) : (forall x y, f x y = g x y) -> grid k f = grid k g.
Proof.
  intros H. unfold grid. f_equal. apply flat_map_ext. intros y. apply map_ext. intros; apply H.
Qed.

(** ** reads *)
Lemma rd_in im u v : in_image im u v -> rd im u v = Some (pix im u v).
Proof.
  intros [Hu Hv]. unfold rd.
  destruct (Z.leb_spec 0 u), (Z.ltb_spec u (cols im)), (Z.leb_spec 0 v), (Z.ltb_spec v (rows im)); cbn; try lia. reflexivity.
Qed.
Lemma rd_some im u v p : rd im u v = Some p -> in_image im u v /\ p = pix im u v.
Proof.
  unfold rd, in_image.
  destruct (Z.leb_spec 0 u), (Z.ltb_spec u (cols im)), (Z.leb_spec 0 v), (Z.ltb_spec v (rows im)); cbn; intros E; try discriminate.
  injection E as <-. auto.
Qed.

Lemma bilinear_some im ur vr sx sy :
  in_image im ur vr -> (0 < sx -> in_image im (ur + 1) vr) -> (0 < sy -> in_image im ur (vr + 1)) ->
  bilinear im ur vr sx sy <> None.
Proof.
  intros H0 H1 H2. unfold bilinear. rewrite (rd_in _ _ _ H0). cbn [bind].
  destruct (Qltb 0 sx) eqn:Ex; destruct (Qltb 0 sy) eqn:Ey; cbn [andb];
    try apply Qltb_true in Ex; try apply Qltb_true in Ey;
    try (rewrite (rd_in _ _ _ (H1 Ex))); try (rewrite (rd_in _ _ _ (H2 Ey))); cbn [bind]; try discriminate.
  rewrite rd_in; [cbn; discriminate|]. destruct (H1 Ex), (H2 Ey). split; auto.
Qed.

(** ** C22, identity *)
Lemma floor_le q : inject_Z (Qfloor q) <= q. Proof. apply Qfloor_le. Qed.
Lemma floor_lt q : q < inject_Z (Qfloor q) + 1.
Proof. pose proof (Qlt_floor q) as H. rewrite inject_Z_plus in H. exact H. Qed.
Lemma floor_ge z q : inject_Z z <= q -> (z <= Qfloor q)%Z.
Proof. intros H. rewrite <- (Qfloor_Z z). now apply Qfloor_resp_le. Qed.
Lemma floor_le_z z q : q <= inject_Z z -> (Qfloor q <= z)%Z.
Proof. intros H. rewrite <- (Qfloor_Z z). now apply Qfloor_resp_le. Qed.
Lemma floor_lt_z z q : q < inject_Z z -> (Qfloor q < z)%Z.
Proof. intros H. rewrite Zlt_Qlt. pose proof (floor_le q). lra. Qed.

Lemma frac_pos rnd q : monotone rnd -> 0 < rnd (q - inject_Z (Qfloor q)) -> inject_Z (Qfloor q) < q.
Proof.
  intros [M Z0] H. destruct (Qlt_le_dec (inject_Z (Qfloor q)) q) as [L|L]; auto.
  exfalso. assert (E : q - inject_Z (Qfloor q) <= 0) by lra. apply M in E. lra.
Qed.

Lemma axis_id rnd half c (n : Z) : monotone rnd -> (0 <= half)%Z -> inject_Z half <= c -> c <= inject_Z (n - half) ->
  forall p, (0 <= p < 2 * half)%Z ->
  (0 <= Qfloor c - half + p < n)%Z /\ (0 < rnd (c - inject_Z (Qfloor c)) -> (Qfloor c - half + p + 1 < n)%Z).
Proof.
  intros M Hh L U p Hp. apply floor_ge in L. pose proof (floor_le_z _ _ U) as U'. split; [lia|].
  intros F. apply (frac_pos rnd c M) in F. assert (inject_Z (Qfloor c) < inject_Z (n - half)) as Q1 by lra.
  rewrite <- Zlt_Qlt in Q1. lia.
Qed.

Lemma in_frame_id_safe rnd im half cx cy : monotone rnd -> (0 <= half)%Z ->
  in_frame_id im half (Some cx) (Some cy) = true ->
  exists l, extract_id rnd im half (Some cx) (Some cy) = Some l.
Proof.
  intros M Hh H. unfold in_frame_id in H. apply negb_true_iff in H. cbn [ltn gtn] in H.
  apply orb_false_iff in H as [H H4]. apply orb_false_iff in H as [H H3]. apply orb_false_iff in H as [H1 H2].
  apply Qltb_false in H1, H2, H3, H4. unfold extract_id. apply grid_some. intros x y Hx Hy.
  destruct (axis_id rnd half cx (cols im) M Hh H1 H3 x Hx) as [A1 A2].
  destruct (axis_id rnd half cy (rows im) M Hh H2 H4 y Hy) as [B1 B2].
  replace (Qfloor cy + y - half)%Z with (Qfloor cy - half + y)%Z by lia.
  apply bilinear_some; unfold in_image.
  - lia.
  - intros P. specialize (A2 P). lia.
  - intros P. specialize (B2 P). lia.
Qed.

(** ** C22, warp *)
Definition gen_sample (rnd : Q -> Q) (a b c : Q) (half x y : Z) : Q :=
  rnd (rnd (c + rnd (rnd (a * (inject_Z (x - half) + (1 # 2))) + rnd (b * (inject_Z (y - half) + (1 # 2))))) - (1 # 2)).
Lemma gen_mono rnd : monotone rnd -> forall a b c half x y x' y',
  a * inject_Z x <= a * inject_Z x' -> b * inject_Z y <= b * inject_Z y' ->
  gen_sample rnd a b c half x y <= gen_sample rnd a b c half x' y'.
Proof.
  intros [M _] a b c half x y x' y' Hx Hy. unfold gen_sample.
  assert (A : rnd (a * (inject_Z (x - half) + (1 # 2))) <= rnd (a * (inject_Z (x' - half) + (1 # 2)))).
  { apply M. unfold Zminus. rewrite !inject_Z_plus. lra. }
  assert (B : rnd (b * (inject_Z (y - half) + (1 # 2))) <= rnd (b * (inject_Z (y' - half) + (1 # 2)))).
  { apply M. unfold Zminus. rewrite !inject_Z_plus. lra. }
  apply M. apply Qplus_le_l. apply M. apply Qplus_le_r. apply M. lra.
Qed.
Lemma scale_between a (x m : Z) : (0 <= x <= m)%Z ->
  exists lo hi, (lo = 0%Z \/ lo = m) /\ (hi = 0%Z \/ hi = m) /\ a * inject_Z lo <= a * inject_Z x /\ a * inject_Z x <= a * inject_Z hi.
Proof.
  intros H. assert (H0 : 0 <= inject_Z x) by (change 0 with (inject_Z 0); rewrite <- Zle_Qle; lia).
  assert (H1 : inject_Z x <= inject_Z m) by (rewrite <- Zle_Qle; lia).
  destruct (Qlt_le_dec a 0) as [N|P].
  - exists m, 0%Z. split; [auto|]. split; [auto|]. change (inject_Z 0) with 0. split; nra.
  - exists 0%Z, m. split; [auto|]. split; [auto|]. change (inject_Z 0) with 0. split; nra.
Qed.
Lemma corners_bound rnd a b c half m lo hi : monotone rnd ->
  (forall x y, (x = 0%Z \/ x = m) -> (y = 0%Z \/ y = m) -> (lo <= Qfloor (gen_sample rnd a b c half x y) < hi)%Z) ->
  forall x y, (0 <= x <= m)%Z -> (0 <= y <= m)%Z -> (lo <= Qfloor (gen_sample rnd a b c half x y) < hi)%Z.
Proof.
  intros M HC x y Hx Hy.
  destruct (scale_between a x m Hx) as (xl&xh&Xl&Xh&X1&X2). destruct (scale_between b y m Hy) as (yl&yh&Yl&Yh&Y1&Y2).
  pose proof (HC xl yl Xl Yl). pose proof (HC xh yh Xh Yh).
  pose proof (Qfloor_resp_le _ _ (gen_mono rnd M a b c half xl yl x y X1 Y1)).
  pose proof (Qfloor_resp_le _ _ (gen_mono rnd M a b c half x y xh yh X2 Y2)). lia.
Qed.
Lemma in_frame_warp_safe rnd im w cx cy half : monotone rnd ->
  in_frame_warp rnd im w cx cy half = true -> exists l, extract_warp rnd im w cx cy half = Some l.
Proof.
  intros M H. unfold in_frame_warp in H. apply andb_true_iff in H as [H C4]. apply andb_true_iff in H as [H C3]. apply andb_true_iff in H as [C1 C2].
  set (m := (2 * half - 1)%Z) in *.
  assert (HC : forall x y, (x = 0%Z \/ x = m) -> (y = 0%Z \/ y = m) -> corner_ok rnd im w cx cy half x y = true).
  { intros x y [->| ->] [->| ->]; auto. }
  assert (HX : forall x y, (x = 0%Z \/ x = m) -> (y = 0%Z \/ y = m) ->
     (0 <= Qfloor (sample_x rnd w cx half x y) < cols im - 1)%Z /\ (0 <= Qfloor (sample_y rnd w cy half x y) < rows im - 1)%Z).
  { intros x y A B. specialize (HC x y A B). unfold corner_ok in HC. apply negb_true_iff in HC.
    apply orb_false_iff in HC as [HC D4]. apply orb_false_iff in HC as [HC D3]. apply orb_false_iff in HC as [D1 D2].
    apply Z.ltb_ge in D1, D2. apply Z.leb_gt in D3, D4. lia. }
  unfold extract_warp. apply grid_some. intros x y Hx Hy.
  assert (Bx : (0 <= Qfloor (sample_x rnd w cx half x y) < cols im - 1)%Z).
  { apply (corners_bound rnd (w00 w) (w01 w) cx half m 0 (cols im - 1) M); [|unfold m; lia|unfold m; lia].
    intros x0 y0 A B. apply (HX x0 y0 A B). }
  assert (By : (0 <= Qfloor (sample_y rnd w cy half x y) < rows im - 1)%Z).
  { apply (corners_bound rnd (w10 w) (w11 w) cy half m 0 (rows im - 1) M); [|unfold m; lia|unfold m; lia].
    intros x0 y0 A B. apply (HX x0 y0 A B). }
  cbv zeta. apply bilinear_some; unfold in_image; lia.
Qed.

Lemma half_nonneg n b : (0 <= half_size n b)%Z.
Proof. unfold half_size. destruct b; lia. Qed.
Lemma half_edge n b : Nat.Even n -> Z.to_nat (2 * half_size n b) = edge n b.
Proof.
  intros [m ->]. unfold half_size, edge. rewrite Nat.div2_double. destruct b; lia.
Qed.

Lemma in_frame_safe rnd n im ident w cx cy b : monotone rnd -> in_frame rnd n im ident w cx cy b = true ->
  exists l, extract rnd n im ident w cx cy b = Some l.
Proof.
  intros M. unfold in_frame, extract. destruct ident.
  - apply in_frame_id_safe; auto using half_nonneg.
  - apply in_frame_warp_safe; auto.
Qed.
Lemma extract_length rnd n im ident w cx cy b l : Nat.Even n -> extract rnd n im ident w cx cy b = Some l -> length l = (edge n b * edge n b)%nat.
Proof.
  intros E H. rewrite <- (half_edge n b E). unfold extract in H. destruct ident.
  - unfold extract_id in H. now apply grid_length in H.
  - unfold extract_warp in H. now apply grid_length in H.
Qed.

(** ** C23 *)
(** one interpolated value *)
Lemma bilinear_val im ur vr sx sy val : 0 <= sx -> 0 <= sy -> bilinear im ur vr sx sy = Some val ->
  in_image im ur vr /\ (0 < sx -> in_image im (ur + 1) vr) /\ (0 < sy -> in_image im ur (vr + 1)) /\
  (0 < sx -> 0 < sy -> in_image im (ur + 1) (vr + 1)) /\
  val == (1 - sx) * (1 - sy) * pix im ur vr + sx * (1 - sy) * pix im (ur + 1) vr
       + (1 - sx) * sy * pix im ur (vr + 1) + sx * sy * pix im (ur + 1) (vr + 1).
Proof.
  intros Px Py H. unfold bilinear, bind in H.
  destruct (rd im ur vr) as [p0|] eqn:R0; [|discriminate]. apply rd_some in R0 as [I0 ->].
  destruct (Qltb 0 sx) eqn:Ex; destruct (Qltb 0 sy) eqn:Ey; cbn [andb] in H.
  - apply Qltb_true in Ex, Ey.
    destruct (rd im (ur + 1) vr) eqn:R1; [|discriminate]. apply rd_some in R1 as [I1 ->].
    destruct (rd im ur (vr + 1)) eqn:R2; [|discriminate]. apply rd_some in R2 as [I2 ->].
    destruct (rd im (ur + 1) (vr + 1)) eqn:R3; [|discriminate]. apply rd_some in R3 as [I3 ->].
    injection H as <-. split; [exact I0|]. split; [intros; first [assumption|exfalso; lra]|]. split; [intros; first [assumption|exfalso; lra]|]. split; [intros; first [assumption|exfalso; lra]|]. ring.
  - apply Qltb_true in Ex. apply Qltb_false in Ey. assert (Ez : sy == 0) by lra.
    destruct (rd im (ur + 1) vr) eqn:R1; [|discriminate]. apply rd_some in R1 as [I1 ->].
    injection H as <-. split; [exact I0|]. split; [intros; first [assumption|exfalso; lra]|]. split; [intros; first [assumption|exfalso; lra]|]. split; [intros; first [assumption|exfalso; lra]|]. rewrite Ez. ring.
  - apply Qltb_true in Ey. apply Qltb_false in Ex. assert (Ez : sx == 0) by lra.
    destruct (rd im ur (vr + 1)) eqn:R1; [|discriminate]. apply rd_some in R1 as [I1 ->].
    injection H as <-. split; [exact I0|]. split; [intros; first [assumption|exfalso; lra]|]. split; [intros; first [assumption|exfalso; lra]|]. split; [intros; first [assumption|exfalso; lra]|]. rewrite Ez. ring.
  - apply Qltb_false in Ex, Ey. assert (Ez : sx == 0) by lra. assert (Ew : sy == 0) by lra.
    injection H as <-. split; [exact I0|]. split; [intros; first [assumption|exfalso; lra]|]. split; [intros; first [assumption|exfalso; lra]|]. split; [intros; first [assumption|exfalso; lra]|]. rewrite Ez, Ew. ring.
Qed.

Definition interp (im : image) (ur vr : Z) (sx sy : Q) : Q :=
  (1 - sx) * (1 - sy) * pix im ur vr + sx * (1 - sy) * pix im (ur + 1) vr
  + (1 - sx) * sy * pix im ur (vr + 1) + sx * sy * pix im (ur + 1) (vr + 1).

(** what an extracted pixel is: the interpolation at its position *)
Lemma floor_frac q : 0 <= q - inject_Z (Qfloor q) /\ q - inject_Z (Qfloor q) < 1.
Proof. pose proof (floor_le q). pose proof (floor_lt q). split; lra. Qed.

Lemma floor_add_z (q : Q) (z : Z) : Qfloor (q + inject_Z z) = (Qfloor q + z)%Z.
Proof.
  assert (A : (Qfloor q + z <= Qfloor (q + inject_Z z))%Z) by (apply floor_ge; rewrite inject_Z_plus; pose proof (floor_le q); lra).
  assert (B : (Qfloor (q + inject_Z z) < Qfloor q + z + 1)%Z) by (apply floor_lt_z; rewrite !inject_Z_plus; pose proof (floor_lt q); change (inject_Z 1) with 1; lra).
  lia.
Qed.

Definition at_pos (im : image) (u v val : Q) : Prop :=
  let ur := Qfloor u in let vr := Qfloor v in let sx := u - inject_Z ur in let sy := v - inject_Z vr in
  in_image im ur vr /\ (0 < sx -> in_image im (ur + 1) vr) /\ (0 < sy -> in_image im ur (vr + 1)) /\
  (0 < sx -> 0 < sy -> in_image im (ur + 1) (vr + 1)) /\ val == interp im ur vr sx sy.

Lemma at_pos_eq im u v u' v' val : u == u' -> v == v' -> at_pos im u v val -> at_pos im u' v' val.
Proof.
  intros Hu Hv (A&B&C&D&E). unfold at_pos. cbv zeta.
  pose proof (Qfloor_comp _ _ Hu) as Fu. pose proof (Qfloor_comp _ _ Hv) as Fv. rewrite <- Fu, <- Fv.
  split; [exact A|]. split; [intros; apply B; lra|]. split; [intros; apply C; lra|]. split; [intros; apply D; lra|].
  rewrite E. unfold interp. clear - Hu Hv. generalize (Qfloor u) (Qfloor v). intros fu fv. rewrite Hu, Hv. reflexivity.
Qed.

Lemma inject_of_nat_pred k : inject_Z (2 * k) == 2 * inject_Z k.
Proof. rewrite inject_Z_mult. reflexivity. Qed.

Lemma extract_at n im ident w cx cy b l : extract exact n im ident w cx cy b = Some l ->
  forall x y, (x < Z.to_nat (2 * half_size n b))%nat -> (y < Z.to_nat (2 * half_size n b))%nat ->
  exists val, nth_error l (y * Z.to_nat (2 * half_size n b) + x) = Some val /\
    at_pos im (pos_x ident w cx (2 * half_size n b) (Z.of_nat x) (Z.of_nat y)) (pos_y ident w cy (2 * half_size n b) (Z.of_nat x) (Z.of_nat y)) val.
Proof.
  intros H x y Hx Hy. set (h := half_size n b) in *. unfold extract in H. fold h in H. destruct ident.
  - unfold extract_id in H. destruct (grid_nth _ _ _ H x y Hx Hy) as (val&H1&H2).
    exists val. split; [exact H1|]. unfold exact in H2.
    destruct (floor_frac cx) as [X1 X2]. destruct (floor_frac cy) as [Y1 Y2].
    destruct (bilinear_val _ _ _ _ _ _ X1 Y1 H2) as (A&B&C&D&E).
    apply (at_pos_eq im (cx + inject_Z (Z.of_nat x - h)) (cy + inject_Z (Z.of_nat y - h))).
    + unfold pos_x, eff; cbn [w00 w01]. rewrite inject_of_nat_pred. unfold Zminus. rewrite inject_Z_plus, inject_Z_opp. field.
    + unfold pos_y, eff; cbn [w10 w11]. rewrite inject_of_nat_pred. unfold Zminus. rewrite inject_Z_plus, inject_Z_opp. field.
    + unfold at_pos. cbv zeta. rewrite !floor_add_z.
      replace (Qfloor cx + (Z.of_nat x - h))%Z with (Qfloor cx - h + Z.of_nat x)%Z by lia.
      replace (Qfloor cy + (Z.of_nat y - h))%Z with (Qfloor cy + Z.of_nat y - h)%Z by lia.
      assert (SX : cx + inject_Z (Z.of_nat x - h) - inject_Z (Qfloor cx - h + Z.of_nat x) == cx - inject_Z (Qfloor cx)).
      { unfold Zminus. rewrite !inject_Z_plus. ring. }
      assert (SY : cy + inject_Z (Z.of_nat y - h) - inject_Z (Qfloor cy + Z.of_nat y - h) == cy - inject_Z (Qfloor cy)).
      { unfold Zminus. rewrite !inject_Z_plus. ring. }
      split; [exact A|]. split; [rewrite SX; exact B|]. split; [rewrite SY; exact C|]. split; [rewrite SX, SY; exact D|].
      rewrite E. unfold interp. rewrite SX, SY. reflexivity.
  - unfold extract_warp in H. destruct (grid_nth _ _ _ H x y Hx Hy) as (val&H1&H2).
    exists val. split; [exact H1|]. cbv zeta in H2. unfold exact at 2 4 in H2.
    set (u := sample_x exact w cx h (Z.of_nat x) (Z.of_nat y)) in *. set (v := sample_y exact w cy h (Z.of_nat x) (Z.of_nat y)) in *.
    apply (at_pos_eq im u v).
    + unfold u, sample_x, pos_x, exact, eff. rewrite inject_of_nat_pred. unfold Zminus. rewrite !inject_Z_plus, inject_Z_opp. field.
    + unfold v, sample_y, pos_y, exact, eff. rewrite inject_of_nat_pred. unfold Zminus. rewrite !inject_Z_plus, inject_Z_opp. field.
    + destruct (floor_frac u) as [X1 X2]. destruct (floor_frac v) as [Y1 Y2].
      exact (bilinear_val _ _ _ _ _ _ X1 Y1 H2).
Qed.

Lemma at_pos_bounds im u v val lo hi : at_pos im u v val ->
  (forall i j, in_image im i j -> Qabs (inject_Z i - u) < 1 -> Qabs (inject_Z j - v) < 1 -> lo <= pix im i j /\ pix im i j <= hi) ->
  lo <= val /\ val <= hi.
Proof.
  intros (A&B&C&D&E) H. cbv zeta in *.
  destruct (floor_frac u) as [X1 X2]. destruct (floor_frac v) as [Y1 Y2].
  set (sx := u - inject_Z (Qfloor u)) in *. set (sy := v - inject_Z (Qfloor v)) in *.
  assert (NU : forall z, z == - sx \/ (z == 1 - sx /\ 0 < sx) -> Qabs z < 1).
  { intros z [Z0|[Z0 P]]; rewrite Z0; [rewrite Qabs_opp, Qabs_pos; lra|rewrite Qabs_pos; lra]. }
  assert (NV : forall z, z == - sy \/ (z == 1 - sy /\ 0 < sy) -> Qabs z < 1).
  { intros z [Z0|[Z0 P]]; rewrite Z0; [rewrite Qabs_opp, Qabs_pos; lra|rewrite Qabs_pos; lra]. }
  assert (U0 : Qabs (inject_Z (Qfloor u) - u) < 1) by (apply NU; left; unfold sx; ring).
  assert (V0 : Qabs (inject_Z (Qfloor v) - v) < 1) by (apply NV; left; unfold sy; ring).
  assert (U1 : 0 < sx -> Qabs (inject_Z (Qfloor u + 1) - u) < 1).
  { intros P. apply NU; right. split; auto. rewrite inject_Z_plus. unfold sx. change (inject_Z 1) with 1. ring. }
  assert (V1 : 0 < sy -> Qabs (inject_Z (Qfloor v + 1) - v) < 1).
  { intros P. apply NV; right. split; auto. rewrite inject_Z_plus. unfold sy. change (inject_Z 1) with 1. ring. }
  pose proof (H _ _ A U0 V0) as P0.
  unfold interp in E. clearbody sx sy.
  set (p0 := pix im (Qfloor u) (Qfloor v)) in *. destruct P0 as [P0 P0'].
  assert (K1 : 0 < sx -> lo <= pix im (Qfloor u + 1) (Qfloor v) /\ pix im (Qfloor u + 1) (Qfloor v) <= hi) by (intros P; apply H; auto).
  assert (K2 : 0 < sy -> lo <= pix im (Qfloor u) (Qfloor v + 1) /\ pix im (Qfloor u) (Qfloor v + 1) <= hi) by (intros P; apply H; auto).
  assert (K3 : 0 < sx -> 0 < sy -> lo <= pix im (Qfloor u + 1) (Qfloor v + 1) /\ pix im (Qfloor u + 1) (Qfloor v + 1) <= hi) by (intros P P'; apply H; auto).
  set (p1 := pix im (Qfloor u + 1) (Qfloor v)) in *.
  set (p2 := pix im (Qfloor u) (Qfloor v + 1)) in *.
  set (p3 := pix im (Qfloor u + 1) (Qfloor v + 1)) in *.
  clearbody p0 p1 p2 p3.
  assert (T : forall s p, 0 <= s -> (0 < s -> lo <= p /\ p <= hi) -> s * lo <= s * p /\ s * p <= s * hi).
  { intros s p S K. destruct (Qlt_le_dec 0 s) as [G|G].
    - destruct (K G). split; nra.
    - assert (Z : s == 0) by lra. rewrite Z. split; lra. }
  assert (W1 : 0 <= (1 - sx) * (1 - sy)) by nra. assert (W2 : 0 <= sx * (1 - sy)) by nra.
  assert (W3 : 0 <= (1 - sx) * sy) by nra. assert (W4 : 0 <= sx * sy) by nra.
  destruct (T _ p0 W1 (fun _ => conj P0 P0')) as [L0 H0].
  destruct (T _ p1 W2) as [L1 H1]. { intros G. apply K1. nra. }
  destruct (T _ p2 W3) as [L2 H2]. { intros G. apply K2. nra. }
  destruct (T _ p3 W4) as [L3 H3]. { intros G. apply K3; nra. }
  assert (S : (1 - sx) * (1 - sy) * lo + sx * (1 - sy) * lo + (1 - sx) * sy * lo + sx * sy * lo == lo) by ring.
  assert (S' : (1 - sx) * (1 - sy) * hi + sx * (1 - sy) * hi + (1 - sx) * sy * hi + sx * sy * hi == hi) by ring.
  rewrite E. split; lra.
Qed.

Lemma at_pos_int im u v val i j : at_pos im u v val -> u == inject_Z i -> v == inject_Z j -> val == pix im i j.
Proof.
  intros (_&_&_&_&E) U V. cbv zeta in E.
  assert (FU : Qfloor u = i) by (rewrite (Qfloor_comp _ _ U); apply Qfloor_Z).
  assert (FV : Qfloor v = j) by (rewrite (Qfloor_comp _ _ V); apply Qfloor_Z).
  rewrite FU, FV in E. rewrite E. unfold interp. rewrite U, V. ring.
Qed.

Lemma at_pos_ramp im u v val a b c : at_pos im u v val ->
  (forall i j, in_image im i j -> pix im i j == a * inject_Z i + b * inject_Z j + c) -> val == a * u + b * v + c.
Proof.
  intros (A&B&C&D&E) H. cbv zeta in *. rewrite E. unfold interp.
  destruct (floor_frac u) as [X1 X2]. destruct (floor_frac v) as [Y1 Y2].
  set (sx := u - inject_Z (Qfloor u)) in *. set (sy := v - inject_Z (Qfloor v)) in *.
  assert (U : u == inject_Z (Qfloor u) + sx) by (unfold sx; ring).
  assert (V : v == inject_Z (Qfloor v) + sy) by (unfold sy; ring).
  rewrite (H _ _ A).
  assert (T : forall s p q, 0 <= s -> (0 < s -> p == q) -> s * p == s * q).
  { intros s p q S K. destruct (Qlt_le_dec 0 s) as [G|G]; [rewrite (K G); reflexivity|].
    assert (Z : s == 0) by lra. rewrite Z. ring. }
  rewrite (T (sx * (1 - sy)) (pix im (Qfloor u + 1) (Qfloor v)) (a * (inject_Z (Qfloor u) + 1) + b * inject_Z (Qfloor v) + c)).
  2: { clearbody sx sy. nra. }
  2: { intros G. rewrite H by (apply B; clearbody sx sy; nra). rewrite inject_Z_plus. reflexivity. }
  rewrite (T ((1 - sx) * sy) (pix im (Qfloor u) (Qfloor v + 1)) (a * inject_Z (Qfloor u) + b * (inject_Z (Qfloor v) + 1) + c)).
  2: { clearbody sx sy. nra. }
  2: { intros G. rewrite H by (apply C; clearbody sx sy; nra). rewrite inject_Z_plus. reflexivity. }
  rewrite (T (sx * sy) (pix im (Qfloor u + 1) (Qfloor v + 1)) (a * (inject_Z (Qfloor u) + 1) + b * (inject_Z (Qfloor v) + 1) + c)).
  2: { clearbody sx sy. nra. }
  2: { intros G. rewrite H by (apply D; clearbody sx sy; nra). rewrite !inject_Z_plus. reflexivity. }
  unfold sx, sy. ring.
Qed.

(** ** the plain patch is the inside of the expanded one *)
Lemma firstn_skipn_nth {A} (l : list A) a k i : (i < k)%nat -> nth_error (firstn k (skipn a l)) i = nth_error l (a + i).
Proof.
  intros H. revert l. induction a as [|a IH]; intros l.
  - cbn [skipn plus]. revert l i H. induction k as [|k IH]; intros l i H; [lia|]. destruct l as [|x l]; [now destruct i|].
    destruct i as [|i]; cbn; [reflexivity|]. apply IH. lia.
  - destruct l as [|x l]; cbn [skipn plus nth_error]; [destruct k, i; reflexivity|]. apply IH.
Qed.
Lemma list_ext {A} (l m : list A) : length l = length m -> (forall i, (i < length l)%nat -> nth_error l i = nth_error m i) -> l = m.
Proof.
  revert m. induction l as [|a l IH]; intros [|b m] L H; cbn in L; try discriminate; auto.
  pose proof (H 0%nat ltac:(cbn; lia)) as H0. cbn in H0. injection H0 as ->. f_equal. apply IH; [lia|].
  intros i Hi. apply (H (S i)). cbn. lia.
Qed.
Lemma flat_length_in {A B} (g : A -> list B) n l : (forall a, In a l -> length (g a) = n) -> length (flat_map g l) = (length l * n)%nat.
Proof.
  induction l; cbn; intros H; [reflexivity|]. rewrite app_length, H by auto. rewrite IHl by auto. lia.
Qed.
Lemma flat_nth_in {A B} (g : A -> list B) n : forall l y x, (forall a, In a l -> length (g a) = n) -> (x < n)%nat -> 
  nth_error (flat_map g l) (y * n + x) = match nth_error l y with Some a => nth_error (g a) x | None => None end.
Proof.
  intros l. induction l as [|a l IH]; intros y x Hn Hx; cbn [flat_map].
  - destruct y, (_ + x)%nat; reflexivity.
  - destruct y as [|y]; cbn [nth_error].
    + rewrite nth_error_app1 by (rewrite Hn by (now left); lia). reflexivity.
    + rewrite nth_error_app2 by (rewrite Hn by (now left); lia). rewrite Hn by (now left). rewrite <- IH by (auto; intros; apply Hn; now right). f_equal. lia.
Qed.
Lemma inner_length n B : length B = ((n + 2) * (n + 2))%nat -> length (inner_patch n B) = (n * n)%nat.
Proof.
  intros H. unfold inner_patch. rewrite (flat_length_in _ n); [now rewrite seq_length|].
  intros y Hy. apply in_seq in Hy. rewrite firstn_length, skipn_length, H. nia.
Qed.
Lemma inner_nth n B x y : length B = ((n + 2) * (n + 2))%nat -> (x < n)%nat -> (y < n)%nat ->
  nth_error (inner_patch n B) (y * n + x) = nth_error B ((y + 1) * (n + 2) + (x + 1)).
Proof.
  intros H Hx Hy. unfold inner_patch. rewrite (flat_nth_in _ n); [|intros a Ha; apply in_seq in Ha; rewrite firstn_length, skipn_length, H; nia|auto].
  rewrite (nth_error_nth' _ 0%nat) by (rewrite seq_length; lia). rewrite seq_nth by lia.
  rewrite firstn_skipn_nth by auto. f_equal. lia.
Qed.

Lemma grid_inner {A} (n : nat) (f g : Z -> Z -> option A) B :
  (forall x y, g (x + 1)%Z (y + 1)%Z = f x y) -> grid (Z.of_nat (n + 2)) g = Some B -> 
  exists l, grid (Z.of_nat n) f = Some l /\ forall x y, (x < n)%nat -> (y < n)%nat -> nth_error l (y * n + x) = nth_error B ((y + 1) * (n + 2) + (x + 1)).
Proof.
  intros E H. destruct (grid_some (Z.of_nat n) f) as [l L].
  - intros x y Hx Hy. rewrite <- E.
    destruct (grid_nth _ _ _ H (Z.to_nat (x + 1)) (Z.to_nat (y + 1)) ltac:(lia) ltac:(lia)) as (a&_&Ha).
    rewrite !Z2Nat.id in Ha by lia. congruence.
  - exists l. split; [exact L|]. intros x y Hx Hy.
    destruct (grid_nth _ _ _ L x y ltac:(lia) ltac:(lia)) as (a&A1&A2).
    destruct (grid_nth _ _ _ H (x + 1) (y + 1) ltac:(lia) ltac:(lia)) as (b&B1&B2).
    rewrite !Nat2Z.id in A1, B1. rewrite A1, B1. rewrite <- E in A2.
    replace (Z.of_nat (x + 1)) with (Z.of_nat x + 1)%Z in B2 by lia. replace (Z.of_nat (y + 1)) with (Z.of_nat y + 1)%Z in B2 by lia. congruence.
Qed.
Lemma extract_inner rnd n im ident w cx cy B : Nat.Even n -> extract rnd n im ident w cx cy true = Some B ->
  extract rnd n im ident w cx cy false = Some (inner_patch n B).
Proof.
  intros Ev H. pose proof (extract_length _ _ _ _ _ _ _ _ _ Ev H) as LB. cbn [edge] in LB.
  assert (K : exists l, extract rnd n im ident w cx cy false = Some l /\
     forall x y, (x < n)%nat -> (y < n)%nat -> nth_error l (y * n + x) = nth_error B ((y + 1) * (n + 2) + (x + 1))).
  { pose proof (half_edge n true Ev) as HT. pose proof (half_edge n false Ev) as HF. cbn [edge] in HT, HF.
    assert (ET : (2 * half_size n true)%Z = Z.of_nat (n + 2)) by (pose proof (half_nonneg n true); lia).
    assert (EF : (2 * half_size n false)%Z = Z.of_nat n) by (pose proof (half_nonneg n false); lia).
    assert (HH : half_size n true = (half_size n false + 1)%Z) by (unfold half_size; lia).
    unfold extract in *. destruct ident.
    - unfold extract_id in *. rewrite ET in H. rewrite EF. revert H. apply grid_inner.
      intros x y. rewrite HH. f_equal; lia.
    - unfold extract_warp in *. rewrite ET in H. rewrite EF. revert H. apply grid_inner.
      intros x y. rewrite HH. unfold sample_x, sample_y.
      replace (x + 1 - (half_size n false + 1))%Z with (x - half_size n false)%Z by lia.
      replace (y + 1 - (half_size n false + 1))%Z with (y - half_size n false)%Z by lia. reflexivity. }
  destruct K as (l&L&K). rewrite L. f_equal.
  pose proof (extract_length _ _ _ _ _ _ _ _ _ Ev L) as LL. cbn [edge] in LL.
  apply list_ext; [now rewrite inner_length|]. intros i Hi. rewrite LL in Hi.
  assert (n <> 0)%nat by (intros ->; lia).
  replace i with (i / n * n + i mod n)%nat by (rewrite (Nat.div_mod i n) at 3 by auto; lia).
  assert (i mod n < n)%nat by (apply Nat.mod_upper_bound; auto).
  assert (i / n < n)%nat by (apply Nat.div_lt_upper_bound; auto).
  rewrite K by auto. symmetry. apply inner_nth; auto.
Qed.

Lemma extract_at_edge n im ident w cx cy b l x y : Nat.Even n ->
  extract exact n im ident w cx cy b = Some l -> (x < edge n b)%nat -> (y < edge n b)%nat ->
  exists val, nth_error l (y * edge n b + x) = Some val /\
    at_pos im (pos_x ident w cx (Z.of_nat (edge n b)) (Z.of_nat x) (Z.of_nat y)) (pos_y ident w cy (Z.of_nat (edge n b)) (Z.of_nat x) (Z.of_nat y)) val.
Proof.
  intros Ev H Hx Hy. pose proof (half_edge n b Ev) as E. pose proof (half_nonneg n b) as P.
  rewrite <- E in *. rewrite Z2Nat.id by lia. apply extract_at; auto.
Qed.
Lemma extract_bounds n im ident w cx cy b l x y : Nat.Even n ->
  extract exact n im ident w cx cy b = Some l -> (x < edge n b)%nat -> (y < edge n b)%nat ->
  exists val, nth_error l (y * edge n b + x) = Some val /\
  let u := pos_x ident w cx (Z.of_nat (edge n b)) (Z.of_nat x) (Z.of_nat y) in
  let v := pos_y ident w cy (Z.of_nat (edge n b)) (Z.of_nat x) (Z.of_nat y) in
  forall lo hi,
    (forall i j, in_image im i j -> Qabs (inject_Z i - u) < 1 -> Qabs (inject_Z j - v) < 1 -> lo <= pix im i j /\ pix im i j <= hi) ->
    lo <= val /\ val <= hi.
Proof.
  intros Ev H Hx Hy. destruct (extract_at_edge _ _ _ _ _ _ _ _ _ _ Ev H Hx Hy) as (val&A&B). exists val. split; [exact A|].
  intros u v lo hi K. apply (at_pos_bounds im u v); auto.
Qed.
Lemma extract_integer n im ident w cx cy b l x y i j : Nat.Even n ->
  extract exact n im ident w cx cy b = Some l -> (x < edge n b)%nat -> (y < edge n b)%nat ->
  pos_x ident w cx (Z.of_nat (edge n b)) (Z.of_nat x) (Z.of_nat y) == inject_Z i ->
  pos_y ident w cy (Z.of_nat (edge n b)) (Z.of_nat x) (Z.of_nat y) == inject_Z j ->
  exists val, nth_error l (y * edge n b + x) = Some val /\ val == pix im i j.
Proof.
  intros Ev H Hx Hy U V. destruct (extract_at_edge _ _ _ _ _ _ _ _ _ _ Ev H Hx Hy) as (val&A&B). exists val. split; [exact A|].
  eapply at_pos_int; eauto.
Qed.
Lemma extract_ramp n im ident w cx cy bd l x y a b c : Nat.Even n ->
  extract exact n im ident w cx cy bd = Some l -> (x < edge n bd)%nat -> (y < edge n bd)%nat ->
  (forall i j, in_image im i j -> pix im i j == a * inject_Z i + b * inject_Z j + c) ->
  exists val, nth_error l (y * edge n bd + x) = Some val /\
    val == a * pos_x ident w cx (Z.of_nat (edge n bd)) (Z.of_nat x) (Z.of_nat y)
         + b * pos_y ident w cy (Z.of_nat (edge n bd)) (Z.of_nat x) (Z.of_nat y) + c.
Proof.
  intros Ev H Hx Hy R. destruct (extract_at_edge _ _ _ _ _ _ _ _ _ _ Ev H Hx Hy) as (val&A&B). exists val. split; [exact A|].
  eapply at_pos_ramp; eauto.
Qed.
Lemma extract_inner_nth rnd n im ident w cx cy B : Nat.Even n ->
  extract rnd n im ident w cx cy true = Some B ->
  exists P, extract rnd n im ident w cx cy false = Some P /\ length P = (n * n)%nat /\ inner_patch n B = P /\
  forall x y, (x < n)%nat -> (y < n)%nat -> nth_error P (y * n + x) = nth_error B ((y + 1) * (n + 2) + (x + 1)).
Proof.
  intros Ev H. pose proof (extract_length _ _ _ _ _ _ _ _ _ Ev H) as LB. cbn [edge] in LB.
  exists (inner_patch n B). split; [apply extract_inner; auto|]. split; [apply inner_length; auto|]. split; [reflexivity|].
  intros. apply inner_nth; auto.
Qed.
Lemma Forall2_nth {A B} (R : A -> B -> Prop) l m : length l = length m ->
  (forall i a b, nth_error l i = Some a -> nth_error m i = Some b -> R a b) -> Forall2 R l m.
Proof.
  revert m. induction l as [|a l IH]; intros [|b m] L H; cbn in L; try discriminate; constructor.
  - apply (H 0%nat); reflexivity.
  - apply IH; [lia|]. intros i. apply (H (S i)).
Qed.
Lemma extract_identity n im w cx cy b l l' : Nat.Even n ->
  extract exact n im true w cx cy b = Some l ->
  extract exact n im false {| w00 := 1; w01 := 0; w10 := 0; w11 := 1 |} cx cy b = Some l' ->
  Forall2 Qeq l l'.
Proof.
  intros Ev H H'. pose proof (extract_length _ _ _ _ _ _ _ _ _ Ev H) as L. pose proof (extract_length _ _ _ _ _ _ _ _ _ Ev H') as L'.
  apply Forall2_nth; [congruence|]. intros i p q Hp Hq.
  assert (I : (i < edge n b * edge n b)%nat) by (rewrite <- L; apply nth_error_Some; congruence).
  assert (N : (edge n b <> 0)%nat) by (intros E; rewrite E in I; lia).
  set (k := edge n b) in *.
  assert (X : (i mod k < k)%nat) by (apply Nat.mod_upper_bound; auto).
  assert (Y : (i / k < k)%nat) by (apply Nat.div_lt_upper_bound; auto).
  assert (D : (i / k * k + i mod k)%nat = i) by (rewrite (Nat.div_mod i k) at 3 by auto; lia).
  destruct (extract_at_edge _ _ _ _ _ _ _ _ _ _ Ev H X Y) as (v1&A1&_&_&_&_&E1).
  destruct (extract_at_edge _ _ _ _ _ _ _ _ _ _ Ev H' X Y) as (v2&A2&_&_&_&_&E2).
  fold k in A1, A2, E1, E2. rewrite D in A1, A2. assert (v1 = p) by congruence. assert (v2 = q) by congruence. subst.
  rewrite E1, E2. unfold pos_x, pos_y, eff. cbn [w00 w01 w10 w11]. reflexivity.
Qed.
