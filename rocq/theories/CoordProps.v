(** C14 and C15: coordinate and warp caches of a feature. *)
From Coq Require Import List Bool ZArith Lia.
From Verif Require Import CoordModel CoordSpec CoordProofs.
Import ListNotations.

(** Once a camera is attached no sequence of operations runs into the null-camera assertion. *)
Theorem C14_no_assertion_failure :
  forall (Pix Bea Mat : Type) (mI m0 : Mat) mul minv (os : list (op Pix Bea Mat)) s k,
  cam_ s = Some k -> exists s', run mI m0 mul minv s os = Some s'.
Proof. intros. eapply run_total; eauto. Qed.

(** With mutually inverse camera maps, the pixel and the bearing read (in either order) after any
    history denote the same direction. *)
Theorem C14_views_agree :
  forall (Pix Bea Mat : Type) (mI m0 : Mat) mul minv (k : camera Pix Bea Mat) os tr p0 n0 w0 s s1 s2,
  inverse_camera k ->
  forallb (fun o => negb (changes_camera o)) os = true ->
  run mI m0 mul minv (fresh mI k tr p0 n0 w0) os = Some s ->
  (com_c s = Some (s1, true) /\ com_nor s1 = Some (s2, true)) \/
  (com_nor s = Some (s1, true) /\ com_c s1 = Some (s2, true)) ->
  to_pixel k (nor_ s2) = Some (c_ s2) /\ to_bearing k (c_ s2) = (true, nor_ s2).
Proof. exact @views_agree. Qed.

(** For an arbitrary (for example numerically inverted) camera, one of the two views is always the
    image of the other under the camera maps. *)
Theorem C14_views_agree_any_camera :
  forall (Pix Bea Mat : Type) (mI m0 : Mat) mul minv (k : camera Pix Bea Mat) os tr p0 n0 w0 s s1 s2,
  forallb (fun o => negb (changes_camera o)) os = true ->
  run mI m0 mul minv (fresh mI k tr p0 n0 w0) os = Some s ->
  com_c s = Some (s1, true) -> com_nor s1 = Some (s2, true) ->
  to_pixel k (nor_ s2) = Some (c_ s2) \/ to_bearing k (c_ s2) = (true, nor_ s2).
Proof. exact @views_agree_any. Qed.

(** The pixel last set is returned unchanged after any operations other than coordinate setters and
    Jacobian evaluations ... *)
Theorem C14_pixel_read_back :
  forall (Pix Bea Mat : Type) (mI m0 : Mat) mul minv (p : Pix) r (os : list (op Pix Bea Mat)) s s',
  forallb (fun o => negb (changes_coordinate o || uses_jacobian o)) os = true ->
  run mI m0 mul minv (set_c p r s) os = Some s' -> com_c s' = Some (s', true) /\ c_ s' = p.
Proof. exact @pixel_read_back. Qed.

(** ... and also after Jacobian evaluations when the camera maps are mutually inverse and the pixel
    can be back-projected. *)
Theorem C14_pixel_read_back_inverse :
  forall (Pix Bea Mat : Type) (mI m0 : Mat) mul minv (k : camera Pix Bea Mat) p r os s s',
  inverse_camera k -> fst (to_bearing k p) = true -> cam_ s = Some k ->
  forallb (fun o => negb (changes_coordinate o || changes_camera o)) os = true ->
  run mI m0 mul minv (set_c p r s) os = Some s' -> com_c s' = Some (s', true) /\ c_ s' = p.
Proof. exact @pixel_read_back_inverse. Qed.

(** The bearing last set is returned unchanged after any operations other than coordinate setters. *)
Theorem C14_bearing_read_back :
  forall (Pix Bea Mat : Type) (mI m0 : Mat) mul minv n r (os : list (op Pix Bea Mat)) s s',
  forallb (fun o => negb (changes_coordinate o)) os = true ->
  run mI m0 mul minv (set_nor n r s) os = Some s' -> com_nor s' = Some (s', true) /\ nor_ s' = n.
Proof. exact @bearing_read_back. Qed.

(** Toy cameras on integers: bearings are integers (in front iff positive), matrices are integers. *)
Definition zcam : camera Z Z Z :=
  {| to_pixel := fun n => if (0 <? n)%Z then Some (3 * n)%Z else None;
     to_bearing := fun p => ((0 <? p)%Z && (p mod 3 =? 0)%Z, (p / 3)%Z);
     jac := fun n => if Z.even n then 1%Z else (-1)%Z |}.
Definition zcam2 : camera Z Z Z :=
  {| to_pixel := fun n => if (0 <? n)%Z then Some (5 * n)%Z else None;
     to_bearing := fun p => ((0 <? p)%Z && (p mod 5 =? 0)%Z, (p / 5)%Z);
     jac := fun n => 1%Z |}.
(** a camera whose back-projection is only approximate *)
Definition rough : camera Z Z Z :=
  {| to_pixel := fun n => if (0 <? n)%Z then Some (3 * n)%Z else None;
     to_bearing := fun p => (true, (p / 3)%Z);
     jac := fun n => 1%Z |}.
Definition zinv (z : Z) : option Z := if (Z.abs z =? 1)%Z then Some z else None.
Notation zrun := (run 1%Z 0%Z Z.mul zinv).

Example zcam_inverse : inverse_camera zcam.
Proof.
  split; unfold zcam; cbn [to_pixel to_bearing]; intros a b H.
  - destruct (Z.ltb_spec 0 a); [|discriminate]. assert (b = 3 * a)%Z by congruence. subst b.
    replace (3 * a)%Z with (a * 3)%Z by lia. rewrite Z.mod_mul, Z.div_mul by lia.
    destruct (Z.ltb_spec 0 (a * 3)%Z); [reflexivity|lia].
  - injection H as H1 <-. apply andb_true_iff in H1 as [H1 H2]. apply Z.eqb_eq in H2. apply Z.ltb_lt in H1.
    pose proof (Z.div_mod a 3 ltac:(lia)). destruct (Z.ltb_spec 0 (a / 3)%Z); [f_equal; lia|lia].
Qed.
Example zinv_right : right_inverse Z.mul zinv.
Proof.
  intros J Ji w H. unfold zinv in H. destruct (Z.eqb_spec (Z.abs J) 1); [|discriminate]. injection H as <-.
  destruct (Z.abs_eq_or_opp J); assert (J = 1 \/ J = -1)%Z as [->| ->] by lia; destruct w; reflexivity.
Qed.
Example C14_ex :
  match zrun (fresh 1%Z zcam true 7%Z 7%Z 7%Z) [OSetC 9%Z true; OGetNor; OGetJ; OSetWarpC 5%Z; OGetWarpNor; OSetNor 4%Z true; OGetC] with
  | Some s => match com_c s with
              | Some (s1, b) => (b, c_ s1, nor_ s1, valid_nor s1)
              | None => (false, 0%Z, 0%Z, false) end
  | None => (false, 0%Z, 0%Z, false)
  end = (true, 12%Z, 4%Z, true).
Proof. reflexivity. Qed.

(** Evaluating the Jacobian may overwrite the stored pixel when back-projection is approximate. *)
Theorem C14_jacobian_overwrites_pixel_refuted :
  exists (k : camera Z Z Z) p s s', cam_ s = Some k /\
  zrun (set_c p true s) [OGetJ] = Some s' /\ com_c s' = Some (s', true) /\ c_ s' <> p.
Proof.
  exists rough, 10%Z, (fresh 1%Z rough true 0%Z 0%Z 0%Z). eexists.
  split; [reflexivity|]. split; [reflexivity|]. split; [reflexivity|]. discriminate.
Qed.

(** Even with inverse maps: a pixel that cannot be back-projected is overwritten by the projection
    of the bearing left behind by the failed solver. *)
Theorem C14_jacobian_on_failed_backprojection_refuted :
  exists (k : camera Z Z Z) p s s', inverse_camera k /\ cam_ s = Some k /\
  zrun (set_c p true s) [OGetJ] = Some s' /\ com_c s' = Some (s', true) /\ c_ s' <> p.
Proof.
  exists zcam, 10%Z, (fresh 1%Z zcam true 0%Z 0%Z 0%Z). eexists. split; [apply zcam_inverse|].
  split; [reflexivity|]. split; [reflexivity|]. split; [reflexivity|]. discriminate.
Qed.

(** Re-assigning the camera pointer of an object holding both views leaves them inconsistent. *)
Theorem C14_camera_change_refuted :
  exists (k k2 : camera Z Z Z) s s1 s2, inverse_camera k /\
  zrun (fresh 1%Z k true 0%Z 0%Z 0%Z) [OSetC 9%Z true; OGetNor; OCam k2] = Some s /\
  com_c s = Some (s1, true) /\ com_nor s1 = Some (s2, true) /\ to_pixel k2 (nor_ s2) <> Some (c_ s2).
Proof.
  exists zcam, zcam2. do 3 eexists. split; [apply zcam_inverse|].
  split; [reflexivity|]. split; [reflexivity|]. split; [reflexivity|]. cbn. discriminate.
Qed.

(** ** C15 *)
(** While every coordinate change discards the warp, the two stored warps are related by the
    projection Jacobian at the current bearing. *)
Theorem C15_warps_related :
  forall (Pix Bea Mat : Type) (mI m0 : Mat) mul minv (k : camera Pix Bea Mat) os p0 n0 w0 s s1 s2,
  inverse_camera k -> right_inverse mul minv ->
  forallb (fun o => negb (changes_camera o || keeps_warp o)) os = true ->
  run mI m0 mul minv (fresh mI k true p0 n0 w0) os = Some s ->
  com_warp_c m0 mul s = Some (s1, true) -> com_warp_nor m0 mul minv s1 = Some (s2, true) ->
  com_nor s2 = Some (s2, true) /\ to_pixel k (nor_ s2) <> None /\
  warp_c s2 = mul (jac k (nor_ s2)) (warp_nor s2).
Proof. exact @warps_related. Qed.

(** Asking for a warp succeeds exactly when one was provided since the last coordinate change,
    as soon as the coordinate itself is available in both views and the Jacobian is regular ... *)
Theorem C15_warp_available :
  forall (Pix Bea Mat : Type) (mI m0 : Mat) mul minv (k : camera Pix Bea Mat) os p0 n0 w0 s s1 s2 J sj,
  forallb (fun o => negb (keeps_warp o)) os = true ->
  run mI m0 mul minv (fresh mI k true p0 n0 w0) os = Some s ->
  com_c s = Some (s1, true) -> com_nor s1 = Some (s2, true) -> get_J m0 s2 = Some (sj, J) -> minv J <> None ->
  (exists sc b, com_warp_c m0 mul s = Some (sc, b) /\ b = provided true os) /\
  (exists sn b, com_warp_nor m0 mul minv s = Some (sn, b) /\ b = provided true os).
Proof. exact @warp_available. Qed.

(** ... and never otherwise. *)
Theorem C15_warp_unavailable :
  forall (Pix Bea Mat : Type) (mI m0 : Mat) mul minv (k : camera Pix Bea Mat) os p0 n0 w0 s,
  forallb (fun o => negb (keeps_warp o)) os = true ->
  run mI m0 mul minv (fresh mI k true p0 n0 w0) os = Some s -> provided true os = false ->
  com_warp_c m0 mul s = Some (s, false) /\ com_warp_nor m0 mul minv s = Some (s, false).
Proof. exact @warp_unavailable. Qed.

(** The identity flag never contradicts a valid pixel warp. *)
Theorem C15_identity_flag_sound :
  forall (Pix Bea Mat : Type) (mI m0 : Mat) mul minv (os : list (op Pix Bea Mat)) p0 n0 w0 s,
  run mI m0 mul minv (mk_fc mI p0 n0 w0) os = Some s -> wid s = true -> valid_wc s = true -> warp_c s = mI.
Proof. exact @identity_flag_sound. Qed.

Example C15_ex :
  match zrun (fresh 1%Z zcam true 7%Z 7%Z 7%Z) [OSetC 9%Z true; OSetWarpC 5%Z; OGetWarpNor] with
  | Some s => (warp_c s, valid_wc s, warp_nor s, valid_wn s, jac zcam (nor_ s), provided (Pix:=Z) (Bea:=Z) true [OSetC 9%Z true; OSetWarpC 5%Z; OGetWarpNor])
  | None => (0%Z, false, 0%Z, false, 0%Z, false)
  end = (5%Z, true, (-5)%Z, true, (-1)%Z, true).
Proof. reflexivity. Qed.
Example C15_ex2 :
  match zrun (fresh 1%Z zcam true 7%Z 7%Z 7%Z) [OSetWarpC 5%Z; OSetC 9%Z true] with
  | Some s => option_map snd (com_warp_c 0%Z Z.mul s)
  | None => None
  end = Some false.
Proof. reflexivity. Qed.

(** Keeping the warp across a coordinate change breaks the relation ... *)
Theorem C15_kept_warp_refuted :
  exists (k : camera Z Z Z) s, inverse_camera k /\
  zrun (fresh 1%Z k true 0%Z 0%Z 0%Z) [OSetC 9%Z true; OSetWarpC 5%Z; OGetWarpNor; OSetC 6%Z false; OGetNor] = Some s /\
  com_warp_c 0%Z Z.mul s = Some (s, true) /\ com_warp_nor 0%Z Z.mul zinv s = Some (s, true) /\ com_nor s = Some (s, true) /\
  warp_c s <> (jac k (nor_ s) * warp_nor s)%Z.
Proof.
  exists zcam. destruct (zrun (fresh 1%Z zcam true 0%Z 0%Z 0%Z) [OSetC 9%Z true; OSetWarpC 5%Z; OGetWarpNor; OSetC 6%Z false; OGetNor]) as [s|] eqn:E; [|vm_compute in E; discriminate].
  exists s. split; [apply zcam_inverse|]. split; [reflexivity|]. vm_compute in E. injection E as <-.
  repeat (split; [vm_compute; reflexivity|]). vm_compute. discriminate.
Qed.
(** ... and so does changing the coordinate while warping is disabled. *)
Theorem C15_untracked_warp_refuted :
  exists (k : camera Z Z Z) s, inverse_camera k /\
  zrun (fresh 1%Z k false 0%Z 0%Z 0%Z) [OSetC 9%Z true; OSetWarpC 5%Z; OGetWarpNor; OSetC 6%Z true; OGetNor] = Some s /\
  com_warp_c 0%Z Z.mul s = Some (s, true) /\ com_warp_nor 0%Z Z.mul zinv s = Some (s, true) /\ com_nor s = Some (s, true) /\
  warp_c s <> (jac k (nor_ s) * warp_nor s)%Z.
Proof.
  exists zcam. destruct (zrun (fresh 1%Z zcam false 0%Z 0%Z 0%Z) [OSetC 9%Z true; OSetWarpC 5%Z; OGetWarpNor; OSetC 6%Z true; OGetNor]) as [s|] eqn:E; [|vm_compute in E; discriminate].
  exists s. split; [apply zcam_inverse|]. split; [reflexivity|]. vm_compute in E. injection E as <-.
  repeat (split; [vm_compute; reflexivity|]). vm_compute. discriminate.
Qed.
(** Discarding the warp leaves the identity flag on: the warp is reported to be the identity although
    none is available. *)
Theorem C15_stale_identity_flag_refuted :
  exists (k : camera Z Z Z) s, inverse_camera k /\
  zrun (fresh 1%Z k true 0%Z 0%Z 0%Z) [OSetC 9%Z true] = Some s /\
  near_identity 0%Z Z.mul (fun _ => false) s = Some (s, true) /\ com_warp_c 0%Z Z.mul s = Some (s, false).
Proof.
  exists zcam. eexists. split; [apply zcam_inverse|]. repeat (split; [reflexivity|]). reflexivity.
Qed.

Print Assumptions C14_views_agree.
Print Assumptions C14_pixel_read_back_inverse.
Print Assumptions C15_warps_related.
Print Assumptions C15_warp_available.
Print Assumptions C15_identity_flag_sound.

Print Assumptions C14_no_assertion_failure.
Print Assumptions C14_views_agree_any_camera.
Print Assumptions C14_pixel_read_back.
Print Assumptions C14_bearing_read_back.
Print Assumptions C14_jacobian_overwrites_pixel_refuted.
Print Assumptions C14_jacobian_on_failed_backprojection_refuted.
Print Assumptions C14_camera_change_refuted.
Print Assumptions C15_warp_unavailable.
Print Assumptions C15_kept_warp_refuted.
Print Assumptions C15_untracked_warp_refuted.
Print Assumptions C15_stale_identity_flag_refuted.
