(** C90: corner detection within the valid radius. *)
From Coq Require Import List ZArith QArith Qround Qabs Bool Lia Lqa.
From Verif Require Import PatchModel PyrModel PyrSpec PyrProofs DetSpec DetProofs.
Import ListNotations.
Local Open Scope Q_scope.

(** The candidates are exactly the keypoints inside the circle around the middle of the level image, in
    the order of the detector; each candidate transformed back to the level is its keypoint. *)
Theorem C90_keypoints_in_circle : forall py l r kps, exists ks,
  sub ks kps /\ (forall k, In k kps -> within (py_img py l) r k <-> In k ks) /\
  Forall2 (fun p k => peq (level_c (py_ct py) p 0 l) k) (detect py l r kps) ks.
Proof. exact detect_kept. Qed.
(** in a pyramid whose lower levels have even size a candidate is the position in the full image of its
    keypoint on the level *)
Theorem C90_position_in_full_image : forall py w h l r kps,
  (forall i, py_ct py i = centers true w h i) -> even_below w l -> even_below h l ->
  exists ks, sub ks kps /\ (forall k, In k kps -> within (py_img py l) r k <-> In k ks) /\
  Forall2 (fun p k => peq (pyrdown_at l p) k) (detect py l r kps) ks.
Proof.
  intros py w h l r kps Ct Ew Eh. destruct (detect_kept py l r kps) as [ks [A [B F]]]. exists ks. split; [exact A|]. split; [exact B|].
  refine (forall2_impl _ _ _ _ _ F). intros p k H. eapply peq_trans; [|exact H]. 
  assert (E : level_c (py_ct py) p 0 l = level_c (centers true w h) p 0 l) by (unfold level_c; rewrite !Ct; reflexivity).
  rewrite E. apply peq_sym, pyrdown_even; assumption.
Qed.
(** a larger radius only adds candidates *)
Theorem C90_radius_monotone : forall py l r r' kps p, 0 <= r -> r <= r' ->
  (0 <= cols (py_img py l))%Z -> (0 <= rows (py_img py l))%Z -> In p (detect py l r kps) -> In p (detect py l r' kps).
Proof.
  intros py l r r' kps p R RR C W H. unfold detect in *. apply in_map_iff in H as [k [E K]]. apply in_map_iff. exists k. split; [exact E|].
  apply filter_In in K as [K1 K2]. apply filter_In. split; [exact K1|]. apply keep_within. apply keep_within in K2.
  exact (within_mono _ _ _ _ R RR C W K2).
Qed.
(** the radius restricts nothing in the image iff it covers half the image diagonal *)
Theorem C90_no_restriction_iff : forall im r, (0 <= cols im)%Z -> (0 <= rows im)%Z ->
  (forall k, inside im 0 k -> within im r k) <->
  exists s, is_shorter_side im s /\ inject_Z (cols im * cols im + rows im * rows im) <= (2 * r * inject_Z s) ^ 2.
Proof. exact within_everything. Qed.
(** radius one half: nothing outside the circle that touches the two longer sides; a radius r below one
    half keeps a margin of (1/2 - r) shorter sides to every border *)
Theorem C90_margin : forall im r k s, 0 <= r -> r <= 1 # 2 -> (0 <= cols im)%Z -> (0 <= rows im)%Z ->
  is_shorter_side im s -> within im r k -> inside im (((1 # 2) - r) * inject_Z s) k.
Proof.
  intros im r k s R R2 C W S. apply shorter_min in S. subst s. apply within_inner; auto. lra.
Qed.
(** keypoints at least one pixel inside their level (the detector needs three) give candidates at least
    one pixel inside the full image *)
Theorem C90_candidates_in_image : forall usecv py l r kps, built usecv py ->
  (forall k, In k kps -> inside (py_img py l) 1 k) -> forall p, In p (detect py l r kps) -> inside (py_img py 0) 1 p.
Proof. exact detect_inside. Qed.
(** a keypoint on the very border of a level would become a candidate outside the full image *)
Theorem C90_border_keypoint_refuted : exists py k p, built true py /\
  inside (py_img py 1) 0 k /\ In p (detect py 1 2 [k]) /\ ~ inside (py_img py 0) 0 p.
Proof.
  exists {| py_img := fun l => {| cols := size_at 8 l; rows := size_at 8 l; pix := fun _ _ => 0 |}; py_ct := centers true 8 8 |}, (0, 0), (-1 # 2, -1 # 2).
  split; [|split; [|split]].
  - exists 8%Z, 8%Z. repeat split; try lia; reflexivity.
  - vm_compute. repeat split; discriminate.
  - left. reflexivity.
  - unfold inside. vm_compute. intros [[A _] _]. apply A. reflexivity.
Qed.

Definition det_py : pyramid :=
  {| py_img := fun l => {| cols := size_at 752 l; rows := size_at 480 l; pix := fun _ _ => 0 |}; py_ct := centers true 752 480 |}.
Example C90_ex_built : built true det_py.
Proof. exists 752%Z, 480%Z. split; [lia|]. split; [lia|]. split; intros; [split|]; reflexivity. Qed.
(** level 1 is 376 x 240; the second keypoint is 139 pixels from the middle, outside the radius 120 *)
Example C90_ex_detect : detect det_py 1 (1 # 2) [(190, 10); (50, 130); (188, 120)] = [(759 # 2, 39 # 2); (751 # 2, 479 # 2)].
Proof. vm_compute. reflexivity. Qed.
Example C90_ex_within : within (py_img det_py 1) (1 # 2) (190, 10) /\ ~ within (py_img det_py 1) (1 # 2) (50, 130).
Proof.
  split; rewrite <- keep_within; [vm_compute; reflexivity|]. intros H. vm_compute in H. discriminate.
Qed.
Example C90_ex_inside : forall k, In k [(190, 10); (50, 130); (188, 120)] -> inside (py_img det_py 1) 1 k.
Proof. intros k [<-|[<-|[<-|[]]]]; vm_compute; repeat split; discriminate. Qed.
Example C90_ex_all : exists s, is_shorter_side (py_img det_py 1) s /\
  inject_Z (cols (py_img det_py 1) * cols (py_img det_py 1) + rows (py_img det_py 1) * rows (py_img det_py 1)) <= (2 * 1 * inject_Z s) ^ 2.
Proof. exists 240%Z. split; [right; split; vm_compute; [reflexivity|discriminate]|vm_compute; discriminate]. Qed.

Print Assumptions C90_keypoints_in_circle.
Print Assumptions C90_position_in_full_image.
Print Assumptions C90_radius_monotone.
Print Assumptions C90_no_restriction_iff.
Print Assumptions C90_margin.
Print Assumptions C90_candidates_in_image.
Print Assumptions C90_border_keypoint_refuted.
