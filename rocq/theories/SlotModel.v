(** Model of the filter as a whole with a covariance: which feature slots are in use, what the prediction
    and the measurement updates hand to the Kalman filter, and what freeing and filling a slot do.
    The Kalman formulas themselves are those of the absent lightweight_filtering submodule (P <- F P F^T +
    G Q G^T; K = P H^T S^-1, x <- x boxplus -K (y - H d), P <- P - K S K^T), relinearised a given number of
    times. Arithmetic is exact. *)
From Coq Require Import Reals ZArith List Bool Arith.
From Verif Require Import Geo Lie DistModel FiltModel OutModel CamModel InnoModel UpdModel CovModel BornModel.
Import ListNotations.
Local Open Scope R_scope.

(** the covariance cov_, by 3x3 blocks *)
Definition bmat := seg -> seg -> M3.
Definition msum (l : list seg) (f : seg -> M3) : M3 := fold_right (fun s acc => madd (f s) acc) mzero l.
Definition vsum (l : list seg) (f : seg -> V3) : V3 := fold_right (fun s acc => vadd (f s) acc) v0 l.
Definition rsum (l : list seg) (f : seg -> R) : R := fold_right (fun s acc => f s + acc) 0 l.
(** J P J^T *)
Definition cong (n : dims) (J : jac) (P : bmat) : bmat := fun s t =>
  msum (segs n) (fun a => msum (segs n) (fun b => mm (mm (J s a) (P a b)) (mt (J t b)))).
(** prediction of the covariance from jacPreviousState and jacNoise (ImuPrediction.hpp 161-284) *)
Definition predict_cov (n : dims) (F G : jac) (P Q : bmat) : bmat := fun s t => madd (cong n F P s t) (cong n G Q s t).

(** one row of a measurement Jacobian *)
Definition row := seg -> V3.
(** P h^T *)
Definition PHt (n : dims) (P : bmat) (h : row) : seg -> V3 := fun s => vsum (segs n) (fun t => mv (P s t) (h t)).
(** S = H P H^T + R *)
Definition inn_cov (n : dims) (P : bmat) (H : list row) (Rn : list (list R)) : list (list R) :=
  map (fun hr => map (fun gr => rsum (segs n) (fun s => dot (fst hr s) (PHt n P (fst gr) s)) + snd gr) (combine H (snd hr))) (combine H Rn).
Definition entry (A : list (list R)) (i j : nat) : R := nth j (nth i A []) 0.
Definition isum (k : nat) (f : nat -> V3) : V3 := fold_right (fun i acc => vadd (f i) acc) v0 (seq 0 k).
Definition irsum (k : nat) (f : nat -> R) : R := fold_right (fun i acc => f i + acc) 0 (seq 0 k).
Definition imsum (k : nat) (f : nat -> M3) : M3 := fold_right (fun i acc => madd (f i) acc) mzero (seq 0 k).
Definition zrow : row := fun _ => v0.
(** K z with K = P H^T W *)
Definition gain_mul (n : dims) (P : bmat) (H : list row) (W : list (list R)) (z : list R) : tangent := fun s =>
  isum (length H) (fun i => vscale (irsum (length z) (fun j => entry W i j * nth j z 0)) (PHt n P (nth i H zrow) s)).
(** P - K S K^T, K S K^T = P H^T W H P *)
Definition update_cov (n : dims) (P : bmat) (H : list row) (W : list (list R)) : bmat := fun s t =>
  madd (P s t) (mneg (imsum (length H) (fun i => imsum (length H) (fun j =>
    mscale (entry W i j) (outer (PHt n P (nth i H zrow) s) (PHt n P (nth j H zrow) t)))))).
(** H d *)
Definition hmul (n : dims) (H : list row) (d : tangent) : list R := map (fun h => rsum (segs n) (fun s => dot (h s) (d s))) H.

(** a linearised measurement: innovation and Jacobian *)
Definition lin := (list R * list row)%type.
(** [k] further linearisations after the first one; [W] of the last one *)
Fixpoint iterate (n : dims) (inv : list (list R) -> list (list R)) (Rn : list (list R)) (P : bmat) (f : state -> option lin) (x : state)
  (k : nat) (d : tangent) : option (tangent * bmat) :=
  match f (boxplus x d) with
  | None => None
  | Some (y, H) =>
      let W := inv (inn_cov n P H Rn) in
      let d' := gain_mul n P H W (map (fun p => snd p - fst p) (combine y (hmul n H d))) in
      match k with
      | O => Some (d', update_cov n P H W)
      | S k' => iterate n inv Rn P f x k' d'
      end
  end.

(** ** what the updates hand over *)
(** the measurements: pixel position or patch intensities of feature [i] in camera [k] (ImgUpdate.hpp
    406-440, 545-583), external pose (PoseUpdate.hpp 227-277), velocity, zero velocity *)
Inductive meas :=
| MPix (i k : nat) (dold : fdist) (c : vec2)
| MDirect (i k : nat) (dold : fdist) (eqs : equations)
| MPose (c : pcfg) (m : pmeas)
| MVel (qAM : M3) (v : V3)
| MZero.
Definition vlist (v : V3) : list R := [vx v; vy v; vz v].
Definition mrows (J : seg -> M3) : list row := [fun s => r0 (J s); fun s => r1 (J s); fun s => r2 (J s)].
Definition rows2 (J : seg -> block2) : list row := [fun s => fst (J s); fun s => snd (J s)].
(** [frame]: see OutModel.transfer; [logm]: the rotation vector of a rotation (kindr); [ign]:
    ignoreDistanceOutput_ *)
Definition linearise (cams : nat -> camera) (frame : V3 -> M3) (logm : M3 -> V3) (ign : bool) (u : pupd) (ms : meas) (x : state) : option lin :=
  match ms with
  | MPix i k dold c =>
      match innovation_pix cams frame dold k i c (0, 0) x, jac_pix cams frame dold ign k i x with
      | Some y, Some J => Some ([fst y; snd y], rows2 J)
      | _, _ => None
      end
  | MDirect i k dold eqs =>
      match innovation_direct cams frame dold eqs k i (0, 0) x, jac_direct cams frame dold eqs ign k i x with
      | (y, false), (J, false) => Some ([fst y; snd y], rows2 J)
      | _, _ => None
      end
  | MPose c m => Some (vlist (innov_pos c u m x v0) ++ vlist (logm (innov_att c u m x v0)), mrows (jac_pos c u x) ++ mrows (jac_att c u x))
  | MVel q v => Some (vlist (innov_vel q v x v0), mrows (jac_vel q))
  | MZero => Some (vlist (innov_zero x v0), mrows jac_zero)
  end.

(** ** the filter *)
(** state_, cov_, fsm_.isValid_, members of the pose update *)
Record kf := { k_x : state; k_P : bmat; k_used : nat -> bool; k_u : pupd }.

(** resetFeatureCovariance, FilterStates.hpp 605-614, by blocks (C34 relates the entries) *)
Definition reset_slot (i : nat) (B : M3) (P : bmat) : bmat := fun s t =>
  match s, t with
  | Fea a, Fea b => if (a =? i)%nat then (if (b =? i)%nat then B else mzero) else if (b =? i)%nat then mzero else P s t
  | Fea a, _ => if (a =? i)%nat then mzero else P s t
  | _, Fea b => if (b =? i)%nat then mzero else P s t
  | _, _ => P s t
  end.
Definition set_fea (x : state) (i : nat) (f : feat) : state :=
  {| x_pos := x_pos x; x_vel := x_vel x; x_acb := x_acb x; x_gyb := x_gyb x; x_att := x_att x; x_vep := x_vep x; x_vea := x_vea x;
     x_fea := fun j => if (j =? i)%nat then f else x_fea x j; x_pop := x_pop x; x_poa := x_poa x; x_aux := x_aux x |}.

(** set_warp_identity of the feature's coordinates, ImgUpdate.hpp 917 *)
Definition upright (f : feat) : feat := {| ft_cam := ft_cam f; ft_Q := ft_Q f; ft_d := ft_d f; ft_track := ft_track f; ft_warp := ((1, 0), (0, 1)) |}.
(** timeSinceLastImageMotion_ = 0, ImgUpdate.hpp 626-628 *)
Definition motion_seen (x : state) : state :=
  {| x_pos := x_pos x; x_vel := x_vel x; x_acb := x_acb x; x_gyb := x_gyb x; x_att := x_att x; x_vep := x_vep x; x_vea := x_vea x;
     x_fea := x_fea x; x_pop := x_pop x; x_poa := x_poa x;
     x_aux := let a := x_aux x in {| a_wmeas := a_wmeas a; a_west := a_west a; a_wcov := a_wcov a; a_calib := a_calib a; a_qCM := a_qCM a;
                                     a_MrMC := a_MrMC a; a_timerI := a_timerI a; a_timerV := 0 |} |}.

(** what getMedianDepthParameters reads of slot [i] for camera [k], FilterStates.hpp 630-640; [front] is
    isInFront() of the transferred coordinates. A transfer without finite result is never confident. *)
Definition seen_in (n : dims) (frame : V3 -> M3) (front : feat -> bool) (dold : fdist) (k : nat) (x : state) (P : bmat) (i : nat) : seen :=
  match transfer frame k x i dold with
  | Some g =>
      let J s := r2 (transfer_jac frame false k x i s) in
      {| s_front := front g;
         s_unc := Rabs (sqrt (rsum (segs n) (fun s => rsum (segs n) (fun t => dot (J s) (mv (P s t) (J t))))) * distance_derivative (ft_d g));
         s_depth := get_distance (ft_d g); s_par := fd_p (ft_d g) |}
  | None => {| s_front := false; s_unc := 0; s_depth := 0; s_par := 0 |}
  end.
Definition median_of (n : dims) (frame : V3 -> M3) (front : feat -> bool) (nth_elt : list R -> nat -> list R) (dold : fdist) (init ratio : R)
  (k : nat) (F : kf) : R :=
  median nth_elt init ratio (map (fun i => (k_used F i, seen_in n frame front dold k (k_x F) (k_P F) i)) (seq 0 (d_max n))).

(** parameters of the feature initialisation *)
Record icfg := { c_b : bcfg; c_init : R; c_ratio : R; c_dold : fdist }.
(** the 3x3 block that init_feature leaves at the slot *)
Definition block_of (c : mat) : M3 :=
  ((c 0 0, c 0 1, c 0 2), (c 1 0, c 1 1, c 1 2), (c 2 0, c 2 1, c 2 2))%nat.

(** A feature to be added: free slot, camera, bearing frame, parametrisation, and the bearing of the accepted
    alignment in the other camera (stereo initialisation). *)
Record newf := { w_slot : nat; w_cam : nat; w_Q : M3; w_type : dtype; w_seen : option V3 }.
(** The steps of a run: IMU prediction with the noise covariance [Q]; measurement with noise [Rn] and [k]
    relinearisations; removal of a feature; addition of features after an image; replacement of the patch of
    a feature; motion seen in an image. *)
Inductive kop :=
| KPredict (m : imu) (dt : R) (Q : bmat)
| KMeas (ms : meas) (Rn : list (list R)) (k : nat)
| KFree (i : nat)
| KUse (l : list newf)
| KWarp (i : nat)
| KMotion.

Section Filter.
Variables (n : dims) (P : params) (cams : nat -> camera) (frame : V3 -> M3) (logm : M3 -> V3) (inv : list (list R) -> list (list R))
  (front : feat -> bool) (nth_elt : list R -> nat -> list R) (ign track : bool) (ic : icfg).

(** the feature of a measurement must be in use: ImgUpdate.hpp 660, 805 *)
Definition concerns (F : kf) (ms : meas) : bool :=
  match ms with MPix i _ _ _ | MDirect i _ _ _ => k_used F i | _ => true end.
(** PoseUpdate::preProcess aligns the frames with the first pose (lines 286-298) *)
Definition before (F : kf) (ms : meas) : pupd * state :=
  match ms with MPose c m => pre_process c (k_u F) m (k_x F) | _ => (k_u F, k_x F) end.

(** medianDepthParameters, ImgUpdate.hpp 976-981 *)
Definition depths (F : kf) (cam : nat) : R :=
  if Rlt_dec 0 (c_ratio ic) then median_of n frame front nth_elt (c_dold ic) (c_init ic) (c_ratio ic) cam F else c_init ic.
(** FeatureManager.hpp 358-364, ImgUpdate.hpp 997-1048, with the parameters [p] per camera. [None]: the new
    distance is not a number *)
Definition use_slot (p : nat -> R) (F : kf) (w : newf) : option kf :=
  let i := w_slot w in
  if k_used F i then Some F
  else
    let '(d, c) := init_feature (c_b ic) (k_x F) 3 0 (w_cam w) (w_type w) (p (w_cam w)) (nor (w_Q w)) (w_seen w) (fun _ _ => 0) in
    match d with
    | Some d' =>
        Some {| k_x := set_fea (k_x F) i {| ft_cam := Z.of_nat (w_cam w); ft_Q := w_Q w; ft_d := d'; ft_track := track; ft_warp := ((1, 0), (0, 1)) |};
                k_P := reset_slot i (block_of c) (k_P F);
                k_used := fun j => if (j =? i)%nat then true else k_used F j; k_u := k_u F |}
    | None => None
    end.

Definition kstep (F : kf) (o : kop) : option kf :=
  match o with
  | KPredict m dt Q =>
      let x := k_x F in
      Some {| k_x := predict n P m true no_noise dt x;
              k_P := predict_cov n (jac_state n P m x dt) (FiltModel.jac_noise n P m x dt) (k_P F) Q;
              k_used := k_used F; k_u := k_u F |}
  | KMeas ms Rn k =>
      if concerns F ms then
        let (u, x) := before F ms in
        match iterate n inv Rn (k_P F) (linearise cams frame logm ign u ms) x k (fun _ => v0) with
        | Some (d, P') => Some {| k_x := boxplus x d; k_P := P'; k_used := k_used F; k_u := u |}
        | None => Some {| k_x := x; k_P := k_P F; k_used := k_used F; k_u := u |}
        end
      else Some F
  (* ImgUpdate.hpp 797-799, 945-947, 960-962 *)
  | KFree i =>
      if k_used F i then
        Some {| k_x := k_x F; k_P := reset_slot i m1 (k_P F); k_used := fun j => if (j =? i)%nat then false else k_used F j; k_u := k_u F |}
      else Some F
  (* ImgUpdate.hpp 974-1048: the parameters are computed before the first addition *)
  | KUse l => fold_left (fun o w => match o with Some G => use_slot (depths F) G w | None => None end) l (Some F)
  (* ImgUpdate.hpp 908-920 *)
  | KWarp i =>
      if k_used F i then Some {| k_x := set_fea (k_x F) i (upright (x_fea (k_x F) i)); k_P := k_P F; k_used := k_used F; k_u := k_u F |}
      else Some F
  | KMotion => Some {| k_x := motion_seen (k_x F); k_P := k_P F; k_used := k_used F; k_u := k_u F |}
  end.
Definition krun (F : kf) (l : list kop) : option kf :=
  fold_left (fun o s => match o with Some G => kstep G s | None => None end) l (Some F).
End Filter.
