(** The image update of ImgModel.v carried out on the filter of SlotModel.v, and the filter as a whole: IMU
    samples, images, external poses and velocities in any order.

    What images look like enters through the functions of [sight], which are arbitrary and may depend on the
    whole filter and on everything not modelled here ([H]: images, patches in other coordinates, camera
    models, counters). include/rovio/ImgUpdate.hpp 584-1082. *)
From Coq Require Import Reals List ZArith QArith Bool Arith.
From Verif Require Import Util Geo Lie DistModel FiltModel OutModel CamModel InnoModel UpdModel CovModel BornModel SlotModel.
From Verif Require Import StatModel FsetModel ImgModel.
Import ListNotations.
Local Open Scope R_scope.

(** Which event of the image update changes the rest *)
Inductive hop := HBegin | HUpdate (i c : nat) | HDrop (i : nat) | HPatched (i : nat) | HNew (i c : nat) | HEnd.

(** isZeroVelocityUpdateEnabled_, doVisualMotionDetection_, minTimeForZeroVelocityUpdate_, noise of the zero
    velocity update *)
Record zcfg := { z_on : bool; z_detect : bool; z_time : R; z_noise : list (list R) }.

Section Link.
Context {Patch H : Type}.

(** [w_F]: state, covariance and slots of the filter, [None] when a distance is not a number; [w_med]:
    medianDepthParameters once computed in this image (lines 976-981); [w_h]: everything else *)
Record world := { w_F : option kf; w_med : option (nat -> R); w_h : H }.

(** What an image shows *)
Record sight := {
  s_moving : kf -> H -> bool;                           (* the test of line 625, and imageCounter_ > 1 *)
  s_pre : kf -> H -> nat -> nat -> pre_result;          (* lines 690-755: slot, camera *)
  (* lines 715-745: pixel or intensity measurement of a slot in a camera, its noise and the number of further
     linearisations; None: rejected as an outlier. The distance is what the output object held before *)
  s_meas : kf -> H -> nat -> nat -> option (fdist * (vec2 + equations) * list (list R) * nat);
  s_tracked : kf -> H -> nat -> nat -> bool;            (* lines 826-827 *)
  s_patch : kf -> H -> nat -> option Patch;             (* lines 908-914 *)
  s_cands : kf -> H -> nat -> list (cand Patch);        (* line 984, candidates_ of the camera *)
  s_proj : kf -> H -> nat -> feature Patch -> option (Q * Q);
  s_choose : kf -> H -> nat -> nat -> nat -> nat;
  s_new : kf -> H -> nat -> nat -> M3 * dtype * option V3; (* bearing frame, parametrisation and the bearing of the stereo match of a new feature, lines 996-1033 *)
  s_hidden : hop -> kf -> H -> H }.

Variables (n : dims) (P : FiltModel.params) (cams : nat -> camera) (frame : V3 -> M3) (logm : M3 -> V3) (inv : list (list R) -> list (list R))
  (front : feat -> bool) (nth_elt : list R -> nat -> list R) (ign track : bool) (ic : icfg) (zc : zcfg).
Let step := kstep n P cams frame logm inv front nth_elt ign track ic.

Definition meas_of (i c : nat) (m : fdist * (vec2 + equations)) : meas :=
  match snd m with inl p => MPix i c (fst m) p | inr e => MDirect i c (fst m) e end.
(** the effect of a part of the image update on the filter; nothing happens once the filter is not a number *)
Definition act (s : sight) (o : hop) (f : kf -> H -> option kf) (w : world) : world :=
  match w_F w with
  | Some F => {| w_F := f F (w_h w); w_med := w_med w; w_h := s_hidden s o F (w_h w) |}
  | None => w
  end.
Definition ask {A} (d : A) (f : kf -> H -> A) (w : world) : A := match w_F w with Some F => f F (w_h w) | None => d end.

(** lines 586-629 *)
Definition start (s : sight) (w : world) : world :=
  let v := act s HBegin (fun F h => if z_detect zc && s_moving s F h then step F KMotion else Some F) w in
  {| w_F := w_F v; w_med := None; w_h := w_h v |}.
(** the Kalman update of slot [i] in camera [c] *)
Definition measure (s : sight) (w : world) (i c : nat) : world :=
  act s (HUpdate i c) (fun F h => match s_meas s F h i c with Some (m, Rn, k) => step F (KMeas (meas_of i c m) Rn k) | None => Some F end) w.
(** line 796 *)
Definition behind (F : kf) (i : nat) : bool := if Rlt_dec (get_distance (ft_d (x_fea (k_x F) i))) (1 / 100000000) then true else false.
(** lines 996-1033 with the parameters of lines 976-981 *)
Definition new_of (s : sight) (F : kf) (h : H) (i c : nat) : newf :=
  let '(q, ty, o) := s_new s F h i c in {| w_slot := i; w_cam := c; w_Q := q; w_type := ty; w_seen := o |}.
Definition create (s : sight) (w : world) (i c : nat) : world :=
  match w_F w with
  | Some F =>
      let p := match w_med w with Some p => p | None => depths n frame front nth_elt ic F end in
      {| w_F := use_slot track ic p F (new_of s F (w_h w) i c); w_med := Some p; w_h := s_hidden s (HNew i c) F (w_h w) |}
  | None => w
  end.
(** lines 1075-1082: no motion seen by camera nor IMU for long enough *)
Definition still (F : kf) : bool :=
  z_on zc && z_detect zc && (if Rlt_dec (z_time zc) (a_timerV (x_aux (k_x F))) then true else false)
                         && (if Rlt_dec (z_time zc) (a_timerI (x_aux (k_x F))) then true else false).
Definition finish (s : sight) (w : world) : world :=
  act s HEnd (fun F _ => if still F then step F (KMeas MZero (z_noise zc) 0) else Some F) w.

Definition link (s : sight) : geom Patch world := {|
  g_begin := start s;
  g_pre w i c := ask PNotInFrame (fun F h => s_pre s F h i c) w;
  g_update := measure s;
  g_negative w i := ask false (fun F _ => behind F i) w;
  g_tracked w i c := ask false (fun F h => s_tracked s F h i c) w;
  g_drop w i := act s (HDrop i) (fun F _ => step F (KFree i)) w;
  g_repatch w i := ask None (fun F h => s_patch s F h i) w;
  g_patched w i := act s (HPatched i) (fun F _ => step F (KWarp i)) w;
  g_cands w c := ask [] (fun F h => s_cands s F h c) w;
  g_proj w c f := ask None (fun F h => s_proj s F h c f) w;
  g_choose w c a b := ask 0%nat (fun F h => s_choose s F h c a b) w;
  g_new := create s;
  g_end := finish s |}.

(** ** the filter as a whole *)
(** What happens to the filter (RovioNode.hpp 443-640): an IMU sample, an external pose, a velocity, a set of
    images *)
Inductive event :=
| VImu (m : imu) (dt : R) (Q : bmat)
| VPose (c : pcfg) (m : pmeas) (Rn : list (list R)) (k : nat)
| VVel (q : M3) (v : V3) (Rn : list (list R)) (k : nat)
| VImage (t : Z) (s : sight).
Definition filt (o : kop) (w : world) : world :=
  {| w_F := match w_F w with Some F => step F o | None => None end; w_med := w_med w; w_h := w_h w |}.
Definition happen (cf : config) (fuel : nat) (x : ist Patch world) (e : event) : res (ist Patch world) :=
  match e with
  | VImu m dt Q => Ok (with_w (filt (KPredict m dt Q) (i_w x)) x)
  | VPose c m Rn k => Ok (with_w (filt (KMeas (MPose c m) Rn k) (i_w x)) x)
  | VVel q v Rn k => Ok (with_w (filt (KMeas (MVel q v) Rn k) (i_w x)) x)
  | VImage t s => image_update cf (link s) fuel t x
  end.
Definition history (cf : config) (fuel : nat) (x : ist Patch world) (es : list event) : res (ist Patch world) :=
  fold_left (fun r e => rbind r (fun y => happen cf fuel y e)) es (Ok x).
End Link.
Arguments world H : clear implicits.
Arguments sight Patch H : clear implicits.
Arguments event Patch H : clear implicits.
