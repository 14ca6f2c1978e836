(** Vocabulary for the coordinate cache properties (C14, C15). *)
From Coq Require Import List Bool.
From Verif Require Import CoordModel.
Import ListNotations.

Section Spec.
Context {Pix Bea Mat : Type}.

(** the two camera maps are mutually inverse on their domains *)
Definition inverse_camera (k : camera Pix Bea Mat) : Prop :=
  (forall n p, to_pixel k n = Some p -> to_bearing k p = (true, n)) /\
  (forall p n, to_bearing k p = (true, n) -> to_pixel k n = Some p).

(** matrix inversion yields a right inverse *)
Definition right_inverse (mul : Mat -> Mat -> Mat) (minv : Mat -> option Mat) : Prop :=
  forall J Ji w, minv J = Some Ji -> mul J (mul Ji w) = w.

Definition changes_camera (o : op Pix Bea Mat) : bool := match o with OCam _ => true | _ => false end.
Definition changes_coordinate (o : op Pix Bea Mat) : bool :=
  match o with OSetC _ _ | OSetNor _ _ | OReset => true | _ => false end.
(** operations that evaluate the projection Jacobian *)
Definition uses_jacobian (o : op Pix Bea Mat) : bool :=
  match o with OGetJ | OGetWarpC | OGetWarpNor => true | _ => false end.
(** operations that keep the warp although they change the coordinate, or switch the tracking mode *)
Definition keeps_warp (o : op Pix Bea Mat) : bool :=
  match o with OSetC _ r | OSetNor _ r => negb r | OTrack _ => true | _ => false end.

(** whether a warp is available after [os], given whether one was available before: every warp
    setter and the reset provide one, every coordinate change discards it *)
Fixpoint provided (b : bool) (os : list (op Pix Bea Mat)) : bool :=
  match os with
  | [] => b
  | o :: r =>
    provided (match o with
              | OSetWarpC _ | OSetWarpNor _ | OSetWarpId | OReset => true
              | OSetC _ _ | OSetNor _ _ => false
              | _ => b
              end) r
  end.

(** a fresh coordinate object attached to camera [k] *)
Definition fresh (mI : Mat) (k : camera Pix Bea Mat) (tr : bool) p n w : fc Pix Bea Mat :=
  with_track tr (with_cam (Some k) (mk_fc mI p n w)).
End Spec.
