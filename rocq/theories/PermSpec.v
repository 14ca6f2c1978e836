(** Numbering of the feature slots: the same filter with its features kept in other slots. *)
From Coq Require Import Reals ZArith List Bool Arith.
From Verif Require Import Geo DistModel FiltModel UpdModel SlotModel.
Import ListNotations.

(** slot [i] becomes slot [f i]; [b] is the way back *)
Record renumbering (n : dims) (f b : nat -> nat) : Prop := {
  rn_back : forall i, b (f i) = i;
  rn_forth : forall i, f (b i) = i;
  rn_in : forall i, (i < d_max n)%nat <-> (f i < d_max n)%nat }.

Definition renumbered_seg (f : nat -> nat) (s : seg) : seg := match s with Fea i => Fea (f i) | _ => s end.
Definition renumbered_cov (b : nat -> nat) (P : bmat) : bmat := fun s t => P (renumbered_seg b s) (renumbered_seg b t).
Definition renumbered_state (b : nat -> nat) (x : state) : state :=
  {| x_pos := x_pos x; x_vel := x_vel x; x_acb := x_acb x; x_gyb := x_gyb x; x_att := x_att x; x_vep := x_vep x; x_vea := x_vea x;
     x_fea := fun i => x_fea x (b i); x_pop := x_pop x; x_poa := x_poa x; x_aux := x_aux x |}.
Definition renumbered (b : nat -> nat) (F : kf) : kf :=
  {| k_x := renumbered_state b (k_x F); k_P := renumbered_cov b (k_P F); k_used := fun i => k_used F (b i); k_u := k_u F |}.

(** the same events, with the slots they refer to *)
Definition renumbered_meas (f : nat -> nat) (ms : meas) : meas :=
  match ms with MPix i k d c => MPix (f i) k d c | MDirect i k d e => MDirect (f i) k d e | _ => ms end.
Definition renumbered_new (f : nat -> nat) (w : newf) : newf :=
  {| w_slot := f (w_slot w); w_cam := w_cam w; w_Q := w_Q w; w_type := w_type w; w_seen := w_seen w |}.
Definition renumbered_op (f b : nat -> nat) (o : kop) : kop :=
  match o with
  | KPredict m dt Q => KPredict m dt (renumbered_cov b Q)
  | KMeas ms Rn k => KMeas (renumbered_meas f ms) Rn k
  | KFree i => KFree (f i)
  | KUse l => KUse (map (renumbered_new f) l)
  | KWarp i => KWarp (f i)
  | KMotion => KMotion
  end.

(** exchange of two slots *)
Definition exchange (i j k : nat) : nat := if (k =? i)%nat then j else if (k =? j)%nat then i else k.
(** noise that is the same for every slot: the prediction noise of the code is one setting for all features *)
Definition same_noise_for_all (b : nat -> nat) (o : kop) : Prop :=
  match o with KPredict _ _ Q => forall s t, Q (renumbered_seg b s) (renumbered_seg b t) = Q s t | _ => True end.
(** what is estimated apart from the features *)
Definition same_motion (x y : state) : Prop :=
  x_pos x = x_pos y /\ x_vel x = x_vel y /\ x_acb x = x_acb y /\ x_gyb x = x_gyb y /\ x_att x = x_att y /\ x_vep x = x_vep y /\
  x_vea x = x_vea y /\ x_pop x = x_pop y /\ x_poa x = x_poa y /\ x_aux x = x_aux y.
