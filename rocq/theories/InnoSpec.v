(** Specification vocabulary for the image innovation (C76). *)
From Coq Require Import Reals ZArith List Arith.
From Verif Require Import Geo Lie DistModel FiltModel FiltSpec OutModel OutSpec CamModel CamSpec InnoModel.
From Verif Require AlignModel.
Local Open Scope R_scope.

(** derivative of a pixel valued curve at parameter 0 *)
Definition dP (f : R -> vec2) (d : vec2) : Prop := dR (fun t => fst (f t)) (fst d) /\ dR (fun t => snd (f t)) (snd d).

(** Feature [i] can be seen by camera [k] in state [x]: the feature and the camera exist, the point is
    not the centre of camera [k], it lies in front of it and the lens map is differentiable there. *)
Record seen (cams : nat -> camera) (frame : V3 -> M3) (n : dims) (dold : fdist) (k i : nat) (x : state) (g : feat) : Prop := {
  sn_wf : wf n x; sn_i : (i < d_max n)%nat; sn_k : (k < d_cam n)%nat; sn_use : usable n x i;
  sn_D : k <> fcam x i -> DrDP x k i <> v0;
  sn_out : transfer frame k x i dold = Some g;
  sn_front : 0 < vz (nor (ft_Q g));
  sn_reg : regular (cams k) (vx (nor (ft_Q g)) / vz (nor (ft_Q g)), vy (nor (ft_Q g)) / vz (nor (ft_Q g))) }.

Definition or0 (o : option vec2) : vec2 := match o with Some c => c | None => (0, 0) end.
Definition dot2 (a b : vec2) : R := fst a * fst b + snd a * snd b.

(** least squares cost of the photometric equations [a] u = [b] (m rows) at a pixel displacement *)
Definition photometric (m : nat) (a : nat -> nat -> R) (b : nat -> R) (d : vec2) : R :=
  AlignModel.fsum m (fun i => (a i 0%nat * fst d + a i 1%nat * snd d - b i) ^ 2).
Definition vsub2 (a b : vec2) : vec2 := (fst a - fst b, snd a - snd b).
