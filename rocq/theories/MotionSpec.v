(** Vocabulary for C77. *)
From Coq Require Import List ZArith QArith Qreals Reals Bool Arith.
From Verif Require Import PatchModel PyrModel GradModel GradSpec AvgModel AvgSpec MotionModel.
Import ListNotations.
Local Open Scope R_scope.

(** images of the given size on every level *)
Definition sized (usecv : bool) (w h : Z) (py : pyramid) : Prop :=
  (forall l, cols (py_img py l) = size_at w l /\ rows (py_img py l) = size_at h l) /\ (forall l, py_ct py l = centers usecv w h l).

(** bordered patch of a level as real numbers *)
Definition bordered (Bs : list (list Q)) (l : nat) : list R := map Q2R (nth l Bs nil).
(** mean over the levels e..s of the mean over the pixels of [f], with weight 1/4^level or 1/2^level *)
Definition mean4 (e s : nat) (f : nat -> R) : R := sum (s + 1 - e) (fun j => f (e + j)%nat / 4 ^ (e + j)) / INR (s + 1 - e).
Definition mean2 (e s : nat) (f : nat -> R) : R := sum (s + 1 - e) (fun j => f (e + j)%nat / 2 ^ (e + j)) / INR (s + 1 - e).
(** structure matrix over the levels: entries xx, xy, yy; mean gradient *)
Definition Sxx (n e s : nat) (Bs : list (list Q)) : R := mean4 e s (fun l => sxx n (bordered Bs l)).
Definition Sxy (n e s : nat) (Bs : list (list Q)) : R := mean4 e s (fun l => sxy n (bordered Bs l)).
Definition Syy (n e s : nat) (Bs : list (list Q)) : R := mean4 e s (fun l => syy n (bordered Bs l)).
Definition Mx (n e s : nat) (Bs : list (list Q)) : R := mean2 e s (fun l => mean n (gx n (bordered Bs l))).
Definition My (n e s : nat) (Bs : list (list Q)) : R := mean2 e s (fun l => mean n (gy n (bordered Bs l))).
(** the larger eigenvalue of [[a,b],[b,c]] *)
Definition largest_eigenvalue (a b c m : R) : Prop := eigenvalue a b c m /\ forall k, eigenvalue a b c k -> k <= m.

(** inner pixel (x,y) of level l of a bordered multilevel patch *)
Definition inner_px (n : nat) (Bs : list (list Q)) (l x y : nat) : R := px (n + 2) (bordered Bs l) (x + 1) (y + 1).
(** to first order, the second patch is the first one moved by (dx,dy) pixels of level 0 (2^-l of that on
    level l) with a brightness change [b] *)
Definition shifted (n e s : nat) (dx dy b : R) (Bs Cs : list (list Q)) : Prop :=
  forall l x y, (e <= l <= s)%nat -> (x < n)%nat -> (y < n)%nat ->
  inner_px n Cs l x y = inner_px n Bs l x y + (gx n (bordered Bs l) x y * dx + gy n (bordered Bs l) x y * dy) / 2 ^ l + b.

(** time that passed in a history *)
Fixpoint elapsed (h : list mev) : R := match h with [] => 0 | Predict dt _ :: r => dt + elapsed r | Image _ _ :: r => elapsed r end.
Definition forward (h : list mev) : Prop := forall dt b, In (Predict dt b) h -> 0 <= dt.
(** the last image of a history, if any *)
Fixpoint last_image (h : list mev) (acc : option (nat -> pyramid)) : option (nat -> pyramid) :=
  match h with [] => acc | Predict _ _ :: r => last_image r acc | Image p _ :: r => last_image r (Some p) end.
(** the image with pyramids [cur] and slots [sl], coming after the history [pre], shows motion: it is
    not the first one and the comparison with the image before it says so *)
Definition shows_motion (near : warp -> bool) (junk : hess) (cf : mcfg) (pre : list mev) (cur : nat -> pyramid) (sl : list mslot) : Prop :=
  exists prev, last_image pre None = Some prev /\ image_motion near junk cf prev cur sl = Some true.
(** more than [T] passed since every image that showed motion, and since every prediction with inertial motion *)
Definition quiet_visual (near : warp -> bool) (junk : hess) (cf : mcfg) (h : list mev) (T : R) : Prop :=
  forall pre cur sl post, h = pre ++ Image cur sl :: post -> shows_motion near junk cf pre cur sl -> T < elapsed post.
Definition quiet_inertial (h : list mev) (T : R) : Prop :=
  forall pre dt post, h = pre ++ Predict dt true :: post -> T < elapsed post.
(** number of features in frame and number of those in motion, from the results of the visits *)
Definition seen_count (vs : list (option bool)) : nat := length (filter (fun v => match v with Some _ => true | None => false end) vs).
Definition moving_count (vs : list (option bool)) : nat := length (filter (fun v => match v with Some b => b | None => false end) vs).
