(** Model of the gradient parameters of rovio::Patch (/repo/include/rovio/Patch.hpp 41-135, 240-304)
    and of the multilevel score (/repo/include/rovio/MultilevelPatch.hpp 70-118), over the reals
    (float rounding is not modelled here). *)
From Coq Require Import List ZArith QArith Qreals Reals Bool Arith.
From Verif Require Import PatchModel.
Import ListNotations.
Local Open Scope R_scope.

(** symmetric 3x3 matrix sum of J J^T with J = (gx, gy, 1): entries (0,0) (0,1) (1,1) (0,2) (1,2) (2,2) *)
Record hess := { hxx : R; hxy : R; hyy : R; hx : R; hy : R; h1 : R }.
(** H_.setZero() *)
Definition hzero : hess := {| hxx := 0; hxy := 0; hyy := 0; hx := 0; hy := 0; h1 := 0 |}.
(** H_ += J*J.transpose(), lines 84-89 *)
Definition hadd_outer (h : hess) (g : R * R) : hess :=
  let (a, b) := g in
  {| hxx := hxx h + a * a; hxy := hxy h + a * b; hyy := hyy h + b * b; hx := hx h + a * 1; hy := hy h + b * 1; h1 := h1 h + 1 * 1 |}.

(** gradient at pixel (x,y), lines 81-85: [it] points to (y+1)*refStep+1+x, refStep = n+2; a read outside
    the array is [None] *)
Definition grad_at (n : nat) (B : list R) (x y : nat) : option (R * R) :=
  let it := ((y + 1) * (n + 2) + 1 + x)%nat in
  bind (nth_error B (it + 1)) (fun r => bind (nth_error B (it - 1)) (fun l =>
  bind (nth_error B (it + (n + 2))) (fun d => bind (nth_error B (it - (n + 2))) (fun u =>
  Some (/ 2 * (r - l), / 2 * (d - u)))))).
(** the double loop, lines 80-91 *)
Definition grads (n : nat) (B : list R) : option (list (R * R)) :=
  seqo (flat_map (fun y => map (fun x => grad_at n B x y) (seq 0 n)) (seq 0 n)).

(** eigenvalues from the averaged entries, lines 96-97 (MultilevelPatch.hpp 98-99) *)
Definition eig0 (dxx dyy dxy : R) : R := / 2 * (dxx + dyy - sqrt ((dxx + dyy) * (dxx + dyy) - 4 * (dxx * dyy - dxy * dxy))).
Definition eig1 (dxx dyy dxy : R) : R := / 2 * (dxx + dyy + sqrt ((dxx + dyy) * (dxx + dyy) - 4 * (dxx * dyy - dxy * dxy))).

(** H_, e0_, e1_, s_ *)
Record params := { g_H : hess; g_e0 : R; g_e1 : R; g_s : R }.
(** lines 92-98 *)
Definition params_of (n : nat) (H : hess) : params :=
  let k := INR (n * n) in
  let dxx := hxx H / k in let dyy := hyy H / k in let dxy := hxy H / k in
  let a := eig0 dxx dyy dxy in let b := eig1 dxx dyy dxy in
  {| g_H := H; g_e0 := a; g_e1 := b; g_s := a + b |}.
(** body of computeGradientParameters, lines 73-98 *)
Definition compute (n : nat) (B : list R) : option params :=
  bind (grads n B) (fun gs => Some (params_of n (fold_left hadd_outer gs hzero))).

(** Patch object: arrays are [None] while uninitialised *)
Record patch := { p_patch : option (list R); p_border : option (list R); p_params : params; p_valid : bool }.
(** constructor, lines 57-63 (H_ is left uninitialised: arbitrary) *)
Definition new_patch (junk : hess) : patch :=
  {| p_patch := None; p_border := None; p_params := {| g_H := junk; g_e0 := 0; g_e1 := 0; g_s := 0 |}; p_valid := false |}.

(** computeGradientParameters, lines 72-101; reading an uninitialised array is [None] *)
Definition compute_gradients (n : nat) (p : patch) : option patch :=
  if p_valid p then Some p
  else bind (p_border p) (fun B => bind (compute n B) (fun g =>
       Some {| p_patch := p_patch p; p_border := p_border p; p_params := g; p_valid := true |})).
(** getScore, lines 122-125 *)
Definition get_score (n : nat) (p : patch) : option (patch * R) :=
  bind (compute_gradients n p) (fun p' => Some (p', g_s (p_params p'))).
(** getHessian, lines 132-135 *)
Definition get_hessian (n : nat) (p : patch) : option (patch * hess) :=
  bind (compute_gradients n p) (fun p' => Some (p', g_H (p_params p'))).

(** extractPatchFromPatchWithBorder (lines 106-114) on real arrays *)
Definition inner_r (n : nat) (border : list R) : list R :=
  flat_map (fun y => firstn n (skipn (y * (n + 2) + 1) border)) (seq 1 n).
Definition patch_from_border (n : nat) (p : patch) : option patch :=
  bind (p_border p) (fun B => Some {| p_patch := Some (inner_r n B); p_border := p_border p; p_params := p_params p; p_valid := p_valid p |}).
(** extractPatchFromImage, lines 240-304; [data] is what the image loop wrote (PatchModel.extract) *)
Definition store (n : nat) (p : patch) (data : list R) (b : bool) : patch :=
  if b then {| p_patch := Some (inner_r n data); p_border := Some data; p_params := p_params p; p_valid := false |}
  else {| p_patch := Some data; p_border := p_border p; p_params := p_params p; p_valid := false |}.

(** public operations on a patch *)
Inductive pop :=
| Extract (im : image) (ident : bool) (w : warp) (cx cy : Q) (b : bool)
| Score | Hessian | FromBorder.
Definition pstep (rnd : Q -> Q) (n : nat) (p : patch) (o : pop) : option patch :=
  match o with
  | Extract im ident w cx cy b => bind (extract rnd n im ident w cx cy b) (fun l => Some (store n p (map Q2R l) b))
  | Score => bind (get_score n p) (fun r => Some (fst r))
  | Hessian => bind (get_hessian n p) (fun r => Some (fst r))
  | FromBorder => patch_from_border n p
  end.
Fixpoint prun (rnd : Q -> Q) (n : nat) (p : patch) (ops : list pop) : option patch :=
  match ops with [] => Some p | o :: r => bind (pstep rnd n p o) (fun p' => prun rnd n p' r) end.

(** ** MultilevelPatch *)
(** levels: patch and isValidPatch_ *)
Definition mlp := list (patch * bool).
(** H_ += pow(0.25,i)*H, line 90 *)
Definition hadd_scaled (h : hess) (k : R) (g : hess) : hess :=
  {| hxx := hxx h + k * hxx g; hxy := hxy h + k * hxy g; hyy := hyy h + k * hyy g;
     hx := hx h + k * hx g; hy := hy h + k * hy g; h1 := h1 h + k * h1 g |}.
(** loop of lines 88-93 over levels l1 .. l1+cnt-1: accumulated Hessian and number of valid levels;
    an index outside the array is [None]. The patches' own caches are left out of the result. *)
Fixpoint ml_loop (n : nat) (m : mlp) (i cnt : nat) (h : hess) (count : nat) : option (hess * nat) :=
  match cnt with
  | O => Some (h, count)
  | S c =>
    bind (nth_error m i) (fun pv =>
    if snd pv then bind (get_hessian n (fst pv)) (fun r => ml_loop n m (S i) c (hadd_scaled h ((/ 4) ^ i) (snd r)) (S count))
    else ml_loop n m (S i) c h count)
  end.
(** computeMultilevelShiTomasiScore, lines 85-106 (l1 <= l2) *)
Definition ml_score (n : nat) (m : mlp) (l1 l2 : nat) : option params :=
  bind (ml_loop n m l1 (l2 + 1 - l1) hzero 0) (fun hc =>
  let (H, count) := hc in
  if (0 <? count)%nat then
    let k := INR (count * n * n) in
    let a := eig0 (hxx H / k) (hyy H / k) (hxy H / k) in let b := eig1 (hxx H / k) (hyy H / k) (hxy H / k) in
    Some {| g_H := H; g_e0 := a; g_e1 := b; g_s := a + b |}
  else Some {| g_H := H; g_e0 := 0; g_e1 := 0; g_s := -1 |}).
(** getSpecificLevelScore, lines 112-118 *)
Definition ml_level_score (n : nat) (m : mlp) (l : nat) : option R :=
  bind (nth_error m l) (fun pv => if snd pv then bind (get_score n (fst pv)) (fun r => Some (snd r)) else Some (-1)).
