(** Corner scores in IEEE-754 arithmetic: gradients, Hessian, eigenvalues and score of rovio::Patch
    (/repo/include/rovio/Patch.hpp 72-101) and the score over several levels of rovio::MultilevelPatch
    (/repo/include/rovio/MultilevelPatch.hpp 85-106), in single precision; sub-expressions with a double literal in double
    precision. The compiler may contract multiply-add (parameters [fuse] for the sums of products and [contraction] for the
    differences of two products). Only the entries of H_ the score depends on are modelled. *)
From Coq Require Import List ZArith Bool.
From Flocq Require Import Core BinarySingleNaN.
From Verif Require Import IeeeModel.
Import ListNotations.
Local Open Scope Z_scope.

Definition div32 (x y : f32) : f32 := @Bdiv 24 128 p24 p128 mode_NE x y.
(** sqrtf: NaN for negative arguments *)
Definition sqrt32 (x : f32) : f32 := @Bsqrt 24 128 p24 p128 mode_NE x.
(** "0.5 * x" assigned to a float *)
Definition half32 (x : f32) : f32 := narrow (mul64 half64 (widen x)).
(** a*x - b*y, with or without contraction *)
Definition diff32 (k : contraction) (a x b y : f32) : f32 :=
  match k with
  | Plain => sub32 (mul32 a x) (mul32 b y)
  | FuseFirst => fma32 a x (Bopp (mul32 b y))
  | FuseSecond => fma32 (Bopp b) y (mul32 a x)
  end.

(** the argument of sqrtf, Patch.hpp 96-97, MultilevelPatch.hpp 98-99: outer and inner difference *)
Definition disc32 (kc : contraction * contraction) (dxx dyy dxy : f32) : f32 :=
  let s := add32 dxx dyy in diff32 (fst kc) s s (f32_of_Z 4) (diff32 (snd kc) dxx dyy dxy dxy).
(** e0_ and e1_, the same lines *)
Definition eig0_32 (kc : contraction * contraction) (dxx dyy dxy : f32) : f32 :=
  half32 (sub32 (add32 dxx dyy) (sqrt32 (disc32 kc dxx dyy dxy))).
Definition eig1_32 (kc : contraction * contraction) (dxx dyy dxy : f32) : f32 :=
  half32 (add32 (add32 dxx dyy) (sqrt32 (disc32 kc dxx dyy dxy))).
(** e0_, e1_, s_ *)
Record fparams := { f_e0 : f32; f_e1 : f32; f_s : f32 }.

(** entries (0,0), (0,1), (1,1) of H_ *)
Record fhess := { fxx : f32; fxy : f32; fyy : f32 }.
Definition fzero : fhess := {| fxx := zero32; fxy := zero32; fyy := zero32 |}.
(** H_ += J*J.transpose(), Patch.hpp 89 *)
Definition fadd_outer (fuse : bool) (h : fhess) (g : f32 * f32) : fhess :=
  {| fxx := acc32 fuse (fxx h) (fst g) (fst g); fxy := acc32 fuse (fxy h) (fst g) (snd g); fyy := acc32 fuse (fyy h) (snd g) (snd g) |}.
(** "0.5 * (it[1] - it[-1])", lines 84-85: float difference, double product, float result; a read outside
    the array is [None] *)
Definition grad32_at (n : nat) (B : list f32) (x y : nat) : option (f32 * f32) :=
  let it := ((y + 1) * (n + 2) + 1 + x)%nat in
  obind (nth_error B (it + 1)) (fun r => obind (nth_error B (it - 1)) (fun l =>
  obind (nth_error B (it + (n + 2))) (fun d => obind (nth_error B (it - (n + 2))) (fun u =>
  Some (half32 (sub32 r l), half32 (sub32 d u)))))).
(** the double loop, lines 80-91 *)
Definition grads32 (n : nat) (B : list f32) : option (list (f32 * f32)) :=
  collect (flat_map (fun y => map (fun x => grad32_at n B x y) (seq 0 n)) (seq 0 n)).
Definition hess32 (fuse : bool) (n : nat) (B : list f32) : option fhess :=
  obind (grads32 n B) (fun gs => Some (fold_left (fadd_outer fuse) gs fzero)).
(** lines 92-98 (MultilevelPatch.hpp 95-100): division by an int, eigenvalues, score; the two occurrences of the
    discriminant may be contracted differently *)
Definition params32 (kc0 kc1 : contraction * contraction) (H : fhess) (count : Z) : fparams :=
  let d := f32_of_Z count in
  let dxx := div32 (fxx H) d in let dyy := div32 (fyy H) d in let dxy := div32 (fxy H) d in
  let a := eig0_32 kc0 dxx dyy dxy in let b := eig1_32 kc1 dxx dyy dxy in
  {| f_e0 := a; f_e1 := b; f_s := add32 a b |}.
(** computeGradientParameters of a patch whose bordered data are [B], lines 72-98 *)
Definition compute32 (fuse : bool) (kc0 kc1 : contraction * contraction) (n : nat) (B : list f32) : option fparams :=
  obind (hess32 fuse n B) (fun H => Some (params32 kc0 kc1 H (Z.of_nat (n * n)))).

(** pow(0.25,i), exact, converted to the scalar type of the matrix *)
Definition quarter32 (i : nat) : f32 := binary_normalize 24 128 p24 p128 mode_NE 1 (- 2 * Z.of_nat i) false.
(** H_ += pow(0.25,i)*patches_[i].getHessian(), MultilevelPatch.hpp 90 *)
Definition fadd_scaled (fuse : bool) (h : fhess) (k : f32) (g : fhess) : fhess :=
  {| fxx := acc32 fuse (fxx h) k (fxx g); fxy := acc32 fuse (fxy h) k (fxy g); fyy := acc32 fuse (fyy h) k (fyy g) |}.
(** loop of lines 88-93 over levels i .. i+cnt-1 of freshly extracted patches: bordered data and isValidPatch_; an
    index outside the array is [None] *)
Fixpoint ml_loop32 (fuse fuse' : bool) (n : nat) (Bs : list (list f32 * bool)) (i cnt : nat) (h : fhess) (count : nat) : option (fhess * nat) :=
  match cnt with
  | O => Some (h, count)
  | S c =>
    obind (nth_error Bs i) (fun bv =>
    if snd bv then obind (hess32 fuse n (fst bv)) (fun g => ml_loop32 fuse fuse' n Bs (S i) c (fadd_scaled fuse' h (quarter32 i) g) (S count))
    else ml_loop32 fuse fuse' n Bs (S i) c h count)
  end.
(** computeMultilevelShiTomasiScore, lines 85-106 *)
Definition ml_score32 (fuse fuse' : bool) (kc0 kc1 : contraction * contraction) (n : nat) (Bs : list (list f32 * bool)) (l1 l2 : nat) : option fparams :=
  obind (ml_loop32 fuse fuse' n Bs l1 (l2 + 1 - l1) fzero 0) (fun hc =>
  let (H, count) := hc in
  if (0 <? count)%nat then Some (params32 kc0 kc1 H (Z.of_nat (count * n * n)))
  else Some {| f_e0 := zero32; f_e1 := zero32; f_s := f32_of_Z (-1) |}).
