(** Model of rovio::MultilevelPatchAlignment (/repo/include/rovio/MultilevelPatchAlignment.hpp) over the
    reals: float rounding is not modelled; results that are not a number because of a division 0/0 are
    [None]. *)
From Coq Require Import List Reals ZArith Bool.
Import ListNotations.
Local Open Scope R_scope.

(** settings, lines 55-60 *)
Record settings := { use_offset : bool; use_skew : bool; use_weight : bool; huber_th : R; grad_exp : R }.

(** one pixel of a used level: template intensity (patch_), extracted intensity, template gradient
    (dx_, dy_), mask weight (w_) *)
Record pixel := { p_t : R; p_i : R; p_dx : R; p_dy : R; p_w : R }.
(** 2x2 matrix, row major *)
Record m2 := { m00 : R; m01 : R; m10 : R; m11 : R }.
(** get_warp_c().inverse(), line 118 *)
Definition inv2 (w : m2) : m2 :=
  let d := m00 w * m11 w - m01 w * m10 w in
  {| m00 := m11 w / d; m01 := - m01 w / d; m10 := - m10 w / d; m11 := m00 w / d |}.

(** lines 154-162: gradient of level [l] with respect to level-0 pixel coordinates, warped *)
Definition jac (ident : bool) (inv : m2) (l : nat) (p : pixel) : R * R :=
  let jx := - (/ 2) ^ l * p_dx p in let jy := - (/ 2) ^ l * p_dy p in
  if ident then (jx, jy) else (jx * m00 inv + jy * m10 inv, jx * m01 inv + jy * m11 inv).
(** what the first loop stores per pixel: template, extracted, *it_dx_error, *it_dy_error, weight *)
Record raw := { r_t : R; r_i : R; r_jx : R; r_jy : R; r_w : R }.
(** first loop, lines 137-192: a level is used ([Some pixels]) iff its patch is valid, in frame and has
    gradient parameters *)
Fixpoint gather (ident : bool) (inv : m2) (l : nat) (levels : list (option (list pixel))) : list raw :=
  match levels with
  | [] => []
  | lv :: rest =>
    match lv with
    | None => []
    | Some ps => map (fun p => let j := jac ident inv l p in
        {| r_t := p_t p; r_i := p_i p; r_jx := fst j; r_jy := snd j; r_w := p_w p |}) ps
    end ++ gather ident inv (S l) rest
  end.

(** accumulation loop of a quantity [f] with the pixel weight (1 when weighting is off), lines 163-189 *)
Definition weight (s : settings) (p : raw) : R := if use_weight s then r_w p else 1.
Definition acc (s : settings) (f : raw -> R) (ps : list raw) : R :=
  fold_left (fun a p => a + weight s p * f p) ps 0.
(** wTot *)
Definition w_tot (s : settings) (ps : list raw) : R := acc s (fun _ => 1) ps.

Record reg := { ra : R; ra_dx : R; ra_dy : R; rb : R; rb_dx : R; rb_dy : R }.
(** linear brightness regression, lines 198-237; [None] if a quotient is 0/0 *)
Definition regress (s : settings) (ps : list raw) : option reg :=
  if use_offset s || use_skew s then
    let W := w_tot s ps in
    if Req_EM_T W 0 then None else
    let mx := acc s r_t ps / W in
    let mxx := acc s (fun p => r_t p * r_t p) ps / W in
    let mxy := acc s (fun p => r_t p * r_i p) ps / W in
    let mxy_dx := acc s (fun p => r_t p * r_jx p) ps / W in
    let mxy_dy := acc s (fun p => r_t p * r_jy p) ps / W in
    let my := acc s r_i ps / W in
    let my_dx := acc s r_jx ps / W in
    let my_dy := acc s r_jy ps / W in
    let V := mxx - mx * mx in
    match (if use_skew s then
             if Req_EM_T V 0 then None
             else let a := (mxy - mx * my) / V in
                  if Rlt_dec a (/ 2) then Some (/ 2, 0, 0)
                  else Some (a, (mxy_dx - mx * my_dx) / V, (mxy_dy - mx * my_dy) / V)
           else Some (1, 0, 0)) with
    | None => None
    | Some (a, a_dx, a_dy) =>
      if use_offset s
      then Some {| ra := a; ra_dx := a_dx; ra_dy := a_dy; rb := my - a * mx; rb_dx := my_dx - a_dx * mx; rb_dy := my_dy - a_dy * mx |}
      else Some {| ra := a; ra_dx := a_dx; ra_dy := a_dy; rb := 0; rb_dx := 0; rb_dy := 0 |}
    end
  else Some {| ra := 1; ra_dx := 0; ra_dy := 0; rb := 0; rb_dx := 0; rb_dy := 0 |}.

(** one equation: entry of b, entries of A *)
Record row := { e_b : R; e_x : R; e_y : R }.
(** *it_error, *it_dx_error, *it_dy_error, lines 254-258 (first loop values when compensation is off) *)
Definition error_row (s : settings) (g : reg) (p : raw) : row :=
  if use_offset s || use_skew s then
    {| e_b := r_i p - ra g * r_t p - rb g;
       e_x := ra g * (r_jx p - ra_dx g * r_t p - rb_dx g);
       e_y := ra g * (r_jy p - ra_dy g * r_t p - rb_dy g) |}
  else {| e_b := r_i p - r_t p; e_x := r_jx p; e_y := r_jy p |}.

(** copysign(1.0, e) for e <> 0 (the sign of zero is not modelled) *)
Definition sgn (e : R) : R := if Rlt_dec e 0 then -1 else 1.
(** Huber norm, lines 263-271: new entry of b and factor of the entries of A *)
Definition huber (th e : R) : R * R :=
  if Rlt_dec 0 th then
    if Rlt_dec th (Rabs e) then
      let b := sqrt (th * (2 * Rabs e - th)) * sgn e in (b, th / b * sgn e)
    else (e, 1)
  else (e, 1).
(** pow(x,y) for x >= 0, y > 0 *)
Definition cpow (x y : R) : R := if Req_EM_T x 0 then 0 else Rpower x y.
(** gradient based weight, lines 273-278 *)
Definition grad_weight (s : settings) (r : row) : R :=
  if Rlt_dec 0 (grad_exp s) then 1 - cpow ((e_x r * e_x r + e_y r * e_y r) / (2 * 128 * 128)) (/ 2 * grad_exp s) else 1.
(** second loop, lines 252-284 *)
Definition final_row (s : settings) (g : reg) (p : raw) : row :=
  let r := error_row s g p in
  let (b, f) := huber (huber_th s) (e_b r) in
  let k := grad_weight s r in
  {| e_b := b * k * weight s p; e_x := f * e_x r * k * weight s p; e_y := f * e_y r * k * weight s p |}.

(** getLinearAlignEquations, lines 112-289: [Fail] when no level is used, [Nan] when the equations are
    not numbers *)
Inductive equations := Fail | Nan | Rows (l : list row).
Definition align_equations (s : settings) (ident : bool) (inv : m2) (l1 : nat) (levels : list (option (list pixel))) : equations :=
  if forallb (fun lv => match lv with None => true | Some _ => false end) levels then Fail
  else let ps := gather ident inv l1 levels in
       match regress s ps with
       | None => Nan
       | Some g => Rows (map (final_row s g) ps)
       end.

(** computeWeightings, lines 78-91, sigma > 0: the coordinate is converted to int (towards zero) *)
Definition mask_coord (n x : nat) : Z := Z.quot (2 * Z.of_nat x - (Z.of_nat n - 1)) 2.
Definition mask (n : nat) (sigma : R) (x y : nat) : R :=
  exp (- IZR (mask_coord n x * mask_coord n x + mask_coord n y * mask_coord n y) / (2 * sigma * sigma)).

(** ** iterations. The equations and their SVD solution at a coordinate are a parameter:
    [None] = getLinearAlignEquations failed or fewer than two nonzero singular values, lines 528-534. *)
Definition coordinate := (R * R)%type.
Section Iterate.
Variable solve : coordinate -> option (R * R).
(** align2D, lines 515-544: returns success flag and cOut *)
Fixpoint align_loop (iter : nat) (min_sq : R) (c : coordinate) : bool * coordinate :=
  match iter with
  | O => (false, c)
  | S k =>
    match solve c with
    | None => (false, c)
    | Some u =>
      let c' := (fst c + fst u, snd c + snd u) in
      if Rlt_dec (fst u * fst u + snd u * snd u) min_sq then (true, c') else align_loop k min_sq c'
    end
  end.
Definition align2d (max_iter : nat) (min_upd : R) (c : coordinate) : bool * coordinate := align_loop max_iter (min_upd * min_upd) c.
End Iterate.

(** align2DComposed, lines 570-579: levels start .. highest, downwards; [solve l] uses levels l .. lowest *)
Fixpoint composed_loop (solve : nat -> coordinate -> option (R * R)) (ls : list nat) (c : coordinate) : bool * coordinate :=
  match ls with
  | [] => (true, c)
  | l :: rest => let (ok, c') := align2d (solve l) 10 (3 / 100) c in if ok then composed_loop solve rest c' else (false, c')
  end.
Definition align2d_composed (solve : nat -> coordinate -> option (R * R)) (highest start : nat) (c : coordinate) : bool * coordinate :=
  composed_loop solve (rev (seq highest (start + 1 - highest))) c.

(** number of steps n of align2DAdaptive, line 598; [up] is ceil *)
Definition ceil (x : R) : Z := (- Int_part (- x))%Z.
Definition samples (sigma coverage range : R) (lowest : nat) (max_uni : Z) : Z :=
  Z.min (Z.max (ceil (sigma * coverage / (range * 2 ^ (lowest + 1)) - / 2)) 0) max_uni.
Section Adaptive.
Variable align : coordinate -> bool * coordinate.   (* align2D(.., highest_level, lowest_level) *)
Variable in_frame : coordinate -> bool.             (* isMultilevelPatchInFrame *)
Variable err : coordinate -> R.                     (* extraction and computeAverageDifference *)
(** state: bestIntensityError_ (-1 = none), bestCoordinateMatch_, cOut; loop body, lines 603-615 *)
Record search := { s_err : R; s_best : coordinate; s_out : coordinate }.
Definition try_seed (st : search) (seed : coordinate) : search :=
  let (ok, c) := align seed in
  if ok then
    if in_frame c then
      let e := err c in
      if Req_EM_T (s_err st) (-1) then {| s_err := e; s_best := c; s_out := c |}
      else if Rlt_dec e (s_err st) then {| s_err := e; s_best := c; s_out := c |}
      else {| s_err := s_err st; s_best := s_best st; s_out := c |}
    else {| s_err := s_err st; s_best := s_best st; s_out := c |}
  else {| s_err := s_err st; s_best := s_best st; s_out := c |}.
(** seed number i: cInit + i * direction * range * 2^(lowest+1), line 604 *)
Definition seed (c : coordinate) (dir : R * R) (step : R) (i : Z) : coordinate :=
  (fst c + fst dir * IZR i * step, snd c + snd dir * IZR i * step).
Definition steps (n : Z) : list Z := map (fun k => (Z.of_nat k - n)%Z) (seq 0 (Z.to_nat (2 * n + 1))).
(** align2DAdaptive, lines 594-621; [n] from [samples]; [junk] is the previous bestCoordinateMatch_ *)
Definition align_adaptive (n : Z) (c : coordinate) (dir : R * R) (step : R) (junk : coordinate) : bool * coordinate :=
  if (n =? 0)%Z then align c
  else let st := fold_left try_seed (map (seed c dir step) (steps n)) {| s_err := -1; s_best := junk; s_out := c |} in
       if Req_EM_T (s_err st) (-1) then (false, s_out st) else (true, s_best st).
End Adaptive.

(** ** getLinearAlignEquationsReduced, lines 309-321. The QR module is described by what it stores:
    householderQ() = [q] (m x m), matrixR() = [r] (upper triangle; below the diagonal it holds the
    Householder vectors), colsPermutation() = swap of the two columns if [sw]. [sum k f] = f 0 + .. + f (k-1). *)
Fixpoint fsum (k : nat) (f : nat -> R) : R := match k with O => 0 | S j => fsum j f + f j end.
Definition perm (sw : bool) (j : nat) : nat := if sw then match j with 0%nat => 1%nat | 1%nat => 0%nat | _ => j end else j.
(** b_red = (Q^-1 b) block(0,0,2,1); Q is orthogonal, its inverse is the transpose *)
Definition reduced_b (m : nat) (q : nat -> nat -> R) (b : nat -> R) (k : nat) : R := fsum m (fun i => q i k * b i).
(** A_red = R block, entry (1,0) set to zero, columns permuted: (R * P)(k,j) = R(k, perm j) *)
Definition reduced_a (r : nat -> nat -> R) (sw : bool) (k j : nat) : R :=
  let j' := perm sw j in if (Nat.eqb k 1 && Nat.eqb j' 0)%bool then 0 else r k j'.
