(** Vocabulary for C31-C33 and C56-C58. *)
From Coq Require Import List Reals ZArith Bool.
From Verif Require Import AlignModel.
Import ListNotations.
Local Open Scope R_scope.

(** Huber loss (times two) and limited residual *)
Definition huber_loss (th e : R) : R := if Rle_dec (Rabs e) th then e ^ 2 else th * (2 * Rabs e - th).
Definition limited (th e : R) : R := Rmax (- th) (Rmin th e).

(** weighted sum over pixels; weighted squared residual of a brightness model i = a t + b *)
Definition wsum (s : settings) (ps : list raw) (f : raw -> R) : R := fold_right (fun p r => weight s p * f p + r) 0 ps.
Definition cost (s : settings) (ps : list raw) (a b : R) : R := wsum s ps (fun p => (r_i p - (a * r_t p + b)) ^ 2).

(** the template is not of constant brightness *)
Definition textured (ps : list raw) : Prop := exists p q, In p ps /\ In q ps /\ r_t p <> r_t q.
Definition positive_weights (s : settings) (ps : list raw) : Prop := use_weight s = true -> forall p, In p ps -> 0 < r_w p.

(** brightness changes of the image / of the template (gradients scale along) *)
Definition image_offset (b : R) (p : raw) : raw := {| r_t := r_t p; r_i := r_i p + b; r_jx := r_jx p; r_jy := r_jy p; r_w := r_w p |}.
Definition image_gain (k : R) (p : raw) : raw := {| r_t := r_t p; r_i := k * r_i p; r_jx := r_jx p; r_jy := r_jy p; r_w := r_w p |}.
Definition template_affine (k b : R) (p : raw) : raw :=
  {| r_t := k * r_t p + b; r_i := r_i p; r_jx := k * r_jx p; r_jy := k * r_jy p; r_w := r_w p |}.

(** squared norm of A u - b for the rows of a linear system *)
Definition lsq (rows : list row) (u : R * R) : R :=
  fold_right (fun r a => (e_x r * fst u + e_y r * snd u - e_b r) ^ 2 + a) 0 rows.

(** the columns of A are linearly independent *)
Definition rank2 (rows : list row) : Prop := forall u v, (forall r, In r rows -> e_x r * u + e_y r * v = 0) -> u = 0 /\ v = 0.

(** matrix times vector *)
Definition mul2 (m : m2) (v : R * R) : R * R := (m00 m * fst v + m01 m * snd v, m10 m * fst v + m11 m * snd v).
(** the extracted intensities of level [l] are those of the template displaced by the patch-frame vector
    W^-1 (c - target) / 2^l, to first order in the template gradient *)
Definition displaced (inv : m2) (l : nat) (c target : R * R) (p : pixel) : Prop :=
  let d := mul2 inv ((fst c - fst target) / 2 ^ l, (snd c - snd target) / 2 ^ l) in
  p_i p = p_t p + (p_dx p * fst d + p_dy p * snd d).
Definition id2 : m2 := {| m00 := 1; m01 := 0; m10 := 0; m11 := 1 |}.

(** squared length of the gradient of an equation; its largest value for an 8 bit image *)
Definition gradient2 (r : row) : R := e_x r * e_x r + e_y r * e_y r.
Definition max_gradient2 : R := 2 * 128 * 128.
(** the equation of pixel p, after limiting its residual, enters with factor k *)
Definition counts_with (s : settings) (g : reg) (p : raw) (k : R) : Prop :=
  let r := error_row s g p in let h := huber (huber_th s) (e_b r) in
  final_row s g p = {| e_b := k * fst h; e_x := k * (snd h * e_x r); e_y := k * (snd h * e_y r) |}.
