(** Patch in-frame check and patch extraction (/repo/include/rovio/Patch.hpp:200-304) in IEEE-754
    arithmetic: coordinates, warps, interpolation weights and intensities are single precision numbers
    (with infinities and NaN), sub-expressions with a double literal are evaluated in double precision,
    int operands are converted as C++ does. Rounding is to nearest even. The code is compiled with
    -march=native (/repo/CMakeLists.txt:3), so the compiler may contract a*b+c into a fused
    multiply-add; which of the two products of a sum a*x+b*y is fused, if any, is a parameter. *)
From Coq Require Import List ZArith Bool.
From Flocq Require Import Core BinarySingleNaN.
Import ListNotations.
Local Open Scope Z_scope.

Definition f32 := binary_float 24 128.
Definition g64 := binary_float 53 1024.
Definition p24 : Prec_gt_0 24 := eq_refl.
Definition p128 : Prec_lt_emax 24 128 := eq_refl.
Definition q53 : Prec_gt_0 53 := eq_refl.
Definition q1024 : Prec_lt_emax 53 1024 := eq_refl.

(** change of format: float -> double and double -> float *)
Definition fconv {p e} (p' e' : Z) (hp : Prec_gt_0 p') (he : Prec_lt_emax p' e') (x : binary_float p e) : binary_float p' e' :=
  match x with
  | B754_zero s => B754_zero s
  | B754_infinity s => B754_infinity s
  | B754_nan => B754_nan
  | B754_finite s m k _ => binary_normalize p' e' hp he mode_NE (cond_Zopp s (Zpos m)) k s
  end.
Definition widen (x : f32) : g64 := fconv 53 1024 q53 q1024 x.
Definition narrow (x : g64) : f32 := fconv 24 128 p24 p128 x.
(** int -> float and int -> double *)
Definition f32_of_Z (z : Z) : f32 := binary_normalize 24 128 p24 p128 mode_NE z 0 false.
Definition g64_of_Z (z : Z) : g64 := binary_normalize 53 1024 q53 q1024 mode_NE z 0 false.
(** the literals 0.5 and 1.0 *)
Definition half64 : g64 := binary_normalize 53 1024 q53 q1024 mode_NE 1 (-1) false.
Definition one64 : g64 := g64_of_Z 1.

Definition mul32 (x y : f32) : f32 := @Bmult 24 128 p24 p128 mode_NE x y.
Definition add32 (x y : f32) : f32 := @Bplus 24 128 p24 p128 mode_NE x y.
Definition sub32 (x y : f32) : f32 := @Bminus 24 128 p24 p128 mode_NE x y.
Definition fma32 (x y z : f32) : f32 := @Bfma 24 128 p24 p128 mode_NE x y z.
Definition mul64 (x y : g64) : g64 := @Bmult 53 1024 q53 q1024 mode_NE x y.
Definition add64 (x y : g64) : g64 := @Bplus 53 1024 q53 q1024 mode_NE x y.
Definition sub64 (x y : g64) : g64 := @Bminus 53 1024 q53 q1024 mode_NE x y.

(** "const int u_r = floor(x)": the floor of a finite number; converting it to int is undefined
    ([None]) outside the range of int and for infinities and NaN *)
Definition floor32 (x : f32) : option Z :=
  match x with
  | B754_zero _ => Some 0
  | B754_finite s m k _ =>
      let z := if 0 <=? k then cond_Zopp s (Zpos m) * 2 ^ k else cond_Zopp s (Zpos m) / 2 ^ (- k) in
      if (-2147483648 <=? z) && (z <=? 2147483647) then Some z else None
  | _ => None
  end.

(** 8-bit image; a read outside is [None] (undefined behaviour: raw pointers) *)
Record bimage := { bcols : Z; brows : Z; bpix : Z -> Z -> Z }.
Definition brd (im : bimage) (u v : Z) : option Z :=
  if (0 <=? u) && (u <? bcols im) && (0 <=? v) && (v <? brows im) then Some (bpix im u v) else None.
Definition obind {A B} (x : option A) (f : A -> option B) : option B := match x with Some a => f a | None => None end.

(** warp_c_ (Matrix2f), row major *)
Record fwarp := { fw00 : f32; fw01 : f32; fw10 : f32; fw11 : f32 }.

(** a*x + b*y: no contraction, or one of the two products fused into the sum *)
Inductive contraction := Plain | FuseFirst | FuseSecond.
Definition dot32 (k : contraction) (a x b y : f32) : f32 :=
  match k with
  | Plain => add32 (mul32 a x) (mul32 b y)
  | FuseFirst => fma32 a x (mul32 b y)
  | FuseSecond => fma32 b y (mul32 a x)
  end.
(** s += w*p: two roundings, or one if contracted *)
Definition acc32 (fuse : bool) (s w p : f32) : f32 := if fuse then fma32 w p s else add32 s (mul32 w p).

(** "const float dx = x - halfpatch_size + 0.5", lines 211-212 and 276-277 (int, then double, then float) *)
Definition offset32 (half x : Z) : f32 := narrow (add64 (g64_of_Z (x - half)) half64).
(** "c.x + wdx - 0.5", lines 213-216 and 278-281: float sum, double difference, float result *)
Definition place32 (k : contraction) (a b c : f32) (half x y : Z) : f32 :=
  narrow (sub64 (widen (add32 c (dot32 k a (offset32 half x) b (offset32 half y)))) half64).

(** half of the patch edge, lines 202 and 242 *)
Definition half_edge (n : nat) (border : bool) : Z := Z.of_nat (Nat.div2 n) + (if border then 1 else 0).

(** isPatchInFrame, identity warp, lines 203-208: comparisons float < int; with a NaN all are false *)
Definition accept_id (im : bimage) (half : Z) (cx cy : f32) : bool :=
  negb (Bltb cx (f32_of_Z half) || Bltb cy (f32_of_Z half)
        || Bltb (f32_of_Z (bcols im - half)) cx || Bltb (f32_of_Z (brows im - half)) cy).

(** one corner, lines 211-221 *)
Definition corner32 (k : contraction) (im : bimage) (w : fwarp) (cx cy : f32) (half x y : Z) : option bool :=
  obind (floor32 (place32 k (fw00 w) (fw01 w) cx half x y)) (fun ur =>
  obind (floor32 (place32 k (fw10 w) (fw11 w) cy half x y)) (fun vr =>
  Some (negb ((ur <? 0) || (vr <? 0) || (bcols im - 1 <=? ur) || (brows im - 1 <=? vr))))).
(** the loops of lines 209-225 visit x,y in {0, 2*half-1}, and nothing for an empty patch; the first
    corner outside ends them *)
Definition corners (half : Z) : list (Z * Z) :=
  if half <=? 0 then [] else let m := 2 * half - 1 in [(0, 0); (m, 0); (0, m); (m, m)].
Fixpoint all_corners (f : Z -> Z -> option bool) (l : list (Z * Z)) : option bool :=
  match l with
  | [] => Some true
  | (x, y) :: r => obind (f x y) (fun b => if b then all_corners f r else Some false)
  end.

(** isPatchInFrame, lines 200-230, of a coordinate in front of the camera whose warp is available;
    [ident]: isNearIdentityWarping. [None]: undefined conversion to int. *)
Definition accepts (k : contraction) (n : nat) (im : bimage) (ident : bool) (w : fwarp) (cx cy : f32) (border : bool) : option bool :=
  let half := half_edge n border in
  if ident then Some (accept_id im half cx cy) else all_corners (corner32 k im w cx cy half) (corners half).

(** lines 257-271 and 284-297: weights and weighted sum; [sx],[sy] are the fractional parts *)
Definition zero32 : f32 := f32_of_Z 0.
Definition weightTL (sx sy : f32) : f32 := narrow (mul64 (sub64 one64 (widen sx)) (sub64 one64 (widen sy))).
Definition weightTR (sx sy : f32) : f32 := narrow (mul64 (widen sx) (sub64 one64 (widen sy))).
Definition weightBL (sx sy : f32) : f32 := narrow (mul64 (sub64 one64 (widen sx)) (widen sy)).
Definition weightBR (sx sy : f32) : f32 := mul32 sx sy.
Definition add_pixel (fuse : bool) (im : bimage) (u v : Z) (w : f32) (cond : bool) (s : f32) : option f32 :=
  if cond then obind (brd im u v) (fun p => Some (acc32 fuse s w (f32_of_Z p))) else Some s.
Definition blend (fuse : bool) (im : bimage) (ur vr : Z) (sx sy : f32) : option f32 :=
  let px := Bltb zero32 sx in let py := Bltb zero32 sy in
  obind (brd im ur vr) (fun p =>
  obind (add_pixel fuse im (ur + 1) vr (weightTR sx sy) px (mul32 (weightTL sx sy) (f32_of_Z p))) (fun s1 =>
  obind (add_pixel fuse im ur (vr + 1) (weightBL sx sy) py s1) (fun s2 =>
  add_pixel fuse im (ur + 1) (vr + 1) (weightBR sx sy) (px && py) s2))).

(** one patch pixel with identity warp, lines 252-272 *)
Definition pixel_id (fuse : bool) (im : bimage) (half : Z) (cx cy : f32) (x y : Z) : option f32 :=
  obind (floor32 cx) (fun ur =>
  obind (floor32 cy) (fun vr =>
  blend fuse im (ur - half + x) (vr + y - half) (sub32 cx (f32_of_Z ur)) (sub32 cy (f32_of_Z vr)))).
(** one patch pixel with a general warp, lines 276-297 *)
Definition pixel_warp (k : contraction) (fuse : bool) (im : bimage) (w : fwarp) (half : Z) (cx cy : f32) (x y : Z) : option f32 :=
  let u := place32 k (fw00 w) (fw01 w) cx half x y in
  let v := place32 k (fw10 w) (fw11 w) cy half x y in
  obind (floor32 u) (fun ur =>
  obind (floor32 v) (fun vr =>
  blend fuse im ur vr (sub32 u (f32_of_Z ur)) (sub32 v (f32_of_Z vr)))).

(** extractPatchFromImage, lines 240-300: the patch pixels in the order of the loops; [None] as soon as
    something undefined happens. (For an empty patch of a NaN coordinate the conversions of lines
    253-254 would be undefined too; patches are not empty.) *)
Definition zupto (k : Z) : list Z := map Z.of_nat (seq 0 (Z.to_nat k)).
Fixpoint collect {A} (l : list (option A)) : option (list A) :=
  match l with
  | [] => Some []
  | None :: _ => None
  | Some a :: r => obind (collect r) (fun b => Some (a :: b))
  end.
Definition extracts (k : contraction) (fuse : bool) (n : nat) (im : bimage) (ident : bool) (w : fwarp) (cx cy : f32) (border : bool)
  : option (list f32) :=
  let half := half_edge n border in
  collect (flat_map (fun y => map (fun x =>
     if ident then pixel_id fuse im half cx cy x y else pixel_warp k fuse im w half cx cy x y) (zupto (2 * half))) (zupto (2 * half))).
