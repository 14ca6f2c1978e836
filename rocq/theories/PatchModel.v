(** Model of patch extraction of rovio::Patch (/repo/include/rovio/Patch.hpp) over the rationals.
    [rnd] stands for the rounding of intermediate coordinate computations to float; intensities and
    interpolation weights are exact. Conversions of floor(..) to int are assumed not to overflow. *)
From Coq Require Import List ZArith QArith Qround Bool.
Import ListNotations.
Local Open Scope Q_scope.

(** cv::Mat as used by the code: size and pixel (column u, row v); a read outside is [None] (undefined
    behaviour: img_ptr is a raw pointer) *)
Record image := { cols : Z; rows : Z; pix : Z -> Z -> Q }.
Definition rd (im : image) (u v : Z) : option Q :=
  if (0 <=? u)%Z && (u <? cols im)%Z && (0 <=? v)%Z && (v <? rows im)%Z then Some (pix im u v) else None.

Definition bind {A B} (x : option A) (f : A -> option B) : option B := match x with Some a => f a | None => None end.

(** affine warp matrix, row major *)
Record warp := { w00 : Q; w01 : Q; w10 : Q; w11 : Q }.

(** Qlt as a boolean *)
Definition Qltb (a b : Q) : bool := negb (Qle_bool b a).

(** half of the patch edge, lines 202, 242: patchSize/2 + (int)withBorder *)
Definition half_size (n : nat) (b : bool) : Z := (Z.of_nat (Nat.div2 n) + (if b then 1 else 0))%Z.

(** interpolation of lines 264-272 (same as lines 285-297): [ur],[vr] top left pixel, [sx],[sy]
    fractional parts; the neighbours are read only for positive fractional parts *)
Definition bilinear (im : image) (ur vr : Z) (sx sy : Q) : option Q :=
  bind (rd im ur vr) (fun p0 =>
  bind (if Qltb 0 sx then bind (rd im (ur + 1) vr) (fun p => Some (sx * (1 - sy) * p)) else Some 0) (fun a1 =>
  bind (if Qltb 0 sy then bind (rd im ur (vr + 1)) (fun p => Some ((1 - sx) * sy * p)) else Some 0) (fun a2 =>
  bind (if Qltb 0 sx && Qltb 0 sy then bind (rd im (ur + 1) (vr + 1)) (fun p => Some (sx * sy * p)) else Some 0) (fun a3 =>
  Some ((1 - sx) * (1 - sy) * p0 + a1 + a2 + a3))))).

Definition zrange (k : Z) : list Z := map Z.of_nat (seq 0 (Z.to_nat k)).
Fixpoint seqo {A} (l : list (option A)) : option (list A) :=
  match l with
  | [] => Some []
  | None :: _ => None
  | Some a :: r => match seqo r with Some b => Some (a :: b) | None => None end
  end.
(** the double loop "for y, for x" with row-major output *)
Definition grid {A} (k : Z) (f : Z -> Z -> option A) : option (list A) :=
  seqo (flat_map (fun y => map (fun x => f x y) (zrange k)) (zrange k)).

Section Rounded.
Variable rnd : Q -> Q.

(** sampled position of patch pixel (x,y) under a warp: lines 211-216 and 276-281 *)
Definition sample_x (w : warp) (cx : Q) (half x y : Z) : Q :=
  let dx := inject_Z (x - half) + (1 # 2) in let dy := inject_Z (y - half) + (1 # 2) in
  let wdx := rnd (rnd (w00 w * dx) + rnd (w01 w * dy)) in
  rnd (rnd (cx + wdx) - (1 # 2)).
Definition sample_y (w : warp) (cy : Q) (half x y : Z) : Q :=
  let dx := inject_Z (x - half) + (1 # 2) in let dy := inject_Z (y - half) + (1 # 2) in
  let wdy := rnd (rnd (w10 w * dx) + rnd (w11 w * dy)) in
  rnd (rnd (cy + wdy) - (1 # 2)).

(** isPatchInFrame, identity warp, lines 203-208; coordinates are [None] when not a number, in which
    case every comparison is false *)
Definition ltn (a : option Q) (b : Q) : bool := match a with Some x => Qltb x b | None => false end.
Definition gtn (a : option Q) (b : Q) : bool := match a with Some x => Qltb b x | None => false end.
Definition in_frame_id (im : image) (half : Z) (cx cy : option Q) : bool :=
  negb (ltn cx (inject_Z half) || ltn cy (inject_Z half)
        || gtn cx (inject_Z (cols im - half)) || gtn cy (inject_Z (rows im - half))).

(** isPatchInFrame, general warp, lines 209-225: only the corners x,y in {0, 2*half-1} *)
Definition corner_ok (im : image) (w : warp) (cx cy : Q) (half x y : Z) : bool :=
  let ur := Qfloor (sample_x w cx half x y) in let vr := Qfloor (sample_y w cy half x y) in
  negb ((ur <? 0)%Z || (vr <? 0)%Z || (cols im - 1 <=? ur)%Z || (rows im - 1 <=? vr)%Z).
Definition in_frame_warp (im : image) (w : warp) (cx cy : Q) (half : Z) : bool :=
  let m := (2 * half - 1)%Z in
  corner_ok im w cx cy half 0 0 && corner_ok im w cx cy half m 0 &&
  corner_ok im w cx cy half 0 m && corner_ok im w cx cy half m m.

(** extractPatchFromImage, identity warp, lines 252-273. A NaN coordinate is undefined behaviour
    (conversion of floor(NaN) to int). *)
Definition extract_id (im : image) (half : Z) (cx cy : option Q) : option (list Q) :=
  match cx, cy with
  | Some x, Some y =>
    let ur := Qfloor x in let vr := Qfloor y in
    let sx := rnd (x - inject_Z ur) in let sy := rnd (y - inject_Z vr) in
    grid (2 * half) (fun px py => bilinear im (ur - half + px) (vr + py - half) sx sy)
  | _, _ => None
  end.

(** extractPatchFromImage, general warp, lines 274-299 *)
Definition extract_warp (im : image) (w : warp) (cx cy : Q) (half : Z) : option (list Q) :=
  grid (2 * half) (fun px py =>
    let u := sample_x w cx half px py in let v := sample_y w cy half px py in
    let ur := Qfloor u in let vr := Qfloor v in
    bilinear im ur vr (rnd (u - inject_Z ur)) (rnd (v - inject_Z vr))).

End Rounded.

(** isPatchInFrame / extractPatchFromImage as a whole (lines 200-304) for a coordinate whose warp is
    available; [ident] is the result of isNearIdentityWarping *)
Definition in_frame (rnd : Q -> Q) (n : nat) (im : image) (ident : bool) (w : warp) (cx cy : Q) (b : bool) : bool :=
  if ident then in_frame_id im (half_size n b) (Some cx) (Some cy) else in_frame_warp rnd im w cx cy (half_size n b).
Definition extract (rnd : Q -> Q) (n : nat) (im : image) (ident : bool) (w : warp) (cx cy : Q) (b : bool) : option (list Q) :=
  if ident then extract_id rnd im (half_size n b) (Some cx) (Some cy) else extract_warp rnd im w cx cy (half_size n b).

(** extractPatchFromPatchWithBorder, lines 106-114: rows y = 1..n of the (n+2)-wide array *)
Definition inner_patch (n : nat) (border : list Q) : list Q :=
  flat_map (fun y => firstn n (skipn (y * (n + 2) + 1) border)) (seq 1 n).
