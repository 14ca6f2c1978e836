(** Model of the lazy caches of rovio::FeatureCoordinates (/repo/src/FeatureCoordinates.cpp).
    Pixels, bearings and 2x2 matrices are abstract; the camera is a pair of arbitrary maps and a
    Jacobian (Camera.cpp is modelled separately). The cast of the pixel warp to float is ignored. *)
From Coq Require Import List Bool.
Import ListNotations.

Section Coord.
Context {Pix Bea Mat : Type}.
Variables (mI m0 : Mat) (mul : Mat -> Mat -> Mat) (minv : Mat -> option Mat).

(** What FeatureCoordinates uses of a camera (Camera.cpp lines 246-337):
    bearingToPixel (None = false), pixelToBearing (success flag and the bearing written, which is
    written even on failure, lines 333-338), the 2x2 Jacobian of bearingToPixel. *)
Record camera := {
  to_pixel : Bea -> option Pix;
  to_bearing : Pix -> bool * Bea;
  jac : Bea -> Mat }.

(** FeatureCoordinates.hpp lines 72-97 (members used by the caches) *)
Record fc := {
  c_ : Pix; valid_c : bool; nor_ : Bea; valid_nor : bool; cam_ : option camera;
  warp_c : Mat; valid_wc : bool; warp_nor : Mat; valid_wn : bool; wid : bool; track : bool }.

Definition with_c (p : Pix) (v : bool) (s : fc) : fc :=
  {| c_ := p; valid_c := v; nor_ := nor_ s; valid_nor := valid_nor s; cam_ := cam_ s;
     warp_c := warp_c s; valid_wc := valid_wc s; warp_nor := warp_nor s; valid_wn := valid_wn s; wid := wid s; track := track s |}.
Definition with_nor (n : Bea) (v : bool) (s : fc) : fc :=
  {| c_ := c_ s; valid_c := valid_c s; nor_ := n; valid_nor := v; cam_ := cam_ s;
     warp_c := warp_c s; valid_wc := valid_wc s; warp_nor := warp_nor s; valid_wn := valid_wn s; wid := wid s; track := track s |}.
Definition with_warp (wc : Mat) (vc : bool) (wn : Mat) (vn : bool) (i : bool) (s : fc) : fc :=
  {| c_ := c_ s; valid_c := valid_c s; nor_ := nor_ s; valid_nor := valid_nor s; cam_ := cam_ s;
     warp_c := wc; valid_wc := vc; warp_nor := wn; valid_wn := vn; wid := i; track := track s |}.
Definition with_cam (c : option camera) (s : fc) : fc :=
  {| c_ := c_ s; valid_c := valid_c s; nor_ := nor_ s; valid_nor := valid_nor s; cam_ := c;
     warp_c := warp_c s; valid_wc := valid_wc s; warp_nor := warp_nor s; valid_wn := valid_wn s; wid := wid s; track := track s |}.
Definition with_track (b : bool) (s : fc) : fc :=
  {| c_ := c_ s; valid_c := valid_c s; nor_ := nor_ s; valid_nor := valid_nor s; cam_ := cam_ s;
     warp_c := warp_c s; valid_wc := valid_wc s; warp_nor := warp_nor s; valid_wn := valid_wn s; wid := wid s; track := b |}.

(** set_warp_identity, lines 166-171 *)
Definition set_warp_identity (s : fc) : fc := with_warp mI true (warp_nor s) false true s.

(** resetCoordinates, lines 34-39 (camID_ not modelled) *)
Definition reset_coordinates (s : fc) : fc :=
  set_warp_identity (with_nor (nor_ s) false (with_c (c_ s) false s)).

(** constructor, lines 5-9; [p], [n], [w] stand for uninitialised members *)
Definition mk_fc (p : Pix) (n : Bea) (w : Mat) : fc :=
  reset_coordinates {| c_ := p; valid_c := false; nor_ := n; valid_nor := false; cam_ := None;
                       warp_c := w; valid_wc := false; warp_nor := w; valid_wn := false; wid := false; track := false |}.

(** com_c, lines 41-49. [None] = failed assertion on a null camera. *)
Definition com_c (s : fc) : option (fc * bool) :=
  if valid_c s then Some (s, true)
  else match cam_ s with
       | None => None
       | Some k =>
         if valid_nor s then
           match to_pixel k (nor_ s) with
           | Some p => Some (with_c p true s, true)
           | None => Some (s, false)
           end
         else Some (s, false)
       end.

(** com_nor, lines 58-66 *)
Definition com_nor (s : fc) : option (fc * bool) :=
  if valid_nor s then Some (s, true)
  else match cam_ s with
       | None => None
       | Some k =>
         if valid_c s then
           let (ok, n) := to_bearing k (c_ s) in Some (with_nor n ok s, ok)
         else Some (s, false)
       end.

(** get_J, lines 75-82: reprojects into c_ (valid flag untouched); zero matrix on failure *)
Definition get_J (s : fc) : option (fc * Mat) :=
  match cam_ s with
  | None => None
  | Some k =>
    match com_nor s with
    | None => None
    | Some (s1, _) =>
      match to_pixel k (nor_ s1) with
      | Some p => Some (with_c p (valid_c s1) s1, jac k (nor_ s1))
      | None => Some (s1, m0)
      end
    end
  end.

(** set_c, lines 84-92 *)
Definition drop_warp (reset : bool) (s : fc) : fc :=
  if track s && reset then with_warp (warp_c s) false (warp_nor s) false (wid s) s else s.
Definition set_c (p : Pix) (reset : bool) (s : fc) : fc :=
  drop_warp reset (with_nor (nor_ s) false (with_c p true s)).
(** set_nor, lines 94-102 *)
Definition set_nor (n : Bea) (reset : bool) (s : fc) : fc :=
  drop_warp reset (with_c (c_ s) false (with_nor n true s)).

(** com_warp_c, lines 104-113; [&&] is lazy *)
Definition com_warp_c (s : fc) : option (fc * bool) :=
  if valid_wc s then Some (s, true)
  else if valid_wn s then
    match com_c s with
    | None => None
    | Some (s1, false) => Some (s1, false)
    | Some (s1, true) =>
      match com_nor s1 with
      | None => None
      | Some (s2, false) => Some (s2, false)
      | Some (s2, true) =>
        match get_J s2 with
        | None => None
        | Some (s3, J) => Some (with_warp (mul J (warp_nor s3)) true (warp_nor s3) (valid_wn s3) (wid s3) s3, true)
        end
      end
    end
  else Some (s, false).

(** com_warp_nor, lines 122-134 *)
Definition com_warp_nor (s : fc) : option (fc * bool) :=
  if valid_wn s then Some (s, true)
  else if valid_wc s then
    match com_c s with
    | None => None
    | Some (s1, false) => Some (s1, false)
    | Some (s1, true) =>
      match com_nor s1 with
      | None => None
      | Some (s2, false) => Some (s2, false)
      | Some (s2, true) =>
        match get_J s2 with
        | None => None
        | Some (s3, J) =>
          match minv J with
          | Some Ji => Some (with_warp (warp_c s3) (valid_wc s3) (mul Ji (warp_c s3)) true (wid s3) s3, true)
          | None => Some (s3, false)
          end
        end
      end
    end
  else Some (s, false).

(** set_warp_c / set_warp_nor, lines 152-164 *)
Definition set_warp_c (w : Mat) (s : fc) : fc := with_warp w true (warp_nor s) false false s.
Definition set_warp_nor (w : Mat) (s : fc) : fc := with_warp (warp_c s) false w true false s.

(** operations; [OCam] / [OTrack] are the direct member assignments mpCamera_ = ..., trackWarping_ = ... *)
Inductive op :=
| OReset | OGetC | OGetNor | OGetJ
| OSetC (p : Pix) (reset : bool) | OSetNor (n : Bea) (reset : bool)
| OGetWarpC | OGetWarpNor | OSetWarpC (w : Mat) | OSetWarpNor (w : Mat) | OSetWarpId
| OTrack (b : bool) | OCam (k : camera).

Definition step (s : fc) (o : op) : option fc :=
  match o with
  | OReset => Some (reset_coordinates s)
  | OGetC => option_map fst (com_c s)
  | OGetNor => option_map fst (com_nor s)
  | OGetJ => option_map fst (get_J s)
  | OSetC p r => Some (set_c p r s)
  | OSetNor n r => Some (set_nor n r s)
  | OGetWarpC => option_map fst (com_warp_c s)
  | OGetWarpNor => option_map fst (com_warp_nor s)
  | OSetWarpC w => Some (set_warp_c w s)
  | OSetWarpNor w => Some (set_warp_nor w s)
  | OSetWarpId => Some (set_warp_identity s)
  | OTrack b => Some (with_track b s)
  | OCam k => Some (with_cam (Some k) s)
  end.
Fixpoint run (s : fc) (os : list op) : option fc :=
  match os with
  | [] => Some s
  | o :: os' => match step s o with Some s1 => run s1 os' | None => None end
  end.

(** isNearIdentityWarping, lines 177-179, with the matrix test [near] as a parameter *)
Definition near_identity (near : Mat -> bool) (s : fc) : option (fc * bool) :=
  if wid s then Some (s, true)
  else match com_warp_c s with
       | None => None
       | Some (s1, ok) => Some (s1, ok && near (warp_c s1))
       end.
End Coord.
Arguments camera : clear implicits.
Arguments fc : clear implicits.
Arguments op : clear implicits.
