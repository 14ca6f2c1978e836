(** Bucket indices of addBestCandidates in IEEE-754 arithmetic (/repo/include/rovio/FeatureManager.hpp 308-318 and 320-385).
    What pow returns is a parameter. The unqualified pow of line 314 is the float or the double overload. *)
From Coq Require Import ZArith Bool.
From Flocq Require Import Core BinarySingleNaN.
From Verif Require Import IeeeModel StampModel.
Local Open Scope Z_scope.

(** std::ceil, as an integer; [None] for infinities and NaN *)
Definition bceil {p e} (x : binary_float p e) : option Z :=
  match x with
  | B754_zero _ => Some 0
  | B754_finite s m k _ => Some (if 0 <=? k then cond_Zopp s (Zpos m) * 2 ^ k else - (- cond_Zopp s (Zpos m) / 2 ^ (- k)))
  | _ => None
  end.
(** conversion to int: towards zero *)
Definition btrunc {p e} (x : binary_float p e) : option Z :=
  match x with
  | B754_zero _ => Some 0
  | B754_finite s m k _ => Some (if 0 <=? k then cond_Zopp s (Zpos m) * 2 ^ k else Z.quot (cond_Zopp s (Zpos m)) (2 ^ (- k)))
  | _ => None
  end.
(** conversions to unsigned int and int are undefined ([None]) out of range *)
Definition to_u32 (z : Z) : option Z := if (0 <=? z) && (z <? 4294967296) then Some z else None.
Definition to_i32 (z : Z) : option Z := if (-2147483648 <=? z) && (z <=? 2147483647) then Some z else None.

(** result of pow: float or double *)
Inductive powered := PowF (p : f32) | PowD (p : g64).
(** newBucketID of a candidate, lines 314-315; [nb] is nDetectionBuckets *)
Definition score_bucket (nb : Z) (p : powered) : option Z :=
  let c := match p with
    | PowF p => bceil (mul32 (f32_of_Z (nb - 1)) p)
    | PowD p => bceil (mul64 (g64_of_Z (nb - 1)) p)
    end in
  obind c (fun z => obind (to_u32 z) (fun b => Some (if nb - 1 <? b then nb - 1 else b))).

(** newBucketID after a move, lines 334 and 367: bucketID - (t2-d2)/t2*zeroDistancePenalty, possibly contracted *)
Definition moved_bucket (fuse : bool) (t2 d2 pen : g64) (b : Z) : option Z :=
  let q := div64 (sub64 t2 d2) t2 in
  let x := if fuse then fma64 (Bopp q) pen (g64_of_Z b) else sub64 (g64_of_Z b) (mul64 q pen) in
  obind (btrunc x) (fun z => obind (to_i32 z) (fun i => Some (Z.max i 0))).
(** lines 333-343: the bucket of a candidate after the comparison with a feature at squared distance [d2] *)
Definition compare_bucket (fuse : bool) (t2 pen : g64) (b : Z) (d2 : g64) : option Z :=
  if Bltb d2 t2 then moved_bucket fuse t2 d2 pen b else Some b.
(** a candidate is compared with existing and with newly added features while its bucket is not 0
    (lines 330 and 362): its bucket after all comparisons *)
Fixpoint compare_all (fuse : bool) (t2 pen : g64) (b : Z) (ds : list g64) : option Z :=
  match ds with
  | nil => Some b
  | cons d ds => if b <? 1 then Some b else obind (compare_bucket fuse t2 pen b d) (fun b' => compare_all fuse t2 pen b' ds)
  end.
