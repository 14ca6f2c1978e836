(** Corner scores as single-precision numbers, possibly NaN, in the selection of candidates (addBestCandidates,
    /repo/include/rovio/FeatureManager.hpp 292-320), in the refresh of a feature's patch (/repo/include/rovio/ImgUpdate.hpp
    908-920), in the average score (FeatureManager.hpp 235-246) and in the check for image motion (ImgUpdate.hpp 620).
    Out-of-frame candidates have score -1 (line 300). Which of the candidates in the buckets are added is left open (C06-C09). *)
From Coq Require Import List ZArith Bool.
From Flocq Require Import Core BinarySingleNaN.
From Verif Require Import IeeeModel IscoreModel.
Import ListNotations.
Local Open Scope Z_scope.

(** maxScore, lines 292-302: "if(s_ > maxScore) maxScore = s_" *)
Definition max_score32 (l : list f32) : f32 := fold_left (fun m s => if Bltb m s then s else m) l (f32_of_Z (-1)).
(** relScore, line 312 *)
Definition rel32 (mn mx s : f32) : f32 := div32 (sub32 s mn) (sub32 mx mn).
(** lines 303-305 and 313: the call goes on, and the candidate is put into a bucket *)
Definition picked (mn : f32) (l : list f32) (s : f32) : bool :=
  if Bleb (max_score32 l) mn then false else Bltb zero32 (rel32 mn (max_score32 l) s).

(** ImgUpdate.hpp 914: the patch of a tracked feature is replaced; [mr] is minRelativeSTScore_ *)
Definition refreshes (mn mr old new : f32) : bool := Bleb mn new && Bleb (mul32 mr old) new.

(** stored scores of the valid features, by slot *)
Definition scores := nat -> option f32.
Definition put (st : scores) (i : nat) (v : option f32) : scores := fun j => if Nat.eqb j i then v else st j.
(** what happens to them in an image update: removal of a feature (ImgUpdate.hpp 944, 962), refresh of a patch (908-920),
    addition of candidates, given as the scores of all candidates and the chosen (slot, candidate) pairs *)
Inductive nev := Drop (i : nat) | Refresh (i : nat) (s : f32) | Detect (l : list f32) (ch : list (nat * nat)).
Definition add_one (mn : f32) (l : list f32) (st : scores) (ic : nat * nat) : scores :=
  match nth_error l (snd ic) with
  | Some s => if picked mn l s then put st (fst ic) (Some s) else st
  | None => st
  end.
Definition nstep (mn mr : f32) (st : scores) (e : nev) : scores :=
  match e with
  | Drop i => put st i None
  | Refresh i s => match st i with Some old => if refreshes mn mr old s then put st i (Some s) else st | None => st end
  | Detect l ch => fold_left (add_one mn l) ch st
  end.
Definition nrun (mn mr : f32) (es : list nev) : scores := fold_left (nstep mn mr) es (fun _ => None).

(** std::max(s,0.0f) = (s < 0) ? 0 : s *)
Definition max0 (s : f32) : f32 := if Bltb s zero32 then zero32 else s.
(** getAverageScore over slots 0 .. n-1, lines 235-246 *)
Definition average_score (st : scores) (n : nat) : f32 :=
  let r := fold_left (fun a i => match st i with Some s => (add32 (fst a) (max0 s), snd a + 1) | None => a end) (seq 0 n) (zero32, 0) in
  if 0 <? snd r then div32 (fst r) (f32_of_Z (snd r)) else fst r.

(** ImgUpdate.hpp 620: avgError/std::sqrt(e1_) > pixelCoordinateMotionTh_ *)
Definition moving32 (err e1 th : f32) : bool := Bltb th (div32 err (sqrt32 e1)).

(** the list of candidates of addBestCandidatesNew (unused in the repository), FeatureManager.hpp 417-432: a
    candidate is dropped when "s_ < minScore" *)
Definition kept_new (mn : f32) (l : list f32) : list f32 := filter (fun s => negb (Bltb s mn)) l.
(** isFirstMPBetter, line 393 *)
Definition better (a b : f32) : bool := Bltb b a.
