(** Model of rovio::FeatureSetManager (/repo/include/rovio/FeatureManager.hpp):
    slot allocation (lines 181-229) and addBestCandidates (lines 284-390). *)
From Coq Require Import List ZArith QArith Qround Bool.
From Verif Require Import Util.
Import ListNotations.
Local Open Scope Z_scope.

(** Outcome of a computation that may run into undefined behaviour. [OutOfFuel] is the artefact of
    bounding a while loop; theorems show it does not occur. *)
Inductive res (A : Type) := Ok (a : A) | UB | OutOfFuel.
Arguments Ok {A}. Arguments UB {A}. Arguments OutOfFuel {A}.
Definition rbind {A B} (r : res A) (f : A -> res B) : res B :=
  match r with Ok a => f a | UB => UB | OutOfFuel => OutOfFuel end.

Section Fset.
Context {Patch : Type}.

(** The part of FeatureManager / FeatureCoordinates the set manager writes (lines 353-357):
    idx_, camID_, pixel c_, isWarpIdentity_, the multilevel patch. *)
Record feature := {
  f_idx : Z; f_cam : Z; f_c : Q * Q; f_warpid : bool; f_patch : Patch }.

(** isValid_[nMax], features_[nMax], maxIdx_ (lines 132-134); nMax = length of the list *)
Record slot := { sl_valid : bool; sl_feat : feature }.
Record fset := { fs_slots : list slot; fs_maxIdx : Z }.

(** reset, lines 181-186: the features themselves are kept *)
Definition fs_reset (fs : fset) : fset :=
  {| fs_slots := map (fun s => {| sl_valid := false; sl_feat := sl_feat s |}) (fs_slots fs); fs_maxIdx := 0 |}.

(** getFreeIndex, lines 193-201: lowest index with isValid_ == false *)
Fixpoint free_index (l : list slot) : option nat :=
  match l with
  | [] => None
  | s :: l' => if sl_valid s then option_map S (free_index l') else Some O
  end.

(** getValidCount, lines 207-213 *)
Definition valid_count (fs : fset) : nat := length (filter sl_valid (fs_slots fs)).

Definition set_idx (i : Z) (f : feature) : feature :=
  {| f_idx := i; f_cam := f_cam f; f_c := f_c f; f_warpid := f_warpid f; f_patch := f_patch f |}.

(** makeNewFeature, lines 220-229. [None] = return value -1. *)
Definition make_new (fs : fset) : fset * option nat :=
  match free_index (fs_slots fs) with
  | Some i =>
      ({| fs_slots := upd_nth i (fun s => {| sl_valid := true; sl_feat := set_idx (fs_maxIdx fs) (sl_feat s) |}) (fs_slots fs);
          fs_maxIdx := fs_maxIdx fs + 1 |}, Some i)
  | None => (fs, None)
  end.

(** isValid_[i] = false, as done by the clients of the class *)
Definition invalidate (i : nat) (fs : fset) : fset :=
  {| fs_slots := upd_nth i (fun s => {| sl_valid := false; sl_feat := sl_feat s |}) (fs_slots fs);
     fs_maxIdx := fs_maxIdx fs |}.

Inductive fs_op := FsMake | FsInvalidate (i : nat) | FsReset.
Definition fs_step (fs : fset) (o : fs_op) : fset :=
  match o with
  | FsMake => fst (make_new fs)
  | FsInvalidate i => invalidate i fs
  | FsReset => fs_reset fs
  end.
Definition fs_run (fs : fset) (os : list fs_op) : fset := fold_left fs_step os fs.

(** ** addBestCandidates *)

(** A candidate: pixel, result of the in-frame test at level l2 with border, Shi-Tomasi score computed
    if in frame, extracted patch (lines 294-304). *)
Record cand := { cd_c : Q * Q; cd_in : bool; cd_s : Q; cd_p : Patch }.

(** multilevelPatches[i].s_ after lines 294-304 *)
Definition score (c : cand) : Q := if cd_in c then cd_s c else (-1)%Q.

Definition Qltb' (a b : Q) : bool := if Qlt_le_dec a b then true else false.

(** maxScore, lines 292-300 (only in-frame candidates raise it above the initial -1) *)
Definition max_score (cs : list cand) : Q :=
  fold_left (fun m c => if cd_in c then if Qltb' m (cd_s c) then cd_s c else m else m) cs (-1)%Q.

(** conversion double -> int by truncation; outside the range of int it is undefined *)
Definition Qtrunc (q : Q) : Z := if Qlt_le_dec q 0 then - Qfloor (- q) else Qfloor q.
Definition int_min : Z := - 2 ^ 31.
Definition int_max : Z := 2 ^ 31 - 1.
Definition to_int (q : Q) : option Z :=
  let z := Qtrunc q in if (int_min <=? z) && (z <=? int_max) then Some z else None.
(** conversion double -> unsigned int *)
Definition to_uint (q : Q) : option Z :=
  let z := Qtrunc q in if (0 <=? z) && (z <? 2 ^ 32) then Some z else None.

(** Parameters of one call. [p_pow] stands for pow(.,scoreDetectionExponent) (libm). *)
Record params := {
  p_nb : Z;            (* nDetectionBuckets *)
  p_pow : Q -> Q;
  p_dist : Q;          (* penaltyDistance *)
  p_pen : Q;           (* zeroDistancePenalty *)
  p_max : Z;           (* maxAddedFeature *)
  p_req : bool;        (* requireMax *)
  p_min : Q;           (* minScore *)
  p_cam : Z            (* camID *)
}.

Definition buckets := list (list nat).
Definition bk_in_range (bk : buckets) (b : Z) : bool := (0 <=? b) && (b <? Z.of_nat (length bk)).
Definition bk_get (bk : buckets) (b : Z) : list nat := nth (Z.to_nat b) bk [].
(** unordered_set::insert / erase *)
Definition set_insert (x : nat) (l : list nat) : list nat := if existsb (Nat.eqb x) l then l else x :: l.
Definition set_erase (x : nat) (l : list nat) : list nat := filter (fun y => negb (Nat.eqb y x)) l.
Definition bk_insert (b : Z) (x : nat) (bk : buckets) : res buckets :=
  if bk_in_range bk b then Ok (upd_nth (Z.to_nat b) (set_insert x) bk) else UB.
Definition bk_erase (b : Z) (x : nat) (bk : buckets) : res buckets :=
  if bk_in_range bk b then Ok (upd_nth (Z.to_nat b) (set_erase x) bk) else UB.

(** bucket from score, lines 316-319; division by a positive maxScore-minScore *)
Definition rel_score (p : params) (mx : Q) (c : cand) : Q := (score c - p_min p) / (mx - p_min p).
Definition score_bucket (p : params) (rel : Q) : option Z :=
  match to_uint (inject_Z (Qceiling (inject_Z (p_nb p - 1) * p_pow p rel))) with
  | Some b => Some (if p_nb p - 1 <? b then p_nb p - 1 else b)
  | None => None
  end.

(** lines 314-322 *)
Definition fill_one (p : params) (mx : Q) (rb : res buckets) (ic : nat * cand) : res buckets :=
  rbind rb (fun bk =>
    let rel := rel_score p mx (snd ic) in
    if Qltb' 0 rel then
      match score_bucket p rel with
      | Some b => bk_insert b (fst ic) bk
      | None => UB
      end
    else Ok bk).
Definition fill (p : params) (mx : Q) (cs : list cand) : res buckets :=
  fold_left (fill_one p mx) (combine (seq 0 (length cs)) cs)
            (Ok (repeat [] (Z.to_nat (p_nb p)))).

(** squared distance, lines 337 and 366 *)
Definition dist2 (a b : Q * Q) : Q :=
  ((fst a - fst b) * (fst a - fst b) + (snd a - snd b) * (snd a - snd b))%Q.

Definition t2 (p : params) : Q := (p_dist p * p_dist p)%Q.
(** (t2-d2)/t2*zeroDistancePenalty, lines 339 and 368 *)
Definition penalty (p : params) (pos c : Q * Q) : Q :=
  ((t2 p - dist2 pos c) / t2 p * p_pen p)%Q.
(** newBucketID = max((int)(bucketID - ...),0) *)
Definition new_bucket (p : params) (pos c : Q * Q) (b : Z) : option Z :=
  option_map (fun z => Z.max z 0) (to_int (inject_Z b - penalty p pos c)%Q).

(** loop body for one candidate in bucket [b], lines 335-350 / 364-379 *)
Definition move_one (p : params) (cs : list cand) (pos : Q * Q) (b : Z) (rb : res buckets) (i : nat) : res buckets :=
  rbind rb (fun bk =>
    match nth_error cs i with
    | None => UB
    | Some c =>
      if Qltb' (dist2 pos (cd_c c)) (t2 p) then
        match new_bucket p pos (cd_c c) b with
        | None => UB
        | Some nb =>
          if nb =? b then Ok bk
          else rbind (bk_insert nb i bk) (fun bk1 => bk_erase b i bk1)
        end
      else Ok bk
    end).

(** iteration over the members of bucket [b] at loop entry (insertions go to other buckets) *)
Definition move_bucket (p : params) (cs : list cand) (pos : Q * Q) (rb : res buckets) (b : Z) : res buckets :=
  rbind rb (fun bk => fold_left (move_one p cs pos b) (bk_get bk b) (Ok bk)).

(** for bucketID = 1 .. hi *)
Definition move_all (p : params) (cs : list cand) (pos : Q * Q) (hi : nat) (bk : buckets) : res buckets :=
  fold_left (move_bucket p cs pos) (map Z.of_nat (seq 1 hi)) (Ok bk).

(** pixel of every valid feature that is in front of camera camID, in slot order. [proj] is the result of
    transformFeature into camera camID followed by isInFront and get_c (lines 331-333); [None] = not in front *)
Definition existing (proj : feature -> option (Q * Q)) (fs : fset) : list (Q * Q) :=
  flat_map (fun s => if sl_valid s then match proj (sl_feat s) with Some c => [c] | None => [] end else [])
           (fs_slots fs).

(** stage 1, lines 329-354 *)
Definition penalise_existing (p : params) (cs : list cand) (exist : list (Q * Q)) (bk : buckets) : res buckets :=
  fold_left (fun rb pos => rbind rb (move_all p cs pos (Z.to_nat (p_nb p) - 1))) exist (Ok bk).

(** writing the new feature, lines 361-366 *)
Definition install (p : params) (c : cand) (s : slot) : slot :=
  {| sl_valid := sl_valid s;
     sl_feat := {| f_idx := f_idx (sl_feat s); f_cam := p_cam p; f_c := cd_c c; f_warpid := true; f_patch := cd_p c |} |}.

(** loop state: set, buckets, addedCount, list of (slot, candidate) added, most recent first *)
Record addst := { a_fs : fset; a_bk : buckets; a_cnt : Z; a_new : list (nat * nat) }.

(** *(buckets[bucketID].begin()): [choose k n] picks the position among the n members when k features
    have been added; any function is allowed (unspecified hash order) *)
Definition pick (choose : nat -> nat -> nat) (k : nat) (l : list nat) : option nat :=
  match l with
  | [] => None
  | _ => nth_error l (Nat.modulo (choose k (length l)) (length l))
  end.

(** one iteration of the while loop, lines 357-383; makeNewFeature returning -1 would index
    features_[-1] *)
Definition add_one (p : params) (cs : list cand) (choose : nat -> nat -> nat) (b : nat) (st : addst) : res addst :=
  match pick choose (length (a_new st)) (bk_get (a_bk st) (Z.of_nat b)) with
  | None => UB
  | Some nf =>
    match nth_error cs nf with
    | None => UB
    | Some c =>
      rbind (bk_erase (Z.of_nat b) nf (a_bk st)) (fun bk1 =>
      match make_new (a_fs st) with
      | (_, None) => UB
      | (fs1, Some ind) =>
        let fs2 := {| fs_slots := upd_nth ind (install p c) (fs_slots fs1); fs_maxIdx := fs_maxIdx fs1 |} in
        rbind (move_all p cs (cd_c c) b bk1) (fun bk2 =>
        Ok {| a_fs := fs2; a_bk := bk2; a_cnt := a_cnt st + 1; a_new := (ind, nf) :: a_new st |})
      end)
    end
  end.

Definition nonempty {A} (l : list A) : bool := match l with [] => false | _ => true end.

(** while(!buckets[bucketID].empty() && addedCount < maxAddedFeature && getValidCount() != nMax) *)
Fixpoint add_while (fuel : nat) (p : params) (cs : list cand) (choose : nat -> nat -> nat) (b : nat) (st : addst) : res addst :=
  if nonempty (bk_get (a_bk st) (Z.of_nat b)) && (a_cnt st <? p_max p)
     && negb (Nat.eqb (valid_count (a_fs st)) (length (fs_slots (a_fs st))))
  then match fuel with
       | O => OutOfFuel
       | S k => rbind (add_one p cs choose b st) (add_while k p cs choose b)
       end
  else Ok st.

(** for bucketID = nDetectionBuckets-1 down to 0 + !requireMax, line 357 *)
Definition bucket_order (p : params) : list nat :=
  let n := Z.to_nat (p_nb p) in
  if p_req p then rev (seq 0 n) else rev (seq 1 (n - 1)).

Definition add_loop (p : params) (cs : list cand) (choose : nat -> nat -> nat) (st : addst) : res addst :=
  fold_left (fun rs b => rbind rs (add_while (length cs) p cs choose b)) (bucket_order p) (Ok st).

(** addBestCandidates. Result: new set and the added (slot, candidate index) pairs in order of
    insertion (the C++ returns the set of slots). A negative bucket count throws (std::vector), which
    is reported as UB here. *)
Definition add_best (p : params) (cs : list cand) (proj : feature -> option (Q * Q)) (choose : nat -> nat -> nat) (fs : fset)
  : res (fset * list (nat * nat)) :=
  let mx := max_score cs in
  if Qle_bool mx (p_min p) then Ok (fs, [])
  else if p_nb p <? 0 then UB
  else rbind (fill p mx cs) (fun bk =>
       rbind (penalise_existing p cs (existing proj fs) bk) (fun bk1 =>
       rbind (add_loop p cs choose {| a_fs := fs; a_bk := bk1; a_cnt := 0; a_new := [] |}) (fun st =>
       Ok (a_fs st, rev (a_new st))))).

End Fset.
Arguments feature Patch : clear implicits.
Arguments slot Patch : clear implicits.
Arguments fset Patch : clear implicits.
Arguments cand Patch : clear implicits.
