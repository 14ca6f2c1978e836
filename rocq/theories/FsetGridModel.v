(** Model of rovio::FeatureSetManager::addBestCandidatesNew
    (/repo/include/rovio/FeatureManager.hpp lines 396-486), the grid-based variant. *)
From Coq Require Import List ZArith QArith Qround Bool.
From Verif Require Import Util FsetModel.
Import ListNotations.
Local Open Scope Z_scope.

Section Grid.
Context {Patch : Type}.
Notation fset := (fset Patch).
Notation cand := (cand Patch).

(** image size of pyramid level 0, camID, maxAddedFeature, minScore, penaltyDistance and the weight added
    at cell offset (dx,dy): max(1-sqrt(dx*dx+dy*dy)/penaltyDistance,0)*zeroDistancePenalty (lines 449, 478;
    kept abstract because of the square root) *)
Record gparams := {
  g_cols : Z; g_rows : Z; g_cam : Z; g_max : Z; g_min : Q; g_dist : Q; g_w : Z -> Z -> Q }.

(** lines 402-406; integer division of non-negative numbers *)
Definition ncx (g : gparams) : Z := (g_cols g - 1) / 10 + 1.
Definition ncy (g : gparams) : Z := (g_rows g - 1) / 10 + 1.
Definition ncell (g : gparams) : Z := ncx g * ncy g.

(** double weight[nCell], lines 408-413 *)
Definition weights := list Q.
Definition wt_get (w : weights) (i : Z) : option Q := if 0 <=? i then nth_error w (Z.to_nat i) else None.
Definition wt_add (w : weights) (i : Z) (q : Q) : res weights :=
  if (0 <=? i) && (i <? Z.of_nat (length w)) then Ok (upd_nth (Z.to_nat i) (fun x => x + q)%Q w) else UB.

Definition zrange (a b : Z) : list Z := map (fun k => a + Z.of_nat k) (seq 0 (Z.to_nat (b - a))).

(** the double loop of lines 447-451 and 476-480 *)
Definition add_weights (g : gparams) (nr xc yc : Z) (w : weights) : res weights :=
  fold_left (fun rw x =>
    fold_left (fun rw y => rbind rw (fun w => wt_add w (x * ncy g + y) (g_w g (x - xc) (y - yc))))
              (zrange (Z.max (yc - nr) 0) (Z.min (yc + nr + 1) (ncy g))) rw)
    (zrange (Z.max (xc - nr) 0) (Z.min (xc + nr + 1) (ncx g))) (Ok w).

(** const int xc = c.x/cellSize; c is a Point2f *)
Definition cell_coord (q : Q) : option Z := to_int (q / 10)%Q.

(** an entry of the list: candidate index, candidate, cell *)
Record entry := { e_i : nat; e_c : cand; e_b : Z }.

(** lines 418-433: keep in-frame candidates with score not below minScore *)
Definition collect (g : gparams) (cs : list cand) : res (list entry) :=
  fold_left (fun rl ic => rbind rl (fun l =>
    let c := snd ic in
    if cd_in c && negb (Qltb' (cd_s c) (g_min g)) then
      match cell_coord (fst (cd_c c)), cell_coord (snd (cd_c c)) with
      | Some xc, Some yc => Ok (l ++ [{| e_i := fst ic; e_c := c; e_b := xc * ncy g + yc |}])
      | _, _ => UB
      end
    else Ok l)) (combine (seq 0 (length cs)) cs) (Ok []).

(** std::list::sort with isFirstMPBetter (lines 392-394, 439): the stable sort by decreasing score *)
Fixpoint ins (e : entry) (l : list entry) : list entry :=
  match l with
  | [] => [e]
  | d :: l' => if Qltb' (cd_s (e_c e)) (cd_s (e_c d)) then d :: ins e l' else e :: l
  end.
Definition sort (l : list entry) : list entry := fold_right ins [] l.

(** lines 441-456: weights of the valid features, [proj] as in addBestCandidates *)
Definition weigh_existing (g : gparams) (nr : Z) (ex : list (Q * Q)) (w : weights) : res weights :=
  fold_left (fun rw pos => rbind rw (fun w =>
    match cell_coord (fst pos), cell_coord (snd pos) with
    | Some xc, Some yc => add_weights g nr xc yc w
    | _, _ => UB
    end)) ex (Ok w).

Definition g_install (g : gparams) (c : cand) (s : slot Patch) : slot Patch :=
  {| sl_valid := sl_valid s;
     sl_feat := {| f_idx := f_idx (sl_feat s); f_cam := g_cam g; f_c := cd_c c; f_warpid := true; f_patch := cd_p c |} |}.

(** lines 459-484. There is no test for a full set: makeNewFeature returning -1 makes the next
    statement index features_[-1]. *)
Fixpoint grid_loop (g : gparams) (nr : Z) (es : list entry) (fs : fset) (w : weights) (cnt : Z) (news : list (nat * nat))
  : res (fset * list (nat * nat)) :=
  match es with
  | [] => Ok (fs, rev news)
  | e :: es' =>
    if cnt <? g_max g then
      match wt_get w (e_b e) with
      | None => UB
      | Some q =>
        if Qltb' q 100 then
          match make_new fs with
          | (_, None) => UB
          | (fs1, Some ind) =>
            let fs2 := {| fs_slots := upd_nth ind (g_install g (e_c e)) (fs_slots fs1); fs_maxIdx := fs_maxIdx fs1 |} in
            rbind (add_weights g nr (e_b e / ncy g) (e_b e mod ncy g) w) (fun w1 =>
            grid_loop g nr es' fs2 w1 (cnt + 1) ((ind, e_i e) :: news))
          end
        else grid_loop g nr es' fs w cnt news
      end
    else Ok (fs, rev news)
  end.

Definition add_best_new (g : gparams) (cs : list cand) (proj : feature Patch -> option (Q * Q)) (fs : fset)
  : res (fset * list (nat * nat)) :=
  match to_int (g_dist g / 10)%Q with
  | None => UB
  | Some nr =>
    if ncell g <? 1 then UB (* array of non-positive size *)
    else rbind (collect g cs) (fun l =>
      match l with
      | [] => Ok (fs, [])
      | _ => rbind (weigh_existing g nr (existing proj fs) (repeat 0%Q (Z.to_nat (ncell g)))) (fun w =>
             grid_loop g nr (sort l) fs w 0 [])
      end)
  end.

End Grid.
Arguments entry Patch : clear implicits.
