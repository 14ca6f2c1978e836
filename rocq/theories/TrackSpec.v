(** Vocabulary for C81. *)
From Coq Require Import List ZArith QArith Bool.
From Verif Require Import StatModel FsetModel FsetSpec TrackModel.
Import ListNotations.

(** the tracker before the first image: no live feature *)
Definition blank {Patch} (fs : tset Patch) : Prop := n_live fs = 0%nat /\ fs_maxIdx fs = 0%Z.
(** where the alignment of a feature starts in an image: extrapolated from the current and the
    remembered place if that fits into the image, else the current place *)
Definition start_at {Patch} (fr : frame Patch) (f : feature (memo Patch)) : Q * Q :=
  let (x, y) := f_c f in let (x', y') := k_prev (f_patch f) in
  let p := (x + (3 # 4) * (x - x'), y + (3 # 4) * (y - y')) in if fr_in fr false p then p else (x, y).
Definition same_place (a b : Q * Q) : Prop := fst a == fst b /\ snd a == snd b.
(** feature [f] followed into an image: found at [c], patch taken anew if it fits into the image *)
Definition follows {Patch} (fr : frame Patch) (f g : feature (memo Patch)) : Prop :=
  exists c, fr_align fr (k_patch (f_patch f)) (start_at fr f) = Some c /\ f_c g = c /\ f_idx g = f_idx f /\
    k_patch (f_patch g) = (if fr_in fr true c then fr_extract fr c else k_patch (f_patch f)).
Definition lost {Patch} (fr : frame Patch) (f : feature (memo Patch)) : Prop :=
  fr_align fr (k_patch (f_patch f)) (start_at fr f) = None.
(** a feature made from a candidate *)
Definition made_from {Patch} (cd : cand (memo Patch)) (f : feature (memo Patch)) : Prop := f_c f = cd_c cd /\ k_patch (f_patch f) = k_patch (cd_p cd).
(** number of features found again in an image *)
Definition n_found {Patch} (fr : frame Patch) (fs : tset Patch) : nat :=
  length (filter (fun s => sl_valid s && match fr_align fr (k_patch (f_patch (sl_feat s))) (start_at fr (sl_feat s)) with Some _ => true | None => false end) (fs_slots fs)).
(** parameters as in the tracker: candidates fill up to the maximum *)
Definition tracker_params (cf : tconf) : Prop := sane (t_add cf) /\ p_req (t_add cf) = true /\ (0 <= p_max (t_add cf))%Z.
