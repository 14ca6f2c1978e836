(** Specification vocabulary for the feature set (C05-C10), independent of the loops of the model. *)
From Coq Require Import List ZArith QArith Qround Bool.
From Verif Require Import Util FsetModel.
Import ListNotations.
Local Open Scope Z_scope.

Section Spec.
Context {Patch : Type}.
Notation fset := (fset Patch).
Notation cand := (cand Patch).
Notation slot := (slot Patch).

(** slot [i] of the set holds a live feature *)
Definition live (fs : fset) (i : nat) (f : feature Patch) : Prop :=
  nth_error (fs_slots fs) i = Some {| sl_valid := true; sl_feat := f |}.
Definition free (fs : fset) (i : nat) : Prop :=
  exists f, nth_error (fs_slots fs) i = Some {| sl_valid := false; sl_feat := f |}.
Definition capacity (fs : fset) : nat := length (fs_slots fs).

(** number of live / free slots, counted independently of the model *)
Fixpoint count_slots (b : bool) (l : list slot) : nat :=
  match l with
  | [] => 0%nat
  | s :: l' => ((if Bool.eqb (sl_valid s) b then 1 else 0) + count_slots b l')%nat
  end.
Definition n_live (fs : fset) : nat := count_slots true (fs_slots fs).
Definition n_free (fs : fset) : nat := count_slots false (fs_slots fs).

(** every id below [fs_maxIdx] may be in use; live ids are pairwise different *)
Definition ids_ok (fs : fset) : Prop :=
  (forall i f, live fs i f -> 0 <= f_idx f < fs_maxIdx fs) /\
  (forall i j f g, live fs i f -> live fs j g -> f_idx f = f_idx g -> i = j).

(** a candidate good enough to be added: its score beats the minimum score *)
Definition eligible (p : params) (c : cand) : Prop := (p_min p < score c)%Q.
Definition eligibleb (p : params) (c : cand) : bool := Qltb' (p_min p) (score c).
(** number of candidates that are good enough *)
Definition n_eligible (p : params) (cs : list cand) : nat := length (filter (eligibleb p) cs).

(** parameter choices for which the function is meant to be used; a negative score exponent (power above one) is
    included as long as the product with the bucket count fits an unsigned int *)
Record sane (p : params) : Prop := {
  sane_nb : 1 <= p_nb p <= int_max;
  sane_pow : forall r, (0 < r <= 1 -> 0 <= p_pow p r /\ inject_Z (p_nb p - 1) * p_pow p r <= inject_Z (2 ^ 32 - 1))%Q;
  sane_pen : (0 <= p_pen p <= inject_Z int_max)%Q }.

(** the bucket a score falls into *)
Definition level_of (p : params) (best : Q) (c : cand) : Z :=
  Z.min (p_nb p - 1)
        (Qceiling (inject_Z (p_nb p - 1) * p_pow p ((score c - p_min p) / (best - p_min p)))).

(** best score over the candidates in view, at least -1 *)
Definition is_best (cs : list cand) (best : Q) : Prop :=
  (-1 <= best)%Q /\ (forall c, In c cs -> cd_in c = true -> cd_s c <= best)%Q /\
  (best = (-1)%Q \/ exists c, In c cs /\ cd_in c = true /\ cd_s c = best).

(** number of levels a candidate at [c] loses because of a feature at [pos] *)
Definition loss (p : params) (pos c : Q * Q) : Q :=
  let d2 := ((fst pos - fst c) ^ 2 + (snd pos - snd c) ^ 2)%Q in
  let r2 := (p_dist p ^ 2)%Q in
  if Qlt_le_dec d2 r2 then ((r2 - d2) / r2 * p_pen p)%Q else 0%Q.
Definition total_loss (p : params) (ps : list (Q * Q)) (c : Q * Q) : Q :=
  fold_right (fun pos acc => loss p pos c + acc)%Q 0%Q ps.

(** pixel of candidate number [i], if it exists *)
Definition cand_pos (cs : list cand) (i : nat) : list (Q * Q) :=
  match nth_error cs i with Some c => [cd_c c] | None => [] end.

(** pixels of the live features that are in front of the camera, in slot order *)
Fixpoint seen_at (proj : feature Patch -> option (Q * Q)) (l : list slot) : list (Q * Q) :=
  match l with
  | [] => []
  | s :: r => match sl_valid s, proj (sl_feat s) with true, Some c => c :: seen_at proj r | _, _ => seen_at proj r end
  end.
Definition in_view (proj : feature Patch -> option (Q * Q)) (fs : fset) : list (Q * Q) := seen_at proj (fs_slots fs).

(** two pixels at least the penalty distance apart *)
Definition apart (p : params) (a b : Q * Q) : Prop :=
  (p_dist p ^ 2 <= (fst a - fst b) ^ 2 + (snd a - snd b) ^ 2)%Q.

(** good candidates pairwise apart, and apart from every existing feature *)
Definition separated (p : params) (cs : list cand) (ex : list (Q * Q)) : Prop :=
  (forall i j c d, i <> j -> nth_error cs i = Some c -> nth_error cs j = Some d ->
     eligible p c -> eligible p d -> apart p (cd_c c) (cd_c d)) /\
  (forall pos c, In pos ex -> In c cs -> eligible p c -> apart p pos (cd_c c)).

End Spec.
