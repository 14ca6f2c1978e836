(** Vocabulary for C90. *)
From Coq Require Import List ZArith QArith.
From Verif Require Import PatchModel.
Import ListNotations.
Local Open Scope Q_scope.

(** length of the shorter side of an image *)
Definition is_shorter_side (im : image) (s : Z) : Prop :=
  (s = cols im /\ (cols im <= rows im)%Z) \/ (s = rows im /\ (rows im <= cols im)%Z).
(** the point [k] is at most [r] shorter sides away from the middle of the image *)
Definition within (im : image) (r : Q) (k : Q * Q) : Prop :=
  exists s, is_shorter_side im s /\
  (fst k - inject_Z (cols im) * (1 # 2)) ^ 2 + (snd k - inject_Z (rows im) * (1 # 2)) ^ 2 <= (r * inject_Z s) ^ 2.
(** the point lies in the image, at least [m] pixels away from its border *)
Definition inside (im : image) (m : Q) (k : Q * Q) : Prop :=
  (m <= fst k /\ fst k <= inject_Z (cols im) - m) /\ (m <= snd k /\ snd k <= inject_Z (rows im) - m).
(** [sub xs ys]: [xs] arises from [ys] by leaving out elements *)
Inductive sub {A} : list A -> list A -> Prop :=
| sub_nil : sub [] []
| sub_keep x xs ys : sub xs ys -> sub (x :: xs) (x :: ys)
| sub_drop y xs ys : sub xs ys -> sub xs (y :: ys).
