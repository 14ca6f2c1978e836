(** Vocabulary for C101. *)
From Coq Require Import List Reals Bool.
From Flocq Require Import BinarySingleNaN.
From Verif Require Import IeeeModel IeeeSpec NanModel.
Local Open Scope R_scope.

(** what C24 guarantees of scores: NaN, or finite and moderate *)
Definition score_like (s : f32) : Prop := number s -> finite s /\ Rabs (real s) <= 262144.
(** the best of the scores that are numbers, or -1 if all are below *)
Definition best_number (l : list f32) (m : f32) : Prop :=
  finite m /\ -1 <= real m /\ (forall s, In s l -> number s -> real s <= real m) /\ (In m l \/ real m = -1).
(** the candidates of a detection have such scores *)
Definition ev_like (e : nev) : Prop := match e with Detect l _ => Forall score_like l | _ => True end.
(** strict weak order, as std::list::sort requires of its comparison *)
Definition strict_weak_order {A} (P : A -> Prop) (lt : A -> A -> bool) : Prop :=
  (forall a, P a -> lt a a = false) /\
  (forall a b c, P a -> P b -> P c -> lt a b = true -> lt b c = true -> lt a c = true) /\
  (forall a b c, P a -> P b -> P c -> lt a b = false /\ lt b a = false -> lt b c = false /\ lt c b = false -> lt a c = false /\ lt c a = false).
