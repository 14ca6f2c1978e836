(** Small general-purpose definitions shared by the models (no rovio code here). *)
From Coq Require Import List Arith Lia.
Import ListNotations.

(** update of one array cell *)
Fixpoint upd_nth {A} (n : nat) (f : A -> A) (l : list A) : list A :=
  match l, n with
  | [], _ => []
  | x :: l', O => f x :: l'
  | x :: l', S n' => x :: upd_nth n' f l'
  end.

Lemma upd_nth_length {A} n (f : A -> A) l : length (upd_nth n f l) = length l.
Proof. revert n; induction l as [|x l IH]; intros [|n]; cbn; auto. Qed.

Lemma nth_error_upd_nth_eq {A} n (f : A -> A) l :
  nth_error (upd_nth n f l) n = option_map f (nth_error l n).
Proof. revert n; induction l as [|x l IH]; intros [|n]; cbn; auto. Qed.

Lemma nth_error_upd_nth_ne {A} n m (f : A -> A) l :
  n <> m -> nth_error (upd_nth n f l) m = nth_error l m.
Proof.
  revert n m; induction l as [|x l IH]; intros [|n] [|m] H; cbn; auto; try congruence.
Qed.

Lemma map_upd_nth {A B} (g : A -> B) n f h l :
  (forall x, g (f x) = h (g x)) -> map g (upd_nth n f l) = upd_nth n h (map g l).
Proof. intros H; revert n; induction l as [|x l IH]; intros [|n]; cbn; congruence. Qed.

Lemma Forall_upd_nth {A} (P : A -> Prop) n f l :
  Forall P l -> (forall x, P x -> P (f x)) -> Forall P (upd_nth n f l).
Proof.
  intros H Hf; revert n; induction H as [|x l Hx Hl IH]; intros [|n]; cbn; constructor; auto.
Qed.
