(** Specification for the replay loop (C52). *)
From Coq Require Import List ZArith Bool.
From Verif Require Import NodeModel NodeSpec LoadModel.
Import ListNotations.
Local Open Scope Z_scope.

(** the elements of [l] that are greater than [s] and than everything before them *)
Fixpoint new_maxima (s : Z) (l : list Z) : list Z :=
  match l with
  | [] => []
  | x :: l' => if s <? x then x :: new_maxima x l' else new_maxima s l'
  end.

Fixpoint increasing (s : Z) (l : list Z) : Prop :=
  match l with [] => True | x :: l' => s < x /\ increasing x l' end.

Section Spec.
Context {V Qt Cov Img F : Type}.
Notation event := (event V Qt Cov Img).

(** safe filter time, and whether anything has been published, after each of the first messages of a log *)
Definition safe_after (cfg : node_config Qt) (ops : filter_ops V Qt Cov Img F) (lc : load_config F)
    (n : node V Qt Cov Img F) (log : list (list event)) : Z :=
  f_safe ops (n_filter (ld_node (load cfg ops lc n log))).
Definition published_after (cfg : node_config Qt) (ops : filter_ops V Qt Cov Img F) (lc : load_config F)
    (n : node V Qt Cov Img F) (log : list (list event)) : bool :=
  n_first (ld_node (load cfg ops lc n log)).

(** copying the pose into the initial state changes neither the safe time nor the buffered images *)
Definition carry_law (ops : filter_ops V Qt Cov Img F) (lc : load_config F) : Prop :=
  forall f, f_safe ops (lc_carry lc f) = f_safe ops f.

(** requests for a reset *)
Definition is_reset_request (e : event) : bool :=
  match e with ResetRequest | ResetToPose _ _ => true | _ => false end.

End Spec.
