(** How long a feature lives and how many are created: what the counters count up to. *)
From Coq Require Import List ZArith.
From Verif Require Import StatModel FsetModel.
Import ListNotations.
Local Open Scope Z_scope.

Definition is_int (z : Z) : Prop := -2147483648 <= z <= 2147483647.
Definition largest_int : Z := 2147483647.
(** the numbers of completed frames after each operation, [k] of them having been completed before; a reset starts anew *)
Fixpoint lives_at_most (k limit : Z) (os : list op) : Prop :=
  match os with
  | [] => True
  | OpReset _ :: os' => lives_at_most 0 limit os'
  | OpIncrease _ :: os' => k + 1 <= limit /\ lives_at_most (k + 1) limit os'
  | _ :: os' => lives_at_most k limit os'
  end.
(** at most [limit] features are requested before the next reset of the set *)
Fixpoint requests_at_most (k limit : Z) (os : list fs_op) : Prop :=
  match os with
  | [] => True
  | FsReset :: os' => requests_at_most 0 limit os'
  | FsMake :: os' => k + 1 <= limit /\ requests_at_most (k + 1) limit os'
  | _ :: os' => requests_at_most k limit os'
  end.
