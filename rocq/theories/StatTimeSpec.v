(** What the clock and the filter ranges of a feature should be after a history of calls. *)
From Coq Require Import List ZArith.
From Verif Require Import StatModel.
Import ListNotations.

(** the time given at creation, or at the latest reset *)
Fixpoint born_at (t0 : Z) (os : list op) : Z :=
  match os with [] => t0 | OpReset t :: os' => born_at t os' | _ :: os' => born_at t0 os' end.
(** the time of the frame in progress: the latest one passed in *)
Fixpoint now_at (t0 : Z) (os : list op) : Z :=
  match os with [] => t0 | OpReset t :: os' | OpIncrease t :: os' => now_at t os' | _ :: os' => now_at t0 os' end.
(** the ranges configured last; resetting a feature does not touch them *)
Fixpoint configured (r : Z * Z * Z) (os : list op) : Z * Z * Z :=
  match os with [] => r | OpRanges a b c :: os' => configured (a, b, c) os' | _ :: os' => configured r os' end.
