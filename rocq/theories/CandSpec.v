(** Specification vocabulary for the candidate generation (C37). *)
From Coq Require Import List ZArith.
Import ListNotations.
Local Open Scope Z_scope.

(** the integers from -n to n, and all pairs of them in the order of the search *)
Definition axis (n : Z) : list Z := map (fun k => Z.of_nat k - n) (seq 0 (Z.to_nat (2 * n + 1))).
Definition grid (n : Z) : list (Z * Z) := flat_map (fun u => map (pair u) (axis n)) (axis n).
