(** Vocabulary for C22 and C23. *)
From Coq Require Import List ZArith QArith Qround Qabs Bool.
From Verif Require Import PatchModel.
Local Open Scope Q_scope.

(** rounding to a number format: monotone and exact at zero *)
Definition monotone (rnd : Q -> Q) : Prop := (forall a b, a <= b -> rnd a <= rnd b) /\ rnd 0 == 0.
(** no rounding *)
Definition exact (q : Q) : Q := q.

Definition in_image (im : image) (i j : Z) : Prop := (0 <= i < cols im)%Z /\ (0 <= j < rows im)%Z.

(** image position sampled by patch pixel (x,y) of a patch of edge [k] centred at (cx,cy):
    c + W * ((x,y) - centre of the patch grid), in the convention where pixel (i,j) covers [i,i+1) *)
Definition eff (ident : bool) (w : warp) : warp := if ident then {| w00 := 1; w01 := 0; w10 := 0; w11 := 1 |} else w.
Definition pos_x (ident : bool) (w : warp) (cx : Q) (k x y : Z) : Q :=
  cx + (w00 (eff ident w) * (inject_Z x - (inject_Z k - 1) / 2) + w01 (eff ident w) * (inject_Z y - (inject_Z k - 1) / 2)) - (1 # 2).
Definition pos_y (ident : bool) (w : warp) (cy : Q) (k x y : Z) : Q :=
  cy + (w10 (eff ident w) * (inject_Z x - (inject_Z k - 1) / 2) + w11 (eff ident w) * (inject_Z y - (inject_Z k - 1) / 2)) - (1 # 2).

(** edge of the extracted patch *)
Definition edge (n : nat) (b : bool) : nat := if b then (n + 2)%nat else n.
