(** Vocabulary for C26-C29 and C50. *)
From Coq Require Import List ZArith QArith Qround Qabs Bool.
From Verif Require Import PatchModel PyrModel.
Import ListNotations.
Local Open Scope Q_scope.

(** equality of points *)
Definition peq (a b : Q * Q) : Prop := fst a == fst b /\ snd a == snd b.

(** sum of f(0) .. f(k-1) *)
Fixpoint zsum (k : nat) (f : Z -> Z) : Z := match k with O => 0%Z | S j => (zsum j f + f (Z.of_nat j))%Z end.
(** sum of the source pixels of the 2^l x 2^l block of pixel (x,y) of level l *)
Definition block (l : nat) : nat := Nat.pow 2 l.
Definition block_sum (im : gray) (l : nat) (x y : Z) : Z :=
  zsum (block l) (fun j => zsum (block l) (fun i => gp im (x * Z.of_nat (block l) + i) (y * Z.of_nat (block l) + j)))%Z.

(** a position in an image (pixel (i,j) covers [i,i+1) x [j,j+1)) of the source and the corresponding
    position in the half-sampled image of level l, whose pixel (i,j) is made of the block above *)
Definition sampled_at (l : nat) (c : Q * Q) : Q * Q := (fst c / inject_Z (2 ^ Z.of_nat l), snd c / inject_Z (2 ^ Z.of_nat l)).

(** the same for a pyramid made by cv::pyrDown, where the centre of pixel (i,j) of level l lies on the
    centre of pixel (2^l i, 2^l j) of the source *)
Definition pyrdown_at (l : nat) (c : Q * Q) : Q * Q :=
  ((fst c - (1 # 2)) / inject_Z (2 ^ Z.of_nat l) + (1 # 2), (snd c - (1 # 2)) / inject_Z (2 ^ Z.of_nat l) + (1 # 2)).

(** all levels below [l] of an image of size [n] have even size *)
Definition even_below (n : Z) (l : nat) : Prop := forall i, (i < l)%nat -> Z.even (size_at n i) = true.

(** the warped patch (of edge [k]) extends over at least one pixel in both image directions *)
Definition wide (k : nat) (w : warp) : Prop :=
  1 <= (Qabs (w00 w) + Qabs (w01 w)) * (inject_Z (Z.of_nat k) - 1) /\
  1 <= (Qabs (w10 w) + Qabs (w11 w)) * (inject_Z (Z.of_nat k) - 1).

(** square with corner (cx,cy) and given side *)
Definition in_square (cx cy side : Z) (p : Z * Z) : Prop :=
  (cx <= fst p < cx + side /\ cy <= snd p < cy + side)%Z.
