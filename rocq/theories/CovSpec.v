(** Specification vocabulary for C34, C35, C44, C48, C59: what a covariance matrix is, block membership. *)
From Coq Require Import List Reals Arith Lia Permutation.
From Verif Require Import AlignModel CovModel.
Import ListNotations.
Local Open Scope R_scope.

Definition quad (n : nat) (m : mat) (x : nat -> R) : R := fsum n (fun i => fsum n (fun j => x i * m i j * x j)).
Definition symmetric (n : nat) (m : mat) : Prop := forall i j, (i < n)%nat -> (j < n)%nat -> m i j = m j i.
Definition psd (n : nat) (m : mat) : Prop := forall x, 0 <= quad n m x.
Definition covariance (n : nat) (m : mat) : Prop := symmetric n m /\ psd n m.

(** index [k] belongs to the 3-dimensional sub-element starting at [id] *)
Definition belongs (id k : nat) : Prop := (id <= k < id + 3)%nat.
(** position of the state index inside the initial covariance: distance parameter (third state component)
    first, then the bearing *)
Definition init_index (id k : nat) : nat := if Nat.eqb k (id + 2) then 0%nat else S (k - id).

(** std::nth_element: a rearrangement with the k-th element in its sorted place *)
Definition nth_element_spec (f : list R -> nat -> list R) : Prop := forall l k, (k < length l)%nat ->
  Permutation l (f l k) /\
  (forall j, (j < k)%nat -> nth j (f l k) 0 <= nth k (f l k) 0) /\
  (forall j, (k < j < length l)%nat -> nth k (f l k) 0 <= nth j (f l k) 0).

Definition count (p : R -> bool) (l : list R) : nat := length (filter p l).
Definition below (m x : R) : bool := if Rlt_dec x m then true else false.
Definition above (m x : R) : bool := if Rlt_dec m x then true else false.

Definition diagonal (n : nat) (m : mat) : Prop := forall i j, (i < n)%nat -> (j < n)%nat -> i <> j -> m i j = 0.
(** entry (i,j) of a row-major 6x6 array *)
Definition entry6 (l : list R) (i j : nat) : R := nth (j + 6 * i) l 0.
Definition entry3 (l : list R) (i j : nat) : R := nth (j + 3 * i) l 0.
