(** What a valid covariance is, for covariances given by blocks, and what is assumed of noise covariances
    and of matrix inversion. *)
From Coq Require Import Reals ZArith List Bool Arith.
From Verif Require Import Geo DistModel FiltModel UpdModel CovModel CovSpec BornModel SlotModel.
Import ListNotations.
Local Open Scope R_scope.

(** variance of the combination [v] of the error state *)
Definition variance (n : dims) (P : bmat) (v : tangent) : R := rsum (segs n) (fun s => rsum (segs n) (fun t => dot (v s) (mv (P s t) (v t)))).
Record valid_cov (n : dims) (P : bmat) : Prop := {
  vc_sym : forall s t, seg_in n s -> seg_in n t -> P s t = mt (P t s);
  vc_psd : forall v, 0 <= variance n P v }.

(** no combination of the error state is known exactly *)
Definition uncertain (n : dims) (P : bmat) : Prop := forall v, (exists s, seg_in n s /\ v s <> v0) -> 0 < variance n P v.
(** the combination of the error state before a step which the combination [v] of the error state after it is,
    when the step maps errors linearly with [J] *)
Definition Jt (n : dims) (J : jac) (v : tangent) : tangent := fun a => vsum (segs n) (fun s => mv (mt (J s a)) (v s)).

(** k x k matrices as lists of rows *)
Definition square (k : nat) (A : list (list R)) : Prop := length A = k /\ forall r, In r A -> length r = k.
Definition sym (k : nat) (A : list (list R)) : Prop := forall i j, (i < k)%nat -> (j < k)%nat -> entry A i j = entry A j i.
Definition form (k : nat) (A : list (list R)) (v : nat -> R) : R := irsum k (fun i => irsum k (fun j => v i * entry A i j * v j)).
Definition posdef (k : nat) (A : list (list R)) : Prop := forall v, (exists i, (i < k)%nat /\ v i <> 0) -> 0 < form k A v.
Definition good_noise (k : nat) (A : list (list R)) : Prop := square k A /\ sym k A /\ posdef k A.
(** matrix inversion does its job on symmetric positive definite matrices *)
Definition inverse_of (k : nat) (A W : list (list R)) : Prop :=
  sym k W /\ forall i j, (i < k)%nat -> (j < k)%nat -> irsum k (fun l => entry A i l * entry W l j) = if (i =? j)%nat then 1 else 0.
Definition inverts (inv : list (list R) -> list (list R)) : Prop := forall k A, square k A -> sym k A -> posdef k A -> inverse_of k A (inv A).

(** number of rows of a measurement *)
Definition dim_of (ms : meas) : nat := match ms with MPix _ _ _ _ | MDirect _ _ _ _ => 2 | MPose _ _ => 6 | MVel _ _ | MZero => 3 end%nat.
(** what is asked of the steps of a run: noise covariances are covariances *)
Definition step_ok (n : dims) (o : kop) : Prop :=
  match o with KPredict _ _ Q => valid_cov n Q | KMeas ms Rn _ => good_noise (dim_of ms) Rn | _ => True end.
(** the configured initial covariance of a feature: a covariance, distance and bearing uncorrelated *)
Definition good_init (c : mat) : Prop := covariance 3 c /\ forall k, (0 < k < 3)%nat -> c 0%nat k = 0 /\ c k 0%nat = 0.
