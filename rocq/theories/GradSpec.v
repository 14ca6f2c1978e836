(** Vocabulary for C24 and C25. *)
From Coq Require Import List QArith Qreals Reals.
From Verif Require Import PatchModel GradModel.
Local Open Scope R_scope.

(** pixel (x,y) of an array of width [k] *)
Definition px (k : nat) (B : list R) (x y : nat) : R := nth (y * k + x) B 0.
(** central differences of the bordered patch at inner pixel (x,y) *)
Definition gx (n : nat) (B : list R) (x y : nat) : R := (px (n + 2) B (x + 2) (y + 1) - px (n + 2) B x (y + 1)) / 2.
Definition gy (n : nat) (B : list R) (x y : nat) : R := (px (n + 2) B (x + 1) (y + 2) - px (n + 2) B (x + 1) y) / 2.
(** sum of f(0) .. f(k-1), and mean over the n x n inner pixels *)
Fixpoint sum (k : nat) (f : nat -> R) : R := match k with O => 0 | S k' => sum k' f + f k' end.
Definition total (n : nat) (f : nat -> nat -> R) : R := sum n (fun y => sum n (fun x => f x y)).
Definition mean (n : nat) (f : nat -> nat -> R) : R := total n f / INR (n * n).

(** [l] is an eigenvalue of the symmetric matrix [[a,b],[b,c]] *)
Definition eigenvalue (a b c l : R) : Prop :=
  exists v w, (v <> 0 \/ w <> 0) /\ a * v + b * w = l * v /\ b * v + c * w = l * w.

(** averaged gradient (structure) matrix entries of a bordered patch *)
Definition sxx (n : nat) (B : list R) : R := mean n (fun x y => gx n B x y * gx n B x y).
Definition sxy (n : nat) (B : list R) : R := mean n (fun x y => gx n B x y * gy n B x y).
Definition syy (n : nat) (B : list R) : R := mean n (fun x y => gy n B x y * gy n B x y).

(** data of the most recent extraction with border in a history *)
Definition data_of (rnd : Q -> Q) (n : nat) (o : pop) : option (list R) :=
  match o with
  | Extract im ident w cx cy b => option_map (map Q2R) (extract rnd n im ident w cx cy b)
  | _ => None
  end.
Definition with_border (o : pop) : bool := match o with Extract _ _ _ _ _ b => b | _ => false end.
Definition extracts (o : pop) : bool := match o with Extract _ _ _ _ _ _ => true | _ => false end.

(** ** several levels: bordered data and validity flag of each *)
Definition fresh_mlp (n : nat) (junk : hess) (Bs : list (list R * bool)) : mlp :=
  map (fun bv => (store n (new_patch junk) (fst bv) true, snd bv)) Bs.
Definition lvl (Bs : list (list R * bool)) (i : nat) : list R := fst (nth i Bs (nil, false)).
Definition lvl_ok (Bs : list (list R * bool)) (i : nat) : bool := snd (nth i Bs (nil, false)).
(** number of valid levels among l1 .. l2 and average over them of [f], level [i] weighted by 1/4^i *)
Definition valid_levels (Bs : list (list R * bool)) (l1 l2 : nat) : R :=
  sum (l2 + 1 - l1) (fun j => if lvl_ok Bs (l1 + j) then 1 else 0).
Definition level_mean (Bs : list (list R * bool)) (l1 l2 : nat) (f : list R -> R) : R :=
  sum (l2 + 1 - l1) (fun j => if lvl_ok Bs (l1 + j) then f (lvl Bs (l1 + j)) / 4 ^ (l1 + j) else 0) / valid_levels Bs l1 l2.
