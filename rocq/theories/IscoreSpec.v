(** Vocabulary for the single-precision version of C24. *)
From Coq Require Import List Reals.
From Verif Require Import IeeeModel IeeeSpec GradSpec IscoreModel.
Local Open Scope R_scope.

(** patch contents as extracted from 8-bit images: finite, of magnitude at most 256 *)
Definition intensities (B : list f32) : Prop := forall v, In v B -> finite v /\ Rabs (real v) <= 256.
(** [g] against the exact eigenvalues of [[a,b],[b,c]]: when the score is a number, it and the eigenvalues are finite
    and accurate; it is one whenever the eigenvalues differ by 1/64 of their sum. *)
Definition accurate (a b c : R) (g : fparams) : Prop :=
  exists e0 e1, eigenvalue a b c e0 /\ eigenvalue a b c e1 /\ 0 <= e0 <= e1 /\ e0 + e1 = a + c /\ a + c <= 2 ^ 17 /\
  (number (f_s g) ->
    finite (f_e0 g) /\ finite (f_e1 g) /\ finite (f_s g) /\
    Rabs (real (f_e0 g) - e0) <= (a + c) / 128 + / 2 ^ 30 /\ Rabs (real (f_e1 g) - e1) <= (a + c) / 128 + / 2 ^ 30 /\
    Rabs (real (f_s g) - (a + c)) <= (a + c) / 1024 + / 2 ^ 30) /\
  ((a + c) / 64 <= e1 - e0 -> / 2 ^ 30 <= e1 - e0 -> number (f_s g)).
(** the levels as exact values *)
Definition real_levels (Bs : list (list f32 * bool)) : list (list R * bool) := map (fun bv => (map real (fst bv), snd bv)) Bs.
