(** Model of the candidate generation of the image update: include/rovio/ImgUpdate.hpp 442-475.

    The counter candidateCounter_ belongs to the filtering library (not in /repo); it is taken to be an int that
    the library sets to 0 before the first call of an update. [inside u v] is the test of lines 465-466. *)
From Coq Require Import List ZArith Bool.
From Verif Require Import Util FsetModel.
Import ListNotations.
Local Open Scope Z_scope.

Section Cand.
Variable n : Z.                    (* alignMaxUniSample_ *)
Variable inside : Z -> Z -> bool.

(** lines 460-474: next sample and new counter value. C++ integer division truncates. An increment past the largest
    int is undefined behaviour. *)
Fixpoint next_sample (fuel : nat) (cnt : Z) : res (option (Z * Z) * Z) :=
  match fuel with
  | O => OutOfFuel
  | S k =>
    let c := cnt + 1 in
    if int_max <? c then UB
    else if c =? 0 then Ok (None, c)
    else if 2 * n + 1 =? 0 then UB
    else let u := Z.quot (c - 1) (2 * n + 1) - n in
         if n <? u then Ok (None, c)
         else let v := Z.rem (c - 1) (2 * n + 1) - n in
              if inside u v then Ok (Some (u, v), c) else next_sample k c
  end.

(** results of [k] successive calls *)
Fixpoint samples (fuel k : nat) (cnt : Z) : res (list (option (Z * Z)) * Z) :=
  match k with
  | O => Ok ([], cnt)
  | S k' => rbind (next_sample fuel cnt) (fun r => rbind (samples fuel k' (snd r)) (fun l => Ok (fst r :: fst l, snd l)))
  end.
End Cand.
