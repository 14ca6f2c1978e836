(** Images looked at as the code does: through the outlook only. *)
From Coq Require Import Reals List.
From Verif Require Import Geo FiltModel SlotModel LinkModel EyesModel.

Definition as_coded {Patch H} (n : dims) (frame : V3 -> M3) (e : event Patch H) : Prop :=
  match e with VImage _ s => exists eyes, s = looking n frame eyes | _ => True end.
