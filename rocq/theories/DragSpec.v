(** Specification of dragging, from the events alone. *)
From Coq Require Import List ZArith Reals Bool.
From Verif Require Import Geo DragModel.
Import ListNotations.
Local Open Scope R_scope.

(** the left button is held after the events *)
Definition left_down (e : event) : Prop := exists x y, e = Button 0 0 x y.
Definition left_up (e : event) : Prop := exists x y, e = Button 0 1 x y.
(** moves of the mouse along a row or a column of pixels *)
Definition row_moves (y : Z) (xs : list Z) : list event := map (fun x => Motion x y) xs.
Definition column_moves (x : Z) (ys : list Z) : list event := map (fun y => Motion x y) ys.
(** turning by the angle [a] about the x or the y axis *)
Definition about_x (a : R) : M3 := ((1, 0, 0), (0, cos a, - sin a), (0, sin a, cos a)).
Definition about_y (a : R) : M3 := ((cos a, 0, sin a), (0, 1, 0), (- sin a, 0, cos a)).
