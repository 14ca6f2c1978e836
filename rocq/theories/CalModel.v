(** Model of loading camera calibrations: Camera::load and its helpers (/repo/src/Camera.cpp 6-80),
    RovioFilter::refreshProperties (/repo/include/rovio/RovioFilter.hpp 175-191) and the start-up of the
    node (/repo/src/rovio_node.cpp 95-109). YAML parsing itself (yaml-cpp) is not modelled: a file is what
    its nodes convert to. Printing is left out. *)
From Coq Require Import Reals List String Bool.
From Verif Require Import CamModel.
Import ListNotations.
Local Open Scope R_scope.

(** A parsed file. A number is [None] when the node does not convert to double; a missing node of a list
    is a missing element. *)
Record yaml := { y_model : option string; y_K : list (option R); y_D : list (option R); y_radius : option (option R) }.

(** The members of Camera (Camera.hpp 43-64) that are ever written: K_ by rows. [cal_radius] None is the
    largest double, i.e. no limit. *)
Record calib := { cal_type : model; cal_k1 : R; cal_k2 : R; cal_k3 : R; cal_k4 : R; cal_p1 : R; cal_p2 : R;
                  cal_K : nat -> R; cal_radius : option R }.
(** what the projection code reads of it (Camera.cpp 246-331) *)
Definition cam_of (c : calib) : camera :=
  {| ctype := cal_type c; k1 := cal_k1 c; k2 := cal_k2 c; k3 := cal_k3 c; k4 := cal_k4 c; p1 := cal_p1 c; p2 := cal_p2 c;
     fx := cal_K c 0%nat; fy := cal_K c 4%nat; cx := cal_K c 2%nat; cy := cal_K c 5%nat |}.

(** constructor, lines 6-12 *)
Definition new_camera : calib :=
  {| cal_type := RADTAN; cal_k1 := 0; cal_k2 := 0; cal_k3 := 0; cal_k4 := 0; cal_p1 := 0; cal_p2 := 0;
     cal_K := fun i => if Nat.eqb (Nat.modulo i 4) 0 then 1 else 0; cal_radius := None |}.

Definition set_type (t : model) (c : calib) : calib :=
  {| cal_type := t; cal_k1 := cal_k1 c; cal_k2 := cal_k2 c; cal_k3 := cal_k3 c; cal_k4 := cal_k4 c; cal_p1 := cal_p1 c; cal_p2 := cal_p2 c; cal_K := cal_K c; cal_radius := cal_radius c |}.
Definition set_k1 (v : R) (c : calib) : calib :=
  {| cal_type := cal_type c; cal_k1 := v; cal_k2 := cal_k2 c; cal_k3 := cal_k3 c; cal_k4 := cal_k4 c; cal_p1 := cal_p1 c; cal_p2 := cal_p2 c; cal_K := cal_K c; cal_radius := cal_radius c |}.
Definition set_k2 (v : R) (c : calib) : calib :=
  {| cal_type := cal_type c; cal_k1 := cal_k1 c; cal_k2 := v; cal_k3 := cal_k3 c; cal_k4 := cal_k4 c; cal_p1 := cal_p1 c; cal_p2 := cal_p2 c; cal_K := cal_K c; cal_radius := cal_radius c |}.
Definition set_k3 (v : R) (c : calib) : calib :=
  {| cal_type := cal_type c; cal_k1 := cal_k1 c; cal_k2 := cal_k2 c; cal_k3 := v; cal_k4 := cal_k4 c; cal_p1 := cal_p1 c; cal_p2 := cal_p2 c; cal_K := cal_K c; cal_radius := cal_radius c |}.
Definition set_k4 (v : R) (c : calib) : calib :=
  {| cal_type := cal_type c; cal_k1 := cal_k1 c; cal_k2 := cal_k2 c; cal_k3 := cal_k3 c; cal_k4 := v; cal_p1 := cal_p1 c; cal_p2 := cal_p2 c; cal_K := cal_K c; cal_radius := cal_radius c |}.
Definition set_p1 (v : R) (c : calib) : calib :=
  {| cal_type := cal_type c; cal_k1 := cal_k1 c; cal_k2 := cal_k2 c; cal_k3 := cal_k3 c; cal_k4 := cal_k4 c; cal_p1 := v; cal_p2 := cal_p2 c; cal_K := cal_K c; cal_radius := cal_radius c |}.
Definition set_p2 (v : R) (c : calib) : calib :=
  {| cal_type := cal_type c; cal_k1 := cal_k1 c; cal_k2 := cal_k2 c; cal_k3 := cal_k3 c; cal_k4 := cal_k4 c; cal_p1 := cal_p1 c; cal_p2 := v; cal_K := cal_K c; cal_radius := cal_radius c |}.
Definition set_K (i : nat) (v : R) (c : calib) : calib :=
  {| cal_type := cal_type c; cal_k1 := cal_k1 c; cal_k2 := cal_k2 c; cal_k3 := cal_k3 c; cal_k4 := cal_k4 c; cal_p1 := cal_p1 c; cal_p2 := cal_p2 c;
     cal_K := fun j => if Nat.eqb j i then v else cal_K c j; cal_radius := cal_radius c |}.
Definition set_radius (v : R) (c : calib) : calib :=
  {| cal_type := cal_type c; cal_k1 := cal_k1 c; cal_k2 := cal_k2 c; cal_k3 := cal_k3 c; cal_k4 := cal_k4 c; cal_p1 := cal_p1 c; cal_p2 := cal_p2 c; cal_K := cal_K c; cal_radius := Some v |}.

(** .as<double>() of element [i]: throws when there is none or it is no number *)
Definition as_double (l : list (option R)) (i : nat) : option R := match nth_error l i with Some (Some v) => Some v | _ => None end.

(** an assignment statement: value (None: the conversion throws) and the member it is stored in *)
Definition stmt := (option R * (R -> calib -> calib))%type.
(** Outcome of running statements: [Done] or [Threw], with the camera as it then is. *)
Inductive outcome := Done (c : calib) | Threw (c : calib).
Fixpoint run (l : list stmt) (c : calib) : outcome :=
  match l with
  | [] => Done c
  | (Some v, f) :: r => run r (f v c)
  | (None, _) :: _ => Threw c
  end.

(** loadCameraMatrix, lines 16-28 *)
Definition matrix_stmts (y : yaml) : list stmt := map (fun i => (as_double (y_K y) i, set_K i)) [0; 1; 2; 3; 4; 5; 6; 7; 8]%nat.
(** loadRadtan, lines 30-38 *)
Definition radtan_stmts (y : yaml) : list stmt :=
  matrix_stmts y ++ [(as_double (y_D y) 0, set_k1); (as_double (y_D y) 1, set_k2); (as_double (y_D y) 2, set_p1); (as_double (y_D y) 3, set_p2); (as_double (y_D y) 4, set_k3)].
(** loadEquidist, lines 40-48 *)
Definition equidist_stmts (y : yaml) : list stmt :=
  matrix_stmts y ++ [(as_double (y_D y) 0, set_k1); (as_double (y_D y) 1, set_k2); (as_double (y_D y) 2, set_k3); (as_double (y_D y) 3, set_k4)].
(** loadDoubleSphere, lines 50-62 *)
Definition ds_stmts (y : yaml) : list stmt :=
  matrix_stmts y ++ [(as_double (y_D y) 0, set_k1); (as_double (y_D y) 1, set_k2)] ++ match y_radius y with Some v => [(v, set_radius)] | None => [] end.
(** load, lines 64-80; [None]: the file cannot be read or parsed, so LoadFile throws *)
Definition load (file : option yaml) (c : calib) : outcome :=
  match file with
  | None => Threw c
  | Some y =>
    match y_model y with
    | None => Threw c
    | Some m =>
      if String.eqb m "plumb_bob" then run (radtan_stmts y) (set_type RADTAN c)
      else if String.eqb m "equidistant" then run (equidist_stmts y) (set_type EQUIDIST c)
      else if String.eqb m "ds" then run (ds_stmts y) (set_type DS c)
      else Done c
    end
  end.

(** the camera loop of refreshProperties, RovioFilter.hpp 181-187: [disk] gives the contents of a file,
    [files] the configured names by camera; an exception leaves the function. *)
Inductive refreshed := RDone (cs : nat -> calib) | RThrew (cs : nat -> calib).
Definition upd (cs : nat -> calib) (i : nat) (c : calib) : nat -> calib := fun j => if Nat.eqb j i then c else cs j.
Fixpoint refresh_from (disk : string -> option yaml) (files : nat -> string) (ids : list nat) (cs : nat -> calib) : refreshed :=
  match ids with
  | [] => RDone cs
  | i :: r =>
    if String.eqb (files i) "" then refresh_from disk files r cs
    else match load (disk (files i)) (cs i) with
         | Done c => refresh_from disk files r (upd cs i c)
         | Threw c => RThrew (upd cs i c)
         end
  end.
Definition refresh (disk : string -> option yaml) (files : nat -> string) (ncam : nat) (cs : nat -> calib) : refreshed :=
  refresh_from disk files (seq 0 ncam) cs.
(** main, rovio_node.cpp 95-109: readFromInfo reads the names of the .info file and refreshes (LWF's
    PropertyHandler, not in the repository), then the names given as ROS parameters replace them and the
    cameras are refreshed again. None: the node dies with the exception. *)
Definition start_up (disk : string -> option yaml) (info : nat -> string) (ros : nat -> option string) (ncam : nat) : option (nat -> calib) :=
  match refresh disk info ncam (fun _ => new_camera) with
  | RThrew _ => None
  | RDone cs =>
    match refresh disk (fun i => match ros i with Some f => f | None => info i end) ncam cs with
    | RThrew _ => None
    | RDone cs' => Some cs'
    end
  end.
