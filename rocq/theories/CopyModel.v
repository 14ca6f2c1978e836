(** Model of the ownership and copying of filter states: FeatureManager and FeatureSetManager
    (include/rovio/FeatureManager.hpp lines 50-195), FilterState (include/rovio/FilterStates.hpp lines 520-580,
    initFeatureManagers lines 183-190). C++ objects live in a heap; a freed or null object that is read,
    written or deleted is undefined behaviour ([None]). Objects are values of one type [V]: what they
    contain does not matter here. *)
From Coq Require Import List ZArith Bool Arith.
From Verif Require Import Util.
Import ListNotations.

Section Copy.
Variable V : Type.
(** values of new FeatureCoordinates, FeatureDistance, FeatureStatistics, MultilevelPatch *)
Variables v_co v_di v_st v_mp : V.

Definition heap := list (option V).
Definition alloc (v : V) (h : heap) : heap * nat := (h ++ [Some v], length h).
Definition load (h : heap) (a : nat) : option V := match nth_error h a with Some (Some v) => Some v | _ => None end.
Definition store (h : heap) (a : nat) (v : V) : option heap :=
  match load h a with Some _ => Some (upd_nth a (fun _ => Some v) h) | None => None end.
Definition free (h : heap) (a : nat) : option heap :=
  match load h a with Some _ => Some (upd_nth a (fun _ => None) h) | None => None end.
(** through a pointer *)
Definition deref (h : heap) (p : option nat) : option V := match p with Some a => load h a | None => None end.
Definition assign_ptr (h : heap) (p : option nat) (v : V) : option heap := match p with Some a => store h a v | None => None end.
(** delete of a null pointer does nothing *)
Definition delete_ptr (p : option nat) (h : option heap) : option heap :=
  match h, p with Some h', Some a => free h' a | _, _ => h end.

(** FeatureManager, lines 53-69: mpCoordinates_, ..., and the owned _mpCoordinates, ... *)
Record fm := { f_idx : Z; f_prev : V; f_pred : V; f_co : option nat; f_di : option nat; f_st : option nat; f_mp : option nat;
               w_co : option nat; w_di : option nat; w_st : option nat; w_mp : option nat }.
(** lines 73-83 *)
Definition fm_new : fm :=
  {| f_idx := -1; f_prev := v_co; f_pred := v_co; f_co := None; f_di := None; f_st := None; f_mp := None;
     w_co := None; w_di := None; w_st := None; w_mp := None |}.
(** initFeatureManagers, FilterStates.hpp lines 185-190 *)
Definition fm_link (co di : nat) (f : fm) : fm :=
  {| f_idx := f_idx f; f_prev := f_prev f; f_pred := f_pred f; f_co := Some co; f_di := Some di; f_st := f_st f; f_mp := f_mp f;
     w_co := w_co f; w_di := w_di f; w_st := w_st f; w_mp := w_mp f |}.
(** allocateMissing, lines 104-121 *)
Definition missing (p w : option nat) (v : V) (h : heap) : heap * (option nat * option nat) :=
  match p with Some _ => (h, (p, w)) | None => let '(h', a) := alloc v h in (h', (Some a, Some a)) end.
Definition allocate_missing (h : heap) (f : fm) : heap * fm :=
  let '(h1, (co, wco)) := missing (f_co f) (w_co f) v_co h in
  let '(h2, (di, wdi)) := missing (f_di f) (w_di f) v_di h1 in
  let '(h3, (st, wst)) := missing (f_st f) (w_st f) v_st h2 in
  let '(h4, (mp, wmp)) := missing (f_mp f) (w_mp f) v_mp h3 in
  (h4, {| f_idx := f_idx f; f_prev := f_prev f; f_pred := f_pred f; f_co := co; f_di := di; f_st := st; f_mp := mp;
          w_co := wco; w_di := wdi; w_st := wst; w_mp := wmp |}).
(** operator=, lines 95-101 *)
Definition fm_assign (h : heap) (f other : fm) : option (heap * fm) :=
  match deref h (f_st other) with
  | Some s =>
      match assign_ptr h (f_st f) s with
      | Some h' => Some (h', {| f_idx := f_idx other; f_prev := f_prev other; f_pred := f_pred other;
                                f_co := f_co f; f_di := f_di f; f_st := f_st f; f_mp := f_mp f;
                                w_co := w_co f; w_di := w_di f; w_st := w_st f; w_mp := w_mp f |})
      | None => None
      end
  | None => None
  end.
(** destructor, lines 87-92 *)
Definition fm_destroy (f : fm) (h : option heap) : option heap :=
  delete_ptr (w_mp f) (delete_ptr (w_st f) (delete_ptr (w_di f) (delete_ptr (w_co f) h))).

(** One feature slot of a FilterState: the coordinates and the distance inside state_ (addresses), the feature
    manager, isValid_ and the error log. *)
Record slot := { sl_co : nat; sl_di : nat; sl_fm : fm; sl_valid : bool; sl_err : V }.
(** FilterState: slots, maxIdx_, the drawing images (cv::Mat headers: buffer addresses), previous pyramids and
    the remaining plain members (state, covariance, time, counters) as one value. Image buffers are reference
    counted by OpenCV; they are never freed here. *)
Record fstate := { s_slots : list slot; s_max : Z; s_img : list (option nat); s_pyr : list V; s_rest : V }.

(** constructor, FilterStates.hpp lines 553-563. Objects are allocated slot by slot (the order of addresses does
    not matter). *)
Definition slot_new (h : heap) : heap * slot :=
  let '(h1, a) := alloc v_co h in
  let '(h2, b) := alloc v_di h1 in
  let '(h3, f) := allocate_missing h2 (fm_link a b fm_new) in
  (h3, {| sl_co := a; sl_di := b; sl_fm := f; sl_valid := false; sl_err := v_mp |}).
Fixpoint slots_new (n : nat) (h : heap) : heap * list slot :=
  match n with
  | 0 => (h, [])
  | S n' => let '(h1, s) := slot_new h in let '(h2, l) := slots_new n' h1 in (h2, s :: l)
  end.
Definition state_new (nMax nCam : nat) (rest : V) (h : heap) : heap * fstate :=
  let '(h', l) := slots_new nMax h in
  (h', {| s_slots := l; s_max := 0; s_img := repeat None nCam; s_pyr := repeat v_mp nCam; s_rest := rest |}).

(** implicit copy assignment of one slot: state_ element by value, then FeatureManager::operator= *)
Definition slot_assign (h : heap) (d s : slot) : option (heap * slot) :=
  match load h (sl_co s), load h (sl_di s) with
  | Some c, Some p =>
      match store h (sl_co d) c with
      | Some h1 =>
          match store h1 (sl_di d) p with
          | Some h2 =>
              match fm_assign h2 (sl_fm d) (sl_fm s) with
              | Some (h3, f) => Some (h3, {| sl_co := sl_co d; sl_di := sl_di d; sl_fm := f; sl_valid := sl_valid s; sl_err := sl_err s |})
              | None => None
              end
          | None => None
          end
      | None => None
      end
  | _, _ => None
  end.
Fixpoint slots_assign (h : heap) (ds ss : list slot) : option (heap * list slot) :=
  match ds, ss with
  | d :: ds', s :: ss' =>
      match slot_assign h d s with
      | Some (h1, d') => match slots_assign h1 ds' ss' with Some (h2, l) => Some (h2, d' :: l) | None => None end
      | None => None
      end
  | _, _ => Some (h, ds)
  end.
(** implicit copy assignment of FilterState: cv::Mat members copy the header, ImagePyramid::operator=
    (ImagePyramid.hpp lines 99-105) copies the pixels *)
Definition state_assign (h : heap) (d s : fstate) : option (heap * fstate) :=
  match slots_assign h (s_slots d) (s_slots s) with
  | Some (h', l) => Some (h', {| s_slots := l; s_max := s_max s; s_img := s_img s; s_pyr := s_pyr s; s_rest := s_rest s |})
  | None => None
  end.
(** implicit copy constructor ("todo complete rule of three", FeatureManager.hpp line 85): new state_ elements, but the
    pointers of the feature managers, owned ones included, are copied *)
Definition slot_copy (h : heap) (s : slot) : option (heap * slot) :=
  match load h (sl_co s), load h (sl_di s) with
  | Some c, Some p =>
      let '(h1, a) := alloc c h in
      let '(h2, b) := alloc p h1 in
      Some (h2, {| sl_co := a; sl_di := b; sl_fm := sl_fm s; sl_valid := sl_valid s; sl_err := sl_err s |})
  | _, _ => None
  end.
Fixpoint slots_copy (h : heap) (ss : list slot) : option (heap * list slot) :=
  match ss with
  | [] => Some (h, [])
  | s :: ss' => match slot_copy h s with
                | Some (h1, s') => match slots_copy h1 ss' with Some (h2, l) => Some (h2, s' :: l) | None => None end
                | None => None
                end
  end.
Definition state_copy (h : heap) (s : fstate) : option (heap * fstate) :=
  match slots_copy h (s_slots s) with
  | Some (h', l) => Some (h', {| s_slots := l; s_max := s_max s; s_img := s_img s; s_pyr := s_pyr s; s_rest := s_rest s |})
  | None => None
  end.
(** destructor: feature managers, then state_ *)
Definition slot_destroy (h : option heap) (s : slot) : option heap :=
  delete_ptr (Some (sl_di s)) (delete_ptr (Some (sl_co s)) (fm_destroy (sl_fm s) h)).
Definition state_destroy (h : heap) (s : fstate) : option heap := fold_left slot_destroy (s_slots s) (Some h).

(** Programs over several filter states (init_, safe_, front_, test states). *)
Inductive part := PCo | PDi | PSt | PMp.
Definition part_ptr (p : part) (f : fm) : option nat := match p with PCo => f_co f | PDi => f_di f | PSt => f_st f | PMp => f_mp f end.
Inductive op :=
  | ONew (rest : V)                                  (** FilterState() *)
  | OAssign (i j : nat)                              (** x_i = x_j *)
  | OCopy (i : nat)                                  (** FilterState(x_i) *)
  | OWrite (i k : nat) (p : part) (v : V)            (** *x_i.fsm_.features_[k].mp..._ = v *)
  | OPlain (i k : nat) (idx : Z) (prev pred : V) (valid : bool) (err : V)
  | OCount (i : nat) (m : Z) (rest : V)              (** maxIdx_ and the plain members *)
  | ODraw (i cam : nat) (v : V)                      (** cvtColor into img_ or drawing on it, ImgUpdate.hpp 590, 1008-1110 *)
  | ODestroy (i : nat).
Record world := { w_heap : heap; w_states : list (option fstate) }.
Definition set_state (i : nat) (s : option fstate) (l : list (option fstate)) : list (option fstate) := upd_nth i (fun _ => s) l.
Definition get_state (w : world) (i : nat) : option fstate := match nth_error (w_states w) i with Some s => s | None => None end.
Definition with_slots (s : fstate) (l : list slot) : fstate :=
  {| s_slots := l; s_max := s_max s; s_img := s_img s; s_pyr := s_pyr s; s_rest := s_rest s |}.
Definition plain_slot (idx : Z) (prev pred : V) (valid : bool) (err : V) (s : slot) : slot :=
  let f := sl_fm s in
  {| sl_co := sl_co s; sl_di := sl_di s;
     sl_fm := {| f_idx := idx; f_prev := prev; f_pred := pred; f_co := f_co f; f_di := f_di f; f_st := f_st f; f_mp := f_mp f;
                 w_co := w_co f; w_di := w_di f; w_st := w_st f; w_mp := w_mp f |};
     sl_valid := valid; sl_err := err |}.
Definition draw (h : heap) (s : fstate) (cam : nat) (v : V) : option (heap * fstate) :=
  match nth_error (s_img s) cam with
  | Some (Some a) => option_map (fun h' => (h', s)) (store h a v)
  | Some None => let '(h', a) := alloc v h in
      Some (h', {| s_slots := s_slots s; s_max := s_max s; s_img := upd_nth cam (fun _ => Some a) (s_img s); s_pyr := s_pyr s; s_rest := s_rest s |})
  | None => Some (h, s)
  end.
(** an operation on a state that does not exist does nothing *)
Definition step (nMax nCam : nat) (w : world) (o : op) : option world :=
  match o with
  | ONew rest => let '(h, s) := state_new nMax nCam rest (w_heap w) in Some {| w_heap := h; w_states := w_states w ++ [Some s] |}
  | OAssign i j =>
      match get_state w i, get_state w j with
      | Some d, Some s => match state_assign (w_heap w) d s with
                          | Some (h, d') => Some {| w_heap := h; w_states := set_state i (Some d') (w_states w) |}
                          | None => None
                          end
      | _, _ => Some w
      end
  | OCopy i =>
      match get_state w i with
      | Some s => match state_copy (w_heap w) s with
                  | Some (h, s') => Some {| w_heap := h; w_states := w_states w ++ [Some s'] |}
                  | None => None
                  end
      | None => Some w
      end
  | OWrite i k p v =>
      match get_state w i with
      | Some s => match nth_error (s_slots s) k with
                  | Some sl => match assign_ptr (w_heap w) (part_ptr p (sl_fm sl)) v with
                               | Some h => Some {| w_heap := h; w_states := w_states w |}
                               | None => None
                               end
                  | None => Some w
                  end
      | None => Some w
      end
  | OPlain i k idx prev pred valid err =>
      match get_state w i with
      | Some s => Some {| w_heap := w_heap w; w_states := set_state i (Some (with_slots s (upd_nth k (plain_slot idx prev pred valid err) (s_slots s)))) (w_states w) |}
      | None => Some w
      end
  | OCount i m rest =>
      match get_state w i with
      | Some s => Some {| w_heap := w_heap w; w_states := set_state i (Some {| s_slots := s_slots s; s_max := m; s_img := s_img s; s_pyr := s_pyr s; s_rest := rest |}) (w_states w) |}
      | None => Some w
      end
  | ODraw i cam v =>
      match get_state w i with
      | Some s => match draw (w_heap w) s cam v with
                  | Some (h, s') => Some {| w_heap := h; w_states := set_state i (Some s') (w_states w) |}
                  | None => None
                  end
      | None => Some w
      end
  | ODestroy i =>
      match get_state w i with
      | Some s => match state_destroy (w_heap w) s with
                  | Some h => Some {| w_heap := h; w_states := set_state i None (w_states w) |}
                  | None => None
                  end
      | None => Some w
      end
  end.
Fixpoint run (nMax nCam : nat) (w : world) (os : list op) : option world :=
  match os with
  | [] => Some w
  | o :: os' => match step nMax nCam w o with Some w' => run nMax nCam w' os' | None => None end
  end.
Definition empty : world := {| w_heap := []; w_states := [] |}.
End Copy.
