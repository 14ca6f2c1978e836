(** What copying filter states should achieve, in terms of what can be read through a state. *)
From Coq Require Import List ZArith.
From Verif Require Import Util CopyModel.
Import ListNotations.

Section Spec.
Variable V : Type.
(** what is seen of one feature slot through its feature manager: identity, validity, history, error log, and the
    objects behind the coordinate, distance and statistics pointers ([None]: no such object) *)
Record seen := { n_idx : Z; n_valid : bool; n_prev : V; n_pred : V; n_err : V; n_co : option V; n_di : option V; n_st : option V }.
Definition see (h : heap V) (s : slot V) : seen :=
  {| n_idx := f_idx _ (sl_fm _ s); n_valid := sl_valid _ s; n_prev := f_prev _ (sl_fm _ s); n_pred := f_pred _ (sl_fm _ s);
     n_err := sl_err _ s; n_co := deref _ h (f_co _ (sl_fm _ s)); n_di := deref _ h (f_di _ (sl_fm _ s)); n_st := deref _ h (f_st _ (sl_fm _ s)) |}.
(** the features, the id counter, the previous pyramids and the plain members of the i-th state *)
Definition content (w : world V) (i : nat) : option (list seen * Z * list V * V) :=
  option_map (fun s => (map (see (w_heap _ w)) (s_slots _ s), s_max _ s, s_pyr _ s, s_rest _ s)) (get_state _ w i).
(** the multilevel patches of its features *)
Definition patches (w : world V) (i : nat) : option (list (option V)) :=
  option_map (fun s => map (fun sl => deref _ (w_heap _ w) (f_mp _ (sl_fm _ sl))) (s_slots _ s)) (get_state _ w i).
(** the pixels of its drawing images *)
Definition images (w : world V) (i : nat) : option (list (option V)) :=
  option_map (fun s => map (deref _ (w_heap _ w)) (s_img _ s)) (get_state _ w i).
(** every object of every feature can be read *)
Definition complete (c : seen) : Prop := n_co c <> None /\ n_di c <> None /\ n_st c <> None.
(** operations that name state i as the one to change *)
Definition changes (i : nat) (o : op V) : bool :=
  match o with
  | OAssign _ k _ | OWrite _ k _ _ _ | OPlain _ k _ _ _ _ _ _ | OCount _ k _ _ | ODraw _ k _ _ | ODestroy _ k => Nat.eqb i k
  | ONew _ _ | OCopy _ _ => false
  end.
Definition copy_constructs (o : op V) : bool := match o with OCopy _ _ => true | _ => false end.
Definition draws (o : op V) : bool := match o with ODraw _ _ _ _ => true | _ => false end.
(** programs that use construction, assignment, writes and destruction only *)
Definition ordinary (os : list (op V)) : Prop := Forall (fun o => copy_constructs o = false) os.
End Spec.
