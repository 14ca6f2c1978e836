(** Threads that run the callbacks of RovioNode (/repo/include/rovio/RovioNode.hpp) under the mutex
    m_filter_ (line 128). Every callback is a std::lock_guard on the mutex (lines 444, 479, 489, 535, 551,
    572, 605, 620) followed by the body; the guard releases the mutex when the body is left.

    A body is executed in pieces of any size: [body e] lists them, each piece a function of the shared
    state [S] and of the local variables [L] of the callback, whose initial value is [local e]. *)
From Coq Require Import List Arith Bool.
Import ListNotations.

Section Lock.
Context {S L E : Type}.
Variables (local : E -> L) (body : E -> list (S -> L -> S * L)).

(** [t_queue]: the callbacks the thread still has to run; [t_cur]: local variables and rest of the body of
    the callback it is in *)
Record thread := { t_queue : list E; t_cur : option (L * list (S -> L -> S * L)) }.

(** [k_lock]: the thread holding the mutex; [k_order]: the callbacks begun, oldest first, with the thread *)
Record machine := {
  k_state : S;
  k_lock : option nat;
  k_threads : list thread;
  k_order : list (nat * E) }.

Fixpoint set_thread (i : nat) (t : thread) (l : list thread) : list thread :=
  match l, i with
  | [], _ => []
  | _ :: l', O => t :: l'
  | x :: l', Datatypes.S i' => x :: set_thread i' t l'
  end.

(** Thread [i] is given one step: it takes the mutex and begins its next callback, or runs the next piece,
    or leaves the callback and releases the mutex. It does nothing while the mutex is taken. *)
Definition machine_step (k : machine) (i : nat) : machine :=
  match nth_error (k_threads k) i with
  | None => k
  | Some t =>
      match t_cur t with
      | None =>
          match t_queue t, k_lock k with
          | e :: q, None =>
              {| k_state := k_state k; k_lock := Some i;
                 k_threads := set_thread i {| t_queue := q; t_cur := Some (local e, body e) |} (k_threads k);
                 k_order := k_order k ++ [(i, e)] |}
          | _, _ => k
          end
      | Some (l, f :: fs) =>
          {| k_state := fst (f (k_state k) l); k_lock := k_lock k;
             k_threads := set_thread i {| t_queue := t_queue t;
                            t_cur := Some (snd (f (k_state k) l), fs) |} (k_threads k);
             k_order := k_order k |}
      | Some (l, []) =>
          {| k_state := k_state k; k_lock := None;
             k_threads := set_thread i {| t_queue := t_queue t; t_cur := None |} (k_threads k);
             k_order := k_order k |}
      end
  end.

Definition machine_run (k : machine) (schedule : list nat) : machine :=
  fold_left machine_step schedule k.

Definition machine_init (s : S) (queues : list (list E)) : machine :=
  {| k_state := s; k_lock := None;
     k_threads := map (fun q => {| t_queue := q; t_cur := None |}) queues; k_order := [] |}.

End Lock.
Arguments thread : clear implicits.
Arguments machine : clear implicits.
