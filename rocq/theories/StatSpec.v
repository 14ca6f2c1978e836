(** Specification side for FeatureStatistics: the plain log of what happened to a feature.
    Only the operation and status types are shared with the model. *)
From Coq Require Import List ZArith QArith Qround Bool.
From Verif Require Import Util StatModel.
Import ListNotations.

(** A frame is the list of outcomes, one per camera. *)
Definition frame := list tstatus.

(** [l_now]: outcomes recorded so far for the frame in progress; [l_past]: completed frames since the
    last reset, most recent first; [l_time]: time of the frame in progress. *)
Record flog := { l_now : frame; l_past : list frame; l_time : Z }.

Definition log_init (ncam : nat) (t : Z) : flog :=
  {| l_now := repeat UNKNOWN ncam; l_past := []; l_time := t |}.

Definition log_step (ncam : nat) (l : flog) (o : op) : flog :=
  match o with
  | OpReset t => log_init ncam t
  | OpStatus i st => {| l_now := upd_nth i (fun _ => st) (l_now l); l_past := l_past l; l_time := l_time l |}
  | OpIncrease t => {| l_now := repeat UNKNOWN ncam; l_past := l_now l :: l_past l; l_time := t |}
  | OpRanges _ _ _ => l
  end.

Definition log_run (ncam : nat) (t0 : Z) (os : list op) : flog :=
  fold_left (log_step ncam) os (log_init ncam t0).

(** all frames, most recent (the one in progress) first *)
Definition frames (l : flog) : list frame := l_now l :: l_past l.

Definition seen_as (i : nat) (st : tstatus) (f : frame) : bool :=
  match nth_error f i with Some x => tstatus_eqb x st | None => false end.
Definition tracked_anywhere (f : frame) : bool := existsb (fun x => tstatus_eqb x TRACKED) f.

Definition count {A} (p : A -> bool) (l : list A) : Z := Z.of_nat (length (filter p l)).

(** frame times strictly increase between resets *)
Fixpoint times_increase (t : Z) (os : list op) : Prop :=
  match os with
  | [] => True
  | OpReset t' :: os' => times_increase t' os'
  | OpIncrease t' :: os' => (t < t')%Z /\ times_increase t' os'
  | _ :: os' => times_increase t os'
  end.

(** configured ranges are at least one frame *)
Definition ranges_ok (o : op) : Prop :=
  match o with OpRanges a b c => (1 <= a /\ 1 <= b /\ 1 <= c)%Z | _ => True end.

(** a quality value proper: a finite number between 0 and 1 *)
Definition unit_quality (q : option Q) : Prop := exists x, q = Some x /\ (0 <= x <= 1)%Q.

(** What C01 needs from a rounding function: it is monotone, idempotent, exact on 0 and 1, and the
    rounded complement of a representable x plus x does not round above 1. *)
Record good_rounding (rnd : Q -> Q) : Prop := {
  gr_mono : forall a b, (a <= b)%Q -> (rnd a <= rnd b)%Q;
  gr_idem : forall a, (rnd (rnd a) == rnd a)%Q;
  gr_0 : (rnd 0 == 0)%Q;
  gr_1 : (rnd 1 == 1)%Q;
  gr_compl : forall x, (0 <= x <= 1)%Q -> (rnd x == x)%Q -> (rnd (rnd (1 - x) + x) <= 1)%Q
}.

(** rounding to the nearest multiple of 2^-53 (fixed point), a concrete such function *)
Definition fixpoint_rnd (q : Q) : Q :=
  (inject_Z (Qfloor (q * inject_Z (2 ^ 53) + (1 # 2))) / inject_Z (2 ^ 53))%Q.

(** the feature failed in camera [i] during frame [f] although it was predicted visible there *)
Definition failed_in (i : nat) (f : frame) : bool :=
  seen_as i FAILED_ALIGNEMENT f || seen_as i FAILED_TRACKING f.
(** the feature was not predicted visible in camera [i] during frame [f] *)
Definition unseen_in (i : nat) (f : frame) : bool :=
  seen_as i UNKNOWN f || seen_as i NOT_IN_FRAME f.
Definition no_ranges (o : op) : Prop := match o with OpRanges _ _ _ => False | _ => True end.

(** every status assignment addresses an existing camera *)
Definition cam_in_range (ncam : nat) (o : op) : Prop :=
  match o with OpStatus i _ => (i < ncam)%nat | _ => True end.

(** the feature was predicted visible in camera [i] / in some camera during frame [f] *)
Definition visible_in (i : nat) (f : frame) : bool := seen_as i TRACKED f || failed_in i f.
Definition visible_anywhere (f : frame) : bool := existsb (fun i => visible_in i f) (seq 0 (length f)).

(** First-order low-pass filter over the frames since the last reset (most recent first), starting at one:
    [up] frames pull the value towards 1, [down] frames towards 0, others leave it. *)
Definition low_pass {T} (O : qops T) (r : Z) (up down : frame -> bool) (fs : list frame) : T :=
  fold_right (fun f q => if up f then q_rai O r q else if down f then q_dec O r q else q) (q_one O) fs.
(** the same, with one step per camera and frame *)
Definition low_pass_all {T} (O : qops T) (r : Z) (ncam : nat) (fs : list frame) : T :=
  fold_right (fun f q => fold_left (fun q i => if seen_as i TRACKED f then q_rai O r q else if failed_in i f then q_dec O r q else q) (seq 0 ncam) q)
    (q_one O) fs.
