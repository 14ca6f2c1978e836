(** Model of rovio::FeatureStatistics  (/repo/include/rovio/FeatureStatistics.hpp).

    One [camstat] per camera bundles the per-camera arrays of the class
    (status_[i], localQuality_[i], localVisibility_[i], cumulativeTrackingStatus_[i], statistics_[i]).
    The type [T] of quality values and the three operations on it are parameters ([qops]), so the same
    state machine is used with exact rationals, with rounded rationals and with IEEE binary64 numbers.
    Times (doubles) are integers: every finite double is an integer multiple of 2^-1074 and only the
    order of times matters. Counters (int) are unbounded. *)
From Coq Require Import List ZArith QArith Bool.
From Verif Require Import Util.
Import ListNotations.
Local Open Scope Z_scope.

(** enum TrackingStatus, FeatureStatistics.hpp:38-44 *)
Inductive tstatus := UNKNOWN | NOT_IN_FRAME | FAILED_ALIGNEMENT | FAILED_TRACKING | TRACKED.

Definition tstatus_eqb (a b : tstatus) : bool :=
  match a, b with
  | UNKNOWN, UNKNOWN | NOT_IN_FRAME, NOT_IN_FRAME | FAILED_ALIGNEMENT, FAILED_ALIGNEMENT
  | FAILED_TRACKING, FAILED_TRACKING | TRACKED, TRACKED => true
  | _, _ => false
  end.

(** the test  status == FAILED_ALIGNEMENT || status == FAILED_TRACKING || status == TRACKED
    used at FeatureStatistics.hpp:139, 192, 271 *)
Definition in_frame (s : tstatus) : bool :=
  match s with FAILED_ALIGNEMENT | FAILED_TRACKING | TRACKED => true | _ => false end.

(** Quality arithmetic: [q_one] is the initial 1.0, [q_rai r q] is q*(1-1.0/r)+1.0/r,
    [q_dec r q] is q*(1-1.0/r). *)
Record qops (T : Type) := { q_one : T; q_rai : Z -> T -> T; q_dec : Z -> T -> T }.
Arguments q_one {T}. Arguments q_rai {T}. Arguments q_dec {T}.

(** std::map<double,TrackingStatus> statistics_[i] (line 73) as a list sorted by DECREASING key
    (so the head is rbegin()); operator[]= overwrites an existing key. *)
Definition tmap := list (Z * tstatus).
Fixpoint tmap_set (k : Z) (v : tstatus) (m : tmap) : tmap :=
  match m with
  | [] => [(k, v)]
  | (k', v') :: m' =>
      if k' <? k then (k, v) :: m
      else if k =? k' then (k, v) :: m'
      else (k', v') :: tmap_set k v m'
  end.

Section Machine.
Context {T : Type} (Ops : qops T).

Record camstat := {
  c_status : tstatus;               (* status_[i] *)
  c_lq : T;                         (* localQuality_[i] *)
  c_lv : T;                         (* localVisibility_[i] *)
  c_cum : tstatus -> Z;             (* cumulativeTrackingStatus_[i] *)
  c_hist : tmap                     (* statistics_[i] *)
}.

Record stat := {
  s_cams : list camstat;
  s_tot : Z;                        (* totCount_ *)
  s_tracked : Z;                    (* trackedCount_ *)
  s_init : Z;                       (* initTime_ *)
  s_cur : Z;                        (* currentTime_ *)
  s_jlv : T;                        (* jointLocalVisibility_ *)
  s_alq : T;                        (* averageLocalQuality_ *)
  s_rq : Z;                         (* localQualityRange_ *)
  s_rv : Z;                         (* localVisibilityRange_ *)
  s_rg : Z                          (* minGlobalQualityRange_ *)
}.

(** per-camera part of resetStatistics, lines 90-99 *)
Definition cam_reset : camstat :=
  {| c_status := UNKNOWN; c_lq := q_one Ops; c_lv := q_one Ops; c_cum := fun _ => 0; c_hist := [] |}.

(** resetStatistics, lines 89-107 (the ranges are not touched) *)
Definition reset (t : Z) (s : stat) : stat :=
  {| s_cams := map (fun _ => cam_reset) (s_cams s);
     s_tot := 0; s_tracked := 0; s_init := t; s_cur := t;
     s_jlv := q_one Ops; s_alq := q_one Ops;
     s_rq := s_rq s; s_rv := s_rv s; s_rg := s_rg s |}.

(** constructor, lines 79-84 *)
Definition init (ncam : nat) (t : Z) : stat :=
  {| s_cams := repeat cam_reset ncam;
     s_tot := 0; s_tracked := 0; s_init := t; s_cur := t;
     s_jlv := q_one Ops; s_alq := q_one Ops;
     s_rq := 10; s_rv := 100; s_rg := 100 |}.

(** inSomeFrame, lines 190-197; trackedInSomeFrame, lines 203-210 *)
Definition in_some_frame (s : stat) : bool := existsb (fun c => in_frame (c_status c)) (s_cams s).
Definition tracked_in_some_frame (s : stat) : bool :=
  existsb (fun c => tstatus_eqb (c_status c) TRACKED) (s_cams s).

(** the if / else-if chain of lines 129-135 acting on one quality value *)
Definition upd_quality (r : Z) (st : tstatus) (q : T) : T :=
  match st with
  | TRACKED => q_rai Ops r q
  | FAILED_ALIGNEMENT | FAILED_TRACKING => q_dec Ops r q
  | _ => q
  end.

(** lines 118-122 and 139-143 acting on one visibility value *)
Definition upd_visibility (r : Z) (vis : bool) (q : T) : T :=
  if vis then q_rai Ops r q else q_dec Ops r q.

Definition cum_incr (st : tstatus) (f : tstatus -> Z) : tstatus -> Z :=
  fun x => if tstatus_eqb x st then f x + 1 else f x.

(** loop body of increaseStatistics for one camera, lines 127-148 *)
Definition cam_increase (rq rv curT : Z) (c : camstat) : camstat :=
  {| c_status := UNKNOWN;
     c_lq := upd_quality rq (c_status c) (c_lq c);
     c_lv := upd_visibility rv (in_frame (c_status c)) (c_lv c);
     c_cum := cum_incr (c_status c) (c_cum c);
     c_hist := tmap_set curT (c_status c) (c_hist c) |}.

(** increaseStatistics, lines 113-150. A non-increasing time only prints an error (line 114). *)
Definition increase (t : Z) (s : stat) : stat :=
  {| s_cams := map (cam_increase (s_rq s) (s_rv s) (s_cur s)) (s_cams s);
     s_tot := s_tot s + 1;
     s_tracked := if tracked_in_some_frame s then s_tracked s + 1 else s_tracked s;
     s_init := s_init s;
     s_cur := t;
     s_jlv := upd_visibility (s_rv s) (in_some_frame s) (s_jlv s);
     s_alq := fold_left (fun q c => upd_quality (s_rq s) (c_status c) q) (s_cams s) (s_alq s);
     s_rq := s_rq s; s_rv := s_rv s; s_rg := s_rg s |}.

(** assignment to the public array element status_[i]; [None] = index out of range (UB) *)
Definition set_status_cam (st : tstatus) (c : camstat) : camstat :=
  {| c_status := st; c_lq := c_lq c; c_lv := c_lv c; c_cum := c_cum c; c_hist := c_hist c |}.
Definition set_status (i : nat) (st : tstatus) (s : stat) : option stat :=
  if Nat.ltb i (length (s_cams s)) then
    Some {| s_cams := upd_nth i (set_status_cam st) (s_cams s);
       s_tot := s_tot s; s_tracked := s_tracked s; s_init := s_init s; s_cur := s_cur s;
       s_jlv := s_jlv s; s_alq := s_alq s; s_rq := s_rq s; s_rv := s_rv s; s_rg := s_rg s |}
  else None.

(** assignment to the public range fields (RovioFilter.hpp:158-160 registers them as configuration values) *)
Definition set_ranges (rq rv rg : Z) (s : stat) : stat :=
  {| s_cams := s_cams s; s_tot := s_tot s; s_tracked := s_tracked s; s_init := s_init s;
     s_cur := s_cur s; s_jlv := s_jlv s; s_alq := s_alq s; s_rq := rq; s_rv := rv; s_rg := rg |}.

Inductive op :=
| OpReset (t : Z) | OpStatus (i : nat) (st : tstatus) | OpIncrease (t : Z) | OpRanges (rq rv rg : Z).

Definition step (s : stat) (o : op) : option stat :=
  match o with
  | OpReset t => Some (reset t s)
  | OpStatus i st => set_status i st s
  | OpIncrease t => Some (increase t s)
  | OpRanges a b c => Some (set_ranges a b c s)
  end.

Fixpoint run (s : stat) (os : list op) : option stat :=
  match os with
  | [] => Some s
  | o :: os' => match step s o with Some s' => run s' os' | None => None end
  end.

(** ** Queries *)

Definition b2z (b : bool) : Z := if b then 1 else 0.

(** inner loop of lines 174-178: walk at most [k] entries from rbegin() *)
Definition count_recent (st : tstatus) (k : nat) (m : tmap) : Z :=
  Z.of_nat (length (filter (fun e => tstatus_eqb (snd e) st) (firstn k m))).

(** loop body for one camera, lines 170-181. [n] as in the C++ int argument. *)
Definition count_cam (st : tstatus) (n : Z) (c : camstat) : Z :=
  if n =? 0 then c_cum c st + b2z (tstatus_eqb (c_status c) st)
  else count_recent st (Z.to_nat (n - 1)) (c_hist c) + b2z (tstatus_eqb (c_status c) st).

(** countTrackingStatistics, lines 159-184. [camID = -1]: all cameras. Invalid id: 0. *)
Definition count_status (s : stat) (st : tstatus) (camID n : Z) : Z :=
  if camID =? -1 then fold_left (fun a c => a + count_cam st n c) (s_cams s) 0
  else if (camID <? 0) || (Z.of_nat (length (s_cams s)) <=? camID) then 0
  else match nth_error (s_cams s) (Z.to_nat camID) with
       | Some c => count_cam st n c
       | None => 0
       end.

(** countTot 216-218, countTracked 224-226, countInFrame 234-236 *)
Definition count_tot (s : stat) : Z := s_tot s + 1.
Definition count_tracked (s : stat) : Z := s_tracked s + b2z (tracked_in_some_frame s).
Definition count_in_frame (s : stat) (camID n : Z) : Z :=
  count_status s FAILED_ALIGNEMENT camID n + count_status s FAILED_TRACKING camID n
  + count_status s TRACKED camID n.

(** getLocalQuality 256-263, getLocalVisibility 270-276; [None] = index out of range (UB) *)
Definition cam_local_quality (s : stat) (c : camstat) : T := upd_quality (s_rq s) (c_status c) (c_lq c).
Definition cam_local_visibility (s : stat) (c : camstat) : T :=
  upd_visibility (s_rv s) (in_frame (c_status c)) (c_lv c).
Definition local_quality (s : stat) (i : nat) : option T :=
  option_map (cam_local_quality s) (nth_error (s_cams s) i).
Definition local_visibility (s : stat) (i : nat) : option T :=
  option_map (cam_local_visibility s) (nth_error (s_cams s) i).
(** getAverageLocalQuality 283-293 *)
Definition average_local_quality (s : stat) : T :=
  fold_left (fun q c => upd_quality (s_rq s) (c_status c) q) (s_cams s) (s_alq s).
(** getJointLocalVisibility 311-317 *)
Definition joint_local_visibility (s : stat) : T :=
  upd_visibility (s_rv s) (in_some_frame s) (s_jlv s).

End Machine.

Arguments camstat T : clear implicits.
Arguments stat T : clear implicits.

(** ** Exact rational arithmetic. [None] stands for "not a finite number": 1.0/0 is infinite and
    every further operation on it is infinite or NaN. *)
Local Open Scope Q_scope.
Definition qinv (r : Z) : option Q := if Z.eqb r 0 then None else Some (/ inject_Z r).
Definition exact_dec (r : Z) (q : option Q) : option Q :=
  match q, qinv r with Some x, Some i => Some (x * (1 - i)) | _, _ => None end.
Definition exact_rai (r : Z) (q : option Q) : option Q :=
  match q, qinv r with Some x, Some i => Some (x * (1 - i) + i) | _, _ => None end.
Definition exactQ : qops (option Q) := {| q_one := Some 1; q_rai := exact_rai; q_dec := exact_dec |}.

(** Rounded arithmetic: every operation is followed by [rnd]. *)
Definition rnd_inv (rnd : Q -> Q) (r : Z) : option Q :=
  if Z.eqb r 0 then None else Some (rnd (/ inject_Z r)).
Definition rnd_dec (rnd : Q -> Q) (r : Z) (q : option Q) : option Q :=
  match q, rnd_inv rnd r with Some x, Some i => Some (rnd (x * rnd (1 - i))) | _, _ => None end.
Definition rnd_rai (rnd : Q -> Q) (r : Z) (q : option Q) : option Q :=
  match q, rnd_inv rnd r with
  | Some x, Some i => Some (rnd (rnd (x * rnd (1 - i)) + i)) | _, _ => None end.
Definition roundedQ (rnd : Q -> Q) : qops (option Q) :=
  {| q_one := Some 1; q_rai := rnd_rai rnd; q_dec := rnd_dec rnd |}.

(** getGlobalQuality 246-249. countTot/minGlobalQualityRange_ with range 0 is +infinity (countTot is
    positive), so std::min gives 1.0. Needs only the counters. *)
Definition global_quality {T} (s : stat T) : Q :=
  let ratio := inject_Z (count_tracked s) / inject_Z (count_tot s) in
  let f := if Z.eqb (s_rg s) 0 then 1
           else let x := inject_Z (count_tot s) / inject_Z (s_rg s) in
                if Qlt_le_dec 1 x then 1 else x in
  ratio * f.

Definition Qltb (a b : Q) : bool := if Qlt_le_dec a b then true else false.

(** getMaxLocalQuality 299-305: comparisons with a non-finite value are taken as false. *)
Definition max_local_quality (s : stat (option Q)) : Q :=
  fold_left (fun q c => match cam_local_quality exactQ s c with
                        | Some x => if Qltb q x then x else q
                        | None => q
                        end) (s_cams s) 0.

(** isGoodFeature 330-336. A non-finite quality product never compares greater. *)
Definition good_cam (s : stat (option Q)) (upper lower : Q) (c : camstat (option Q)) : bool :=
  match cam_local_quality exactQ s c, cam_local_visibility exactQ s c with
  | Some q, Some v => Qltb (upper - (upper - lower) * global_quality s) (q * v)
  | _, _ => false
  end.
Definition is_good_feature (s : stat (option Q)) (upper lower : Q) : bool :=
  fold_left (fun g c => orb g (good_cam s upper lower c)) (s_cams s) false.
