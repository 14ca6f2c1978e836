(** The counters of FeatureStatistics (/repo/include/rovio/FeatureStatistics.hpp) and the identity counter of
    FeatureSetManager (/repo/include/rovio/FeatureManager.hpp) as C++ ints of 32 bits. Signed overflow is undefined: [None].
    Everything else is as in StatModel and FsetModel. *)
From Coq Require Import List ZArith Bool.
From Verif Require Import Util StatModel FsetModel.
Import ListNotations.
Local Open Scope Z_scope.

(** the result of an int operation whose mathematical value is [z] *)
Definition int32 (z : Z) : option Z := if (-2147483648 <=? z) && (z <=? 2147483647) then Some z else None.
Definition add32 (a b : Z) : option Z := int32 (a + b).
Definition bind {A B} (x : option A) (f : A -> option B) : option B := match x with Some a => f a | None => None end.
Fixpoint map_opt {A B} (f : A -> option B) (l : list A) : option (list B) :=
  match l with [] => Some [] | x :: l' => bind (f x) (fun y => bind (map_opt f l') (fun ys => Some (y :: ys))) end.

Section Machine.
Context {T : Type} (Ops : qops T).

(** cumulativeTrackingStatus_[i][status_[i]]++, FeatureStatistics.hpp line 144 *)
Definition cum_incr32 (st : tstatus) (f : tstatus -> Z) : option (tstatus -> Z) :=
  bind (add32 (f st) 1) (fun v => Some (fun x => if tstatus_eqb x st then v else f x)).
(** loop body of increaseStatistics, lines 126-147 *)
Definition cam_increase32 (rq rv curT : Z) (c : camstat T) : option (camstat T) :=
  bind (cum_incr32 (c_status c) (c_cum c)) (fun cum => Some
    {| c_status := UNKNOWN; c_lq := upd_quality Ops rq (c_status c) (c_lq c); c_lv := upd_visibility Ops rv (in_frame (c_status c)) (c_lv c);
       c_cum := cum; c_hist := tmap_set curT (c_status c) (c_hist c) |}).
(** increaseStatistics, lines 113-150 *)
Definition increase32 (t : Z) (s : stat T) : option (stat T) :=
  bind (if tracked_in_some_frame s then add32 (s_tracked s) 1 else Some (s_tracked s)) (fun trk =>
  bind (map_opt (cam_increase32 (s_rq s) (s_rv s) (s_cur s)) (s_cams s)) (fun cams =>
  bind (add32 (s_tot s) 1) (fun tot => Some
  {| s_cams := cams; s_tot := tot; s_tracked := trk; s_init := s_init s; s_cur := t;
     s_jlv := upd_visibility Ops (s_rv s) (in_some_frame s) (s_jlv s);
     s_alq := fold_left (fun q c => upd_quality Ops (s_rq s) (c_status c) q) (s_cams s) (s_alq s);
     s_rq := s_rq s; s_rv := s_rv s; s_rg := s_rg s |}))).
(** the public operations in any order; only increaseStatistics counts *)
Definition step32 (s : stat T) (o : op) : option (stat T) := match o with OpIncrease t => increase32 t s | _ => step Ops s o end.
Fixpoint run32 (s : stat T) (os : list op) : option (stat T) :=
  match os with [] => Some s | o :: os' => bind (step32 s o) (fun s' => run32 s' os') end.

(** the loop of lines 176-179: for(int j=0; j<n-1 && it != rend(); ++j){ if(it->second == s) count++; ++it; }; the
    subtraction is evaluated before the end of the history is tested *)
Fixpoint walk32 (st : tstatus) (n j count : Z) (m : tmap) : option Z :=
  bind (add32 n (-1)) (fun n1 => if negb (j <? n1) then Some count else
    match m with
    | [] => Some count
    | e :: m' => bind (if tstatus_eqb (snd e) st then add32 count 1 else Some count) (fun count' => bind (add32 j 1) (fun j' => walk32 st n j' count' m'))
    end).
(** loop body of countTrackingStatistics, lines 172-181 *)
Definition count_cam32 (st : tstatus) (n count : Z) (c : camstat T) : option Z :=
  if n =? 0 then bind (add32 (c_cum c st) (b2z (tstatus_eqb (c_status c) st))) (add32 count)
  else bind (walk32 st n 0 count (c_hist c)) (fun k => add32 k (b2z (tstatus_eqb (c_status c) st))).
(** for(int i=startID;i<=endID;i++), lines 171-182 *)
Fixpoint count_cams32 (st : tstatus) (n count : Z) (cs : list (camstat T)) : option Z :=
  match cs with [] => Some count | c :: cs' => bind (count_cam32 st n count c) (fun k => count_cams32 st n k cs') end.
(** countTrackingStatistics, lines 159-184 *)
Definition count_status32 (s : stat T) (st : tstatus) (camID n : Z) : option Z :=
  if camID =? -1 then count_cams32 st n 0 (s_cams s)
  else if (camID <? 0) || (Z.of_nat (length (s_cams s)) <=? camID) then Some 0
  else match nth_error (s_cams s) (Z.to_nat camID) with Some c => count_cam32 st n 0 c | None => Some 0 end.
(** countTot 216-218, countTracked 224-226, countInFrame 234-236 *)
Definition count_tot32 (s : stat T) : option Z := add32 (s_tot s) 1.
Definition count_tracked32 (s : stat T) : option Z := add32 (s_tracked s) (b2z (tracked_in_some_frame s)).
Definition count_in_frame32 (s : stat T) (camID n : Z) : option Z :=
  bind (count_status32 s FAILED_ALIGNEMENT camID n) (fun a => bind (count_status32 s FAILED_TRACKING camID n) (fun b =>
  bind (add32 a b) (fun ab => bind (count_status32 s TRACKED camID n) (fun c => add32 ab c)))).
End Machine.

(** makeNewFeature, FeatureManager.hpp lines 220-229: maxIdx_++ *)
Definition make_new32 {P} (fs : fset P) : option (fset P * option nat) :=
  match free_index (fs_slots fs) with
  | Some i => bind (add32 (fs_maxIdx fs) 1) (fun m =>
      Some ({| fs_slots := upd_nth i (fun s => {| sl_valid := true; sl_feat := set_idx (fs_maxIdx fs) (sl_feat s) |}) (fs_slots fs); fs_maxIdx := m |}, Some i))
  | None => Some (fs, None)
  end.
Definition fs_step32 {P} (fs : fset P) (o : fs_op) : option (fset P) :=
  match o with FsMake => bind (make_new32 fs) (fun r => Some (fst r)) | _ => Some (fs_step fs o) end.
Fixpoint fs_run32 {P} (fs : fset P) (os : list fs_op) : option (fset P) :=
  match os with [] => Some fs | o :: os' => bind (fs_step32 fs o) (fun fs' => fs_run32 fs' os') end.
