(** Model of the replay loop of /repo/src/rovio_rosbag_loader.cpp, lines 176-224. *)
From Coq Require Import List ZArith Bool.
From Verif Require Import NodeModel.
Import ListNotations.
Local Open Scope Z_scope.

Section Load.
Context {V Qt Cov Img F : Type}.
Notation event := (event V Qt Cov Img).
Notation ops_t := (filter_ops V Qt Cov Img F).
Notation node := (node V Qt Cov Img F).

(** [ld_last]: static lastSafeTime (line 195), [None] before control first reaches it;
    [ld_trigger]: lastTriggerTime once isTriggerInitialized (lines 176-177, 208-211);
    [ld_records]: what has been written to the output bag, oldest first: the safe time at that moment and
    the stamp of the messages written. All messages of one iteration (lines 197-205) are one record; at
    least one of the record_ switches is on. *)
Record loader := {
  ld_node : node;
  ld_last : option Z;
  ld_trigger : option Z;
  ld_records : list (Z * option Z) }.

(** [lc_reset]: the parameter reset_trigger; [lc_carry]: lines 214-215, which copy the safe pose into the
    initial state of the filter *)
Record load_config := { lc_reset : Z; lc_carry : F -> F }.

Definition load_init (n : node) : loader :=
  {| ld_node := n; ld_last := None; ld_trigger := None; ld_records := [] |}.

(** One iteration: [es] are the callbacks run, that of the bag message (lines 179-190; none when it cannot
    be instantiated) followed by those run by ros::spinOnce() (line 191). *)
Definition load_step (cfg : node_config Qt) (ops : ops_t) (lc : load_config) (l : loader)
    (es : list event) : loader :=
  let n := fst (run cfg ops (ld_node l) es) in
  if n_first n then
    let safe := f_safe ops (n_filter n) in
    let last0 := match ld_last l with Some t => t | None => safe end in
    let records := if last0 <? safe then ld_records l ++ [(safe, n_stamp n)] else ld_records l in
    let last1 := if last0 <? safe then safe else last0 in
    let trig0 := match ld_trigger l with Some t => t | None => last1 end in
    if (0 <? lc_reset lc) && (lc_reset lc <? last1 - trig0)
    then let n1 := request_reset n in
         {| ld_node := with_filter (lc_carry lc (n_filter n1)) n1; ld_last := Some last1;
            ld_trigger := Some last1; ld_records := records |}
    else {| ld_node := n; ld_last := Some last1; ld_trigger := Some trig0; ld_records := records |}
  else {| ld_node := n; ld_last := ld_last l; ld_trigger := ld_trigger l; ld_records := ld_records l |}.

Definition load (cfg : node_config Qt) (ops : ops_t) (lc : load_config) (n : node)
    (log : list (list event)) : loader :=
  fold_left (load_step cfg ops lc) log (load_init n).

End Load.
Arguments loader : clear implicits.
Arguments load_config : clear implicits.
