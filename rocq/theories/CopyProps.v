(** C55: copying filter states. Programs are any sequences of constructions, assignments, writes through the feature
    managers, drawings and destructions of filter states, with any number of features and cameras. *)
From Coq Require Import List ZArith Bool Arith Lia.
From Verif Require Import Util CopyModel CopySpec CopyProofs.
Import ListNotations.

(** A program that never uses the copy constructor never reads, writes or deletes an object that does not exist. *)
Theorem C55_no_bad_access : forall V co di st mp nMax nCam os, ordinary V os -> exists w, run V co di st mp nMax nCam (empty V) os = Some w.
Proof.
  intros V co di st mp nMax nCam os H. destruct (run_ok V co di st mp nMax nCam os (empty V)) as (w & E & _); auto using inv_empty. eauto.
Qed.
Print Assumptions C55_no_bad_access.

(** A new state has nMax features, each invalid, without id, and with objects of its own. *)
Theorem C55_construct : forall V co di st mp nMax nCam os w rest, run V co di st mp nMax nCam (empty V) os = Some w ->
  exists w', run V co di st mp nMax nCam w [ONew V rest] = Some w' /\
  let i := length (w_states V w) in
  content V w' i = Some (repeat {| n_idx := -1; n_valid := false; n_prev := co; n_pred := co; n_err := mp;
                                   n_co := Some co; n_di := Some di; n_st := Some st |} nMax, 0%Z, repeat mp nCam, rest) /\
  patches V w' i = Some (repeat (Some mp) nMax).
Proof.
  intros V co di st mp nMax nCam os w rest _. cbn. unfold state_new.
  destruct (slots_new_content V co di st mp nMax (w_heap V w) []) as (x & l & E & Q1 & Q2). rewrite E.
  eexists; split; [reflexivity|]. unfold content, patches, get_state; cbn. rewrite nth_error_app2, Nat.sub_diag by lia; cbn.
  rewrite !app_nil_r in Q1, Q2. rewrite Q1. unfold patch in Q2. rewrite Q2. auto.
Qed.
Print Assumptions C55_construct.

(** After x_i = x_j, in any reachable situation, x_i reads as x_j did: ids, validity, history, coordinates, distances,
    statistics, id counter, pyramids and plain members; x_j and every other state read as before. *)
Theorem C55_assign : forall V co di st mp nMax nCam os w i j, ordinary V os -> run V co di st mp nMax nCam (empty V) os = Some w ->
  content V w i <> None -> content V w j <> None ->
  exists w', run V co di st mp nMax nCam w [OAssign V i j] = Some w' /\
    content V w' i = content V w j /\
    (forall k, k <> i -> content V w' k = content V w k /\ patches V w' k = patches V w k).
Proof.
  intros V co di st mp nMax nCam os w i j N E Ci Cj.
  destruct (run_ok V co di st mp nMax nCam os (empty V) (inv_empty V nMax) N) as (w0 & E0 & I). assert (w0 = w) by congruence; subst w0.
  unfold content in Ci, Cj. destruct (get_state V w i) as [d|] eqn:Gi; [|elim Ci; reflexivity]. destruct (get_state V w j) as [s|] eqn:Gj; [|elim Cj; reflexivity].
  destruct (step_assign V co di st mp nMax nCam w i j d s I Gi Gj) as (w' & E1 & I1 & O1 & A1 & A2 & _).
  exists w'. cbn [run]; rewrite E1. split; [reflexivity|]. split; [exact A1|]. intros k Ne.
  destruct (get_state V w k) as [t|] eqn:Gk.
  - destruct (O1 k t) as [_ F]; auto. cbn; apply Nat.eqb_neq; auto.
  - cbn in E1. rewrite Gi, Gj in E1. destruct (state_assign V _ d s) as [[h d']|]; [|discriminate]. injection E1 as <-.
    unfold content, patches. rewrite (get_set_ne V h) by auto. fold (get_state V w k). rewrite Gk; auto.
Qed.
Print Assumptions C55_assign.

(** Whatever is done afterwards to the source or to any other state, the copy keeps reading as the source did at the
    time of the assignment (every object of its features still exists), as long as nothing is done to the copy. *)
Theorem C55_later_changes : forall V co di st mp nMax nCam os w i j later, ordinary V os -> run V co di st mp nMax nCam (empty V) os = Some w ->
  content V w i <> None -> content V w j <> None ->
  ordinary V later -> Forall (fun o => changes V i o = false) later ->
  exists w', run V co di st mp nMax nCam w (OAssign V i j :: later) = Some w' /\ content V w' i = content V w j /\ patches V w' i = patches V w i.
Proof.
  intros V co di st mp nMax nCam os w i j later N E Ci Cj Nl Cl.
  destruct (run_ok V co di st mp nMax nCam os (empty V) (inv_empty V nMax) N) as (w0 & E0 & I). assert (w0 = w) by congruence; subst w0.
  unfold content in Ci, Cj. destruct (get_state V w i) as [d|] eqn:Gi; [|elim Ci; reflexivity]. destruct (get_state V w j) as [s|] eqn:Gj; [|elim Cj; reflexivity].
  destruct (step_assign V co di st mp nMax nCam w i j d s I Gi Gj) as (w1 & E1 & I1 & O1 & A1 & A2 & _).
  destruct (run_ok V co di st mp nMax nCam later w1 I1 Nl) as (w' & E2 & I2).
  exists w'. cbn [run]; rewrite E1. split; [exact E2|].
  destruct (get_state V w1 i) as [t|] eqn:Gt.
  - destruct (run_others V co di st mp nMax nCam later w1 w' i t I1 Nl Cl Gt E2) as (_ & F1 & F2). split; congruence.
  - exfalso. unfold content in A1; rewrite Gt, Gj in A1. discriminate.
Qed.
Print Assumptions C55_later_changes.

(** Two states never share a feature object: a write through one state's features changes nothing another one reads;
    also without any assignment between them. *)
Theorem C55_independent : forall V co di st mp nMax nCam os w i later w', ordinary V os -> run V co di st mp nMax nCam (empty V) os = Some w ->
  content V w i <> None -> ordinary V later -> Forall (fun o => changes V i o = false) later -> run V co di st mp nMax nCam w later = Some w' ->
  content V w' i = content V w i /\ patches V w' i = patches V w i.
Proof.
  intros V co di st mp nMax nCam os w i later w' N E Ci Nl Cl E2.
  destruct (run_ok V co di st mp nMax nCam os (empty V) (inv_empty V nMax) N) as (w0 & E0 & I). assert (w0 = w) by congruence; subst w0.
  unfold content in Ci. destruct (get_state V w i) as [d|] eqn:Gi; [|elim Ci; reflexivity].
  destruct (run_others V co di st mp nMax nCam later w w' i d I Nl Cl Gi E2) as (_ & F1 & F2). auto.
Qed.
Print Assumptions C55_independent.

(** A write through a state's feature manager is read back through the same state. *)
Theorem C55_write_reads_back : forall V co di st mp nMax nCam os w i k p v, ordinary V os -> run V co di st mp nMax nCam (empty V) os = Some w ->
  content V w i <> None -> k < nMax ->
  exists w' c q, run V co di st mp nMax nCam w [OWrite V i k p v] = Some w' /\
    option_map (fun x => nth_error (fst (fst (fst x))) k) (content V w' i) = Some (Some c) /\
    option_map (fun x => nth_error x k) (patches V w' i) = Some (Some q) /\
    match p with PCo => n_co V c | PDi => n_di V c | PSt => n_st V c | PMp => q end = Some v.
Proof.
  intros V co di st mp nMax nCam os w i k p v N E Ci Hk.
  destruct (run_ok V co di st mp nMax nCam os (empty V) (inv_empty V nMax) N) as (w0 & E0 & I). assert (w0 = w) by congruence; subst w0.
  unfold content in Ci. destruct (get_state V w i) as [s|] eqn:Gi; [|elim Ci; reflexivity].
  pose proof (inv_get V nMax w i s I Gi) as (g1 & g2 & g3 & g4 & g5).
  destruct (nth_error (s_slots _ s) k) as [sl|] eqn:Ek. 2:{ apply nth_error_None in Ek; lia. }
  assert (Gs : good V sl) by (rewrite Forall_forall in g1; apply g1; eapply nth_error_In; eauto).
  destruct (good_ptr V sl p Gs) as (a & Ea & Ia).
  assert (Ja : In a (aset V (s_slots _ s))) by (apply in_flat_map; exists sl; split; auto; eapply nth_error_In; eauto).
  destruct (store_ok V (w_heap _ w) a v (g3 a Ja)) as (h' & Es & L1 & L2).
  exists {| w_heap := h'; w_states := w_states V w |}, (see V h' sl), (deref V h' (f_mp V (sl_fm V sl))).
  cbn. rewrite Gi, Ek, Ea; cbn. rewrite Es. split; [reflexivity|].
  unfold content, patches. change (get_state V {| w_heap := h'; w_states := w_states V w |} i) with (get_state V w i). rewrite Gi; cbn.
  rewrite !nth_error_map, Ek; cbn. split; [reflexivity|split; [reflexivity|]].
  destruct p; cbn in Ea; unfold see; cbn; rewrite Ea; exact L1.
Qed.
Print Assumptions C55_write_reads_back.

(** Every object is deleted exactly once: when all states of a program without drawing are destroyed, no object is left
    ([C55_no_bad_access] excludes deleting twice). *)
Theorem C55_no_leak : forall V co di st mp nMax nCam os w, ordinary V os -> Forall (fun o => draws V o = false) os ->
  run V co di st mp nMax nCam (empty V) os = Some w -> (forall i, content V w i = None) -> forall a, load V (w_heap V w) a = None.
Proof.
  intros V co di st mp nMax nCam os w N D E C a.
  assert (L : noleak V w). { eapply (run_noleak V co di st mp nMax nCam os (empty V)); eauto using inv_empty. intros x X. exfalso; apply X. unfold load; cbn. destruct x; reflexivity. }
  destruct (load V (w_heap V w) a) as [v|] eqn:Ea; auto. exfalso.
  assert (X : In a (alls V (w_states V w))) by (apply L; unfold live; congruence).
  apply in_alls in X; destruct X as (i & s & G & _). specialize (C i). unfold content, get_state in C. rewrite G in C. discriminate.
Qed.
Print Assumptions C55_no_leak.

(** Without copy construction, assignment does not copy the multilevel patches: the copy keeps its old patch beside the
    new id and statistics. *)
Theorem C55_patches_refuted : exists (os : list (op Z)) w, ordinary Z os /\
  run Z 0%Z 0%Z 0%Z 0%Z 1 1 (empty Z) (os ++ [OAssign Z 1 0]) = Some w /\
  content Z w 1 = content Z w 0 /\ patches Z w 0 = Some [Some 5%Z] /\ patches Z w 1 = Some [Some 0%Z].
Proof.
  exists [ONew Z 0%Z; ONew Z 0%Z; OPlain Z 0 0 7 3%Z 4%Z true 0%Z; OWrite Z 0 0 PMp 5%Z]. eexists.
  split; [repeat constructor|]. split; [vm_compute; reflexivity|]. split; [vm_compute; reflexivity|]. split; vm_compute; reflexivity.
Qed.
Print Assumptions C55_patches_refuted.

(** The drawing images are shared after an assignment: drawing on the source changes the copy's image. *)
Theorem C55_images_refuted : exists (os later : list (op Z)) w w', ordinary Z os /\ ordinary Z later /\ Forall (fun o => changes Z 1 o = false) later /\
  run Z 0%Z 0%Z 0%Z 0%Z 1 1 (empty Z) (os ++ [OAssign Z 1 0]) = Some w /\ run Z 0%Z 0%Z 0%Z 0%Z 1 1 w later = Some w' /\
  images Z w 1 = Some [Some 8%Z] /\ images Z w' 1 = Some [Some 9%Z].
Proof.
  exists [ONew Z 0%Z; ONew Z 0%Z; ODraw Z 0 0 8%Z], [ODraw Z 0 0 9%Z]. eexists; eexists.
  split; [repeat constructor|]. split; [repeat constructor|]. split; [repeat constructor|]. split; [vm_compute; reflexivity|]. split; [vm_compute; reflexivity|]. split; vm_compute; reflexivity.
Qed.
Print Assumptions C55_images_refuted.

(** Copy construction is unsafe: destroying both states deletes the statistics twice; and before that, writing the
    statistics of the original changes the copy. *)
Theorem C55_copy_constructor_refuted :
  run Z 0%Z 0%Z 0%Z 0%Z 1 1 (empty Z) [ONew Z 0%Z; OCopy Z 0; ODestroy Z 1; ODestroy Z 0] = None /\
  exists w, run Z 0%Z 0%Z 0%Z 0%Z 1 1 (empty Z) [ONew Z 0%Z; OCopy Z 0; OWrite Z 0 0 PSt 6%Z; OWrite Z 0 0 PCo 2%Z] = Some w /\
    option_map (fun x => map (n_st Z) (fst (fst (fst x)))) (content Z w 1) = Some [Some 6%Z] /\
    option_map (fun x => map (n_co Z) (fst (fst (fst x)))) (content Z w 1) = Some [Some 2%Z].
Proof. split; [vm_compute; reflexivity|]. eexists; split; [vm_compute; reflexivity|]. split; vm_compute; reflexivity. Qed.
Print Assumptions C55_copy_constructor_refuted.

(** ** The hypotheses are met: three states, one with changed features, copied, then the source is changed and destroyed *)
Definition ex_os : list (op Z) := [ONew Z 10%Z; ONew Z 11%Z; ONew Z 12%Z; OPlain Z 0 1 7 3%Z 4%Z true 0%Z; OWrite Z 0 1 PSt 5%Z; OWrite Z 0 1 PCo 6%Z; OCount Z 0 8 20%Z; ODestroy Z 2].
Definition ex_later : list (op Z) := [OWrite Z 0 1 PSt 50%Z; OWrite Z 0 1 PCo 60%Z; OPlain Z 0 1 9 0%Z 0%Z false 0%Z; ODestroy Z 0; ONew Z 1%Z].
Example C55_example : exists w w', run Z 0%Z 1%Z 2%Z 3%Z 2 1 (empty Z) ex_os = Some w /\ ordinary Z ex_os /\ ordinary Z ex_later /\
  Forall (fun o => changes Z 1 o = false) ex_later /\ content Z w 1 <> None /\ content Z w 0 <> None /\
  run Z 0%Z 1%Z 2%Z 3%Z 2 1 w (OAssign Z 1 0 :: ex_later) = Some w' /\
  option_map (fun x => map (fun c => (n_idx Z c, n_valid Z c, n_st Z c, n_co Z c)) (fst (fst (fst x)))) (content Z w' 1)
    = Some [((-1)%Z, false, Some 2%Z, Some 0%Z); (7%Z, true, Some 5%Z, Some 6%Z)].
Proof.
  eexists; eexists. split; [vm_compute; reflexivity|]. split; [repeat constructor|]. split; [repeat constructor|]. split; [repeat constructor|].
  split; [vm_compute; discriminate|]. split; [vm_compute; discriminate|]. split; [vm_compute; reflexivity|]. vm_compute; reflexivity.
Qed.
Example C55_example_leak : exists w, run Z 0%Z 1%Z 2%Z 3%Z 2 1 (empty Z) (ex_os ++ [OAssign Z 1 0; ODestroy Z 0; ODestroy Z 1]) = Some w /\
  (forall i, content Z w i = None) /\ length (w_heap Z w) = 24.
Proof.
  eexists; split; [vm_compute; reflexivity|]. split; [|vm_compute; reflexivity]. intros [|[|[|i]]]; try (vm_compute; reflexivity).
  unfold content, get_state; cbn. destruct i; reflexivity.
Qed.
