(** C84: loading camera calibrations. *)
From Coq Require Import Reals List String Bool Lia Lra.
From Verif Require Import CamModel CalModel CalSpec.
Import ListNotations.
Local Open Scope R_scope.

(** Success is independent of the camera before *)
Lemma same_refl a : same_camera a a.
Proof. repeat split. Qed.
Lemma undistort_ext a b : (forall i, distort_J a i = distort_J b i) -> forall n y yb, undistort n a y yb = undistort n b y yb.
Proof.
  intros H n. induction n as [|n IH]; intros y yb; [reflexivity|]. cbn [undistort]. rewrite H. destruct (distort_J b yb) as [yt J].
  destruct (gn_step _ _); [|reflexivity]. destruct (if Rle_dec _ _ then _ else _); [reflexivity|apply IH].
Qed.
Lemma same_of a b : (forall i, distort a i = distort b i) -> (forall i, distort_J a i = distort_J b i) -> fx a = fx b -> fy a = fy b -> cx a = cx b -> cy a = cy b -> same_camera a b.
Proof.
  intros H1 H2 E1 E2 E3 E4. split; [|split].
  - intros [[x y] z]. unfold bearing_to_pixel. now rewrite H1, E1, E2, E3, E4.
  - intros [[x y] z]. unfold bearing_to_pixel_J. now rewrite H2, E1, E2, E3, E4.
  - intros p. unfold pixel_to_bearing, pixel_to_bearing_n. now rewrite (undistort_ext a b H2), E1, E2, E3, E4.
Qed.
Lemma same_fields a b : ctype a = ctype b -> k1 a = k1 b -> k2 a = k2 b -> (ctype b <> DS -> k3 a = k3 b) -> (ctype b = EQUIDIST -> k4 a = k4 b) -> (ctype b = RADTAN -> p1 a = p1 b /\ p2 a = p2 b) ->
  fx a = fx b -> fy a = fy b -> cx a = cx b -> cy a = cy b -> same_camera a b.
Proof.
  intros T E1 E2 E3 E4 E5. apply same_of; intros [x y]; unfold distort, distort_J; rewrite T; destruct (ctype b).
  - specialize (E3 ltac:(discriminate)). destruct (E5 eq_refl) as [P1 P2]. unfold distort_radtan. now rewrite E1, E2, E3, P1, P2.
  - specialize (E3 ltac:(discriminate)). specialize (E4 eq_refl). unfold distort_equidist, thd_of. now rewrite E1, E2, E3, E4.
  - unfold distort_ds, ds_den, ds_d2. now rewrite E1, E2.
  - specialize (E3 ltac:(discriminate)). destruct (E5 eq_refl) as [P1 P2]. unfold distort_radtan_J. now rewrite E1, E2, E3, P1, P2.
  - specialize (E3 ltac:(discriminate)). specialize (E4 eq_refl). unfold distort_equidist_J, thd_of, thd_th_of. now rewrite E1, E2, E3, E4.
  - unfold distort_ds_J, ds_den, ds_d2. now rewrite E1, E2.
Qed.
(** A complete calibration file is loaded and gives the camera that it describes, whatever was loaded before. *)
Theorem C84_loads_what_the_file_describes : forall y k c, describes y k -> exists c', load (Some y) c = Done c' /\ same_camera (cam_of c') k.
Proof.
  intros y k c H. destruct H.
  - eexists. split; [reflexivity|]. apply same_fields; try reflexivity; cbn [ctype]; try discriminate; intros; try split; reflexivity.
  - eexists. split; [reflexivity|]. apply same_fields; try reflexivity; cbn [ctype]; try discriminate; intros; try split; reflexivity.
  - destruct rd as [[r|]|]; [| congruence |]; (eexists; split; [reflexivity|]; apply same_fields; try reflexivity; cbn [ctype]; try discriminate; congruence).
Qed.
Print Assumptions C84_loads_what_the_file_describes.
(** Nothing else is accepted silently, except files that name no known model. *)
Lemma run_done l : forall c c', run l c = Done c' -> Forall (fun s => fst s <> None) l.
Proof.
  induction l as [|[[v|] f] l IH]; intros c c' H; [constructor| |discriminate]. constructor; [discriminate|]. eapply IH. exact H.
Qed.
Lemma as_double_some l i : as_double l i <> None -> exists v, nth_error l i = Some (Some v).
Proof. unfold as_double. destruct (nth_error l i) as [[v|]|]; [eauto|congruence|congruence]. Qed.
Lemma prefix_of (l : list (option R)) n : (forall i, (i < n)%nat -> as_double l i <> None) -> exists p q, List.length p = n /\ l = map Some p ++ q.
Proof.
  revert l. induction n as [|n IH]; intros l H; [exists [], l; auto|].
  destruct (as_double_some l 0 (H 0%nat ltac:(lia))) as [v V]. destruct l as [|x l]; [discriminate|]. injection V as ->.
  destruct (IH l) as (p & q & L & ->); [intros i Hi; apply (H (S i)); lia|]. exists (v :: p), q. split; [cbn; lia|reflexivity].
Qed.
Lemma K_prefix y l : Forall (fun s : stmt => fst s <> None) (matrix_stmts y ++ l) -> exists f0 sk c0 a f1 c1 g h w K', y_K y = map Some [f0; sk; c0; a; f1; c1; g; h; w] ++ K'.
Proof.
  intros F. destruct (prefix_of (y_K y) 9) as (p & q & L & E).
  - intros i Hi. apply Forall_app in F. destruct F as [F _]. unfold matrix_stmts in F. rewrite Forall_map, Forall_forall in F. apply (F i). cbn. lia.
  - do 9 (destruct p as [|? p]; [discriminate|]). destruct p; [|discriminate]. do 10 eexists. exact E.
Qed.
Theorem C84_accepts_only_complete_files : forall file c c', load file c = Done c' -> exists y, file = Some y /\ (known_model y -> exists k, describes y k).
Proof.
  intros file c c' H. destruct file as [y|]; [|discriminate]. exists y. split; [reflexivity|]. intros KM. unfold known_model in KM. unfold load in H.
  cbn [map In] in KM. destruct KM as [M|[M|[M|[]]]]; rewrite <- M in H; cbn [String.eqb Ascii.eqb Bool.eqb] in H; apply run_done in H.
  - destruct (K_prefix _ _ H) as (f0 & sk & c0 & a & f1 & c1 & g & h & w & K' & EK). apply Forall_app in H. destruct H as [_ F].
    destruct (prefix_of (y_D y) 5) as (p & q & L & E).
    + intros i Hi. rewrite Forall_forall in F. destruct i as [|[|[|[|[|i]]]]]; [..|lia]; match goal with |- as_double _ ?n <> None => idtac end.
      all: first [apply (F (as_double (y_D y) 0, set_k1)); cbn; tauto | apply (F (as_double (y_D y) 1, set_k2)); cbn; tauto | apply (F (as_double (y_D y) 2, set_p1)); cbn; tauto | apply (F (as_double (y_D y) 3, set_p2)); cbn; tauto | apply (F (as_double (y_D y) 4, set_k3)); cbn; tauto].
    + do 5 (destruct p as [|? p]; [discriminate|]). destruct p; [|discriminate]. destruct y as [m K D rd]. cbn [y_model y_K y_D] in *. subst. eexists. apply d_radtan.
  - destruct (K_prefix _ _ H) as (f0 & sk & c0 & a & f1 & c1 & g & h & w & K' & EK). apply Forall_app in H. destruct H as [_ F].
    destruct (prefix_of (y_D y) 4) as (p & q & L & E).
    + intros i Hi. rewrite Forall_forall in F. destruct i as [|[|[|[|i]]]]; [..|lia].
      all: first [apply (F (as_double (y_D y) 0, set_k1)); cbn; tauto | apply (F (as_double (y_D y) 1, set_k2)); cbn; tauto | apply (F (as_double (y_D y) 2, set_k3)); cbn; tauto | apply (F (as_double (y_D y) 3, set_k4)); cbn; tauto].
    + do 4 (destruct p as [|? p]; [discriminate|]). destruct p; [|discriminate]. destruct y as [m K D rd]. cbn [y_model y_K y_D] in *. subst. eexists. apply d_equidist.
  - destruct (K_prefix _ _ H) as (f0 & sk & c0 & a & f1 & c1 & g & h & w & K' & EK). apply Forall_app in H. destruct H as [_ F]. apply Forall_app in F. destruct F as [F G].
    destruct (prefix_of (y_D y) 2) as (p & q & L & E).
    + intros i Hi. rewrite Forall_forall in F. destruct i as [|[|i]]; [..|lia].
      all: first [apply (F (as_double (y_D y) 0, set_k1)); cbn; tauto | apply (F (as_double (y_D y) 1, set_k2)); cbn; tauto].
    + do 2 (destruct p as [|? p]; [discriminate|]). destruct p; [|discriminate]. destruct y as [m K D rd]. cbn [y_model y_K y_D y_radius] in *. subst. eexists. apply d_ds.
      intros ->. inversion G. now cbn in *.
Qed.
Print Assumptions C84_accepts_only_complete_files.
(** so a plumb_bob file with the usual four coefficients stops the node *)
Example C84_four_coefficients : forall K a b p q rd c, exists c', load (Some {| y_model := Some "plumb_bob"%string; y_K := map Some [1; 0; 2; 0; 1; 3; 0; 0; 1] ++ K; y_D := map Some [a; b; p; q]; y_radius := rd |}) c = Threw c'.
Proof. intros. eexists. reflexivity. Qed.
(** A file of an unknown model is ignored without any report to the caller. *)
Theorem C84_unknown_model_is_ignored : forall y m c, y_model y = Some m -> ~ known_model y -> load (Some y) c = Done c.
Proof.
  intros y m c E N. unfold known_model in N. unfold load. rewrite E in *. cbn [map In] in N.
  destruct (String.eqb_spec m "plumb_bob") as [->|]; [exfalso; apply N; auto|]. destruct (String.eqb_spec m "equidistant") as [->|]; [exfalso; apply N; auto|].
  destruct (String.eqb_spec m "ds") as [->|]; [exfalso; apply N; auto|reflexivity].
Qed.
Print Assumptions C84_unknown_model_is_ignored.
(** The limit on the radius of new features: only double sphere files change it. *)
Lemma run_radius l : (forall s, In s l -> forall v c, cal_radius (snd s v c) = cal_radius c) -> forall c c', run l c = Done c' -> cal_radius c' = cal_radius c.
Proof.
  induction l as [|[[v|] f] l IH]; intros H c c' E; [injection E as <-; reflexivity| |discriminate]. cbn [run] in E. rewrite (IH (fun s I => H s (or_intror I)) _ _ E). apply (H _ (or_introl eq_refl)).
Qed.
Lemma run_app l1 : forall l2 c c', run (l1 ++ l2) c = Done c' -> exists c1, run l1 c = Done c1 /\ run l2 c1 = Done c'.
Proof. induction l1 as [|[[v|] f] l1 IH]; intros l2 c c' E; [exists c; auto| |discriminate]. cbn [run app] in *. apply IH in E. exact E. Qed.
Lemma matrix_radius y : forall s, In s (matrix_stmts y) -> forall v c, cal_radius (snd s v c) = cal_radius c.
Proof. intros s I v c. unfold matrix_stmts in I. apply in_map_iff in I. destruct I as (i & <- & _). reflexivity. Qed.
Ltac stored := let s := fresh "s" in let I := fresh "I" in intros s I; apply in_app_or in I; destruct I as [I|I]; [now apply (matrix_radius _ s I)|]; cbn in I; repeat destruct I as [<-|I]; try contradiction; reflexivity.
Theorem C84_radius : forall y c c', load (Some y) c = Done c' ->
  (forall r, y_model y = Some "ds"%string -> y_radius y = Some (Some r) -> cal_radius c' = Some r) /\
  (y_model y <> Some "ds"%string \/ y_radius y = None -> cal_radius c' = cal_radius c).
Proof.
  intros y c c' E. split.
  - intros r M Y. unfold load in E. rewrite M in E. cbn [String.eqb Ascii.eqb Bool.eqb] in E. unfold ds_stmts in E. rewrite Y in E. rewrite app_assoc in E. apply run_app in E. destruct E as (c1 & _ & E). cbn in E. injection E as <-. reflexivity.
  - intros N. unfold load in E. destruct (y_model y) as [m|]; [|discriminate].
    destruct (String.eqb_spec m "plumb_bob") as [_|]; [apply (run_radius (radtan_stmts y)) in E; [exact E|stored]|].
    destruct (String.eqb_spec m "equidistant") as [_|]; [apply (run_radius (equidist_stmts y)) in E; [exact E|stored]|].
    destruct (String.eqb_spec m "ds") as [Q|_]; [|injection E as <-; reflexivity]. destruct N as [N|N]; [exfalso; apply N; now rewrite Q|].
    unfold ds_stmts in E. rewrite N, app_nil_r in E. eapply run_radius in E; [exact E|stored].
Qed.
Print Assumptions C84_radius.

(** start-up: every camera is the one its effective file describes *)
Lemma refresh_ok disk files : forall ids cs, NoDup ids -> (forall i, In i ids -> files i = ""%string \/ exists y k, disk (files i) = Some y /\ describes y k) ->
  exists cs', refresh_from disk files ids cs = RDone cs' /\ (forall i, ~ In i ids -> cs' i = cs i) /\
    (forall i y k, In i ids -> files i <> ""%string -> disk (files i) = Some y -> describes y k -> same_camera (cam_of (cs' i)) k).
Proof.
  induction ids as [|i ids IH]; intros cs ND H; [exists cs; split; [reflexivity|]; split; [reflexivity|intros i y k []]|]. inversion ND as [|? ? NI ND']; subst. cbn [refresh_from].
  destruct (String.eqb_spec (files i) "") as [Z|Z].
  - destruct (IH cs ND') as (cs' & E & O & G); [intros j J; apply H; now right|]. exists cs'. split; [exact E|]. split.
    + intros j J. apply O. intros K. apply J. now right.
    + intros j y k [<-|J] F; [contradiction|]. now apply G.
  - destruct (H i (or_introl eq_refl)) as [?|(y0 & k0 & D0 & K0)]; [contradiction|]. rewrite D0. destruct (C84_loads_what_the_file_describes y0 k0 (cs i) K0) as (c' & L & _). rewrite L.
    destruct (IH (upd cs i c') ND') as (cs' & E & O & G); [intros j J; apply H; now right|]. exists cs'. split; [exact E|]. split.
    + intros j J. rewrite O by (intros K; apply J; now right). unfold upd. destruct (Nat.eqb_spec j i) as [->|]; [exfalso; apply J; now left|reflexivity].
    + intros j y k [<-|J] F DD KK; [|now apply (G j y k)]. rewrite (O i NI). unfold upd. rewrite Nat.eqb_refl. rewrite D0 in DD. injection DD as <-.
      destruct (C84_loads_what_the_file_describes y0 k (cs i) KK) as (c'' & L' & SS). rewrite L in L'. injection L' as <-. exact SS.
Qed.
Theorem C84_start_up : forall disk info ros ncam,
  let file i := match ros i with Some f => f | None => info i end in
  (forall i, (i < ncam)%nat -> info i = ""%string \/ exists y k, disk (info i) = Some y /\ describes y k) ->
  (forall i, (i < ncam)%nat -> file i <> ""%string /\ exists y k, disk (file i) = Some y /\ describes y k) ->
  exists cs, start_up disk info ros ncam = Some cs /\ forall i y k, (i < ncam)%nat -> disk (file i) = Some y -> describes y k -> same_camera (cam_of (cs i)) k.
Proof.
  intros disk info ros ncam file H1 H2. unfold start_up, refresh.
  destruct (refresh_ok disk info (seq 0 ncam) (fun _ => new_camera) (seq_NoDup _ _)) as (cs & -> & _); [intros i I; apply H1; apply in_seq in I; lia|].
  destruct (refresh_ok disk file (seq 0 ncam) cs (seq_NoDup _ _)) as (cs' & E & _ & G); [intros i I; right; apply H2; apply in_seq in I; lia|]. unfold file in E at 1. rewrite E.
  exists cs'. split; [reflexivity|]. intros i y k Hi D K. apply (G i y k); auto; [apply in_seq; lia|now apply H2].
Qed.
Print Assumptions C84_start_up.
(** The node does not start with a file that is missing or incomplete, whichever of the two names it is given
    under. *)
Lemma refresh_bad disk files i : files i <> ""%string -> (forall y, disk (files i) = Some y -> known_model y /\ forall k, ~ describes y k) ->
  forall ids cs, In i ids -> exists cs', refresh_from disk files ids cs = RThrew cs'.
Proof.
  intros Z B. induction ids as [|j ids IH]; intros cs; [intros []|]. intros J. cbn [refresh_from].
  destruct (String.eqb_spec (files j) "") as [Zj|Zj].
  - destruct J as [->|J]; [contradiction|]. now apply IH.
  - destruct (load (disk (files j)) (cs j)) as [c|c] eqn:L; [|now eexists]. destruct J as [->|J]; [|now apply IH].
    apply C84_accepts_only_complete_files in L. destruct L as (y & D & K). destruct (B y D) as [KM N]. destruct (K KM) as [k Hk]. elim (N k Hk).
Qed.
Theorem C84_bad_file_stops_the_node : forall disk info ros ncam i,
  let file i := match ros i with Some f => f | None => info i end in
  (i < ncam)%nat ->
  (info i <> ""%string /\ forall y, disk (info i) = Some y -> known_model y /\ forall k, ~ describes y k) \/
  (file i <> ""%string /\ forall y, disk (file i) = Some y -> known_model y /\ forall k, ~ describes y k) ->
  start_up disk info ros ncam = None.
Proof.
  intros disk info ros ncam i file Hi H. assert (I : In i (seq 0 ncam)) by (apply in_seq; lia). unfold start_up, refresh. destruct H as [[Z B]|[Z B]].
  - destruct (refresh_bad disk info i Z B (seq 0 ncam) (fun _ => new_camera) I) as [cs ->]. reflexivity.
  - destruct (refresh_from disk info (seq 0 ncam) (fun _ => new_camera)) as [cs|cs]; [|reflexivity].
    destruct (refresh_bad disk file i Z B (seq 0 ncam) cs I) as [cs' E]. unfold file in E at 1. now rewrite E.
Qed.
Print Assumptions C84_bad_file_stops_the_node.

(** concrete files *)
Definition f_ds : yaml := {| y_model := Some "ds"%string; y_K := map Some [400; 0; 320; 0; 400; 240; 0; 0; 1]; y_D := map Some [-/5; /2]; y_radius := Some (Some (/ 2)) |}.
Definition f_eq : yaml := {| y_model := Some "equidistant"%string; y_K := map Some [460; 0; 370; 0; 459; 250; 0; 0; 1]; y_D := map Some [/100; /200; 0; 0]; y_radius := None |}.
Definition f_short : yaml := {| y_model := Some "equidistant"%string; y_K := map Some [460; 0; 370; 0; 459; 250; 0; 0; 1]; y_D := map Some [/100; /200]; y_radius := None |}.
Definition a_disk (n : string) : option yaml := if String.eqb n "ds.yaml" then Some f_ds else if String.eqb n "eq.yaml" then Some f_eq else None.
Example C84_start_up_hypotheses_met : exists k, describes f_eq k /\ exists k', describes f_ds k'.
Proof.
  eexists. split; [exact (d_equidist 460 0 370 0 459 250 0 0 1 [] (/100) (/200) 0 0 [] None)|]. eexists. exact (d_ds 400 0 320 0 400 240 0 0 1 [] (-/5) (/2) [] (Some (Some (/2))) ltac:(discriminate)).
Qed.
(** The radius limit of a file that is no longer used survives: the .info file names a double sphere
    calibration with a limit, the ROS parameter replaces it by one without. *)
Theorem C84_settings_come_from_the_file_refuted : exists disk info ros y cs, ros 0%nat = Some "eq.yaml"%string /\ disk "eq.yaml"%string = Some y /\ y_radius y = None /\
  start_up disk info ros 1 = Some cs /\ cal_radius (cs 0%nat) = Some (/ 2).
Proof.
  exists a_disk, (fun _ => "ds.yaml"%string), (fun _ => Some "eq.yaml"%string), f_eq. eexists. split; [reflexivity|]. split; [reflexivity|]. split; [reflexivity|]. split; reflexivity.
Qed.
Print Assumptions C84_settings_come_from_the_file_refuted.
Example C84_ex_bad_file : known_model f_short /\ forall k, ~ describes f_short k.
Proof. split; [right; left; reflexivity|]. intros k H. inversion H. Qed.
(** A load that fails half way leaves a mixture of both cameras behind. *)
Theorem C84_failed_load_keeps_camera_refuted : exists file c c', load (Some file) c = Threw c' /\ cal_type c' <> cal_type c /\ cal_K c' 0%nat <> cal_K c 0%nat /\ cal_k3 c' = cal_k3 c /\ cal_k1 c' <> cal_k1 c.
Proof.
  exists f_short, new_camera. eexists. split; [reflexivity|]. split; [discriminate|]. split; [cbn; lra|]. split; [reflexivity|]. cbn. lra.
Qed.
Print Assumptions C84_failed_load_keeps_camera_refuted.
(** The camera matrix: the projection multiplies with it, as long as it has the usual form... *)
Theorem C84_camera_matrix : forall c x y z, 0 < z -> cal_K c 1%nat = 0 -> cal_K c 3%nat = 0 -> bearing_to_pixel (cam_of c) (x, y, z) = Some (times (cal_K c) (distort (cam_of c) (x / z, y / z))).
Proof.
  intros c x y z Z A B. unfold bearing_to_pixel. destruct (Rle_dec z 0) as [L|_]; [lra|]. destruct (distort (cam_of c) (x / z, y / z)) as [dx dy]. unfold times. rewrite A, B. cbn [fst snd fx fy cx cy cam_of]. f_equal. f_equal; ring.
Qed.
Print Assumptions C84_camera_matrix.
(** ... but a skew in it is read and then ignored. *)
Theorem C84_skew_refuted : exists y k c' v, describes y k /\ load (Some y) new_camera = Done c' /\ cal_K c' 1%nat = 2 /\ depth_pos v /\
  bearing_to_pixel (cam_of c') v <> Some (times (cal_K c') (distort (cam_of c') (fst (fst v) / snd v, snd (fst v) / snd v))).
Proof.
  exists {| y_model := Some "plumb_bob"%string; y_K := map Some [100; 2; 50; 0; 100; 50; 0; 0; 1]; y_D := map Some [0; 0; 0; 0; 0]; y_radius := None |}. eexists. eexists. exists (0, 1, 1).
  split; [exact (d_radtan 100 2 50 0 100 50 0 0 1 [] 0 0 0 0 0 [] None)|]. split; [reflexivity|]. split; [reflexivity|]. split; [unfold depth_pos; cbn; lra|].
  unfold bearing_to_pixel, times. destruct (Rle_dec 1 0) as [L|_]; [lra|]. unfold distort, distort_radtan. cbn. intros H. injection H as H _. lra.
Qed.
Print Assumptions C84_skew_refuted.
