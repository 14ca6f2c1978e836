(** Proofs about the message buffers. *)
From Coq Require Import Reals ZArith List Bool Arith String Lia.
From Verif Require Import Geo DistModel FiltModel OutModel MsgModel MsgSpec.
Import ListNotations.

(** ** layout *)
Lemma layout_spec ds : (forall d, In d ds -> d_size d = 4) -> forall c fs n, layout c ds = (fs, n) ->
  c <= n /\ map f_name fs = map d_name ds /\
  (forall f b, In f fs -> covers f b -> c <= b < n) /\
  (forall b, c <= b < n -> exists f, In f fs /\ covers f b) /\
  (forall i j f g b, nth_error fs i = Some f -> nth_error fs j = Some g -> covers f b -> covers g b -> i = j).
Proof.
  induction ds as [|d ds IH]; intros D c fs n H.
  - injection H as <- <-. split; [lia|]. split; [reflexivity|]. split; [intros f b []|]. split; [lia|].
    intros i j f g b Hi. now destruct i.
  - cbn [layout] in H. destruct (layout (c + d_size d * d_count d) ds) as [fs' n'] eqn:E.
    injection H as <- <-.
    destruct (IH (fun d' H => D d' (or_intror H)) _ _ _ E) as (L & N & A & B & U).
    set (f0 := {| f_name := d_name d; f_offset := c; f_count := d_count d; f_type := d_type d |}).
    assert (C0 : forall b, covers f0 b <-> c <= b < c + d_size d * d_count d).
    { intros b. unfold covers, f0, size_of; cbn [f_offset f_count]. rewrite (D d (or_introl eq_refl)). tauto. }
    split; [lia|]. split; [cbn; now rewrite N|]. split; [|split].
    + intros f b [<-|I] K; [apply C0 in K; lia | specialize (A f b I K); lia].
    + intros b Hb. destruct (le_lt_dec (c + d_size d * d_count d) b) as [G|G].
      * destruct (B b) as (f & I & K); [lia|]. exists f; split; [now right|exact K].
      * exists f0. split; [now left|]. apply C0; lia.
    + intros [|i] [|j] f g b Hi Hj Ci Cj; cbn in Hi, Hj.
      * reflexivity.
      * injection Hi as <-. apply C0 in Ci. apply nth_error_In in Hj. specialize (A g b Hj Cj). lia.
      * injection Hj as <-. apply C0 in Cj. apply nth_error_In in Hi. specialize (A f b Hi Ci). lia.
      * f_equal. eapply U; eauto.
Qed.

Lemma new_well_formed w ds : (forall d, In d ds -> d_size d = 4) -> NoDup (map d_name ds) -> well_formed (new_cloud w ds).
Proof.
  intros D N. unfold new_cloud. destruct (layout 0 ds) as [fs n] eqn:E.
  destruct (layout_spec ds D _ _ _ E) as (L & M & A & B & U).
  constructor; cbn [m_data m_step m_width m_fields].
  - rewrite repeat_length. lia.
  - intros f b I K. specialize (A f b I K). lia.
  - intros b Hb. apply B. lia.
  - exact U.
  - now rewrite M.
Qed.

Lemma pcl_sizes d : In d pcl_decls -> d_size d = 4.
Proof.
  unfold pcl_decls. rewrite in_app_iff, in_map_iff. intros [H|(s & <- & _)]; [|reflexivity].
  cbn [In] in H. repeat (destruct H as [<-|H]; [reflexivity|]). destruct H.
Qed.
Lemma patch_sizes nL ps d : In d (patch_decls nL ps) -> d_size d = 4.
Proof. intros [<-|H]; [reflexivity|]. apply in_map_iff in H as (s & <- & _). reflexivity. Qed.
Lemma nodup_names (l : list string) : NoDup l <-> nodup string_dec l = l.
Proof. split; [apply nodup_fixed_point | intros <-; apply NoDup_nodup]. Qed.
Lemma pcl_names : NoDup (map d_name pcl_decls).
Proof. apply nodup_names. vm_compute. reflexivity. Qed.
Lemma patch_names nL ps : NoDup (map d_name (patch_decls nL ps)).
Proof.
  unfold patch_decls. cbn [map d_name scalar].
  apply nodup_names. vm_compute. reflexivity.
Qed.

(** ** memory *)
Lemma sm {A} (a b : A) : Some a = Some b -> a = b. Proof. congruence. Qed.
Lemma word_bytes_len w : List.length (word_bytes w) = 4. Proof. reflexivity. Qed.
Lemma memcpy4_some o w d : o + 4 <= List.length d -> memcpy4 o w d = Some (firstn o d ++ word_bytes w ++ skipn (o + 4) d).
Proof. intros H. unfold memcpy4. apply Nat.leb_le in H. now rewrite H. Qed.
Lemma memcpy4_len o w d d' : memcpy4 o w d = Some d' -> List.length d' = List.length d /\ o + 4 <= List.length d.
Proof.
  unfold memcpy4. destruct (o + 4 <=? List.length d) eqn:E; [|discriminate]. apply Nat.leb_le in E.
  intros H; apply sm in H; subst d'. rewrite !app_length, firstn_length, skipn_length, word_bytes_len. lia.
Qed.
Lemma memcpy4_byte o w d d' b : memcpy4 o w d = Some d' ->
  byte d' b = if (o <=? b) && (b <? o + 4) then nth (b - o) (word_bytes w) 0%Z else byte d b.
Proof.
  intros H. destruct (memcpy4_len _ _ _ _ H) as [_ L]. rewrite (memcpy4_some _ _ _ L) in H. apply sm in H; subst d'.
  unfold byte. destruct (Nat.leb_spec o b) as [G|G]; cbn [andb].
  - rewrite app_nth2; rewrite firstn_length_le by lia; [|lia].
    destruct (Nat.ltb_spec b (o + 4)) as [K|K].
    + rewrite app_nth1; [reflexivity|]. rewrite word_bytes_len. lia.
    + rewrite app_nth2; rewrite word_bytes_len; [|lia].
      destruct (le_lt_dec (List.length d) b) as [M|M].
      * rewrite !nth_overflow; [reflexivity|lia|rewrite skipn_length; lia].
      * assert (S : nth (b - o - 4) (skipn (o + 4) d) 0%Z = nth (o + 4 + (b - o - 4)) d 0%Z).
        { rewrite <- (firstn_skipn (o + 4) d) at 2. rewrite app_nth2; rewrite firstn_length_le by lia; [|lia]. f_equal. lia. }
        rewrite S. f_equal. lia.
  - rewrite app_nth1; [|rewrite firstn_length_le; lia].
    rewrite <- (firstn_skipn o d) at 2. rewrite app_nth1; [reflexivity|rewrite firstn_length_le; lia].
Qed.

(** last word written to the address [o] *)
Fixpoint last_at (o : nat) (ws : list (nat * Z)) : option Z :=
  match ws with
  | [] => None
  | (p, w) :: ws' => match last_at o ws' with Some v => Some v | None => if p =? o then Some w else None end
  end.
Definition aligned (ws : list (nat * Z)) : Prop := forall o w, In (o, w) ws -> exists k, o = 4 * k.

Lemma memcpys_some ws : forall d, (forall o w, In (o, w) ws -> o + 4 <= List.length d) -> exists d', memcpys ws d = Some d'.
Proof.
  induction ws as [|[o w] ws IH]; intros d H; [now exists d|].
  cbn [memcpys]. rewrite (memcpy4_some o w d) by (apply (H o w); now left).
  apply IH. intros o' w' I. erewrite (proj1 (memcpy4_len _ _ _ _ (memcpy4_some o w d (H o w (or_introl eq_refl))))).
  apply (H o' w'). now right.
Qed.
Lemma memcpys_byte ws : aligned ws -> forall d d', memcpys ws d = Some d' ->
  List.length d' = List.length d /\
  forall b, byte d' b = match last_at (4 * (b / 4)) ws with Some w => nth (b mod 4) (word_bytes w) 0%Z | None => byte d b end.
Proof.
  induction ws as [|[o w] ws IH]; intros A d d' H.
  - injection H as <-. split; [reflexivity|]. reflexivity.
  - cbn [memcpys] in H. destruct (memcpy4 o w d) as [d1|] eqn:E; [|discriminate].
    destruct (IH (fun o' w' I => A o' w' (or_intror I)) _ _ H) as [L B].
    destruct (memcpy4_len _ _ _ _ E) as [L1 _]. split; [congruence|].
    intros b. rewrite B. cbn [last_at]. destruct (last_at (4 * (b / 4)) ws); [reflexivity|].
    rewrite (memcpy4_byte _ _ _ _ b E).
    destruct (A o w (or_introl eq_refl)) as [k ->].
    pose proof (Nat.div_mod b 4 ltac:(lia)) as Q. pose proof (Nat.mod_upper_bound b 4 ltac:(lia)) as Q2.
    destruct (Nat.eqb_spec (4 * k) (4 * (b / 4))) as [G|G].
    + replace ((4 * k <=? b) && (b <? 4 * k + 4)) with true
        by (symmetry; apply andb_true_iff; split; [apply Nat.leb_le | apply Nat.ltb_lt]; lia).
      f_equal. lia.
    + replace ((4 * k <=? b) && (b <? 4 * k + 4)) with false; [reflexivity|].
      symmetry. apply andb_false_iff. destruct (le_lt_dec (4 * k) b); [right; apply Nat.ltb_ge | left; apply Nat.leb_gt]; lia.
Qed.

Lemma last_at_unique o w ws : In (o, w) ws -> (forall v, In (o, v) ws -> v = w) -> last_at o ws = Some w.
Proof.
  induction ws as [|[p v] ws IH]; intros I U; [destruct I|]. cbn [last_at].
  destruct (last_at o ws) as [u|] eqn:E.
  - f_equal. apply U. right. clear - E. revert u E. induction ws as [|[q x] ws IH]; intros u E; [discriminate|].
    cbn [last_at] in E. destruct (last_at o ws) as [y|] eqn:F.
    + injection E as <-. right. now apply IH.
    + destruct (Nat.eqb_spec q o) as [->|]; [|discriminate]. injection E as <-. now left.
  - destruct I as [I|I].
    + injection I as -> ->. now rewrite Nat.eqb_refl.
    + assert (K : None = Some w) by (apply IH; [exact I | intros x X; apply U; now right]). discriminate.
Qed.
Lemma last_at_none o ws : (forall w, ~ In (o, w) ws) -> last_at o ws = None.
Proof.
  induction ws as [|[p v] ws IH]; intros H; [reflexivity|]. cbn [last_at].
  rewrite IH by (intros w I; apply (H w); now right).
  destruct (Nat.eqb_spec p o) as [->|]; [|reflexivity]. exfalso. apply (H v). now left.
Qed.

Lemma four_bytes w : (w mod 256 + 256 * (w / 256 mod 256) + 65536 * (w / 65536 mod 256) + 16777216 * (w / 16777216 mod 256) = w mod 4294967296)%Z.
Proof.
  change 65536%Z with (256 * 256)%Z. change 16777216%Z with (256 * 256 * 256)%Z.
  rewrite <- !Z.div_div by lia.
  change 4294967296%Z with (256 * (256 * (256 * 256)))%Z.
  rewrite !(Z.rem_mul_r _ 256) by lia. ring.
Qed.
Lemma read4_written k w d d' ws : aligned ws -> memcpys ws d = Some d' -> last_at (4 * k) ws = Some w ->
  read4 d' (4 * k) = (w mod 4294967296)%Z.
Proof.
  intros A M L. destruct (memcpys_byte ws A _ _ M) as [_ B]. unfold read4. rewrite !B.
  assert (Q : forall r, r < 4 -> (4 * k + r) / 4 = k /\ (4 * k + r) mod 4 = r).
  { intros r Hr; split.
    - replace (4 * k + r) with (r + k * 4) by lia. rewrite Nat.div_add by lia. rewrite Nat.div_small; lia.
    - replace (4 * k + r) with (r + k * 4) by lia. rewrite Nat.mod_add by lia. now apply Nat.mod_small. }
  destruct (Q 0 ltac:(lia)) as [A0 B0], (Q 1 ltac:(lia)) as [A1 B1], (Q 2 ltac:(lia)) as [A2 B2], (Q 3 ltac:(lia)) as [A3 B3].
  rewrite Nat.add_0_r in A0, B0. rewrite A0, B0, A1, B1, A2, B2, A3, B3. rewrite L. cbn [word_bytes nth]. apply four_bytes.
Qed.
Lemma read4_kept k d d' ws : aligned ws -> memcpys ws d = Some d' -> last_at (4 * k) ws = None ->
  read4 d' (4 * k) = read4 d (4 * k).
Proof.
  intros A M L. destruct (memcpys_byte ws A _ _ M) as [_ B]. unfold read4. rewrite !B.
  assert (Q : forall r, r < 4 -> (4 * k + r) / 4 = k).
  { intros r Hr. replace (4 * k + r) with (r + k * 4) by lia. rewrite Nat.div_add by lia. rewrite Nat.div_small; lia. }
  pose proof (Q 0 ltac:(lia)) as Q0. rewrite Nat.add_0_r in Q0.
  rewrite Q0, !Q by lia. now rewrite L.
Qed.

(** ** loops over the slots *)
Lemma all_some_map {A} (l : list A) : all_some (map Some l) = Some l.
Proof. induction l as [|a l IH]; [reflexivity|]. cbn. now rewrite IH. Qed.
Fixpoint gather {A} (g : nat -> A -> list (nat * Z)) (step offset : nat) (ss : list A) : list (nat * Z) :=
  match ss with [] => [] | s :: ss' => g offset s ++ gather g step (offset + step) ss' end.
Lemma slots_gather {A} f (g : nat -> A -> list (nat * Z)) step ss : (forall o s, f o s = map Some (g o s)) ->
  forall o, slots_writes f step o ss = map Some (gather g step o ss).
Proof.
  intros H. induction ss as [|s ss IH]; intros o; [reflexivity|].
  cbn [slots_writes gather]. now rewrite map_app, <- H, <- IH.
Qed.
Lemma gather_in {A} (g : nat -> A -> list (nat * Z)) step ss p : forall o,
  In p (gather g step o ss) <-> exists i s, nth_error ss i = Some s /\ In p (g (o + i * step) s).
Proof.
  induction ss as [|s ss IH]; intros o.
  - split; [intros []|]. intros ([|i] & s & H & _); discriminate.
  - cbn [gather]. rewrite in_app_iff, IH. split.
    + intros [I|(i & t & N & I)].
      * exists 0, s. split; [reflexivity|]. now rewrite Nat.mul_0_l, Nat.add_0_r.
      * exists (S i), t. split; [exact N|]. now replace (o + S i * step) with (o + step + i * step) by lia.
    + intros ([|i] & t & N & I).
      * injection N as <-. left. now rewrite Nat.mul_0_l, Nat.add_0_r in I.
      * right. exists i, t. split; [exact N|]. now replace (o + S i * step) with (o + step + i * step) in I by lia.
Qed.
Lemma find_name fs name f : NoDup (map f_name fs) -> In f fs -> f_name f = name ->
  find (fun g => String.eqb (f_name g) name) fs = Some f.
Proof.
  intros N I E. induction fs as [|g fs IH]; [destruct I|]. cbn [map] in N. apply NoDup_cons_iff in N as [N1 N2].
  cbn [find]. destruct (String.eqb_spec (f_name g) name) as [Q|Q].
  - destruct I as [->|I]; [reflexivity|]. exfalso. apply N1. rewrite Q, <- E. now apply in_map.
  - destruct I as [->|I]; [contradiction|]. now apply IH.
Qed.

(** ** point cloud *)
Section Pcl.
Variable bits : R -> Z.
Definition words (s : option point) : list Z :=
  match s with
  | Some v => [int_bits (v_id v); int_bits (v_cam v); white; int_bits (v_status v);
               bits (vx (v_pos v)); bits (vy (v_pos v)); bits (vz (v_pos v));
               bits (vx (v_bea v)); bits (vy (v_bea v)); bits (vz (v_bea v)); bits (v_dis v);
               bits (vx (r0 (v_cov v))); bits (vy (r0 (v_cov v))); bits (vz (r0 (v_cov v)));
               bits (vy (r1 (v_cov v))); bits (vz (r1 (v_cov v))); bits (vz (r2 (v_cov v))); bits (v_dcov v)]
  | None => int_bits (-1) :: repeat nan_bits 17
  end.
Definition pcl_g (o : nat) (s : option point) : list (nat * Z) := combine (map (fun j => o + 4 * j) (seq 0 18)) (words s).
Lemma words_len s : List.length (words s) = 18. Proof. now destruct s. Qed.
Lemma pcl_slot_g n m o s : m_fields m = m_fields (pcl_cloud n) -> pcl_slot bits m o s = map Some (pcl_g o s).
Proof.
  intros F. destruct s as [v|]; unfold pcl_slot, point_writes, invalid_writes, field_at; rewrite F; reflexivity.
Qed.
Lemma pcl_g_in o s p w : In (p, w) (pcl_g o s) <-> exists j, p = o + 4 * j /\ nth_error (words s) j = Some w.
Proof.
  unfold pcl_g. split.
  - intros I. apply (In_nth _ _ (0, 0%Z)) in I as (j & L & E).
    rewrite combine_length, map_length, seq_length, words_len in L. change (Nat.min 18 18) with 18 in L.
    rewrite combine_nth in E by (now rewrite map_length, seq_length, words_len).
    pose proof (f_equal fst E) as E1. pose proof (f_equal snd E) as E2. cbn [fst snd] in E1, E2. clear E.
    exists j. split.
    + rewrite <- E1. rewrite (nth_indep _ 0 (o + 4 * 0)) by (rewrite map_length, seq_length; lia).
      rewrite (map_nth (fun j => o + 4 * j)). rewrite seq_nth by lia. reflexivity.
    + rewrite <- E2. apply nth_error_nth'. rewrite words_len. lia.
  - intros (j & -> & E).
    assert (J : j < 18) by (rewrite <- (words_len s); apply nth_error_Some; congruence).
    replace (o + 4 * j, w) with (nth j (combine (map (fun j => o + 4 * j) (seq 0 18)) (words s)) (o + 4 * 0, 0%Z)).
    + apply nth_In. rewrite combine_length, map_length, seq_length, words_len. exact J.
    + rewrite combine_nth by (now rewrite map_length, seq_length, words_len).
      f_equal; [rewrite (map_nth (fun j => o + 4 * j)), seq_nth by lia; reflexivity|].
      now apply nth_error_nth.
Qed.
Definition pcl_all (ss : list (option point)) := gather pcl_g 72 0 ss.
Lemma pcl_all_in ss p w : In (p, w) (pcl_all ss) <->
  exists i j s, nth_error ss i = Some s /\ p = 4 * (18 * i + j) /\ nth_error (words s) j = Some w.
Proof.
  unfold pcl_all. rewrite gather_in. split.
  - intros (i & s & N & I). apply pcl_g_in in I as (j & -> & E). exists i, j, s. split; [exact N|]. split; [lia|exact E].
  - intros (i & j & s & N & -> & E). exists i, s. split; [exact N|]. apply pcl_g_in. exists j. split; [lia|exact E].
Qed.
Lemma pcl_aligned ss : aligned (pcl_all ss).
Proof. intros o w I. apply pcl_all_in in I as (i & j & s & _ & -> & _). eauto. Qed.
Lemma pcl_last ss i j s w : nth_error ss i = Some s -> nth_error (words s) j = Some w ->
  last_at (4 * (18 * i + j)) (pcl_all ss) = Some w.
Proof.
  intros N E. apply last_at_unique.
  - apply pcl_all_in. exists i, j, s. auto.
  - intros v I. apply pcl_all_in in I as (i' & j' & s' & N' & P & E').
    assert (j < 18) by (rewrite <- (words_len s); apply nth_error_Some; congruence).
    assert (j' < 18) by (rewrite <- (words_len s'); apply nth_error_Some; congruence).
    assert (i' = i) as -> by lia. assert (j' = j) as -> by lia. congruence.
Qed.
Definition pcl_shape (n : nat) (m : cloud) : Prop :=
  m_fields m = m_fields (pcl_cloud n) /\ m_step m = 72 /\ m_width m = n /\ List.length (m_data m) = 72 * n.
Lemma pcl_shape_new n : pcl_shape n (pcl_cloud n).
Proof.
  repeat split. transitivity (72 * n * 1); [exact (repeat_length 0%Z (72 * n * 1)) | lia].
Qed.
Lemma write_pcl_run n m ss : pcl_shape n m -> List.length ss = n ->
  exists d, memcpys (pcl_all ss) (m_data m) = Some d /\ write_pcl bits m ss = Some (with_data m d).
Proof.
  intros (F & St & W & L) N. unfold write_pcl, run_writes.
  rewrite (slots_gather _ pcl_g _ _ (fun o s => pcl_slot_g n m o s F)), all_some_map, St.
  destruct (memcpys_some (pcl_all ss) (m_data m)) as [d E].
  { intros o w I. apply pcl_all_in in I as (i & j & s & Hi & -> & E).
    assert (i < List.length ss) by (apply nth_error_Some; congruence).
    assert (j < 18) by (rewrite <- (words_len s); apply nth_error_Some; congruence). rewrite L. lia. }
  exists d. fold (pcl_all ss). now rewrite E.
Qed.
Lemma write_pcl_shape n m ss m' : pcl_shape n m -> List.length ss = n -> write_pcl bits m ss = Some m' -> pcl_shape n m'.
Proof.
  intros S N H. destruct (write_pcl_run n m ss S N) as (d & M & E). rewrite E in H. injection H as <-.
  destruct S as (F & St & W & L). repeat split; cbn [with_data m_fields m_step m_width m_data]; auto.
  rewrite <- L. exact (proj1 (memcpys_byte _ (pcl_aligned ss) _ _ M)).
Qed.
Lemma write_pcl_word n m ss m' i j s w : pcl_shape n m -> List.length ss = n -> write_pcl bits m ss = Some m' ->
  nth_error ss i = Some s -> nth_error (words s) j = Some w ->
  read4 (m_data m') (4 * (18 * i + j)) = (w mod 4294967296)%Z.
Proof.
  intros S N H Hi E. destruct (write_pcl_run n m ss S N) as (d & M & R). rewrite R in H. injection H as <-.
  cbn [with_data m_data]. eapply read4_written; eauto using pcl_aligned, pcl_last.
Qed.
Lemma write_pcl_any n m m0 ss : pcl_shape n m -> pcl_shape n m0 -> List.length ss = n -> write_pcl bits m ss = write_pcl bits m0 ss.
Proof.
  intros S S0 N. destruct (write_pcl_run n m ss S N) as (d & M & ->). destruct (write_pcl_run n m0 ss S0 N) as (d0 & M0 & ->).
  destruct S as (F & St & W & L), S0 as (F0 & St0 & W0 & L0). unfold with_data. rewrite F, F0, St, St0, W, W0. do 2 f_equal.
  destruct (memcpys_byte _ (pcl_aligned ss) _ _ M) as [L1 B]. destruct (memcpys_byte _ (pcl_aligned ss) _ _ M0) as [L2 B0].
  apply (nth_ext _ _ 0%Z 0%Z); [congruence|]. intros b Hb. fold (byte d b) (byte d0 b). rewrite B, B0.
  rewrite L1, L in Hb.
  pose proof (Nat.div_mod (b / 4) 18 ltac:(lia)) as Q. pose proof (Nat.mod_upper_bound (b / 4) 18 ltac:(lia)) as Q2.
  assert (I : b / 4 / 18 < n). { apply Nat.div_lt_upper_bound; [lia|]. apply Nat.div_lt_upper_bound; lia. }
  destruct (nth_error ss (b / 4 / 18)) as [s|] eqn:Es; [|apply nth_error_None in Es; lia].
  destruct (nth_error (words s) ((b / 4) mod 18)) as [w|] eqn:Ew; [|apply nth_error_None in Ew; rewrite words_len in Ew; lia].
  rewrite Q. now rewrite (pcl_last ss _ _ _ _ Es Ew).
Qed.
End Pcl.

(** ** patch cloud *)
Section Patch.
Variable bits : R -> Z.
Variables nL ps : nat.
Definition pixels := nL * ps * ps.
Definition arr (v : patch_point) (f : nat) : nat -> nat -> R :=
  match f with 0 => q_patch v | 1 => q_dx v | 2 => q_dy v | _ => q_err v end.
Definition patch_g (o : nat) (s : option patch_point) : list (nat * Z) :=
  match s with
  | Some v => (o, int_bits (q_id v)) ::
      flat_map (fun l => flat_map (fun y => flat_map (fun x =>
        map (fun f => (o + (4 + f * (4 * pixels)) + (l * ps * ps + y * ps + x) * 4, bits (arr v f l (y * ps + x)))) (seq 0 4))
        (seq 0 ps)) (seq 0 ps)) (seq 0 nL)
  | None => [(o, int_bits (-1))]
  end.
Lemma map_flat_map {A B C} (g : B -> C) (f : A -> list B) l : map g (flat_map f l) = flat_map (fun a => map g (f a)) l.
Proof. induction l as [|a l IH]; [reflexivity|]. cbn. now rewrite map_app, IH. Qed.
Lemma patch_slot_g n m o s : m_fields m = m_fields (patch_cloud n nL ps) -> patch_slot bits nL ps m o s = map Some (patch_g o s).
Proof.
  intros F. destruct s as [v|]; unfold patch_slot, pixel_writes, field_at, array_at; rewrite F.
  - cbn [patch_g map]. apply f_equal2.
    + cbn. now rewrite Nat.add_0_r.
    + rewrite map_flat_map. apply flat_map_ext. intros l. rewrite map_flat_map. apply flat_map_ext. intros y.
      rewrite map_flat_map. apply flat_map_ext. intros x. rewrite map_map.
      cbn [patch_cloud new_cloud patch_decls layout map scalar d_size d_count d_name d_type nth_error m_fields option_map f_offset seq arr].
      unfold pixels. repeat (apply f_equal2; [do 2 f_equal; lia|]). reflexivity.
  - cbn. now rewrite Nat.add_0_r.
Qed.
Lemma patch_g_in o s p w : In (p, w) (patch_g o s) <->
  match s with
  | Some v => p = o /\ w = int_bits (q_id v) \/
      exists f l y x, f < 4 /\ l < nL /\ y < ps /\ x < ps /\ p = o + 4 * (1 + f * pixels + (l * ps * ps + y * ps + x)) /\ w = bits (arr v f l (y * ps + x))
  | None => p = o /\ w = int_bits (-1)
  end.
Proof.
  destruct s as [v|]; cbn [patch_g In].
  - split.
    + intros [E|I]; [injection E as <- <-; now left|]. right.
      apply in_flat_map in I as (l & Il & I). apply in_flat_map in I as (y & Iy & I). apply in_flat_map in I as (x & Ix & I).
      apply in_map_iff in I as (f & E & If). apply in_seq in Il, Iy, Ix, If. injection E as <- <-.
      exists f, l, y, x. repeat split; try lia.
    + intros [[-> ->]|(f & l & y & x & Hf & Hl & Hy & Hx & -> & ->)]; [now left|right].
      apply in_flat_map. exists l. split; [apply in_seq; lia|]. apply in_flat_map. exists y. split; [apply in_seq; lia|].
      apply in_flat_map. exists x. split; [apply in_seq; lia|]. apply in_map_iff. exists f. split; [|apply in_seq; lia].
      f_equal. lia.
  - split; [intros [E|[]]; injection E as <- <-; auto | intros [-> ->]; now left].
Qed.
Lemma pixel_lt l y x : l < nL -> y < ps -> x < ps -> l * ps * ps + y * ps + x < pixels.
Proof.
  intros Hl Hy Hx. unfold pixels.
  assert (y * ps + x < ps * ps) by nia. assert ((l + 1) * (ps * ps) <= nL * (ps * ps)) by (apply Nat.mul_le_mono_r; lia). nia.
Qed.
Lemma pair_unique b q r q' r' : r < b -> r' < b -> q * b + r = q' * b + r' -> q = q' /\ r = r'.
Proof. intros H H' E. assert (q = q') by nia. subst. lia. Qed.
Lemma pixel_unique l y x l' y' x' : y < ps -> x < ps -> y' < ps -> x' < ps ->
  l * ps * ps + y * ps + x = l' * ps * ps + y' * ps + x' -> l = l' /\ y = y' /\ x = x'.
Proof.
  intros Hy Hx Hy' Hx' E.
  assert (Y : (l * ps + y) * ps + x = (l' * ps + y') * ps + x') by nia.
  apply pair_unique in Y as [Y ->]; auto. apply pair_unique in Y as [-> ->]; auto.
Qed.
Definition pstep := 4 * (1 + 4 * pixels).
Definition patch_all (ss : list (option patch_point)) := gather patch_g pstep 0 ss.
(** word of slot i: 0 is the id, 1 + f*pixels + k is pixel k of array f *)
Definition pword (i r : nat) : nat := i * (1 + 4 * pixels) + r.
Definition written (s : option patch_point) (r : nat) (w : Z) : Prop :=
  match s with
  | Some v => r = 0 /\ w = int_bits (q_id v) \/
      exists f l y x, f < 4 /\ l < nL /\ y < ps /\ x < ps /\ r = 1 + f * pixels + (l * ps * ps + y * ps + x) /\ w = bits (arr v f l (y * ps + x))
  | None => r = 0 /\ w = int_bits (-1)
  end.
Lemma patch_all_in ss p w : In (p, w) (patch_all ss) <->
  exists i r s, nth_error ss i = Some s /\ p = 4 * pword i r /\ written s r w.
Proof.
  unfold patch_all, pstep, pword. rewrite gather_in. split.
  - intros (i & s & N & I). apply patch_g_in in I. destruct s as [v|].
    + destruct I as [[-> ->]|(f & l & y & x & Hf & Hl & Hy & Hx & -> & ->)].
      * exists i, 0, (Some v). split; [exact N|]. split; [lia|]. now left.
      * eexists i, _, (Some v). split; [exact N|]. split; [|right; exists f, l, y, x; repeat split; eauto]. lia.
    + destruct I as [-> ->]. exists i, 0, None. split; [exact N|]. split; [lia|]. now split.
  - intros (i & r & s & N & -> & W). exists i, s. split; [exact N|]. apply patch_g_in. destruct s as [v|]; cbn [written] in W.
    + destruct W as [[-> ->]|(f & l & y & x & Hf & Hl & Hy & Hx & -> & ->)]; [left; split; [lia|reflexivity]|].
      right. exists f, l, y, x. repeat split; auto. lia.
    + destruct W as [-> ->]. split; [lia|reflexivity].
Qed.
Lemma patch_aligned ss : aligned (patch_all ss).
Proof. intros o w I. apply patch_all_in in I as (i & r & s & _ & -> & _). eauto. Qed.
Lemma written_lt s r w : written s r w -> r < 1 + 4 * pixels.
Proof.
  destruct s as [v|]; cbn [written]; intros H.
  - destruct H as [[-> _]|(f & l & y & x & Hf & Hl & Hy & Hx & -> & _)]; [lia|].
    pose proof (pixel_lt l y x Hl Hy Hx). assert (f * pixels <= 3 * pixels) by (apply Nat.mul_le_mono_r; lia). lia.
  - destruct H as [-> _]. lia.
Qed.
Lemma written_unique s r w w' : written s r w -> written s r w' -> w = w'.
Proof.
  destruct s as [v|]; cbn [written].
  - intros [[A ->]|(f & l & y & x & Hf & Hl & Hy & Hx & A & ->)] [[B ->]|(f' & l' & y' & x' & Hf' & Hl' & Hy' & Hx' & B & ->)]; try reflexivity; try lia.
    pose proof (pixel_lt l y x Hl Hy Hx) as P. pose proof (pixel_lt l' y' x' Hl' Hy' Hx') as P'.
    assert (E : f * pixels + (l * ps * ps + y * ps + x) = f' * pixels + (l' * ps * ps + y' * ps + x')) by lia.
    apply pair_unique in E as [-> E]; auto. apply pixel_unique in E as (-> & -> & ->); auto.
  - intros [_ ->] [_ ->]. reflexivity.
Qed.
Lemma pword_unique i r i' r' : r < 1 + 4 * pixels -> r' < 1 + 4 * pixels -> pword i r = pword i' r' -> i = i' /\ r = r'.
Proof. intros H H' E. now apply pair_unique in E. Qed.
Lemma patch_last ss i r s w : nth_error ss i = Some s -> written s r w -> last_at (4 * pword i r) (patch_all ss) = Some w.
Proof.
  intros N W. apply last_at_unique.
  - apply patch_all_in. exists i, r, s. auto.
  - intros v I. apply patch_all_in in I as (i' & r' & s' & N' & E & W').
    assert (E' : pword i r = pword i' r') by lia.
    apply pword_unique in E' as [-> ->]; eauto using written_lt.
    rewrite N in N'. injection N' as <-. eauto using written_unique.
Qed.
Lemma patch_last_none ss i r : r < 1 + 4 * pixels -> 0 < r -> nth_error ss i = Some None -> last_at (4 * pword i r) (patch_all ss) = None.
Proof.
  intros R R0 N. apply last_at_none. intros w I. apply patch_all_in in I as (i' & r' & s' & N' & E & W').
  assert (E' : pword i r = pword i' r') by lia.
  apply pword_unique in E' as [-> ->]; eauto using written_lt.
  rewrite N in N'. injection N' as <-. destruct W' as [-> _]. lia.
Qed.
Definition patch_shape (n : nat) (m : cloud) : Prop :=
  m_fields m = m_fields (patch_cloud n nL ps) /\ m_step m = pstep /\ m_width m = n /\ List.length (m_data m) = pstep * n.
Lemma patch_shape_new n : patch_shape n (patch_cloud n nL ps).
Proof.
  unfold patch_shape, pstep, pixels. unfold patch_cloud, new_cloud. cbn [patch_decls layout map scalar d_size d_count m_fields m_step m_width m_data].
  rewrite repeat_length. repeat split; try lia.
Qed.
Lemma write_patch_run n m ss : patch_shape n m -> List.length ss = n ->
  exists d, memcpys (patch_all ss) (m_data m) = Some d /\ write_patch bits nL ps m ss = Some (with_data m d).
Proof.
  intros (F & St & W & L) N. unfold write_patch, run_writes.
  rewrite (slots_gather _ patch_g _ _ (fun o s => patch_slot_g n m o s F)), all_some_map, St.
  destruct (memcpys_some (patch_all ss) (m_data m)) as [d E].
  { intros o w I. apply patch_all_in in I as (i & r & s & Hi & -> & E).
    assert (I : i < n) by (rewrite <- N; apply nth_error_Some; congruence).
    pose proof (written_lt _ _ _ E) as R. rewrite L. unfold pword, pstep.
    assert ((i + 1) * (1 + 4 * pixels) <= n * (1 + 4 * pixels)) by (apply Nat.mul_le_mono_r; lia). nia. }
  exists d. fold (patch_all ss). now rewrite E.
Qed.
Lemma write_patch_shape n m ss m' : patch_shape n m -> List.length ss = n -> write_patch bits nL ps m ss = Some m' -> patch_shape n m'.
Proof.
  intros S N H. destruct (write_patch_run n m ss S N) as (d & M & E). rewrite E in H. injection H as <-.
  destruct S as (F & St & W & L). repeat split; cbn [with_data m_fields m_step m_width m_data]; auto.
  rewrite <- L. exact (proj1 (memcpys_byte _ (patch_aligned ss) _ _ M)).
Qed.
Lemma write_patch_word n m ss m' i r s w : patch_shape n m -> List.length ss = n -> write_patch bits nL ps m ss = Some m' ->
  nth_error ss i = Some s -> written s r w -> read4 (m_data m') (4 * pword i r) = (w mod 4294967296)%Z.
Proof.
  intros S N H Hi E. destruct (write_patch_run n m ss S N) as (d & M & R). rewrite R in H. injection H as <-.
  cbn [with_data m_data]. eapply read4_written; eauto using patch_aligned, patch_last.
Qed.
Lemma write_patch_kept n m ss m' i r : patch_shape n m -> List.length ss = n -> write_patch bits nL ps m ss = Some m' ->
  nth_error ss i = Some None -> 0 < r -> r < 1 + 4 * pixels -> read4 (m_data m') (4 * pword i r) = read4 (m_data m) (4 * pword i r).
Proof.
  intros S N H Hi R0 R1. destruct (write_patch_run n m ss S N) as (d & M & R). rewrite R in H. injection H as <-.
  cbn [with_data m_data]. eapply read4_kept; eauto using patch_aligned, patch_last_none.
Qed.
End Patch.
