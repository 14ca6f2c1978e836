(** Model of the point cloud, patch and marker messages of include/rovio/RovioNode.hpp (constructor lines
    265-330, updateAndPublish lines 867-1002). A message buffer is a list of bytes; a memcpy outside it is
    undefined behaviour, written [None]. Sizes are natural numbers (32-bit overflow of row_step is not
    modelled). A float is its 32-bit pattern: [bits] below is the conversion of a number to it. *)
From Coq Require Import Reals ZArith List Bool Arith String.
From Verif Require Import Geo DistModel FiltModel OutModel.
Import ListNotations.

(** sensor_msgs::PointField *)
Inductive ptype := INT32 | UINT32 | FLOAT32.
Record field := { f_name : string; f_offset : nat; f_count : nat; f_type : ptype }.
(** one entry of the name/size/count/datatype arrays *)
Record decl := { d_name : string; d_size : nat; d_count : nat; d_type : ptype }.

(** loop at lines 278-286 and 301-309: the fields with their offsets, and the final byteCounter *)
Fixpoint layout (byteCounter : nat) (ds : list decl) : list field * nat :=
  match ds with
  | [] => ([], byteCounter)
  | d :: ds' =>
      let '(fs, n) := layout (byteCounter + d_size d * d_count d) ds' in
      ({| f_name := d_name d; f_offset := byteCounter; f_count := d_count d; f_type := d_type d |} :: fs, n)
  end.

(** PointCloud2; height is 1 *)
Record cloud := { m_fields : list field; m_step : nat; m_width : nat; m_data : list Z }.
(** lines 267-289 and 293-312 *)
Definition new_cloud (width : nat) (ds : list decl) : cloud :=
  let '(fs, step) := layout 0 ds in
  {| m_fields := fs; m_step := step; m_width := width; m_data := repeat 0%Z (step * width * 1) |}.

(** lines 270-276 *)
Definition scalar (t : ptype) (name : string) : decl := {| d_name := name; d_size := 4; d_count := 1; d_type := t |}.
Definition pcl_decls : list decl :=
  [scalar INT32 "id"; scalar INT32 "camId"; scalar UINT32 "rgb"; scalar UINT32 "status"] ++
  map (scalar FLOAT32) ["x"; "y"; "z"; "b_x"; "b_y"; "b_z"; "d"; "c_00"; "c_01"; "c_02"; "c_11"; "c_12"; "c_22"; "c_d"]%string.
Definition pcl_cloud (nMax : nat) : cloud := new_cloud nMax pcl_decls.
(** lines 296-299 *)
Definition patch_decls (nLevels patchSize : nat) : list decl :=
  scalar INT32 "id" :: map (fun s => {| d_name := s; d_size := 4; d_count := nLevels * patchSize * patchSize; d_type := FLOAT32 |})
                           ["patch"; "dx"; "dy"; "error"]%string.
Definition patch_cloud (nMax nLevels patchSize : nat) : cloud := new_cloud nMax (patch_decls nLevels patchSize).

(** the four bytes of a 32-bit object (little endian), and memcpy of them to address [o] of the buffer *)
Definition word_bytes (w : Z) : list Z := [w mod 256; w / 256 mod 256; w / 65536 mod 256; w / 16777216 mod 256]%Z.
Definition memcpy4 (o : nat) (w : Z) (d : list Z) : option (list Z) :=
  if o + 4 <=? List.length d then Some (firstn o d ++ word_bytes w ++ skipn (o + 4) d) else None.
Fixpoint memcpys (ws : list (nat * Z)) (d : list Z) : option (list Z) :=
  match ws with
  | [] => Some d
  | (o, w) :: ws' => match memcpy4 o w d with Some d' => memcpys ws' d' | None => None end
  end.
(** two's complement of an int *)
Definition int_bits (z : Z) : Z := (z mod 4294967296)%Z.
(** std::numeric_limits<float>::quiet_NaN() *)
Definition nan_bits : Z := 2143289344.

(** writes of one slot: either all field indices are inside the fields vector, or the code has undefined
    behaviour ([None]) *)
Definition field_at (m : cloud) (offset j : nat) (w : Z) : option (nat * Z) :=
  option_map (fun f => (offset + f_offset f, w)) (nth_error (m_fields m) j).
Fixpoint all_some {A} (l : list (option A)) : option (list A) :=
  match l with
  | [] => Some []
  | None :: _ => None
  | Some a :: l' => option_map (cons a) (all_some l')
  end.

Section Bits.
Variable bits : R -> Z.

(** what the loop reads for a valid feature: id, camera, status, landmark position, bearing, distance,
    landmark covariance, distance variance *)
Record point := { v_id : Z; v_cam : Z; v_status : Z; v_pos : V3; v_bea : V3; v_dis : R; v_cov : M3; v_dcov : R }.
Definition ment (m : M3) (i j : nat) : R :=
  let r := match i with 0 => r0 m | 1 => r1 m | _ => r2 m end in
  match j with 0 => vx r | 1 => vy r | _ => vz r end.
(** lines 915-949; mCounter starts at 11 *)
Definition cov_entries (m : M3) : list Z :=
  flat_map (fun row => map (fun col => bits (ment m row col)) (seq row (3 - row))) (seq 0 3).
Definition white : Z := 16777215.
Definition point_writes (m : cloud) (offset : nat) (v : point) : list (option (nat * Z)) :=
  [field_at m offset 0 (int_bits (v_id v)); field_at m offset 1 (int_bits (v_cam v)); field_at m offset 2 white;
   field_at m offset 3 (int_bits (v_status v));
   field_at m offset 4 (bits (vx (v_pos v))); field_at m offset 5 (bits (vy (v_pos v))); field_at m offset 6 (bits (vz (v_pos v)));
   field_at m offset 7 (bits (vx (v_bea v))); field_at m offset 8 (bits (vy (v_bea v))); field_at m offset 9 (bits (vz (v_bea v)));
   field_at m offset 10 (bits (v_dis v))]
  ++ map (fun p => field_at m offset (fst p) (snd p))
         (combine (seq 11 (List.length (cov_entries (v_cov v)) + 1)) (cov_entries (v_cov v) ++ [bits (v_dcov v)])).
(** lines 963-970 *)
Definition invalid_writes (m : cloud) (offset : nat) : list (option (nat * Z)) :=
  field_at m offset 0 (int_bits (-1)) ::
  map (fun j => field_at m offset j nan_bits) (seq 1 (List.length (m_fields m) - 1)).
Definition pcl_slot (m : cloud) (offset : nat) (s : option point) : list (option (nat * Z)) :=
  match s with Some v => point_writes m offset v | None => invalid_writes m offset end.

(** lines 975-999: one pixel in each of the four arrays *)
Record patch_point := { q_id : Z; q_patch : nat -> nat -> R; q_dx : nat -> nat -> R; q_dy : nat -> nat -> R; q_err : nat -> nat -> R }.
Definition array_at (m : cloud) (offset j k : nat) (w : Z) : option (nat * Z) :=
  option_map (fun f => (offset + f_offset f + k * 4, w)) (nth_error (m_fields m) j).
Definition pixel_writes (ps : nat) (m : cloud) (offset : nat) (v : patch_point) (l y x : nat) : list (option (nat * Z)) :=
  let k := l * ps * ps + y * ps + x in
  [array_at m offset 1 k (bits (q_patch v l (y * ps + x))); array_at m offset 2 k (bits (q_dx v l (y * ps + x)));
   array_at m offset 3 k (bits (q_dy v l (y * ps + x))); array_at m offset 4 k (bits (q_err v l (y * ps + x)))].
Definition patch_slot (nL ps : nat) (m : cloud) (offset : nat) (s : option patch_point) : list (option (nat * Z)) :=
  match s with
  | Some v => field_at m offset 0 (int_bits (q_id v)) ::
      flat_map (fun l => flat_map (fun y => flat_map (fun x => pixel_writes ps m offset v l y x) (seq 0 ps)) (seq 0 ps)) (seq 0 nL)
  | None => [field_at m offset 0 (int_bits (-1))]
  end.

(** the loops over the slots, lines 880 and 979: offset += point_step *)
Fixpoint slots_writes {A} (f : nat -> A -> list (option (nat * Z))) (step offset : nat) (ss : list A) : list (option (nat * Z)) :=
  match ss with
  | [] => []
  | s :: ss' => f offset s ++ slots_writes f step (offset + step) ss'
  end.
Definition with_data (m : cloud) (d : list Z) : cloud :=
  {| m_fields := m_fields m; m_step := m_step m; m_width := m_width m; m_data := d |}.
Definition run_writes (m : cloud) (ws : list (option (nat * Z))) : option cloud :=
  match all_some ws with
  | Some l => option_map (with_data m) (memcpys l (m_data m))
  | None => None
  end.
(** one pass of the loop over the message kept from the last publication *)
Definition write_pcl (m : cloud) (ss : list (option point)) : option cloud :=
  run_writes m (slots_writes (pcl_slot m) (m_step m) 0 ss).
Definition write_patch (nL ps : nat) (m : cloud) (ss : list (option patch_point)) : option cloud :=
  run_writes m (slots_writes (patch_slot nL ps m) (m_step m) 0 ss).
End Bits.

Local Open Scope R_scope.
(** J cov J^T for a row of blocks (LWF transformCovMat, absent submodule) *)
Definition mzero3 : M3 := (v0, v0, v0).
Definition msum {A} (l : list A) (f : A -> M3) : M3 := fold_right (fun a acc => madd (f a) acc) mzero3 l.
Definition row_cov (n : dims) (J : seg -> M3) (C : seg -> seg -> M3) : M3 :=
  msum (segs n) (fun s => msum (segs n) (fun t => mm (mm (J s) (C s t)) (mt (J t)))).

(** the point of the valid slot [i], lines 901-949: the feature is output in its own camera, where the
    transfer keeps it and its covariance block (C54); the readable distance is entry 3 *)
Definition point_of (n : dims) (x : state) (C : seg -> seg -> M3) (id : Z) (status : Z) (i : nat) : point :=
  {| v_id := id; v_cam := ft_cam (x_fea x i); v_status := status;
     v_pos := landmark_out x i; v_bea := readable_bea (x_fea x i); v_dis := readable_dis (x_fea x i);
     v_cov := row_cov n (landmark_jac x i) C;
     v_dcov := dot (readable_jac_dis (x_fea x i)) (mv (C (Fea i) (Fea i)) (readable_jac_dis (x_fea x i))) |}.

(** depth bounds, lines 884-894; [sigma] is the standard deviation of the distance parameter *)
Definition clamp (d : R) : R :=
  let d1 := if Rlt_dec 1000 d then 1000 else d in if Rlt_dec d1 0 then 0 else d1.
Definition d_minus (f : fdist) (sigma : R) : R := clamp (dist_of (fd_type f) (fd_p f - 3 * sigma)).
Definition d_plus (f : fdist) (sigma : R) : R := clamp (dist_of (fd_type f) (fd_p f - 3 * sigma + 2 * 3 * sigma)).
(** standard deviation of line 886 *)
Definition sigma_of (C : seg -> seg -> M3) (i : nat) : R := sqrt (vz (r2 (C (Fea i) (Fea i)))).
(** lines 951-961: near point, far point *)
Definition marker_pair (x : state) (C : seg -> seg -> M3) (i : nat) : list V3 :=
  let b := nor (ft_Q (x_fea x i)) in
  [vscale (d_plus (ft_d (x_fea x i)) (sigma_of C i)) b; vscale (d_minus (ft_d (x_fea x i)) (sigma_of C i)) b].
(** line 873 and the loop: the points are cleared, then appended for every valid slot *)
Definition marker_points (nMax : nat) (valid : nat -> bool) (x : state) (C : seg -> seg -> M3) : list V3 :=
  flat_map (fun i => if valid i then marker_pair x C i else []) (seq 0 nMax).
