(** Vocabulary for the messages: how a subscriber reads a point cloud. *)
From Coq Require Import Reals ZArith List Bool Arith String.
From Verif Require Import Geo DistModel FiltModel OutModel MsgModel.
Import ListNotations.

Definition size_of (t : ptype) : nat := 4.
(** bytes occupied by a field inside a record *)
Definition covers (f : field) (b : nat) : Prop := f_offset f <= b < f_offset f + size_of (f_type f) * f_count f.
(** every byte of a record belongs to exactly one field, names are distinct, the buffer holds one record per slot *)
Record well_formed (m : cloud) : Prop := {
  wf_len : List.length (m_data m) = m_step m * m_width m;
  wf_in : forall f b, In f (m_fields m) -> covers f b -> b < m_step m;
  wf_cover : forall b, b < m_step m -> exists f, In f (m_fields m) /\ covers f b;
  wf_disj : forall i j f g b, nth_error (m_fields m) i = Some f -> nth_error (m_fields m) j = Some g ->
              covers f b -> covers g b -> i = j;
  wf_names : NoDup (map f_name (m_fields m)) }.

(** the 32-bit object at address [o] *)
Definition byte (d : list Z) (o : nat) : Z := nth o d 0%Z.
Definition read4 (d : list Z) (o : nat) : Z :=
  (byte d o + 256 * byte d (o + 1) + 65536 * byte d (o + 2) + 16777216 * byte d (o + 3))%Z.
Definition signed (w : Z) : Z := if (w <? 2147483648)%Z then w else (w - 4294967296)%Z.
(** element [k] of the field called [name] of record [i]; [None] if there is no such element *)
Definition get (m : cloud) (i : nat) (name : string) (k : nat) : option Z :=
  match find (fun f => String.eqb (f_name f) name) (m_fields m) with
  | Some f => if (k <? f_count f) && (i <? m_width m) then Some (read4 (m_data m) (i * m_step m + f_offset f + 4 * k)) else None
  | None => None
  end.
Definition int32 (z : Z) : Prop := (-2147483648 <= z < 2147483648)%Z.
(** 32-bit patterns *)
Definition pattern (bits : R -> Z) : Prop := forall r, (0 <= bits r < 4294967296)%Z.

(** a covariance over the segments of the state *)
Local Open Scope R_scope.
Definition sym (C : seg -> seg -> M3) : Prop := forall s t, C t s = mt (C s t).
Definition quad (n : dims) (C : seg -> seg -> M3) (v : tangent) : R :=
  fold_right (fun s acc => dot (v s) (fold_right (fun t a => vadd (mv (C s t) (v t)) a) v0 (segs n)) + acc) 0 (segs n).
Definition psd (n : dims) (C : seg -> seg -> M3) : Prop := forall v, 0 <= quad n C v.
(** the symmetric matrix with the given upper triangle *)
Definition from_upper (c00 c01 c02 c11 c12 c22 : R) : M3 := ((c00, c01, c02), (c01, c11, c12), (c02, c12, c22)).

(** [p] lies on the segment from [a] to [b] *)
Definition between (a b p : V3) : Prop := exists t, 0 <= t <= 1 /\ p = vadd a (vscale t (vsub b a)).

(** a message kept by the node: the new one, or what a publication made of it *)
Inductive kept {A} (start : cloud) (n : nat) (write : cloud -> list A -> option cloud) : cloud -> Prop :=
  | kept_new : kept start n write start
  | kept_written m ss m' : kept start n write m -> List.length ss = n -> write m ss = Some m' -> kept start n write m'.
Definition kept_pcl (bits : R -> Z) (n : nat) : cloud -> Prop := kept (pcl_cloud n) n (write_pcl bits).
Definition kept_patch (bits : R -> Z) (n nL ps : nat) : cloud -> Prop := kept (patch_cloud n nL ps) n (write_patch bits nL ps).
