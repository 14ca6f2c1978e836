(** Symmetric positive definite matrices can be inverted: the assumption on matrix inversion is met. *)
From Coq Require Import Reals List Arith Lia Lra.
From Verif Require Import Geo FiltModel SlotModel KalSpec KalProofs.
Import ListNotations.
Local Open Scope R_scope.

(** inversion by the block formula, first row and column split off *)
Fixpoint pinv (k : nat) (A : nat -> nat -> R) : nat -> nat -> R :=
  match k with
  | O => fun _ _ => 0
  | S m =>
      let a := A 0%nat 0%nat in
      let W := pinv m (fun i j => A (S i) (S j) - A (S i) 0%nat * A (S j) 0%nat / a) in
      let c i := irsum m (fun l => W i l * A (S l) 0%nat) / a in
      fun i j => match i, j with
      | O, O => (1 + irsum m (fun l => A (S l) 0%nat * c l)) / a
      | O, S j' => - c j'
      | S i', O => - c i'
      | S i', S j' => W i' j'
      end
  end.
Definition fsymm (k : nat) (A : nat -> nat -> R) := forall i j, (i < k)%nat -> (j < k)%nat -> A i j = A j i.
Definition fform (k : nat) (A : nat -> nat -> R) (v : nat -> R) := irsum k (fun i => irsum k (fun j => v i * A i j * v j)).
Definition fpos (k : nat) (A : nat -> nat -> R) := forall v, (exists i, (i < k)%nat /\ v i <> 0) -> 0 < fform k A v.

Lemma fform_S k A v : fsymm (S k) A -> fform (S k) A v =
  A 0%nat 0%nat * v 0%nat * v 0%nat + 2 * v 0%nat * irsum k (fun l => A (S l) 0%nat * v (S l)) + fform k (fun i j => A (S i) (S j)) (fun i => v (S i)).
Proof.
  intros Sy. unfold fform. rewrite irsum_S, (irsum_S k (fun j => v 0%nat * A 0%nat j * v j)).
  rewrite (irsum_ext k (fun i => irsum (S k) (fun j => v (S i) * A (S i) j * v j))
    (fun i => v (S i) * A (S i) 0%nat * v 0%nat + irsum k (fun j => v (S i) * A (S i) (S j) * v (S j)))) by (intros i _; now rewrite irsum_S).
  rewrite irsum_add.
  rewrite (irsum_ext k (fun i => v 0%nat * A 0%nat (S i) * v (S i)) (fun i => v 0%nat * (A (S i) 0%nat * v (S i)))) by (intros i Hi; rewrite (Sy 0 (S i))%nat by lia; ring).
  rewrite (irsum_ext k (fun i => v (S i) * A (S i) 0%nat * v 0%nat) (fun i => v 0%nat * (A (S i) 0%nat * v (S i)))) by (intros; ring).
  rewrite !irsum_scale. ring.
Qed.
Lemma first_pos k A : fsymm (S k) A -> fpos (S k) A -> 0 < A 0%nat 0%nat.
Proof.
  intros Sy Po. specialize (Po (fun i => match i with O => 1 | _ => 0 end)). rewrite fform_S in Po by exact Sy.
  rewrite (irsum_ext k (fun l => A (S l) 0%nat * 0) (fun _ => 0)), irsum_0 in Po by (intros; ring).
  unfold fform in Po. rewrite (irsum_ext k _ (fun _ => 0)), irsum_0 in Po by (intros; rewrite (irsum_ext k _ (fun _ => 0)) by (intros; ring); apply irsum_0).
  enough (0 < A 0%nat 0%nat * 1 * 1 + 2 * 1 * 0 + 0) by lra. apply Po. exists 0%nat. split; [lia|lra].
Qed.
Lemma schur_ok k A : fsymm (S k) A -> fpos (S k) A ->
  fsymm k (fun i j => A (S i) (S j) - A (S i) 0%nat * A (S j) 0%nat / A 0%nat 0%nat) /\ fpos k (fun i j => A (S i) (S j) - A (S i) 0%nat * A (S j) 0%nat / A 0%nat 0%nat).
Proof.
  intros Sy Po. pose proof (first_pos k A Sy Po) as a0. split.
  - intros i j Hi Hj. rewrite (Sy (S i) (S j)) by lia. field. lra.
  - intros v (i & Hi & Hv). set (a := A 0%nat 0%nat) in *. set (q := irsum k (fun l => A (S l) 0%nat * v l)).
    specialize (Po (fun i => match i with O => - q / a | S j => v j end)). rewrite fform_S in Po by exact Sy. fold a q in Po.
    assert (E : fform k (fun i j => A (S i) (S j) - A (S i) 0%nat * A (S j) 0%nat / a) v = fform k (fun i j => A (S i) (S j)) v - q * q / a).
    { unfold fform.
      transitivity (irsum k (fun i => irsum k (fun j => v i * A (S i) (S j) * v j) + - (A (S i) 0%nat * v i / a) * q)).
      - apply irsum_ext; intros m _. unfold q. rewrite <- irsum_scale, <- irsum_add. apply irsum_ext; intros j _. field. lra.
      - rewrite irsum_add. rewrite (irsum_ext k (fun m => - (A (S m) 0%nat * v m / a) * q) (fun m => (- q / a) * (A (S m) 0%nat * v m))) by (intros; field; lra).
        rewrite irsum_scale. fold q. field. lra. }
    rewrite E. replace (fform k (fun i j => A (S i) (S j)) v - q * q / a) with (a * (- q / a) * (- q / a) + 2 * (- q / a) * q + fform k (fun i0 j => A (S i0) (S j)) v) by (field; lra).
    apply Po. exists (S i). split; [lia|exact Hv].
Qed.
Lemma pinv_ok k : forall A, fsymm k A -> fpos k A ->
  fsymm k (pinv k A) /\ forall i j, (i < k)%nat -> (j < k)%nat -> irsum k (fun l => A i l * pinv k A l j) = if (i =? j)%nat then 1 else 0.
Proof.
  induction k as [|k IH]; intros A Sy Po; [split; intros i j Hi; lia|].
  pose proof (first_pos k A Sy Po) as a0. destruct (schur_ok k A Sy Po) as [S1 S2]. destruct (IH _ S1 S2) as [W1 W2]. cbn [pinv].
  set (a := A 0%nat 0%nat) in *. set (b := fun l => A (S l) 0%nat).
  set (W := pinv k (fun i j => A (S i) (S j) - A (S i) 0%nat * A (S j) 0%nat / a)) in *.
  set (c := fun i => irsum k (fun l => W i l * A (S l) 0%nat) / a).
  split.
  { intros [|i] [|j] Hi Hj; try reflexivity. apply W1; lia. }
  assert (bW : forall j, (j < k)%nat -> irsum k (fun l => b l * W l j) = a * c j).
  { intros j Hj. unfold c. transitivity (irsum k (fun l => W j l * A (S l) 0%nat)); [|field; lra]. apply irsum_ext; intros l Hl. rewrite (W1 l j Hl Hj). unfold b. ring. }
  assert (Cx : forall i x, irsum k (fun l => A (S i) (S l) * x l) = irsum k (fun l => (A (S i) (S l) - A (S i) 0%nat * A (S l) 0%nat / a) * x l) + b i / a * irsum k (fun l => b l * x l)).
  { intros i x. rewrite <- irsum_scale, <- irsum_add. apply irsum_ext; intros l _. unfold b. field. lra. }
  assert (Sc : forall i, (i < k)%nat -> irsum k (fun l => (A (S i) (S l) - A (S i) 0%nat * A (S l) 0%nat / a) * c l) = b i / a).
  { intros i Hi. transitivity (irsum k (fun l => irsum k (fun m => (A (S i) (S l) - A (S i) 0%nat * A (S l) 0%nat / a) * W l m * (b m / a)))).
    - apply irsum_ext; intros l _. unfold c. transitivity ((A (S i) (S l) - A (S i) 0%nat * A (S l) 0%nat / a) / a * irsum k (fun m => W l m * A (S m) 0%nat)); [field; lra|].
      rewrite <- irsum_scale. apply irsum_ext; intros m _. unfold b. field. lra.
    - rewrite irsum_swap. transitivity (irsum k (fun m => (if (i =? m)%nat then 1 else 0) * (b m / a))); [|now apply irsum_delta].
      apply irsum_ext; intros m Hm. rewrite <- (W2 i m Hi Hm), Rmult_comm, <- irsum_scale. apply irsum_ext; intros; ring. }
  intros [|i] [|j] Hi Hj; rewrite irsum_S; cbn [Nat.eqb].
  - fold a. change (a * ((1 + irsum k (fun l => A (S l) 0%nat * c l)) / a) + irsum k (fun l => A 0%nat (S l) * - c l) = 1).
    rewrite (irsum_ext k (fun l => A 0%nat (S l) * - c l) (fun l => (-1) * (A (S l) 0%nat * c l))) by (intros l Hl; rewrite (Sy 0 (S l))%nat by lia; ring).
    rewrite irsum_scale. field. lra.
  - fold a. rewrite (irsum_ext k (fun l => A 0%nat (S l) * W l j) (fun l => b l * W l j)) by (intros l Hl; rewrite (Sy 0 (S l))%nat by lia; reflexivity).
    rewrite bW by lia. fold (c j). ring.
  - rewrite (irsum_ext k (fun l => A (S i) (S l) * - (irsum k (fun l0 => W l l0 * A (S l0) 0%nat) / a)) (fun l => (-1) * (A (S i) (S l) * c l))) by (intros; unfold c; ring).
    rewrite irsum_scale, Cx, Sc by lia. fold (b i). change (fun l => A (S l) 0%nat * (irsum k (fun l0 => W l l0 * A (S l0) 0%nat) / a)) with (fun l => b l * c l). field. lra.
  - rewrite (Cx i (fun l => W l j)), bW, W2 by lia. fold (b i) (c j). replace (b i * - (irsum k (fun l => W j l * A (S l) 0%nat) / a)) with (b i * - c j) by reflexivity. field. lra.
Qed.
Definition the_inverse (A : list (list R)) : list (list R) :=
  let k := length A in map (fun i => map (fun j => pinv k (entry A) i j) (seq 0 k)) (seq 0 k).
Lemma the_inverse_entry A i j : (i < length A)%nat -> (j < length A)%nat -> entry (the_inverse A) i j = pinv (length A) (entry A) i j.
Proof.
  intros Hi Hj. unfold the_inverse.
  rewrite (entry_map (length A) nat nat (fun i j => pinv (length A) (entry A) i j) 0%nat 0%nat (seq 0 (length A)) (fun _ => seq 0 (length A))); rewrite ?seq_length; auto.
  rewrite !seq_nth by assumption. reflexivity.
Qed.
Lemma the_inverse_ok : inverts the_inverse.
Proof.
  intros k A [L _] Sy Po. subst k. destruct (pinv_ok (length A) (entry A) Sy Po) as [P1 P2]. split.
  - intros i j Hi Hj. rewrite !the_inverse_entry by assumption. now apply P1.
  - intros i j Hi Hj. rewrite <- (P2 i j Hi Hj). apply irsum_ext; intros l Hl. now rewrite the_inverse_entry.
Qed.
