(** Callbacks under one mutex happen one after the other. *)
From Coq Require Import List Arith Bool Lia.
From Verif Require Import LockModel.
Import ListNotations.

Section Lock.
Context {S L E : Type}.
Variables (local : E -> L) (body : E -> list (S -> L -> S * L)).
Notation thread := (thread S L E).
Notation machine := (machine S L E).

(** a body run without interruption *)
Fixpoint pieces (fs : list (S -> L -> S * L)) (s : S) (l : L) : S :=
  match fs with [] => s | f :: fs' => pieces fs' (fst (f s l)) (snd (f s l)) end.

Variable serial : S -> E -> S.
Hypothesis body_serial : forall s e, pieces (body e) s (local e) = serial s e.

Lemma nth_set_same : forall i t (l : list thread), i < length l -> nth_error (set_thread i t l) i = Some t.
Proof. induction i as [|i IH]; intros t [|x l] H; cbn in *; try lia; auto. apply IH. lia. Qed.
Lemma nth_set_other : forall i j t (l : list thread), i <> j ->
  nth_error (set_thread i t l) j = nth_error l j.
Proof. induction i as [|i IH]; intros [|j] t [|x l] H; cbn; auto; try congruence. Qed.

Definition mine (i : nat) (o : list (nat * E)) : list E :=
  map snd (filter (fun p => fst p =? i) o).

Lemma mine_snoc : forall i j e o,
  mine i (o ++ [(j, e)]) = mine i o ++ (if j =? i then [e] else []).
Proof.
  intros. unfold mine. rewrite filter_app, map_app. cbn. destruct (j =? i); reflexivity.
Qed.

Variables (s0 : S) (queues : list (list E)).

Definition inv (k : machine) : Prop :=
  length (k_threads k) = length queues /\
  (forall i t, nth_error (k_threads k) i = Some t ->
     nth_error queues i = Some (mine i (k_order k) ++ t_queue t)) /\
  match k_lock k with
  | None =>
      (forall i t, nth_error (k_threads k) i = Some t -> t_cur t = None) /\
      k_state k = fold_left serial (map snd (k_order k)) s0
  | Some h =>
      (forall i t, nth_error (k_threads k) i = Some t -> i <> h -> t_cur t = None) /\
      exists t l fs, nth_error (k_threads k) h = Some t /\ t_cur t = Some (l, fs) /\
        pieces fs (k_state k) l = fold_left serial (map snd (k_order k)) s0
  end.

Lemma inv_init : inv (machine_init s0 queues).
Proof.
  unfold inv, machine_init. cbn [k_threads k_lock k_state k_order]. rewrite map_length.
  split; [reflexivity|]. split; [|split; [|reflexivity]]; intros i t; rewrite nth_error_map;
    destruct (nth_error queues i) as [q|]; try discriminate; cbn; intros H; injection H as <-; reflexivity.
Qed.

Lemma inv_step : forall k i, inv k -> inv (machine_step local body k i).
Proof.
  intros k i (HL & HQ & HK). unfold machine_step.
  destruct (nth_error (k_threads k) i) as [t|] eqn:ET; [|exact (conj HL (conj HQ HK))].
  assert (Hi : i < length (k_threads k)) by (apply nth_error_Some; congruence).
  destruct (t_cur t) as [[l [|f fs]]|] eqn:EC.
  - (* release *)
    destruct (k_lock k) as [h|] eqn:EL.
    2:{ destruct HK as (HN & _). rewrite (HN i t ET) in EC. discriminate. }
    destruct HK as (HN & th & l' & fs' & E1 & E2 & E3).
    assert (h = i) as -> by (destruct (Nat.eq_dec i h) as [|NE]; [auto|rewrite (HN i t ET NE) in EC; discriminate]).
    rewrite E1 in ET. injection ET as ->. rewrite E2 in EC. injection EC as -> ->. cbn in E3.
    unfold inv. cbn [k_threads k_lock k_state k_order].
    split; [|split; [|split; [|exact E3]]].
    + rewrite <- HL. clear. revert i. induction (k_threads k) as [|x l IH]; intros [|i]; cbn; auto.
    + intros j u. destruct (Nat.eq_dec i j) as [<-|NE].
      * rewrite nth_set_same by exact Hi. intros H. injection H as <-. cbn [t_queue]. now apply HQ.
      * rewrite nth_set_other by exact NE. apply HQ.
    + intros j u. destruct (Nat.eq_dec i j) as [<-|NE].
      * rewrite nth_set_same by exact Hi. intros H. now injection H as <-.
      * rewrite nth_set_other by exact NE. intros H. apply (HN j u H). congruence.
  - (* a piece *)
    destruct (k_lock k) as [h|] eqn:EL.
    2:{ destruct HK as (HN & _). rewrite (HN i t ET) in EC. discriminate. }
    destruct HK as (HN & th & l' & fs' & E1 & E2 & E3).
    assert (h = i) as -> by (destruct (Nat.eq_dec i h) as [|NE]; [auto|rewrite (HN i t ET NE) in EC; discriminate]).
    rewrite E1 in ET. injection ET as ->. rewrite E2 in EC. injection EC as -> ->. cbn in E3.
    unfold inv. cbn [k_threads k_lock k_state k_order].
    split; [|split; [|split]].
    + rewrite <- HL. clear. revert i. induction (k_threads k) as [|x l0 IH]; intros [|i]; cbn; auto.
    + intros j u. destruct (Nat.eq_dec i j) as [<-|NE].
      * rewrite nth_set_same by exact Hi. intros H. injection H as <-. cbn [t_queue]. now apply HQ.
      * rewrite nth_set_other by exact NE. apply HQ.
    + intros j u H NE. rewrite nth_set_other in H by congruence. now apply (HN j u).
    + eexists _, _, _. rewrite nth_set_same by exact Hi. split; [reflexivity|].
      split; [reflexivity|exact E3].
  - destruct (t_queue t) as [|e q] eqn:EQ; [exact (conj HL (conj HQ HK))|].
    destruct (k_lock k) as [h|] eqn:EL; [unfold inv; rewrite EL; exact (conj HL (conj HQ HK))|].
    destruct HK as (HN & HS).
    unfold inv. cbn [k_threads k_lock k_state k_order].
    split; [|split; [|split]].
    + rewrite <- HL. clear. revert i. induction (k_threads k) as [|x l0 IH]; intros [|i]; cbn; auto.
    + intros j u. rewrite mine_snoc. destruct (Nat.eq_dec i j) as [<-|NE].
      * rewrite nth_set_same by exact Hi. intros H. injection H as <-. cbn [t_queue].
        rewrite Nat.eqb_refl, <- app_assoc. cbn [app]. rewrite (HQ i t ET), EQ. reflexivity.
      * rewrite nth_set_other by exact NE. rewrite (proj2 (Nat.eqb_neq i j) NE), app_nil_r. apply HQ.
    + intros j u H NE. rewrite nth_set_other in H by congruence. now apply (HN j u).
    + eexists _, _, _. rewrite nth_set_same by exact Hi. split; [reflexivity|].
      split; [reflexivity|]. rewrite body_serial, map_app, fold_left_app. cbn. now rewrite HS.
Qed.

Lemma inv_run : forall schedule k, inv k -> inv (machine_run local body k schedule).
Proof.
  induction schedule as [|i sch IH]; intros k H; [exact H|]. cbn. apply IH. now apply inv_step.
Qed.

(** while work is left some thread can move *)
Lemma progress : forall k, inv k ->
  (exists i t, nth_error (k_threads k) i = Some t /\ (t_cur t <> None \/ t_queue t <> [])) ->
  exists i, match nth_error (k_threads k) i with
            | Some t => t_cur t <> None \/ (k_lock k = None /\ t_queue t <> [])
            | None => False end.
Proof.
  intros k (HL & HQ & HK) (i & t & E0 & H). destruct (k_lock k) as [h|].
  - destruct HK as (_ & th & l & fs & E1 & E2 & _). exists h. rewrite E1. left. congruence.
  - exists i. rewrite E0. destruct H; auto.
Qed.

End Lock.
