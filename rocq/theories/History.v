(** * Histories of an object: what can have happened to it before a call *)

From Coq Require Import List Arith.
From Verif Require Import Mem MemFacts Omp OmpFacts Object ObjectFacts Engine.
Import ListNotations.

Section History.
Context {V : Type}.
Notation mem := (mem V).

(** [own]: buffers of the object; [conf]: the length the object is configured for after setup(n);
    [setup]: the call setup(n); [legal N m c]: c is a call of a method with arguments satisfying
    its precondition in memory m, on an object configured for length N. *)
Variables (own : nat -> Prop) (conf : option nat -> nat -> option nat) (setup : nat -> list (act V))
  (legal : nat -> mem -> list (act V) -> Prop).

(** [History o m]: memory m can be the memory after some sequence of setups, method calls (each under
    some thread schedule) and arbitrary changes by the program to memory that is not the object's;
    o is the length the object is configured for. *)
Inductive History : option nat -> mem -> Prop :=
| h_start m : History None m
| h_other o m m' : History o m -> (forall l, own (fst l) -> m' l = m l) -> History o m'
| h_setup o m m' n : History o m -> call_exec (setup n) m m' -> History (conf o n) m'
| h_call N m m' c : History (Some N) m -> legal N m c -> call_exec c m m' -> History (Some N) m'.

Variable ready : nat -> mem -> Prop.
Variable valid : nat -> Prop.
Hypothesis Hloc : forall N, valid N -> Local own (ready N).
Hypothesis Hset : forall o n m m' N, call_exec (setup n) m m' -> conf o n = Some N -> valid N ->
  (o = Some N -> ready N m) -> ready N m'.
Hypothesis Hrun : forall N m c m', valid N -> ready N m -> legal N m c -> call_exec c m m' -> ready N m'.

Lemma History_ready o m : History o m -> forall N, o = Some N -> valid N -> ready N m.
Proof.
  induction 1 as [m|o m m' H IH Hf|o m m' n H IH He|N0 m m' c H IH Hl He]; intros N E Hv.
  - discriminate.
  - eapply Hloc; eauto.
  - eapply Hset; eauto.
  - injection E as <-. eapply Hrun; eauto.
Qed.
End History.

(** a completed setup leaves the object ready, whatever the schedule *)
Lemma SetsUp_exec {V} (own : nat -> Prop) c (ready : mem V -> Prop) m m' : Local own ready ->
  SetsUp own c ready -> call_exec c m m' -> ready m'.
Proof.
  intros HL HS He. destruct (HS m) as (m1 & Ho & Hr & Hq & _). destruct (acts_Outcome c m m1 Ho Hr) as [_ Hu _ _ _ _].
  eapply HL; [|exact Hq]. intros l _. apply Hu. auto.
Qed.
Lemma CExec_exec {V} c S (m m1 m' : mem V) : CExec c S m m1 -> call_exec c m m' -> forall l, m' l = m1 l.
Proof. intros H He. destruct (CExec_Outcome _ _ _ _ H) as [_ Hu _ _ _ _]. auto. Qed.
