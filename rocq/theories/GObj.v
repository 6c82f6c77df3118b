(** * Facts common to all transform objects *)

From Coq Require Import List Arith Bool Lia.
From Verif Require Import Mem MemFacts Omp OmpFacts Object ObjectFacts Engine History Footprint.
Import ListNotations.

Section GObj.
Context {V : Type}.
Notation mem := (mem V).
Notation act := (act V).

Variables (own : nat -> Prop) (ownb : nat -> bool).
Hypothesis ownb_spec : forall c, ownb c = true <-> own c.
Variables (conf : option nat -> nat -> option nat) (setup : nat -> list act).
Context {Call : Type}.
Variables (call : nat -> Call -> list act) (pre : nat -> mem -> Call -> Prop) (wr : nat -> Call -> loc -> Prop)
  (post : nat -> Call -> mem -> mem -> Prop) (argb : nat -> Call -> loc -> bool).
Variables (ready : nat -> mem -> Prop) (valid : nat -> Prop).

Definition glegal (N : nat) (m : mem) (c : list act) : Prop := exists a, c = call N a /\ pre N m a.
Definition ghistory : option nat -> mem -> Prop := History own conf setup glegal.

Hypothesis Hloc : forall N, valid N -> Local own (ready N).
Hypothesis Hset : forall N, valid N -> SetsUp own (setup N) (ready N).
Hypothesis Hconf : forall o n N, conf o n = Some N -> valid N -> n = N \/ (o = Some N /\ setup n = []).
Hypothesis Hconf_v : forall o n, valid n -> conf o n = Some n.
Hypothesis Hrun : forall N a m, valid N -> ready N m -> pre N m a ->
  exists m', CExec (call N a) (wr N a) m m' /\ post N a m m' /\ ready N m'.
Hypothesis Hpar : forall N a, valid N -> Forall (fun c => match c with Par _ => True | New _ _ => False end) (call N a).
Hypothesis Harg : forall N a m, pre N m a -> pre N (restrict (fun l => argb N a l || ownb (fst l)) m) a.
Hypothesis Hnew : forall N c n, In (New c n) (setup N) -> own c.

Lemma ghistory_ready N m : ghistory (Some N) m -> valid N -> ready N m.
Proof.
  intros H HN.
  refine (History_ready own conf setup glegal ready valid Hloc _ _ _ _ H N eq_refl HN).
  - intros o n m0 m' N0 He Hc Hv Ho. destruct (Hconf o n N0 Hc Hv) as [->|[-> E]].
    + eapply SetsUp_exec; [apply Hloc; auto|apply Hset; auto|exact He].
    + rewrite E in He. inversion He; subst. auto.
  - intros N0 m0 c m' Hv Hr (a & -> & Hp) He. destruct (Hrun N0 a m0 Hv Hr Hp) as (m1 & Hc & _ & Hr').
    eapply (Hloc N0 Hv); [|exact Hr']. intros l _. eapply CExec_exec; eauto.
Qed.

Lemma gcall N a m : valid N -> ghistory (Some N) m -> pre N m a ->
  exists m', Outcome (call N a) m m' /\ post N a m m' /\ (forall l, ~ wr N a l -> m' l = m l) /\ ghistory (Some N) m'.
Proof.
  intros HN Hh Hp. destruct (Hrun N a m HN (ghistory_ready N m Hh HN) Hp) as (m' & Hc & Hq & _).
  pose proof (CExec_Outcome _ _ _ _ Hc) as Ho. exists m'. split; [|split; [|split]]; auto.
  - intros l Hl. destruct Hc as (_ & _ & Hc). apply Hc. auto.
  - destruct Ho as [(m2 & He) Hu _ _ _ _].
    eapply h_other; [eapply (h_call _ _ _ _ N m m2); [exact Hh| |exact He]|].
    + exists a. auto.
    + intros l _. symmetry. apply Hu. auto.
Qed.

Lemma gsetup N o m : valid N -> ghistory o m ->
  exists m', Outcome (setup N) m m' /\ (forall l, ~ own (fst l) -> m' l = m l) /\ ghistory (Some N) m'.
Proof.
  intros HN Hh. destruct (Hset N HN m) as (m' & Ho & Hr & Hq & Hf).
  pose proof (acts_Outcome _ _ _ Ho Hr) as Oc. exists m'. split; [|split]; auto.
  destruct Oc as [(m2 & He) Hu _ _ _ _].
  eapply h_other; [rewrite <- (Hconf_v o N HN); eapply (h_setup _ _ _ _ o m m2 N); [exact Hh|exact He]|].
  intros l _. symmetry. apply Hu. auto.
Qed.

(** any state of the rest of memory is possible *)
Lemma ghistory_any N o m0 mo : valid N -> ghistory o m0 ->
  exists m, ghistory (Some N) m /\ forall l, ~ own (fst l) -> m l = mo l.
Proof.
  intros HN Hh. destruct (gsetup N o m0 HN Hh) as (m1 & _ & _ & H1).
  exists (fun l => if ownb (fst l) then m1 l else mo l). split.
  - eapply h_other; [exact H1|]. intros l Hl. rewrite (proj2 (ownb_spec _) Hl). reflexivity.
  - intros l Hl. destruct (ownb (fst l)) eqn:E; auto. exfalso. apply Hl, ownb_spec, E.
Qed.

Lemma gcall_footprint N a m : valid N -> ghistory (Some N) m -> pre N m a ->
  accesses_only (call N a) m (fun l => argb N a l = true \/ own (fst l)).
Proof.
  intros HN Hh Hp. set (S := fun l => argb N a l || ownb (fst l)).
  assert (Hr : ready N (restrict S m)).
  { eapply (Hloc N HN); [|exact (ghistory_ready N m Hh HN)]. intros l Hl. unfold restrict, S. rewrite (proj2 (ownb_spec _) Hl), orb_true_r. reflexivity. }
  destruct (Hrun N a _ HN Hr (Harg N a m Hp)) as (m' & Hc & _ & _).
  assert (Hn : news_in S (call N a)).
  { intros b n Hin. pose proof (Hpar N a HN) as HF. rewrite Forall_forall in HF. destruct (HF _ Hin). }
  pose proof (footprint S _ m m' (CExec_Outcome _ _ _ _ Hc) Hn) as H.
  intros kk T m1 Hre i l w Hi Ha. specialize (H kk T m1 Hre i l w Hi Ha). apply orb_true_iff in H as [H|H]; auto.
  right. apply ownb_spec, H.
Qed.

Lemma gsetup_footprint N m : valid N -> accesses_only (setup N) m (fun l => own (fst l)).
Proof.
  intros HN. set (S := fun l : loc => ownb (fst l)).
  destruct (Hset N HN (restrict S m)) as (m' & Ho & Hr & _ & _).
  pose proof (footprint S _ m m' (acts_Outcome _ _ _ Ho Hr)) as H.
  intros kk T m1 Hre i l w Hi Ha. apply ownb_spec. refine (H _ kk T m1 Hre i l w Hi Ha).
  intros c n Hin j Hj. apply ownb_spec. apply (Hnew N c n Hin).
Qed.

End GObj.
