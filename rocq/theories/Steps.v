(** * Running pieces of code from a given memory: footprint, result, loops *)

From Coq Require Import List Arith Bool Lia.
From Verif Require Import Mem MemFacts Omp OmpFacts Stage Object ObjectFacts.
Import ListNotations.

Section Steps.
Context {V : Type}.
Notation mem := (mem V).
Notation prog := (prog V).
Notation phase := (phase (V:=V)).

(** from memory m the program runs to m', loading in R or S and storing in S *)
Definition Step (p : prog unit) (R S : loc -> Prop) (m m' : mem) : Prop :=
  dfp R S m p /\ run p m = Some (tt, m').

Lemma Step_mono p (R S R' S' : loc -> Prop) m m' : (forall l, R l -> R' l) -> (forall l, S l -> S' l) -> Step p R S m m' -> Step p R' S' m m'.
Proof. intros HR HS (D & H). split; auto. eapply dfp_mono; [| |exact D]; auto. Qed.
Lemma Step_chg p R S m m' : Step p R S m m' -> chg S m m'.
Proof. intros (D & H). destruct (dfp_run _ _ _ _ D) as ([] & m2 & H2 & Hf & Hv). rewrite H in H2. injection H2 as <-. split; auto. Qed.
Lemma Step_seq p q (R S : loc -> Prop) m m1 m2 : Step p R S m m1 -> Step q R S m1 m2 -> Step (bind p (fun _ => q)) R S m m2.
Proof.
  intros (D1 & H1) (D2 & H2). split.
  - apply dfp_bind; auto. intros [] m' Hr. rewrite H1 in Hr. injection Hr as <-. auto.
  - rewrite run_bind, H1. auto.
Qed.
Lemma Step_skip R S m : Step skip R S m m.
Proof. split; [exact I|reflexivity]. Qed.
Lemma Step_Exec p R S m m' : Step p R S m m' -> Exec [(1, fun _ => p)] S m m'.
Proof.
  intros H. pose proof (Step_chg _ _ _ _ _ H) as Hc. destruct H as (D & H). split; [eapply region_single_ok; eauto|]. split; auto.
  rewrite region_single_run, H. reflexivity.
Qed.
Lemma Computes_Step p x N W NW Ws out M F m T X : Computes p x N W NW Ws out M F -> holds m x N X -> tab m W NW T -> allocd m Ws ->
  exists m', Step p (fun l => inR x N l \/ inT W NW l) Ws m m' /\ holds m' out M (F T X).
Proof. intros H H1 H2 H3. destruct (H m T X H1 H2 H3) as (D & m' & Hr & Ho). exists m'. split; auto. split; auto. Qed.

(** a loop executed by a team of threads, or by one thread *)
Record Loop (n : nat) (body : nat -> prog unit) (R S : loc -> Prop) (m m' : mem) : Prop := {
  lp_par : Exec [(n, body)] S m m';
  lp_seq : Step (for_ n body) R S m m'
}.
Lemma Loop_mono n body (R S R' S' : loc -> Prop) m m' : (forall l, R l -> R' l) -> (forall l, S l -> S' l) -> Loop n body R S m m' -> Loop n body R' S' m m'.
Proof. intros HR HS [A B]. constructor; [eapply Exec_mono; eauto|eapply Step_mono; eauto]. Qed.
Lemma Loop_chg n body R S m m' : Loop n body R S m m' -> chg S m m'.
Proof. intros [_ H]. eapply Step_chg; eauto. Qed.

Lemma loop_ok n (body : nat -> prog unit) (R S : nat -> loc -> Prop) (P : nat -> mem -> Prop) m :
  (forall i, i < n -> exists mi, Step (body i) (R i) (S i) m mi /\ P i mi) ->
  (forall i j l, i < n -> j < n -> i <> j -> S i l -> ~ R j l /\ ~ S j l) ->
  exists m', Loop n body (fun l => exists i, i < n /\ R i l) (fun l => exists i, i < n /\ S i l) m m' /\
    forall i, i < n -> exists mi, P i mi /\ forall l, S i l -> m' l = mi l.
Proof.
  intros Hb Hd.
  assert (Hf : forall i, i < n -> dfp (R i) (S i) m (body i)).
  { intros i Hi. destruct (Hb i Hi) as (mi & (D & _) & _). auto. }
  assert (Hc : forall i j, i < n -> j < n -> i <> j -> nonconf (R i) (S i) (R j) (S j)).
  { intros i j Hi Hj Hne l. split; intros Hl; [apply (Hd i j)|apply (Hd j i)]; auto. }
  destruct (for_dspec n body R S m Hf Hc) as (D & m' & Hr & Hf' & Hv).
  exists m'. split.
  - assert (St : Step (for_ n body) (fun l => exists i, i < n /\ R i l) (fun l => exists i, i < n /\ S i l) m m') by (split; auto).
    constructor; auto. split; [|split].
    + cbn. split; auto. exists R, S. constructor; [exact Hf|exact Hc].
    + cbn. rewrite run_bind, Hr. reflexivity.
    + eapply Step_chg; eauto.
  - intros i Hi. destruct (Hb i Hi) as (mi & (_ & Hri) & HP). destruct (Hv i Hi) as (mi' & Hri' & Hag).
    rewrite Hri in Hri'. injection Hri' as <-. exists mi. split; auto. intros l Hl. apply Hag. intros j Hj Hne. apply (Hd i j); auto.
Qed.

(** straight-line blocks *)
Lemma block_step (x : ptr) rds es (f : list V -> list V) vs (G : nat -> V) m :
  reads m rds vs -> f vs = map G es -> (forall e, In e es -> m (x +! e) <> Free) ->
  exists m', Step (block rds (map (padd x) es) f) (fun l => In l rds) (fun l => In l (map (padd x) es)) m m' /\
    forall e, In e es -> m' (x +! e) = Val (G e).
Proof.
  intros Hrd Hf Hal.
  assert (Hal' : forall l, In l (map (padd x) es) -> m l <> Free).
  { intros l Hl. apply in_map_iff in Hl as (e & <- & He). auto. }
  assert (Hlen : length (f vs) = length (map (padd x) es)) by (rewrite Hf, !map_length; reflexivity).
  destruct (run_stores_last (map (padd x) es) m (f vs) Hlen Hal') as (m' & Hr & Hfr & _ & Hl).
  exists m'. split; [split|].
  - unfold block. apply dfp_bind; [eapply dfp_loads; eauto|]. intros a m1 H1. rewrite (run_loads _ _ _ Hrd) in H1. injection H1 as <- <-.
    apply dfp_stores; auto.
  - unfold block. rewrite run_bind, (run_loads _ _ _ Hrd). exact Hr.
  - intros e He.
    assert (Hlast : exists j, nth_error es j = Some e /\ forall j', j < j' -> nth_error es j' <> Some e).
    { clear - He. induction es as [|a es IH]; [destruct He|].
      destruct (in_dec Nat.eq_dec e es) as [Hi|Hn].
      - destruct (IH Hi) as (j & H1 & H2). exists (S j). split; auto. intros [|j'] Hj; [lia|]. apply H2. lia.
      - destruct He as [->|He]; [|contradiction]. exists 0. split; auto. intros [|j'] Hj; [lia|]. cbn. intros E. apply Hn. eapply nth_error_In; eauto. }
    destruct Hlast as (j & Hj & Hlast).
    apply (Hl j).
    + apply (map_nth_error (padd x)). auto.
    + rewrite Hf. apply map_nth_error. auto.
    + intros j' Hj'. destruct (nth_error es j') as [e'|] eqn:E'.
      * intros E. pose proof (eq_trans (eq_sym (map_nth_error (padd x) _ _ E')) E) as E2. injection E2 as E2. apply (Hlast j' Hj'). rewrite E'. f_equal. lia.
      * intros E. apply nth_error_None in E'. assert (nth_error (map (padd x) es) j' = None) as E2 by (apply nth_error_None; rewrite map_length; auto). pose proof (eq_trans (eq_sym E2) E). discriminate.
Qed.

(** loops of such blocks: every iteration rewrites its own cells of x *)
Lemma cells_loop n (body : nat -> prog unit) (x : ptr) (es : nat -> list nat) (R : nat -> loc -> Prop) (G : nat -> V) m :
  (forall i, i < n -> exists mi, Step (body i) (R i) (fun l => In l (map (padd x) (es i))) m mi /\ forall e, In e (es i) -> mi (x +! e) = Val (G e)) ->
  (forall i j e, i < n -> j < n -> i <> j -> In e (es i) -> ~ In e (es j) /\ ~ R j (x +! e)) ->
  exists m', Loop n body (fun l => exists i, i < n /\ R i l) (fun l => exists i, i < n /\ In l (map (padd x) (es i))) m m' /\
    forall i e, i < n -> In e (es i) -> m' (x +! e) = Val (G e).
Proof.
  intros Hb Hd.
  destruct (loop_ok n body R (fun i l => In l (map (padd x) (es i))) (fun i mi => forall e, In e (es i) -> mi (x +! e) = Val (G e)) m Hb) as (m' & HL & Hv).
  - intros i j l Hi Hj Hne Hl. apply in_map_iff in Hl as (e & <- & He). destruct (Hd i j e Hi Hj Hne He) as (H1 & H2). split; auto.
    intros H. apply in_map_iff in H as (e' & E & He'). apply padd_inj in E. subst. auto.
  - exists m'. split; auto. intros i e Hi He. destruct (Hv i Hi) as (mi & Hp & Hag). rewrite Hag; auto. apply in_map. auto.
Qed.

End Steps.
