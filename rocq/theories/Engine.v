(** * Transform objects: methods, readiness, what a method computes (any arithmetic) *)

From Coq Require Import List Arith Bool Lia.
From Verif Require Import Scalar Mem MemFacts Omp OmpFacts Stage Object ObjectFacts.
Import ListNotations.

(** the methods of FFT_IF (src/otfft_if.h) and of ComplexFFT (inc/otfft.h) *)
Inductive meth := fwd | fwd0 | fwdu | fwdn | inv | inv0 | invu | invn.

Definition meth_inv (k : meth) : bool :=
  match k with fwd | fwd0 | fwdu | fwdn => false | _ => true end.
(** the scaling each method applies, as a compile-time/run-time mode *)
Definition meth_mode (k : meth) : smode :=
  match k with
  | fwd | fwdn | invn => scale_length
  | fwdu | invu => scale_unitary
  | fwd0 | inv | inv0 => scale_1
  end.

Section Engine.
Context {V : Type}.
Notation mem := (mem V).

(** [own]: the buffers belonging to the object *)
Definition Local (own : nat -> Prop) (ready : mem -> Prop) : Prop :=
  forall m m', (forall l, own (fst l) -> m' l = m l) -> ready m -> ready m'.

(** whatever memory (hence whatever history) it starts in, the setup leaves the object ready and
    touches nothing but the object's own buffers *)
Definition SetsUp (own : nat -> Prop) (c : list (act V)) (ready : mem -> Prop) : Prop :=
  forall m, exists m', acts_ok c m /\ call_seq c m = Some m' /\ ready m' /\
    (forall l, ~ own (fst l) -> m' l = m l).

Definition xy (x y : ptr) (N : nat) (l : loc) : Prop := inR x N l \/ inR y N l.

(** on a ready object, transforming x (holding X) with work area y leaves F X in x and
    changes nothing outside x and y *)
Definition Transforms (own : nat -> Prop) (ready : mem -> Prop) (N : nat) (c : ptr -> ptr -> list (act V))
    (F : (nat -> V) -> nat -> V) : Prop :=
  forall x y m X, ~ own (fst x) -> ~ own (fst y) -> disjR x N y N -> ready m -> holds m x N X -> allocd m (inR y N) ->
    exists m', CExec (c x y) (xy x y N) m m' /\ holds m' x N (F X).

Lemma Transforms_ext own ready N c F G : Transforms own ready N c F ->
  (forall X i, i < N -> F X i = G X i) -> Transforms own ready N c G.
Proof.
  intros H E x y m X H1 H2 H3 H4 H5 H6. destruct (H x y m X H1 H2 H3 H4 H5 H6) as (m' & He & Hh).
  exists m'. split; auto. eapply holds_ext; eauto.
Qed.

Lemma SetsUp_app own c1 c2 r1 r2 : SetsUp own c1 r1 ->
  (forall m, r1 m -> exists m', acts_ok c2 m /\ call_seq c2 m = Some m' /\ r2 m' /\ (forall l, ~ own (fst l) -> m' l = m l)) ->
  SetsUp own (c1 ++ c2) r2.
Proof.
  intros H1 H2 m. destruct (H1 m) as (m1 & A1 & R1 & Q1 & F1). destruct (H2 m1 Q1) as (m2 & A2 & R2 & Q2 & F2).
  exists m2. split; [|split; [|split; auto]].
  - apply acts_ok_app; auto. intros m' Hm'. rewrite R1 in Hm'. injection Hm' as <-. auto.
  - rewrite call_seq_app, R1. auto.
  - intros l Hl. rewrite F2, F1; auto.
Qed.

(** transforming does not disturb a ready object *)
Lemma CExec_ready own ready c S m m' : Local own ready -> ready m -> CExec c S m m' ->
  (forall l, S l -> ~ own (fst l)) -> ready m'.
Proof. intros HL Hr (_ & _ & Hc & _) HS. eapply HL; [|exact Hr]. intros l Hl. apply Hc. intros Hs. apply (HS l Hs Hl). Qed.

Lemma malloc_out (m : mem) b n l : fst l <> b -> malloc m b n l = m l.
Proof. intros H. unfold malloc. destruct (Nat.eqb_spec (fst l) b); congruence. Qed.
Lemma malloc_in (m : mem) b n i : i < n -> malloc m b n (b, i) = Uninit.
Proof. intros H. unfold malloc, fst, snd. rewrite Nat.eqb_refl. destruct (Nat.ltb_spec i n); auto. lia. Qed.
Lemma malloc_allocd (m : mem) b n : allocd (malloc m b n) (inR (b, 0) n).
Proof. intros l (i & Hi & ->). unfold padd. cbn. rewrite malloc_in by auto. discriminate. Qed.

(** buffers *)
Lemma disjR_own (own : nat -> Prop) p n q n' : own (fst p) -> ~ own (fst q) -> disjR p n q n'.
Proof. intros H1 H2. apply disjR_buf. intros E. apply H2. rewrite <- E. auto. Qed.
Lemma inR_fst p n l : inR p n l -> fst l = fst p.
Proof. intros (i & _ & ->). reflexivity. Qed.
Lemma xy_own (own : nat -> Prop) x y N l : ~ own (fst x) -> ~ own (fst y) -> xy x y N l -> ~ own (fst l).
Proof. intros H1 H2 [H|H]; apply inR_fst in H; rewrite H; auto. Qed.
Lemma holds_own_local b n X (own : nat -> Prop) : own (fst b) -> Local own (fun m => holds m b n X).
Proof. intros Ho m m' Hf H. eapply holds_frame; [exact H|]. intros l Hl. apply Hf. apply inR_fst in Hl. rewrite Hl. auto. Qed.
Lemma allocd_chg S (m m' : mem) A : chg S m m' -> allocd m A -> allocd m' A.
Proof. apply chg_allocd. Qed.

(** a loop writing one element per iteration: out[k] = g(k, in...) *)
Section MapLoop.
Variables (n : nat) (rds : nat -> list loc) (out : ptr) (g : nat -> list V -> V) (m : mem) (vs : nat -> list V).
Hypothesis Hrd : forall i, i < n -> reads m (rds i) (vs i).
Hypothesis Hal : forall i, i < n -> m (out +! i) <> Free.
Hypothesis Hdj : forall i j, i < n -> j < n -> i <> j -> ~ In (out +! i) (rds j).
Definition mbody (i : nat) : prog V unit := block (rds i) [out +! i] (fun v => [g i v]).

Lemma mloop_Exec :
  (exists m', Exec [(n, mbody)] (inR out n) m m' /\ holds m' out n (fun i => g i (vs i))) /\
  (exists m', Exec [(1, fun _ => for_ n mbody)] (inR out n) m m' /\ holds m' out n (fun i => g i (vs i))).
Proof.
  assert (HS : forall l, (exists i, i < n /\ In l [out +! i]) -> inR out n l).
  { intros l (i & Hi & [<-|[]]). apply inR_i. auto. }
  destruct (bloop_post n rds (fun i => [out +! i]) (fun i v => [g i v]) m vs) with (P := fun m' => holds m' out n (fun i => g i (vs i))) as [(m1 & E1 & P1) (m2 & E2 & P2)].
  - auto.
  - reflexivity.
  - intros i l Hi [<-|[]]. auto.
  - intros i j l Hi Hj Hne [<-|[]]. split; [|auto]. intros [E|[]]. apply padd_inj in E. auto.
  - intros m' _ H i Hi. apply (H i 0); auto. intros [|j'] Hj'; [lia|]. destruct j'; discriminate.
  - split; [exists m1|exists m2]; (split; [|assumption]); (eapply Exec_mono; [exact HS|assumption]).
Qed.
End MapLoop.

Lemma SetsUp_new (own : nat -> Prop) b n r ready : own b ->
  (forall m, allocd m (inR (b, 0) n) -> exists m', Exec r (inR (b, 0) n) m m' /\ ready m') ->
  SetsUp own [New b n; Par r] ready.
Proof.
  intros Hb H m. destruct (H (malloc m b n) (malloc_allocd m b n)) as (m' & (Ho & Hr & Hc & _) & Hq).
  exists m'. split; [|split; [|split]]; auto.
  - cbn. auto.
  - cbn. rewrite Hr. reflexivity.
  - intros l Hl. rewrite Hc.
    + apply malloc_out. intros E. apply Hl. rewrite E. auto.
    + intros Hi. apply inR_fst in Hi. apply Hl. rewrite Hi. auto.
Qed.

Lemma table_setup (own : nat -> Prop) b n (g : nat -> V) r : own b ->
  r = [(n, fun p => store ((b, 0) +! p) (g p))] \/ r = [(1, fun _ => for_ n (fun p => store ((b, 0) +! p) (g p)))] ->
  SetsUp own [New b n; Par r] (fun m => holds m (b, 0) n g).
Proof.
  intros Hb Hr. apply SetsUp_new; auto. intros m Ha.
  destruct (mloop_Exec n (fun _ => []) (b, 0) (fun i _ => g i) m (fun _ => [])) as [Hp Hs].
  - reflexivity.
  - intros i Hi. apply Ha. apply inR_i. auto.
  - intros i j _ _ _ [].
  - destruct Hr as [-> | ->]; [exact Hp|exact Hs].
Qed.

End Engine.
