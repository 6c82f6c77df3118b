(** * C46, C47, C48: several threads of the application use the library at the same time

    A thread performs a sequence of library calls.  [acts] is the model of a call, [pre] its documented precondition,
    [uses] the memory of its object and of its arguments, [writes] the part of it the call may change. *)

From Coq Require Import List Arith ZArith Bool Lia.
From Verif Require Import Scalar Mem MemFacts Omp OmpFacts Lanes Stage Object ObjectFacts Engine ModelMixed ModelMixedClass Footprint FftSpec ApiSpec History ModelApi ApiFacts ComplexThms PropComplex Blocks ModelReal RealFacts RealRun GObj RealObj DctRun RealThms PropReal DctThms PropDct ModelBluestein BluesteinRun PropBluestein Concurrent WritesIn.
Import ListNotations.

(** one call of the public interface.  The first argument identifies the object (its first block of memory), N is the
    length it is, or is to be, set up for *)
Inductive op :=
| FftSetup (b N : nat) | FftRun (b N : nat) (k : meth) (x : ptr)
| RealSetup (b N : nat) | RealRun (b N : nat) (k : meth) (x y : ptr)
| DctSetup (b N : nat) | DctRun (b N : nat) (k : dmeth) (x : ptr)
| BlSetup (b N : nat) | BlRun (b N : nat) (k : meth) (x : ptr).

Section Ops.
Context {Op : Ops}.
Notation mem := (mem C).
Definition acts (o : op) : list (act C) :=
  match o with
  | FftSetup b N => fft_setup b N | FftRun b N k x => fft_run b N k x
  | RealSetup b N => rfft_setup b N | RealRun b N k x y => rfft_run b N k x y
  | DctSetup b N => dct_setup b N | DctRun b N k x => dct_run b N k x
  | BlSetup b N => bl_setup b N | BlRun b N k x => bl_run b N k x
  end.
Definition pre (o : op) (m : mem) : Prop :=
  match o with
  | FftSetup b N => exists h, fft_history b h m
  | FftRun b N k x => valid_length N /\ fft_history b (Some N) m /\ ~ fft_own b (fst x) /\ exists X, holds m x N X
  | RealSetup b N => exists h, rfft_history b h m
  | RealRun b N k x y => real_length N /\ rfft_history b (Some N) m /\ ~ fft_own b (fst x) /\ ~ fft_own b (fst y) /\ disjR x N y N /\
      allocd m (inR y N) /\ exists X, holds m x N X
  | DctSetup b N => (Z.of_nat N < 2 ^ 30)%Z /\ exists h, dct_history b h m
  | DctRun b N k x => dct_length N /\ dct_history b (Some N) m /\ ~ dct_own b (fst x) /\ exists X, holds m x N X
  | BlSetup b N => bl_length N /\ exists h, bl_history b h m
  | BlRun b N k x => bl_length N /\ bl_history b (Some N) m /\ ~ bl_own b (fst x) /\ exists X, holds m x N X
  end.
Definition uses (o : op) (l : loc) : Prop :=
  match o with
  | FftSetup b N => fft_own b (fst l) | FftRun b N k x => inR x N l \/ fft_own b (fst l)
  | RealSetup b N => fft_own b (fst l) | RealRun b N k x y => inR x N l \/ inR y N l \/ fft_own b (fst l)
  | DctSetup b N => dct_own b (fst l) | DctRun b N k x => inR x N l \/ dct_own b (fst l)
  | BlSetup b N => bl_own b (fst l) | BlRun b N k x => inR x N l \/ bl_own b (fst l)
  end.
(** a setup may change the whole object; a transform its arguments and the object's work areas, but not the tables;
    a real transform changes nothing in the object, the forward methods not even the block the input is in *)
Definition writes (o : op) (l : loc) : Prop :=
  match o with
  | FftSetup b N => fft_own b (fst l) | FftRun b N k x => inR x N l \/ fst l = b + 3
  | RealSetup b N => fft_own b (fst l)
  | RealRun b N k x y => (inR x N l \/ inR y N l) /\ (meth_inv k = false -> fst l = fst y)
  | DctSetup b N => dct_own b (fst l) | DctRun b N k x => inR x N l \/ b + 5 <= fst l <= b + 6
  | BlSetup b N => bl_own b (fst l) | BlRun b N k x => inR x N l \/ b + 3 <= fst l <= b + 5
  end.

(** a thread's calls; each meets its precondition when the thread runs alone *)
Definition calls (os : list op) : list (act C) := flat_map acts os.
Fixpoint legal (os : list op) (m : mem) : Prop :=
  match os with
  | [] => True
  | o :: os' => pre o m /\ forall m', call_exec (acts o) m m' -> legal os' m'
  end.
Definition uses_any (os : list op) (l : loc) : Prop := exists o, In o os /\ uses o l.
Definition writes_any (os : list op) (l : loc) : Prop := exists o, In o os /\ writes o l.

(** ** single calls *)
Lemma writes_meet (c : list (act C)) m (S A : loc -> Prop) : writes_only c m S -> accesses_only c m A -> writes_only c m (fun l => S l /\ A l).
Proof. intros H1 H2 k T m1 Hr i l Hi E. split; [eapply H1; eauto|eapply H2; eauto]. Qed.
Lemma writes_mono (c : list (act C)) m (S A : loc -> Prop) : (forall l, S l -> A l) -> writes_only c m S -> writes_only c m A.
Proof. intros H H1 k T m1 Hr i l Hi E. apply H. eapply H1; eauto. Qed.
Lemma accesses_mono (c : list (act C)) m (S A : loc -> Prop) : (forall l, S l -> A l) -> accesses_only c m S -> accesses_only c m A.
Proof. intros H H1 k T m1 Hr i l w Hi E. apply H. eapply H1; eauto. Qed.
Lemma access_writes (c : list (act C)) m A : accesses_only c m A -> writes_only c m A.
Proof. intros H k T m1 Hr i l Hi E. eapply H; eauto. Qed.
Lemma par_alloc (c : list (act C)) W : Forall (fun a : act C => match a with Par _ => True | New _ _ => False end) c -> allocates_only c W.
Proof. intros H b n Hin. rewrite Forall_forall in H. destruct (H _ Hin). Qed.
Lemma writes_uses o l : writes o l -> uses o l.
Proof. destruct o; cbn [writes uses]; unfold fft_own, dct_own, bl_own; intros H; intuition lia. Qed.

Lemma call_safe o m : pre o m ->
  (exists m', Outcome (acts o) m m') /\ accesses_only (acts o) m (uses o) /\ writes_only (acts o) m (writes o) /\ allocates_only (acts o) (writes o).
Proof.
  destruct o as [b N|b N k x|b N|b N k x y|b N|b N k x|b N|b N k x]; cbn [pre acts uses writes].
  - intros [h H]. destruct (C07_setup_safety Op b N h m H) as [(m' & HO & _) HA].
    split; [eauto|]. assert (HA' : accesses_only (fft_setup b N) m (fun l => fft_own b (fst l))) by exact HA. split; [exact HA'|]. split; [apply access_writes; exact HA'|].
    intros c n Hin i. cbn [fst]. eapply fft_setup_news; eauto.
  - intros (HN & Hh & Hx & X & HX). destruct (C07_memory_safety Op b N k x m X HN Hh Hx HX) as [(m' & HO & _) HA].
    split; [eauto|]. split; [|split].
    + eapply accesses_mono; [|exact HA]. intros l [H|[H|H]]; [left; auto|right|right; unfold fft_own; lia]. apply inR_fst in H. cbn [fst] in H. unfold fft_own. lia.
    + eapply writes_mono; [|apply (writes_meet _ _ _ _ (wr_writes (fun c => c = fst x \/ c = b + 3) _ m (wr_fft_run _ b N k x (or_introl eq_refl) (or_intror eq_refl))) HA)].
      cbn beta. intros l [[H1|H1] H]; [|right; exact H1]. destruct H as [H|[H|H]]; [left; exact H|right; apply inR_fst in H; exact H|].
      exfalso. apply Hx. unfold fft_own. rewrite <- H1. lia.
    + apply par_alloc. apply fft0_run_par.
  - intros [h H]. destruct (C07_real_setup_safety Op b N h m H) as [(m' & HO & _) HA].
    split; [eauto|]. split; [exact HA|]. split; [apply access_writes; exact HA|]. intros c n Hin i. cbn [fst]. eapply rfft_setup_news; eauto.
  - intros (HN & Hh & Hx & Hy & Hd & Ha & X & HX). destruct (C07_real_safety Op b N k x y m X HN Hh Hx Hy Hd Ha HX) as [(m' & HO & _) HA].
    split; [eauto|]. split; [exact HA|]. split; [|apply par_alloc; apply rfft_run_par].
    eapply writes_mono; [|apply (writes_meet _ _ _ _ (wr_writes (fun c => c = fst y \/ (meth_inv k = true /\ c = fst x)) _ m (wr_rfft_run _ b N k x y (fun E => or_intror (conj E eq_refl)) (or_introl eq_refl))) HA)].
    cbn beta. intros l [H1 H2]. split.
    + destruct H2 as [H|[H|H]]; auto. exfalso. destruct H1 as [H1|[_ H1]]; rewrite H1 in H; auto.
    + intros E. rewrite E in H1. destruct H1 as [H1|[H1 _]]; auto. discriminate.
  - intros (HN & h & H). destruct (C07_dct_setup_safety Op b N h m HN H) as [(m' & HO & _) HA].
    split; [eauto|]. split; [exact HA|]. split; [apply access_writes; exact HA|]. intros c n Hin i. cbn [fst]. eapply dct_setup_news; eauto.
  - intros (HN & Hh & Hx & X & HX). destruct (C07_dct_safety Op b N k x m X HN Hh Hx HX) as [(m' & HO & _) HA].
    split; [eauto|]. split; [exact HA|]. split; [|apply par_alloc; apply dct_run_par].
    eapply writes_mono; [|apply (writes_meet _ _ _ _ (wr_writes (fun c => c = fst x \/ c = b + 5 \/ c = b + 6) _ m (wr_dct_run _ b N k x (or_introl eq_refl) (or_intror (or_introl eq_refl)) (or_intror (or_intror eq_refl)))) HA)].
    cbn beta. intros l [H1 [H|H]]; [left; exact H|]. destruct H1 as [H1|H1]; [exfalso; rewrite H1 in H; auto|right; lia].
  - intros (HN & h & H). destruct (C07_bluestein_setup_safety Op b N h m HN H) as [(m' & HO & _) HA].
    split; [eauto|]. split; [exact HA|]. split; [apply access_writes; exact HA|]. intros c n Hin i. cbn [fst]. eapply bl_setup_news; eauto.
  - intros (HN & Hh & Hx & X & HX). destruct (C07_bluestein_safety Op b N k x m X HN Hh Hx HX) as [(m' & HO & _) HA].
    split; [eauto|]. split; [exact HA|]. split; [|apply par_alloc; apply bl_run_par].
    assert (HW : writes_only (bl_run b N k x) m (fun l => fst l = fst x \/ b + 3 <= fst l <= b + 5)).
    { apply (wr_writes (fun c => c = fst x \/ b + 3 <= c <= b + 5)). apply wr_bl_run; [left; reflexivity|right; lia|right; lia|right; lia]. }
    eapply writes_mono; [|apply (writes_meet _ _ _ _ HW HA)].
    cbn beta. intros l [H1 [H|H]]; [left; exact H|]. destruct H1 as [H1|H1]; [exfalso; rewrite H1 in H; auto|right; lia].
Qed.

(** ** sequences of calls *)
Lemma psteps_ext n s s' : psteps (V:=C) n s s' -> forall m2, (forall l, m2 l = snd s l) -> exists m2', psteps n (fst s, m2) (fst s', m2') /\ forall l, m2' l = snd s' l.
Proof.
  induction 1 as [s|s s1 s2 _ IH Hst]; intros m2 H2; [exists m2; split; auto; constructor|]. destruct (IH m2 H2) as (m3 & H3 & E3).
  destruct Hst as [T m i p' m' Hi Ha]. cbn [fst snd] in *. destruct (astep_agree (fun _ => True) _ _ _ _ m3 Ha) as (m4 & H4 & E4); auto.
  { intros l _. symmetry. apply E3. }
  exists m4. split; [eapply ps_step; [exact H3|]; constructor; auto|]. intros l. symmetry. apply E4. exact I.
Qed.
Lemma region_exec_ext r m m' : region_exec (V:=C) r m m' -> forall m2, (forall l, m2 l = m l) -> exists m2', region_exec r m2 m2' /\ forall l, m2' l = m' l.
Proof.
  induction 1 as [m|ph rest m chunks T' m' m'' Hsc Hp Hf Hr IH]; intros m2 H2; [exists m2; split; auto; constructor|].
  destruct (psteps_ext _ _ _ Hp m2 H2) as (m3 & H3 & E3). cbn [fst snd] in *. destruct (IH m3 E3) as (m4 & H4 & E4). exists m4. split; auto. eapply re_cons; eauto.
Qed.
Lemma call_exec_ext c m m' : call_exec (V:=C) c m m' -> forall m2, (forall l, m2 l = m l) -> exists m2', call_exec c m2 m2' /\ forall l, m2' l = m' l.
Proof.
  induction 1 as [m|b n rest m m' H IH|r rest m m1 m' Hr H IH]; intros m2 H2.
  - exists m2. split; auto. constructor.
  - destruct (IH (malloc m2 b n)) as (m3 & H3 & E3). { intros l. unfold malloc. destruct (fst l =? b); auto. } exists m3. split; auto. constructor. auto.
  - destruct (region_exec_ext _ _ _ Hr m2 H2) as (m3 & H3 & E3). destruct (IH m3 E3) as (m4 & H4 & E4). exists m4. split; auto. econstructor; eauto.
Qed.
Lemma call_exec_app c1 c2 : forall m m', call_exec (V:=C) (c1 ++ c2) m m' <-> exists m1, call_exec c1 m m1 /\ call_exec c2 m1 m'.
Proof.
  induction c1 as [|a c1 IH]; intros m m'; cbn [app]; split.
  - intros H. exists m. split; auto. constructor.
  - intros (m1 & H1 & H2). inversion H1; subst; auto.
  - intros H. inversion H as [|b n rest m0 m2 H1|r rest m0 m1 m2 H1 H2]; subst.
    + apply IH in H1 as (m1 & H1 & H2). exists m1. split; auto. constructor. auto.
    + apply IH in H2 as (m3 & H2 & H3). exists m3. split; auto. econstructor; eauto.
  - intros (m1 & H1 & H2). inversion H1 as [|b n rest m0 m2 H3|r rest m0 m3 m2 H3 H4]; subst.
    + constructor. apply IH. eauto.
    + econstructor; eauto. apply IH. eauto.
Qed.
Lemma call_reach_app c1 c2 : forall m k T m', call_reach (V:=C) (c1 ++ c2) m k T m' ->
  call_reach c1 m k T m' \/ exists m1, call_exec c1 m m1 /\ call_reach c2 m1 k T m'.
Proof.
  induction c1 as [|a c1 IH]; intros m k T m' H; cbn [app] in H; [right; exists m; split; auto; constructor|].
  inversion H as [b n rest m0 k0 T0 m2 H1|r rest m0 k0 T0 m2 H1|r rest m0 m1 k0 T0 m2 H1 H2]; subst.
  - apply IH in H1 as [H1|(m1 & H1 & H2)]; [left; constructor; auto|right; exists m1; split; auto; constructor; auto].
  - left. apply cr_here. auto.
  - apply IH in H2 as [H2|(m3 & H2 & H3)]; [left; eapply cr_later; eauto|right; exists m3; split; auto; econstructor; eauto].
Qed.
Lemma calls_safe os : forall m, legal os m ->
  (exists m', Outcome (calls os) m m') /\ accesses_only (calls os) m (uses_any os) /\ writes_only (calls os) m (writes_any os) /\ allocates_only (calls os) (writes_any os).
Proof.
  induction os as [|o os IH]; intros m; cbn [legal calls flat_map].
  - intros _. split; [|split; [|split]].
    + exists m. constructor.
      * exists m. constructor.
      * intros m'' H. inversion H; auto.
      * intros k T m1 H. inversion H.
      * intros k T m1 H. inversion H.
      * intros k T m1 H. inversion H.
      * intros k T m1 H. inversion H.
    + intros k T m1 H. inversion H.
    + intros k T m1 H. inversion H.
    + intros b n [].
  - intros [Hp Hl]. destruct (call_safe o m Hp) as ((ma & HO) & HA & HW & HN). fold (calls os). destruct (oc_completes _ _ _ HO) as (m1 & He).
    destruct (IH m1 (Hl m1 He)) as ((m' & HO') & HA' & HW' & HN'). split; [exists m'; constructor|split; [|split]].
    + destruct (oc_completes _ _ _ HO') as (m2 & H2). exists m2. apply call_exec_app. eauto.
    + intros m'' H. apply call_exec_app in H as (mb & H1 & H2).
      destruct (call_exec_ext _ _ _ H2 m1) as (mc & H3 & E3). { intros l. rewrite (oc_unique _ _ _ HO _ H1), (oc_unique _ _ _ HO _ He). reflexivity. }
      intros l. rewrite <- E3. apply (oc_unique _ _ _ HO'). auto.
    + intros k T mb H. apply call_reach_app in H as [H|(mc & H1 & H2)]; [apply (oc_defined _ _ _ HO _ _ _ H)|].
      destruct (IH mc (Hl mc H1)) as ((md & HO2) & _). apply (oc_defined _ _ _ HO2 _ _ _ H2).
    + intros k T mb H. apply call_reach_app in H as [H|(mc & H1 & H2)]; [apply (oc_race_free _ _ _ HO _ _ _ H)|].
      destruct (IH mc (Hl mc H1)) as ((md & HO2) & _). apply (oc_race_free _ _ _ HO2 _ _ _ H2).
    + intros k T mb H. apply call_reach_app in H as [H|(mc & H1 & H2)]; [apply (oc_progress _ _ _ HO _ _ _ H)|].
      destruct (IH mc (Hl mc H1)) as ((md & HO2) & _). apply (oc_progress _ _ _ HO2 _ _ _ H2).
    + intros k T mb H. apply call_reach_app in H as [H|(mc & H1 & H2)]; [apply (oc_terminates _ _ _ HO _ _ _ H)|].
      destruct (IH mc (Hl mc H1)) as ((md & HO2) & _). apply (oc_terminates _ _ _ HO2 _ _ _ H2).
    + intros k T mb H i l w Hi E. apply call_reach_app in H as [H|(mc & H1 & H2)].
      * exists o. split; [left; auto|]. eapply HA; eauto.
      * destruct (IH mc (Hl mc H1)) as (_ & HA2 & _). destruct (HA2 _ _ _ H2 i l w Hi E) as (o' & Hin & Hu). exists o'. split; [right|]; auto.
    + intros k T mb H i l Hi E. apply call_reach_app in H as [H|(mc & H1 & H2)].
      * exists o. split; [left; auto|]. eapply HW; eauto.
      * destruct (IH mc (Hl mc H1)) as (_ & _ & HW2 & _). destruct (HW2 _ _ _ H2 i l Hi E) as (o' & Hin & Hu). exists o'. split; [right|]; auto.
    + intros b n Hin i. apply in_app_or in Hin as [Hin|Hin].
      * exists o. split; [left; auto|]. eapply HN; eauto.
      * destruct (HN' b n Hin i) as (o' & Hi & Hu). exists o'. split; [right|]; auto.
Qed.
End Ops.

(** ** C46 *)
Theorem C46_concurrent_calls : forall (Op : Ops) n (os : nat -> list op) (m : mem C),
  (forall t, t < n -> legal (os t) m) ->
  (forall t u l, t < n -> u < n -> t <> u -> writes_any (os t) l -> ~ uses_any (os u) l) ->
  (exists Q m1, gsteps n (fun t => start (calls (os t)), m) (Q, m1) /\ forall t, t < n -> done (Q t)) /\
  forall Q m1, gsteps n (fun t => start (calls (os t)), m) (Q, m1) ->
    (forall t, t < n -> ~ undefined (Q t) m1) /\
    (forall t, t < n -> ~ races_inside (Q t)) /\
    (forall t u, t < n -> u < n -> t <> u -> ~ race_between (Q t) (Q u)) /\
    ((forall t, t < n -> done (Q t)) \/ exists s', gstep n (Q, m1) s') /\
    Acc (fun s' s => gstep n s s') (Q, m1) /\
    (forall t, t < n -> done (Q t) -> forall m', call_exec (calls (os t)) m m' -> forall l, uses_any (os t) l -> m1 l = m' l) /\
    (forall l, (forall t, t < n -> ~ writes_any (os t) l) -> m1 l = m l).
Proof.
  intros Op n os m HL HD.
  assert (Hm : exists m' : nat -> mem C, forall t, t < n -> Outcome (calls (os t)) m (m' t)).
  { clear HD. induction n as [|n IH]; [exists (fun _ => m); lia|]. destruct IH as [m' Hm']; [intros; apply HL; lia|].
    destruct (calls_safe (os n) m (HL n ltac:(lia))) as ((mn & HO) & _). exists (fun t => if t =? n then mn else m' t). intros t Ht.
    destruct (Nat.eqb_spec t n) as [->|]; auto. apply Hm'. lia. }
  destruct Hm as [m' HO].
  pose proof (fun t Ht => proj1 (proj2 (calls_safe (os t) m (HL t Ht)))) as HA.
  pose proof (fun t Ht => proj1 (proj2 (proj2 (calls_safe (os t) m (HL t Ht))))) as HW.
  pose proof (fun t Ht => proj2 (proj2 (proj2 (calls_safe (os t) m (HL t Ht))))) as HN.
  assert (HWA : forall t l, t < n -> writes_any (os t) l -> uses_any (os t) l) by (intros t l _ (o & Hin & Ho); exists o; split; auto using writes_uses).
  split; [exact (concurrent_completes n _ _ _ m m' HO HA HW HN HWA HD)|].
  intros Q m1 H. destruct (concurrent n _ _ _ m m' HO HA HW HN HWA HD Q m1 H) as (H1 & H2 & H3 & H4 & H5 & H6 & H7).
  split; [|split; [|split; [|split; [|split; [|split]]]]]; auto.
  intros t Ht Hd m2 He l Hl. rewrite (H6 t Ht Hd l Hl). symmetry. apply (oc_unique _ _ _ (HO t Ht)). auto.
Qed.
Print Assumptions C46_concurrent_calls.

(** ** C48: one RealFFT object may be used by several threads at once; and with the forward methods they may even read
    the same input *)
Lemma one_call (Op : Ops) o (m : mem C) : pre o m -> legal [o] m.
Proof. intros H. split; auto. intros; exact I. Qed.
Lemma in_one (o o' : op) : In o' [o] -> o' = o.
Proof. intros [H|[]]; auto. Qed.
Theorem C48_real_object_shared : forall (Op : Ops) n b N (k : nat -> meth) (x y : nat -> ptr) (m : mem C) (X : nat -> nat -> C),
  real_length N -> rfft_history b (Some N) m ->
  (forall t, t < n -> ~ fft_own b (fst (x t)) /\ ~ fft_own b (fst (y t)) /\ disjR (x t) N (y t) N /\ allocd m (inR (y t) N) /\ holds m (x t) N (X t)) ->
  (forall t u l, t < n -> u < n -> t <> u -> inR (x t) N l \/ inR (y t) N l -> ~ (inR (x u) N l \/ inR (y u) N l)) ->
  let init := fun t => start (calls [RealRun b N (k t) (x t) (y t)]) in
  (exists Q m1, gsteps n (init, m) (Q, m1) /\ forall t, t < n -> done (Q t)) /\
  forall Q m1, gsteps n (init, m) (Q, m1) ->
    (forall t, t < n -> ~ undefined (Q t) m1) /\
    (forall t, t < n -> ~ races_inside (Q t)) /\
    (forall t u, t < n -> u < n -> t <> u -> ~ race_between (Q t) (Q u)) /\
    (forall t, t < n -> done (Q t) -> forall m', call_exec (rfft_run b N (k t) (x t) (y t)) m m' -> forall i, i < N -> m1 (y t +! i) = m' (y t +! i)) /\
    (forall l, fft_own b (fst l) -> m1 l = m l).
Proof.
  intros Op n b N k x y m X HN Hh HX HD init. set (os := fun t => [RealRun b N (k t) (x t) (y t)]).
  assert (HL : forall t, t < n -> legal (os t) m).
  { intros t Ht. destruct (HX t Ht) as (H1 & H2 & H3 & H4 & H5). apply one_call. cbn [pre]. repeat (split; [assumption|]). exists (X t). exact H5. }
  assert (HD' : forall t u l, t < n -> u < n -> t <> u -> writes_any (os t) l -> ~ uses_any (os u) l).
  { intros t u l Ht Hu Htu (o & Ho & H) (o' & Ho' & H'). apply in_one in Ho as ->, Ho' as ->. cbn [writes uses] in H, H'. destruct H as [H _].
    destruct H' as [H'|[H'|H']]; [apply (HD t u l); auto|apply (HD t u l); auto|]. destruct (HX t Ht) as (Hx & Hy & _). destruct H as [H|H]; apply inR_fst in H; rewrite H in H'; auto. }
  destruct (C46_concurrent_calls Op n os m HL HD') as [HC HR]. split; [exact HC|].
  intros Q m1 H. destruct (HR Q m1 H) as (H1 & H2 & H3 & _ & _ & H6 & H7). split; [|split; [|split; [|split]]]; auto.
  - intros t Ht Hd m' He i Hi. apply (H6 t Ht Hd m').
    + unfold calls, os. cbn [flat_map acts]. rewrite app_nil_r. exact He.
    + eexists. split; [left; reflexivity|]. cbn [uses]. right. left. exists i. auto.
  - intros l Hl. apply H7. intros t Ht (o & Ho & H'). apply in_one in Ho as ->. cbn [writes] in H'. destruct (HX t Ht) as (Hx & Hy & _).
    destruct H' as [[H'|H'] _]; apply inR_fst in H'; rewrite H' in Hl; auto.
Qed.
Print Assumptions C48_real_object_shared.

(** forward methods: n threads transform the same input array into different output arrays with the same object *)
Theorem C48_real_input_shared : forall (Op : Ops) n b N (k : nat -> meth) x (y : nat -> ptr) (m : mem C) (X : nat -> C),
  real_length N -> rfft_history b (Some N) m -> ~ fft_own b (fst x) -> holds m x N X ->
  (forall t, t < n -> meth_inv (k t) = false /\ ~ fft_own b (fst (y t)) /\ fst (y t) <> fst x /\ allocd m (inR (y t) N)) ->
  (forall t u l, t < n -> u < n -> t <> u -> inR (y t) N l -> ~ inR (y u) N l) ->
  let init := fun t => start (calls [RealRun b N (k t) x (y t)]) in
  (exists Q m1, gsteps n (init, m) (Q, m1) /\ forall t, t < n -> done (Q t)) /\
  forall Q m1, gsteps n (init, m) (Q, m1) ->
    (forall t, t < n -> ~ undefined (Q t) m1) /\
    (forall t, t < n -> ~ races_inside (Q t)) /\
    (forall t u, t < n -> u < n -> t <> u -> ~ race_between (Q t) (Q u)) /\
    (forall t, t < n -> done (Q t) -> forall m', call_exec (rfft_run b N (k t) x (y t)) m m' -> forall i, i < N -> m1 (y t +! i) = m' (y t +! i)) /\
    (forall l, fft_own b (fst l) \/ inR x N l -> m1 l = m l).
Proof.
  intros Op n b N k x y m X HN Hh Hx HX HY HD init. set (os := fun t => [RealRun b N (k t) x (y t)]).
  assert (HL : forall t, t < n -> legal (os t) m).
  { intros t Ht. destruct (HY t Ht) as (H1 & H2 & H3 & H4). apply one_call. cbn [pre]. repeat (split; [assumption|]). split; [|split; [assumption|exists X; exact HX]].
    intros i j _ _ E. apply (f_equal fst) in E. cbn in E. congruence. }
  assert (HW : forall t l, t < n -> writes_any (os t) l -> inR (y t) N l /\ fst l <> fst x /\ ~ fft_own b (fst l)).
  { intros t l Ht (o & Ho & H). apply in_one in Ho as ->. cbn [writes] in H. destruct H as [H H0]. destruct (HY t Ht) as (H1 & H2 & H3 & H4). specialize (H0 H1). rewrite H0.
    destruct H as [H|H]; [apply inR_fst in H; congruence|auto]. }
  assert (HD' : forall t u l, t < n -> u < n -> t <> u -> writes_any (os t) l -> ~ uses_any (os u) l).
  { intros t u l Ht Hu Htu H (o' & Ho' & H'). apply in_one in Ho' as ->. cbn [uses] in H'. destruct (HW t l Ht H) as (H1 & H2 & H3).
    destruct H' as [H'|[H'|H']]; [apply inR_fst in H'; congruence|apply (HD t u l); auto|auto]. }
  destruct (C46_concurrent_calls Op n os m HL HD') as [HC HR]. split; [exact HC|].
  intros Q m1 H. destruct (HR Q m1 H) as (H1 & H2 & H3 & _ & _ & H6 & H7). split; [|split; [|split; [|split]]]; auto.
  - intros t Ht Hd m' He i Hi. apply (H6 t Ht Hd m').
    + unfold calls, os. cbn [flat_map acts]. rewrite app_nil_r. exact He.
    + eexists. split; [left; reflexivity|]. cbn [uses]. right. left. exists i. auto.
  - intros l Hl. apply H7. intros t Ht Hw. destruct (HW t l Ht Hw) as (A1 & A2 & A3). destruct Hl as [Hl|Hl]; auto. apply inR_fst in Hl. auto.
Qed.
Print Assumptions C48_real_input_shared.

(** ** C47: but not a ComplexFFT object *)
Section Race.
Context {Op : Ops}.
(** whatever its loads return, the program p stores to l before any other store (or is undefined) *)
Inductive leads : prog (@C Op) unit -> loc -> Prop :=
| l_store l v k : leads (Store l v k) l
| l_load l' k l : (forall v, leads (k v) l) -> leads (Load l' k) l
| l_ub l : leads UB l.
Lemma leads_bind p f l : leads p l -> leads (bind p f) l.
Proof. induction 1; cbn; constructor; auto. Qed.
Lemma psteps_leads l p : leads p l -> forall m T0, (forall T1, psteps 1 (T0, m) (T1, m) -> ~ bad (T1 0) m) -> T0 0 = p ->
  exists T1, psteps 1 (T0, m) (T1, m) /\ next_access (T1 0) = Some (l, true).
Proof.
  induction 1 as [l v k|l' k l H IH|l]; intros m T0 Hb E.
  - exists T0. split; [constructor|]. rewrite E. reflexivity.
  - pose proof (Hb T0 (ps_refl _ _)) as Hb0. rewrite E in Hb0. cbn in Hb0.
    assert (exists v, m l' = Val v) as [v Hv]. { destruct (m l') eqn:Em; [exfalso; apply Hb0; congruence|exfalso; apply Hb0; congruence|eauto]. }
    assert (St : pstep 1 (T0, m) (setth T0 0 (k v), m)). { apply p_step; [lia|]. rewrite E. constructor. exact Hv. }
    assert (Tr : forall s, psteps 1 (setth T0 0 (k v), m) s -> psteps 1 (T0, m) s).
    { intros s Hs. induction Hs as [s|s s1 s2 _ IHs Hst]; [eapply ps_step; [apply ps_refl|exact St]|]. eapply ps_step; [apply IHs; exact St|exact Hst]. }
    destruct (IH v m (setth T0 0 (k v))) as (T1 & H1 & H2).
    + intros T1 HT. apply Hb. apply Tr. exact HT.
    + reflexivity.
    + exists T1. split; auto.
  - exfalso. apply (Hb T0 (ps_refl _ _)). rewrite E. exact I.
Qed.
Lemma csteps_team k r c m0 T m T' m' : psteps k (T, m) (T', m') -> forall s, csteps (V:=@C Op) s m0 (Conf (Some (k, T)) r c) m -> csteps s m0 (Conf (Some (k, T')) r c) m'.
Proof.
  intros H s Hs. remember (T, m) as s1 eqn:E1. remember (T', m') as s2 eqn:E2. revert T' m' E2. induction H as [s'|s' s1' s2' _ IH Hst]; intros T' m' E2; subst.
  - injection E2 as <- <-. exact Hs.
  - destruct s1' as [T1 m1]. eapply cs_step; [apply IH; reflexivity|]. constructor. exact Hst.
Qed.
Lemma call_leads ph r c m m' l : Outcome (Par (ph :: r) :: c) m m' -> 1 <= fst ph -> leads (snd ph 0) l ->
  exists T, csteps (start (Par (ph :: r) :: c)) m (Conf (Some (1, T)) r c) m /\ about_to (Conf (Some (1, T)) r c) l true.
Proof.
  intros HO H1 HL. set (ch := [seq 0 (fst ph)]). set (T0 := team ph ch).
  assert (Hs : schedule ph ch). { unfold schedule, ch. cbn [concat]. rewrite app_nil_r. apply Permutation.Permutation_refl. }
  destruct (psteps_leads l (T0 0)) with (m := m) (T0 := T0) as (T & H2 & H3).
  - unfold T0, team, ch. cbn [nth]. destruct (fst ph) as [|n]; [lia|]. cbn [seq chunk_prog]. apply leads_bind. exact HL.
  - intros T1 HT. apply (oc_defined _ _ _ HO 1 T1 m); [|lia]. apply cr_here. apply (rr_here ph r m ch); auto.
  - reflexivity.
  - exists T. split.
    + apply (csteps_team 1 r c m T0 m T m H2). eapply cs_step; [eapply cs_step; [apply cs_refl|apply c_par]|]. apply (c_fork ph r c m ch). exact Hs.
    + left. exists 1, T, 0. repeat split; auto.
Qed.
Lemma lift n Q t s m' : t < n -> forall c m, csteps (V:=@C Op) c m s m' -> Q t = c ->
  exists Q', gsteps n (Q, m) (Q', m') /\ Q' t = s /\ forall u, u <> t -> Q' u = Q u.
Proof.
  intros Ht c m H. induction H as [c m|c m c1 m1 c2 m2 _ IH Hst]; intros E.
  - exists Q. split; [constructor|]. auto.
  - destruct (IH E) as (Q' & H1 & H2 & H3). exists (setc Q' t c2). split; [|split].
    + eapply gs_step; [exact H1|]. constructor; auto. rewrite H2. exact Hst.
    + unfold setc. rewrite Nat.eqb_refl. reflexivity.
    + intros u Hu. unfold setc. destruct (Nat.eqb_spec u t); [congruence|]. auto.
Qed.
Lemma gsteps_trans n s1 s2 s3 : gsteps (V:=@C Op) n s1 s2 -> gsteps n s2 s3 -> gsteps n s1 s3.
Proof. intros H1 H2. induction H2 as [s|s s' s'' _ IH Hst]; [exact H1|]. eapply gs_step; [apply IH; exact H1|exact Hst]. Qed.


(** the first store of a mixed-radix transform *)
Fixpoint reads_only {A} (p : prog (@C Op) A) : Prop :=
  match p with Ret _ => True | Load _ k => forall v, reads_only (k v) | _ => False end.
Lemma leads_reads {A} (p : prog (@C Op) A) (f : A -> prog (@C Op) unit) l : reads_only p -> (forall a, leads (f a) l) -> leads (bind p f) l.
Proof. intros H Hf. induction p; cbn in *; try tauto; auto. constructor. auto. Qed.
Lemma reads_bind {A B} (p : prog (@C Op) A) (f : A -> prog (@C Op) B) : reads_only p -> (forall a, reads_only (f a)) -> reads_only (bind p f).
Proof. intros H Hf. induction p; cbn in *; try tauto; auto. Qed.
Lemma leads_for n body l : 1 <= n -> leads (body 0) l -> leads (for_ n body) l.
Proof. intros Hn Hb. induction n as [|n IH]; [lia|]. cbn [for_]. destruct n; [exact Hb|]. apply leads_bind. apply IH. lia. Qed.
Lemma any_reads k xa wa j : reads_only (any_acc 0 k xa wa j).
Proof.
  induction j as [|j IH]; cbn [any_acc]; [exact I|]. apply reads_bind; auto. intros z. intro a. unfold imul, mul_ok. cbn [Z.of_nat Z.mul]. change (0 <=? INT_MAX)%Z with true.
  cbn [bind reads_only load]. intros v. exact I.
Qed.
Ltac lead := repeat (apply l_load; intro); apply l_store.

Lemma find_pos fuel : forall k n d, 1 <= k -> 1 <= n -> find_factor fuel k n = Some d -> 1 <= d /\ 1 <= n / d.
Proof.
  induction fuel as [|fuel IH]; intros k n d Hk Hn; cbn [find_factor]; [discriminate|]. destruct (Nat.eqb_spec (n mod k) 0) as [E0|]; [intros E; injection E as <-; split; auto|].
  - apply Nat.div_le_lower_bound; [lia|]. pose proof (Nat.div_mod n k ltac:(lia)). destruct (n / k); lia.
  - destruct (mul_ok k k); [|discriminate]. destruct (n <? k * k); [intros E; injection E as <-; split; auto; rewrite Nat.div_same; lia|]. apply IH; lia.
Qed.
Section First.
Variables (N b : nat) (x W : ptr).
Let y : ptr := (b, 0).
Hypotheses (H2 : 2 <= N) (N2 : N <> 2 ^ 1) (N4 : N <> 2 ^ 2) (N8 : N <> 2 ^ 3) (H3 : N <> 3) (H5 : N <> 5).
Ltac mods := repeat match goal with |- context [?a mod ?r =? 0] => destruct (Nat.eqb_spec (a mod r) 0); [match goal with |- context [?a =? r] => destruct (Nat.eqb_spec a r); [exfalso; subst; auto|] end|] end.
Ltac quot := match goal with |- 1 <= N / ?r => apply Nat.div_le_lower_bound; [lia|]; pose proof (Nat.div_mod N r ltac:(lia)); lia end.
Ltac any f := destruct N as [|N'] eqn:EN; [lia|]; rewrite <- EN in *; replace (f N 7 N) with (f (S N') 7 N) by congruence; cbn [fwdfftany invfftany fwdfftanyp invfftanyp]; cbv zeta;
    destruct (find_factor N 7 N) as [k|] eqn:Ek; [|apply l_ub]; apply find_pos in Ek as [Ek Em]; [|lia|lia]; destruct (Nat.eqb_spec k N); apply leads_bind;
    [apply leads_for; [lia|]|apply leads_for; [lia|]; apply leads_for; [lia|]]; cbv beta delta [fwdany_end_body fwdany_core_body invany_end_body invany_core_body]; cbv zeta; (apply leads_for; [lia|]); (apply leads_reads; [apply any_reads|]); intros; lead.
Lemma fwd_leads : leads (fwdfft (S N) N 1 false x y W) (b, 0).
Proof.
  change (2 ^ 1) with 2 in N2. change (2 ^ 2) with 4 in N4. change (2 ^ 3) with 8 in N8. cbn [fwdfft]. cbv zeta. rewrite Nat.mul_1_r. destruct (Nat.ltb_spec N 2); [lia|]. mods.
  1-5: apply leads_bind. 
  - unfold fwdcore8. cbv zeta. cbn [Nat.leb]. apply leads_for; [quot|]. lead.
  - unfold fwdcore4. cbv zeta. cbn [Nat.leb]. apply leads_for; [quot|]. lead.
  - unfold fwdcore2. cbv zeta. cbn [Nat.leb]. apply leads_for; [quot|]. lead.
  - unfold fwdcore5. cbv zeta. apply leads_for; [quot|]. apply leads_for; [lia|]. lead.
  - unfold fwdcore3. cbv zeta. apply leads_for; [quot|]. apply leads_for; [lia|]. lead.
  - any (@fwdfftany Op).
Qed.
Lemma inv_leads : leads (invfft (S N) N 1 false x y W) (b, 0).
Proof.
  change (2 ^ 1) with 2 in N2. change (2 ^ 2) with 4 in N4. change (2 ^ 3) with 8 in N8. cbn [invfft]. cbv zeta. rewrite Nat.mul_1_r. destruct (Nat.ltb_spec N 2); [lia|]. mods.
  1-5: apply leads_bind.
  - unfold invcore8. cbv zeta. cbn [Nat.leb]. apply leads_for; [quot|]. lead.
  - unfold invcore4. cbv zeta. cbn [Nat.leb]. apply leads_for; [quot|]. lead.
  - unfold invcore2. cbv zeta. cbn [Nat.leb]. apply leads_for; [quot|]. lead.
  - unfold invcore5. cbv zeta. apply leads_for; [quot|]. apply leads_for; [lia|]. lead.
  - unfold invcore3. cbv zeta. apply leads_for; [quot|]. apply leads_for; [lia|]. lead.
  - any (@invfftany Op).
Qed.
Ltac quot' := match goal with |- 1 <= ?M / ?r => apply Nat.div_le_lower_bound; [lia|]; pose proof (Nat.div_mod N r ltac:(lia)); lia end.
Ltac par1 := eexists; eexists; split; [reflexivity|]; cbv beta delta [fwdcore8p fwdcore4p fwdcore2p fwdcore5p fwdcore3p invcore8p invcore4p invcore2p invcore5p invcore3p]; cbv zeta; cbn [Nat.leb fst snd]; split; [quot'|lead].
Ltac anyp f := destruct N as [|N'] eqn:EN; [lia|]; rewrite <- EN in *; replace (f N 7 N) with (f (S N') 7 N) by congruence; cbn [fwdfftany invfftany fwdfftanyp invfftanyp]; cbv zeta;
    destruct (find_factor N 7 N) as [k|] eqn:Ek; [|eexists; eexists; split; [reflexivity|]; cbn [single fst snd]; split; [lia|apply l_ub]];
    apply find_pos in Ek as [Ek Em]; [|lia|lia]; destruct (Nat.eqb_spec k N); eexists; eexists; (split; [reflexivity|]); cbn [fst snd]; (split; [lia|]); cbv beta delta [fwdany_end_body fwdany_core_body invany_end_body invany_core_body]; cbv zeta;
    (apply leads_for; [lia|]); (apply leads_reads; [apply any_reads|]); intros; lead.
Lemma fwdp_leads : exists ph r, fwdfftp (S N) N 1 false x y W = ph :: r /\ 1 <= fst ph /\ leads (snd ph 0) (b, 0).
Proof.
  change (2 ^ 1) with 2 in N2. change (2 ^ 2) with 4 in N4. change (2 ^ 3) with 8 in N8. cbn [fwdfftp]. cbv zeta. rewrite Nat.mul_1_r. destruct (Nat.ltb_spec N 2); [lia|]. mods.
  - par1.
  - par1.
  - par1.
  - par1.
  - par1.
  - anyp (@fwdfftanyp Op).
Qed.
Lemma invp_leads : exists ph r, invfftp (S N) N 1 false x y W = ph :: r /\ 1 <= fst ph /\ leads (snd ph 0) (b, 0).
Proof.
  change (2 ^ 1) with 2 in N2. change (2 ^ 2) with 4 in N4. change (2 ^ 3) with 8 in N8. cbn [invfftp]. cbv zeta. rewrite Nat.mul_1_r. destruct (Nat.ltb_spec N 2); [lia|]. mods.
  - par1.
  - par1.
  - par1.
  - par1.
  - par1.
  - anyp (@invfftanyp Op).
Qed.
End First.
Lemma mixed_leads b N k x : 2 <= N -> N <> 2 ^ 1 -> N <> 2 ^ 2 -> N <> 2 ^ 3 -> N <> 3 -> N <> 5 ->
  exists ph r c, mixed_run b N k x (b + 3, 0) = Par (ph :: r) :: c /\ 1 <= fst ph /\ leads (snd ph 0) (b + 3, 0).
Proof.
  intros H2 N2 N4 N8 H3 H5. unfold mixed_run. destruct (N <? mixed_omp).
  - unfold mixed_serial. cbv zeta. eexists; eexists; eexists. split; [reflexivity|]. cbn [single fst snd]. split; [lia|]. apply leads_bind.
    destruct (meth_inv k); [apply inv_leads|apply fwd_leads]; auto.
  - unfold mixed_parallel. cbv zeta. destruct (meth_inv k).
    + destruct (invp_leads N (b + 3) x (b, 0)) as (ph & r & E & H); auto. rewrite E. eauto.
    + destruct (fwdp_leads N (b + 3) x (b, 0)) as (ph & r & E & H); auto. rewrite E. eauto.
Qed.
End Race.
(** C47 itself is in PropShare.v *)

(** ** the hypotheses are met: n threads, each setting up its own ComplexFFT object and transforming its own array forth
    and back *)
Lemma legal_session (Op : Ops) b N k1 k2 x (m : mem C) X : valid_length N -> ~ fft_own b (fst x) -> holds m x N X ->
  legal [FftSetup b N; FftRun b N k1 x; FftRun b N k2 x] m.
Proof.
  intros HN Hx HX. split; [exists None; apply h_start|]. intros m1 He.
  assert (Hh : fft_history b (Some N) m1) by (eapply fft_h_setup; [apply (h_start _ _ _ _ m)|exact He]).
  assert (HX1 : holds m1 x N X).
  { destruct (C07_setup_safety Op b N None m (h_start _ _ _ _ m)) as [(m' & HO & Hf) _]. intros i Hi. rewrite (oc_unique _ _ _ HO _ He), Hf; [apply HX; auto|exact Hx]. }
  split; [split; [exact HN|]; split; [exact Hh|]; split; [exact Hx|]; exists X; exact HX1|]. intros m2 He2.
  assert (Hh2 : fft_history b (Some N) m2). { eapply h_call; [exact Hh| |exact He2]. exists k1, x, X. auto. }
  assert (HX2 : holds m2 x N (fft0_F N k1 X)).
  { destruct (fft_call_any b N k1 x m1 X HN Hh Hx HX1) as (m' & HO & HY & _). intros i Hi. rewrite (oc_unique _ _ _ HO _ He2). apply HY. auto. }
  split; [split; [exact HN|]; split; [exact Hh2|]; split; [exact Hx|]; eexists; exact HX2|]. intros; exact I.
Qed.
Theorem C46_example : forall (Op : Ops) n N (m : mem C) (X : nat -> nat -> C), valid_length N -> (forall t, t < n -> holds m (10 * t + 9, 0) N (X t)) ->
  let os := fun t => [FftSetup (10 * t) N; FftRun (10 * t) N fwd (10 * t + 9, 0); FftRun (10 * t) N inv (10 * t + 9, 0)] in
  (forall t, t < n -> legal (os t) m) /\
  (forall t u l, t < n -> u < n -> t <> u -> writes_any (os t) l -> ~ uses_any (os u) l).
Proof.
  intros Op n N m X HN HX os. split.
  - intros t Ht. eapply legal_session; [exact HN| |apply HX; exact Ht]. unfold fft_own. cbn [fst]. lia.
  - assert (HU : forall t l, uses_any (os t) l -> 10 * t <= fst l <= 10 * t + 9).
    { intros t l (o & [<-|[<-|[<-|[]]]] & H); cbn [uses] in H; unfold fft_own in H; [lia| |]; (destruct H as [H|H]; [apply inR_fst in H; cbn [fst] in H|]; lia). }
    intros t u l Ht Hu Htu (o & Ho & Hw) H'. apply HU in H'. assert (H : uses_any (os t) l) by (exists o; split; auto using writes_uses). apply HU in H. lia.
Qed.
Print Assumptions C46_example.
Theorem C48_hypotheses_met : forall (Op : Ops) n b N (X : nat -> nat -> C), real_length N -> let x := fun t => (b + 4 + 2 * t, 0) in let y := fun t => (b + 5 + 2 * t, 0) in
  exists m : mem C, rfft_history b (Some N) m /\
  (forall t, t < n -> ~ fft_own b (fst (x t)) /\ ~ fft_own b (fst (y t)) /\ disjR (x t) N (y t) N /\ allocd m (inR (y t) N) /\ holds m (x t) N (X t)) /\
  (forall t u l, t < n -> u < n -> t <> u -> inR (x t) N l \/ inR (y t) N l -> ~ (inR (x u) N l \/ inR (y u) N l)).
Proof.
  intros Op n b N X HN x y. destruct (rfft_history_any b N (fun l => Val (X ((fst l - (b + 4)) / 2) (snd l))) HN) as (m & Hh & Hf). exists m. split; [exact Hh|]. split.
  - intros t Ht. unfold x, y. split; [unfold fft_own; cbn [fst]; lia|]. split; [unfold fft_own; cbn [fst]; lia|]. split; [|split].
    + intros i j _ _ E. apply (f_equal fst) in E. cbn [padd fst] in E. lia.
    + intros l Hl. rewrite Hf; [discriminate|]. apply inR_fst in Hl. rewrite Hl. unfold fft_own. cbn [fst]. lia.
    + intros i Hi. rewrite Hf; [|unfold fft_own; cbn [padd fst]; lia]. cbn [padd fst snd]. replace (b + 4 + 2 * t - (b + 4)) with (t * 2) by lia. rewrite Nat.div_mul by lia. reflexivity.
  - intros t u l _ _ Htu H H'. assert (E : forall v, inR (x v) N l \/ inR (y v) N l -> fst l = b + 4 + 2 * v \/ fst l = b + 5 + 2 * v).
    { intros v [Hv|Hv]; apply inR_fst in Hv; cbn [fst x y] in Hv; auto. }
    apply E in H, H'. lia.
Qed.
