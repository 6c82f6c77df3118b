(** * Footprints: a call whose behaviour is defined in a memory where only the cells of S exist
    accesses only cells of S, whatever else is allocated *)

From Coq Require Import List Arith Bool Lia.
From Verif Require Import Mem MemFacts Omp OmpFacts Object ObjectFacts Engine.
Import ListNotations.

Section Footprint.
Context {V : Type}.
Notation mem := (mem V).
Notation prog := (prog V).

(** memory [m] without the cells outside [S] *)
Definition restrict (S : loc -> bool) (m : mem) : mem := fun l => if S l then m l else Free.

(** in every reachable state of the call, under every schedule, each thread's next access is in S *)
Definition accesses_only (c : list (act V)) (m : mem) (S : loc -> Prop) : Prop :=
  forall k T m1, call_reach c m k T m1 -> forall i l w, i < k -> next_access (T i) = Some (l, w) -> S l.

Variable S : loc -> bool.
Definition sim (ma mb : mem) : Prop := forall l, mb l = if S l then ma l else Free.

Lemma sim_restrict m : sim m (restrict S m).
Proof. intros l. reflexivity. Qed.

Lemma astep_sim p ma p' ma' mb : astep p ma p' ma' -> sim ma mb -> ~ bad p mb ->
  exists mb', astep p mb p' mb' /\ sim ma' mb'.
Proof.
  intros H Hs Hb. destruct H as [l k m v Hv|l v k m Hv].
  - destruct (S l) eqn:E.
    + exists mb. split; auto. constructor. rewrite Hs, E. auto.
    + exfalso. apply Hb. cbn. intros v'. rewrite Hs, E. discriminate.
  - destruct (S l) eqn:E.
    + exists (upd mb l v). split.
      * constructor. rewrite Hs, E. auto.
      * intros l'. unfold upd. rewrite Hs. destruct (loc_eqb_spec l' l) as [->|]; auto. rewrite E. auto.
    + exfalso. apply Hb. cbn. rewrite Hs, E. reflexivity.
Qed.

Lemma psteps_sim n s s' : psteps n s s' -> forall ma mb T, s = (T, ma) -> sim ma mb ->
  (forall T1 m1, psteps n (T, mb) (T1, m1) -> forall i, i < n -> ~ bad (T1 i) m1) ->
  exists mb', psteps n (T, mb) (fst s', mb') /\ sim (snd s') mb'.
Proof.
  induction 1 as [s|s s1 s2 Hp IH Hst]; intros ma mb T E Hs Hd.
  - subst s. exists mb. split; [constructor|auto].
  - destruct (IH ma mb T E Hs Hd) as (mb1 & Hp1 & Hs1).
    destruct Hst as [T1 m1 i p' m' Hi Ha]. cbn in *.
    destruct (astep_sim _ _ _ _ mb1 Ha Hs1) as (mb' & Ha' & Hs').
    + apply (Hd T1 mb1); auto.
    + exists mb'. split; auto. eapply ps_step; [exact Hp1|]. constructor; auto.
Qed.

Lemma region_exec_sim r ma ma' : region_exec r ma ma' -> forall mb, sim ma mb ->
  (forall k T m, region_reach r mb k T m -> forall i, i < k -> ~ bad (T i) m) ->
  exists mb', region_exec r mb mb' /\ sim ma' mb'.
Proof.
  induction 1 as [m|ph rest m chunks T' m' m'' Hsc Hp Hf Hr IH]; intros mb Hs Hd.
  - exists mb. split; [constructor|auto].
  - destruct (psteps_sim _ _ _ Hp m mb _ eq_refl Hs) as (mb1 & Hp1 & Hs1).
    { intros T1 m1 H. apply (Hd (length chunks) T1 m1). eapply rr_here; eauto. }
    cbn in *. destruct (IH mb1 Hs1) as (mb2 & Hr2 & Hs2).
    { intros k T m0 H. apply (Hd k T m0). eapply rr_later; eauto. }
    exists mb2. split; auto. eapply re_cons; eauto.
Qed.

Lemma region_reach_sim r ma k T ma' : region_reach r ma k T ma' -> forall mb, sim ma mb ->
  (forall k T m, region_reach r mb k T m -> forall i, i < k -> ~ bad (T i) m) ->
  exists mb', region_reach r mb k T mb' /\ sim ma' mb'.
Proof.
  induction 1 as [ph rest m chunks T' m' Hsc Hp|ph rest m chunks T' m' n T'' m'' Hsc Hp Hf Hr IH]; intros mb Hs Hd.
  - destruct (psteps_sim _ _ _ Hp m mb _ eq_refl Hs) as (mb1 & Hp1 & Hs1).
    { intros T1 m1 H. apply (Hd (length chunks) T1 m1). eapply rr_here; eauto. }
    exists mb1. split; auto. eapply rr_here; eauto.
  - destruct (psteps_sim _ _ _ Hp m mb _ eq_refl Hs) as (mb1 & Hp1 & Hs1).
    { intros T1 m1 H. apply (Hd (length chunks) T1 m1). eapply rr_here; eauto. }
    cbn in *. destruct (IH mb1 Hs1) as (mb2 & Hr2 & Hs2).
    { intros k T m0 H. apply (Hd k T m0). eapply rr_later; eauto. }
    exists mb2. split; auto. eapply rr_later; eauto.
Qed.

Definition news_in (c : list (act V)) : Prop := forall b n, In (New b n) c -> forall i, i < n -> S (b, i) = true.

Lemma malloc_sim ma mb b n : sim ma mb -> (forall i, i < n -> S (b, i) = true) -> sim (malloc ma b n) (malloc mb b n).
Proof.
  intros Hs Hn l. unfold malloc. destruct (Nat.eqb_spec (fst l) b) as [E|E]; [|apply Hs].
  destruct (Nat.ltb_spec (snd l) n) as [H|H]; [|destruct (S l); auto].
  specialize (Hn _ H). destruct l as [b' i]. cbn in *. subst b'. rewrite Hn. auto.
Qed.

Lemma call_reach_sim c ma k T m1 : call_reach c ma k T m1 -> forall mb, sim ma mb -> news_in c ->
  (forall k T m, call_reach c mb k T m -> forall i, i < k -> ~ bad (T i) m) ->
  exists mb1, call_reach c mb k T mb1 /\ sim m1 mb1.
Proof.
  induction 1 as [b n rest m k T m' Hr IH|r rest m k T m' Hr|r rest m m1 k T m' He Hr IH]; intros mb Hs Hn Hd.
  - destruct (IH (malloc mb b n)) as (mb1 & H1 & H2).
    + apply malloc_sim; auto. intros i Hi. apply (Hn b n); auto. left. auto.
    + intros b' n' Hin. apply Hn. right. auto.
    + intros k0 T0 m0 H. apply Hd. constructor. auto.
    + exists mb1. split; auto. constructor. auto.
  - destruct (region_reach_sim _ _ _ _ _ Hr mb Hs) as (mb1 & H1 & H2).
    + intros k0 T0 m0 H. apply Hd. apply cr_here. auto.
    + exists mb1. split; auto. apply cr_here. auto.
  - destruct (region_exec_sim _ _ _ He mb Hs) as (mb1 & H1 & H2).
    + intros k0 T0 m0 H. apply Hd. apply cr_here. auto.
    + destruct (IH mb1 H2) as (mb2 & H3 & H4).
      * intros b' n' Hin. apply Hn. right. auto.
      * intros k0 T0 m0 H. apply Hd. eapply cr_later; eauto.
      * exists mb2. split; auto. eapply cr_later; eauto.
Qed.

Theorem footprint c m m' : Outcome c (restrict S m) m' -> news_in c -> accesses_only c m (fun l => S l = true).
Proof.
  intros [_ _ Hd _ _ _] Hn k T m1 Hr i l w Hi Ha.
  destruct (call_reach_sim c m k T m1 Hr (restrict S m) (sim_restrict m) Hn Hd) as (mb1 & H1 & H2).
  specialize (Hd _ _ _ H1 i Hi). destruct (S l) eqn:E; auto. exfalso. apply Hd.
  destruct (T i) as [?| |l' k'|l' v' k'|? ? ?]; try discriminate; injection Ha as -> _; cbn.
  - intros v. rewrite H2, E. discriminate.
  - rewrite H2, E. reflexivity.
Qed.
End Footprint.
