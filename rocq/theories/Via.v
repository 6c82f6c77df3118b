(** * The accesses made in the course of a call

    [call_via c m n T m1 m']: there is a complete execution of c from memory m to memory m' that passes through the
    state in which n threads have the remaining programs T and the memory is m1. *)

From Coq Require Import List Arith Bool Lia Permutation.
From Verif Require Import Mem Omp OmpFacts Object Performs.
Import ListNotations.

Section Via.
Context {V : Type}.
Notation mem := (mem V).
Notation phase := (phase (V:=V)).
Notation act := (act V).

Inductive region_via : list phase -> mem -> nat -> threads -> mem -> mem -> Prop :=
| rv_here ph rest m chunks T m1 T' m' m'' :
    schedule ph chunks ->
    psteps (length chunks) (team ph chunks, m) (T, m1) -> psteps (length chunks) (T, m1) (T', m') -> finished (length chunks) T' ->
    region_exec rest m' m'' ->
    region_via (ph :: rest) m (length chunks) T m1 m''
| rv_later ph rest m chunks T' m' n T m1 m'' :
    schedule ph chunks ->
    psteps (length chunks) (team ph chunks, m) (T', m') -> finished (length chunks) T' ->
    region_via rest m' n T m1 m'' ->
    region_via (ph :: rest) m n T m1 m''.
Inductive call_via : list act -> mem -> nat -> threads -> mem -> mem -> Prop :=
| cv_new b n rest m k T m1 m' : call_via rest (malloc m b n) k T m1 m' -> call_via (New b n :: rest) m k T m1 m'
| cv_here r rest m k T m1 m' m'' : region_via r m k T m1 m' -> call_exec rest m' m'' -> call_via (Par r :: rest) m k T m1 m''
| cv_later r rest m m0 k T m1 m' : region_exec r m m0 -> call_via rest m0 k T m1 m' -> call_via (Par r :: rest) m k T m1 m'.

(** in some execution of c from m to m', one thread makes both halves of the access v, both by loads or both by stores *)
Definition makes (c : list act) (m m' : mem) (v : loc * loc) : Prop :=
  exists w n i, i < n /\
    (exists T m1, call_via c m n T m1 m' /\ next_access (T i) = Some (fst v, w)) /\
    (exists T m1, call_via c m n T m1 m' /\ next_access (T i) = Some (snd v, w)).

Lemma does_passed n s s' w l i : psteps (V:=V) n s s' -> i < n -> does w l (fst s i) ->
  does w l (fst s' i) \/ exists s1, psteps n s s1 /\ psteps n s1 s' /\ next_access (fst s1 i) = Some (l, w).
Proof.
  intros H Hi Hd. induction H as [s|s s1 s2 H1 IH Hst]; [left; exact Hd|]. destruct (IH Hd) as [Hd1|(s0 & Ha & Hb & Hc)].
  - destruct Hst as [T m j p' m' Hj Hs]. cbn [fst] in *. unfold setth. destruct (Nat.eqb_spec i j) as [<-|Hne]; [|left; exact Hd1].
    remember (T i) as p eqn:Ep. destruct Hs as [l0 k m v Hv|l0 v k m Hf]; cbn in Hd1.
    + destruct Hd1 as [[-> ->]|Hk]; [right|left; apply Hk].
      exists (T, m). split; [exact H1|]. split; [|cbn [fst]; rewrite <- Ep; reflexivity].
      eapply ps_step; [constructor|]. constructor; [exact Hj|]. rewrite <- Ep. constructor. exact Hv.
    + destruct Hd1 as [[-> ->]|Hk]; [right|left; apply Hk].
      exists (T, m). split; [exact H1|]. split; [|cbn [fst]; rewrite <- Ep; reflexivity].
      eapply ps_step; [constructor|]. constructor; [exact Hj|]. rewrite <- Ep. constructor. exact Hf.
  - right. exists s0. split; [exact Ha|]. split; [|exact Hc]. eapply ps_step; eauto.
Qed.
Lemma does_chunk w l body is i : In i is -> does w l (body i) -> does w l (chunk_prog (V:=V) body is).
Proof.
  induction is as [|j is IH]; [intros []|]. intros [->|H] Hd; cbn.
  - apply does_l, Hd.
  - apply (does_r _ _ _ _ _ (rets_any _)). intros _ _. auto.
Qed.
Lemma scheduled ph chunks i : schedule (V:=V) ph chunks -> i < fst ph -> exists t, t < length chunks /\ In i (nth t chunks []).
Proof.
  intros H Hi. assert (In i (concat chunks)) as Hc by (apply (Permutation_in _ (Permutation_sym H)), in_seq; lia).
  apply in_concat in Hc. destruct Hc as (c & Hc & Hin). apply (In_nth _ _ []) in Hc. destruct Hc as (t & Ht & <-). exists t. auto.
Qed.
Lemma phase_does w l ph chunks m T' m' t i : schedule (V:=V) ph chunks -> psteps (length chunks) (team ph chunks, m) (T', m') -> finished (length chunks) T' ->
  t < length chunks -> In i (nth t chunks []) -> does w l (snd ph i) ->
  exists T m1, psteps (length chunks) (team ph chunks, m) (T, m1) /\ psteps (length chunks) (T, m1) (T', m') /\ next_access (T t) = Some (l, w).
Proof.
  intros Hs Hp Hf Ht Hi Hd. destruct (does_passed _ _ _ w l t Hp Ht) as [H|((T & m1) & Ha & Hb & Hc)].
  - cbn [fst]. unfold team. apply (does_chunk w l _ _ i); auto.
  - exfalso. cbn [fst] in H. rewrite (Hf t Ht) in H. exact H.
  - exists T, m1. auto.
Qed.
Lemma region_makes v r : region_does2 (V:=V) v r -> forall m m', region_exec r m m' ->
  exists w n i, i < n /\
    (exists T m1, region_via r m n T m1 m' /\ next_access (T i) = Some (fst v, w)) /\
    (exists T m1, region_via r m n T m1 m' /\ next_access (T i) = Some (snd v, w)).
Proof.
  intros (ph & i & Hin & Hi & w & H1 & H2). induction r as [|ph' r IH]; [destruct Hin|]. intros m m' He. inversion He as [|ph0 r0 m0 chunks T' m'0 m'' Hsc Hps Hfin Hre]; subst. destruct Hin as [->|Hin].
  - destruct (scheduled _ _ _ Hsc Hi) as (t & Ht & Hit). exists w, (length chunks), t. split; [exact Ht|].
    split; [destruct (phase_does w (fst v) ph chunks m T' m'0 t i) as (T & m1 & Ha & Hb & Hc)|destruct (phase_does w (snd v) ph chunks m T' m'0 t i) as (T & m1 & Ha & Hb & Hc)]; auto;
      exists T, m1; (split; [|exact Hc]); eapply rv_here; eauto.
  - destruct (IH Hin _ _ Hre) as (w' & n & j & Hj & (T & m1 & Ha & Hb) & (T2 & m2 & Hc & Hd)).
    exists w', n, j. split; [exact Hj|]. split; [exists T, m1|exists T2, m2]; (split; [eapply rv_later; eauto|assumption]).
Qed.
Lemma call_makes v c : call_does2 (V:=V) v c -> forall m m', call_exec c m m' -> makes c m m' v.
Proof.
  intros (r & Hin & Hr). induction c as [|a c IH]; [destruct Hin|]. intros m m' He. destruct Hin as [->|Hin].
  - inversion He as [| |r0 c0 m0 m1 m2' Hre Hce]; subst. destruct (region_makes v r Hr _ _ Hre) as (w & n & i & Hi & (T & m2 & Ha & Hb) & (T2 & m3 & Hc & Hd)).
    exists w, n, i. split; [exact Hi|]. split; [exists T, m2|exists T2, m3]; (split; [eapply cv_here; eauto|assumption]).
  - inversion He as [|b0 n0 c0 m0 m2' Hce|r0 c0 m0 m1 m2' Hre Hce]; subst.
    + destruct (IH Hin _ _ Hce) as (w & k & i & Hi & (T & m2 & Ha & Hb) & (T2 & m3 & Hc & Hd)).
      exists w, k, i. split; [exact Hi|]. split; [exists T, m2|exists T2, m3]; (split; [eapply cv_new; eauto|assumption]).
    + destruct (IH Hin _ _ Hce) as (w & k & i & Hi & (T & m2 & Ha & Hb) & (T2 & m3 & Hc & Hd)).
      exists w, k, i. split; [exact Hi|]. split; [exists T, m2|exists T2, m3]; (split; [eapply cv_later; eauto|assumption]).
Qed.
Lemma calls_make l c : Forall (fun v => call_does2 (V:=V) v c) l -> forall m m', call_exec c m m' -> Forall (makes c m m') l.
Proof. intros H m m' He. eapply Forall_impl; [|exact H]. intros v Hv. apply call_makes; auto. Qed.
End Via.
