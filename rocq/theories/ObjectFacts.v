(** * Calls: from footprints to outcomes; loops over lanes *)

From Coq Require Import List Arith Bool Lia Permutation.
From Verif Require Import Mem MemFacts Omp OmpFacts Stage Object.
Import ListNotations.

Section Facts.
Context {V : Type}.
Notation mem := (mem V).
Notation prog := (prog V).
Notation lane := (lane V).
Notation phase := (phase (V:=V)).

(** ** effect of a region *)
Definition chg (S : loc -> Prop) (m m' : mem) : Prop :=
  (forall l, ~ S l -> m' l = m l) /\ (forall l, m' l = m l \/ exists v, m' l = Val v).

Lemma chg_refl S m : chg S m m.
Proof. split; auto. Qed.
Lemma chg_trans (S1 S2 S : loc -> Prop) m m1 m2 : chg S1 m m1 -> chg S2 m1 m2 ->
  (forall l, S1 l -> S l) -> (forall l, S2 l -> S l) -> chg S m m2.
Proof.
  intros [F1 V1] [F2 V2] H1 H2. split.
  - intros l Hl. rewrite F2, F1; auto.
  - intros l. destruct (V2 l) as [->|]; auto.
Qed.
Lemma chg_mono (S S' : loc -> Prop) m m' : (forall l, S l -> S' l) -> chg S m m' -> chg S' m m'.
Proof. intros H [F Hv]. split; auto. Qed.
Lemma chg_allocd S m m' A : chg S m m' -> allocd m A -> allocd m' A.
Proof. intros [_ H] Ha l Hl. destruct (H l) as [->|[v ->]]; [auto|discriminate]. Qed.
Lemma chg_holds S m m' p n X : chg S m m' -> holds m p n X -> (forall l, inR p n l -> ~ S l) -> holds m' p n X.
Proof. intros [F _] H Hd. eapply holds_frame; [exact H|]. intros l Hl. apply F. auto. Qed.

Definition Exec (r : list phase) (S : loc -> Prop) (m m' : mem) : Prop :=
  region_ok r m /\ run (region_seq r) m = Some (tt, m') /\ chg S m m'.

Lemma Exec_nil S m : Exec [] S m m.
Proof. split; [exact I|]. split; [reflexivity|apply chg_refl]. Qed.

Lemma Exec_app r1 r2 (S1 S2 S : loc -> Prop) m m1 m2 : Exec r1 S1 m m1 -> Exec r2 S2 m1 m2 ->
  (forall l, S1 l -> S l) -> (forall l, S2 l -> S l) -> Exec (r1 ++ r2) S m m2.
Proof.
  intros (O1 & R1 & C1) (O2 & R2 & C2) H1 H2. split; [|split].
  - apply region_ok_app; auto. intros m' Hr. rewrite R1 in Hr. injection Hr as <-. auto.
  - rewrite region_seq_app, R1. auto.
  - eapply chg_trans; eauto.
Qed.
Lemma Exec_mono r (S S' : loc -> Prop) m m' : (forall l, S l -> S' l) -> Exec r S m m' -> Exec r S' m m'.
Proof. intros H (O & R & C). split; auto. split; auto. eapply chg_mono; eauto. Qed.

Lemma RComputes_Exec r x N W NW Ws out M F : RComputes r x N W NW Ws out M F ->
  forall m T X, holds m x N X -> tab m W NW T -> allocd m Ws -> exists m', Exec r Ws m m' /\ holds m' out M (F T X).
Proof.
  intros H m T X H1 H2 H3. destruct (H m T X H1 H2 H3) as (Ho & m' & Hr & Hh & Hf & Hv).
  exists m'. split; auto. split; auto. split; auto. split; auto.
Qed.

(** sequential code *)
Definition T1 (l : loc) : Prop := True.
Lemma Exec_single (p : prog unit) S m m' : dfp T1 T1 m p -> run p m = Some (tt, m') -> chg S m m' -> Exec [(1, fun _ => p)] S m m'.
Proof.
  intros Hd Hr Hc. split; [eapply region_single_ok; eauto|]. split; auto. rewrite region_single_run, Hr. reflexivity.
Qed.
Lemma Exec_single_inv (p : prog unit) S m m' : Exec [(1, fun _ => p)] S m m' -> dfp T1 T1 m p /\ run p m = Some (tt, m') /\ chg S m m'.
Proof.
  intros (Ho & Hr & Hc). rewrite region_single_run in Hr. destruct (run p m) as [[[] m1]|]; [|discriminate].
  injection Hr as ->. split; auto. cbn in Ho. destruct Ho as [(R & W & Hpk) _].
  pose proof (po_fp _ _ _ _ Hpk 0 ltac:(cbn; lia)) as Hd. cbn in Hd.
  eapply dfp_mono; [| |exact Hd]; unfold T1; auto.
Qed.
Lemma Exec_single_seq (p q : prog unit) (S1 S2 S : loc -> Prop) m m1 m2 :
  Exec [(1, fun _ => p)] S1 m m1 -> Exec [(1, fun _ => q)] S2 m1 m2 ->
  (forall l, S1 l -> S l) -> (forall l, S2 l -> S l) -> Exec [(1, fun _ => bind p (fun _ => q))] S m m2.
Proof.
  intros H1 H2 HS1 HS2. apply Exec_single_inv in H1 as (D1 & R1 & C1). apply Exec_single_inv in H2 as (D2 & R2 & C2).
  apply Exec_single.
  - apply dfp_bind; auto. intros [] m' Hr. rewrite R1 in Hr. injection Hr as <-. auto.
  - rewrite run_bind, R1. auto.
  - eapply chg_trans; eauto.
Qed.
Lemma Exec_skip S m : Exec [(1, fun _ => skip)] S m m.
Proof. apply Exec_single; [exact I|reflexivity|apply chg_refl]. Qed.

(** ** effect of a call *)
Fixpoint acts_ok (c : list (act V)) (m : mem) : Prop :=
  match c with
  | [] => True
  | New b n :: rest => acts_ok rest (malloc m b n)
  | Par r :: rest => region_ok r m /\ forall m', run (region_seq r) m = Some (tt, m') -> acts_ok rest m'
  end.

Lemma region_exec_ex (r : list phase) : forall (m m' : mem), region_ok r m -> run (region_seq r) m = Some (tt, m') -> exists m'', region_exec r m m'' /\ forall l, m'' l = m' l.
Proof.
  induction r as [|ph rest IH]; cbn; intros m m' Hok Hr.
  - injection Hr as <-. exists m. split; [constructor|auto].
  - destruct Hok as [(R & W & Hok) Hrest].
    rewrite run_bind in Hr. destruct (run (for_ (fst ph) (snd ph)) m) as [[[] m1]|] eqn:E1; [|discriminate].
    destruct (IH m1 m' (Hrest m1 eq_refl) Hr) as (m'' & Hex & Hm'').
    set (chunks := [seq 0 (fst ph)]).
    assert (Hs : schedule ph chunks) by (unfold schedule, chunks; cbn; rewrite app_nil_r; apply Permutation_refl).
    assert (Ht : team ph chunks 0 = chunk_prog (snd ph) (seq 0 (fst ph))) by reflexivity.
    pose proof E1 as E2. rewrite run_for_chunk in E2.
    assert (Hd : dfp (fun _ => True) (fun _ => True) m (team ph chunks 0)).
    { eapply dfp_mono; [| |apply (c_fp ph R W m chunks Hok Hs 0)]; auto. }
    assert (Ha : asteps (team ph chunks 0) m (Ret tt) m1) by (eapply run_asteps; [exact Hd|]; rewrite Ht; exact E2).
    destruct (asteps_psteps 1 _ _ _ _ Ha (team ph chunks) 0) as (T2 & Hps & HT2 & Hoth); auto.
    exists m''. split; auto. eapply re_cons; [exact Hs|exact Hps| |exact Hex].
    intros i Hi. cbn in Hi. assert (i = 0) by lia. subst. auto.
Qed.

Lemma region_seq_tt (r : list phase) : forall (m m' : mem) (a : unit), run (region_seq r) m = Some (a, m') -> run (region_seq r) m = Some (tt, m').
Proof. intros m m' [] H. exact H. Qed.

Lemma acts_ok_ext c : forall (m m2 : mem), (forall l, m2 l = m l) -> acts_ok c m -> acts_ok c m2.
Proof.
  induction c as [|[b n|r] c IH]; cbn; intros m m2 E H; auto.
  - eapply IH; [|exact H]. intros l. unfold malloc. destruct (fst l =? b); auto.
  - destruct H as [H1 H2]. split; [eapply region_ok_ext; eauto|].
    intros m2' Hr2. pose proof (run_ext (region_seq r) m m2 E) as HE. rewrite Hr2 in HE.
    destruct (run (region_seq r) m) as [[[] m']|] eqn:Er; [|contradiction].
    eapply IH; [|apply H2; reflexivity]. apply HE.
Qed.

Lemma call_seq_ext c : forall (m m2 m' : mem), (forall l, m2 l = m l) -> call_seq c m = Some m' ->
  exists m2', call_seq c m2 = Some m2' /\ forall l, m2' l = m' l.
Proof.
  induction c as [|[b n|r] c IH]; cbn; intros m m2 m' E H.
  - injection H as <-. eauto.
  - eapply IH; [|exact H]. intros l. unfold malloc. destruct (fst l =? b); auto.
  - pose proof (run_ext (region_seq r) m m2 E) as HE.
    destruct (run (region_seq r) m) as [[[] m1]|] eqn:Er; [|discriminate].
    destruct (run (region_seq r) m2) as [[[] m3]|] eqn:Er2; [|contradiction].
    eapply IH; [|exact H]. apply HE.
Qed.

(** a call whose loops have disjoint footprints behaves like its sequential execution under every schedule *)
Theorem acts_Outcome c (m m' : mem) : acts_ok c m -> call_seq c m = Some m' -> Outcome c m m'.
Proof.
  intros Hok Hseq.
  assert (Hex1 : forall c (m m' : mem), acts_ok c m -> call_seq c m = Some m' -> exists m'', call_exec c m m'' /\ forall l, m'' l = m' l).
  { clear. induction c as [|[b n|r] c IH]; cbn; intros m m' Hok Hs.
    - injection Hs as <-. exists m. split; [constructor|auto].
    - destruct (IH _ _ Hok Hs) as (m'' & H1 & H2). exists m''. split; auto. constructor. auto.
    - destruct Hok as [Hr Hrest].
      destruct (run (region_seq r) m) as [[[] m1]|] eqn:Er; [|discriminate].
      destruct (region_exec_ex r m m1 Hr Er) as (m1' & He & Hm1).
      destruct (call_seq_ext c m1 m1' m' Hm1 Hs) as (m2' & Hs2 & Hm2).
      assert (Hok' : acts_ok c m1') by (eapply acts_ok_ext; [exact Hm1|apply Hrest; auto]).
      destruct (IH _ _ Hok' Hs2) as (m'' & H1 & H2). exists m''. split.
      + eapply ce_par; eauto.
      + intros l. rewrite H2, Hm2. reflexivity. }
  assert (Huniq : forall c (m m'' : mem), call_exec c m m'' -> forall m', acts_ok c m -> call_seq c m = Some m' -> forall l, m'' l = m' l).
  { clear. intros c m m'' He. induction He as [m|b n rest m m'' He IH|r rest m m1 m'' Hr He IH]; intros m' Hok Hs l; cbn in *.
    - injection Hs as <-. reflexivity.
    - apply IH; auto.
    - destruct Hok as [Hok Hrest]. destruct (region_sched r m Hok) as (mf & Hf & Hall & _).
      rewrite Hf in Hs. specialize (Hall m1 Hr).
      destruct (call_seq_ext rest mf m1 m' Hall Hs) as (m2' & Hs2 & Hm2).
      rewrite <- Hm2. apply IH; auto. eapply acts_ok_ext; [exact Hall|]. apply Hrest; auto. }
  assert (Hreach : forall c (m : mem) k T m1, call_reach c m k T m1 -> acts_ok c m ->
    exists r m0, region_ok r m0 /\ region_reach r m0 k T m1).
  { clear. intros c m k T m1 Hr. induction Hr as [b n rest m k T m' Hr IH|r rest m k T m' Hr|r rest m m1 k T m' He Hr IH]; cbn; intros Hok.
    - auto.
    - exists r, m. split; [apply Hok|auto].
    - apply IH. destruct Hok as [Hok Hrest]. destruct (region_sched r m Hok) as (mf & Hf & Hall & _).
      eapply acts_ok_ext; [exact (Hall m1 He)|]. apply Hrest; auto. }
  constructor.
  - destruct (Hex1 c m m' Hok Hseq) as (m'' & H & _). eauto.
  - intros m'' He. eapply Huniq; eauto.
  - intros k T m1 Hr. destruct (Hreach _ _ _ _ _ Hr Hok) as (r & m0 & Hr0 & Hrr).
    destruct (region_sched r m0 Hr0) as (mf & _ & _ & H & _). apply (H _ _ _ Hrr).
  - intros k T m1 Hr. destruct (Hreach _ _ _ _ _ Hr Hok) as (r & m0 & Hr0 & Hrr).
    destruct (region_sched r m0 Hr0) as (mf & _ & _ & H & _). apply (H _ _ _ Hrr).
  - intros k T m1 Hr. destruct (Hreach _ _ _ _ _ Hr Hok) as (r & m0 & Hr0 & Hrr).
    destruct (region_sched r m0 Hr0) as (mf & _ & _ & H & _). apply (H _ _ _ Hrr).
  - intros k T m1 Hr. apply pstep_acc.
Qed.

(** effect of a call without allocation *)
Definition CExec (c : list (act V)) (S : loc -> Prop) (m m' : mem) : Prop :=
  acts_ok c m /\ call_seq c m = Some m' /\ chg S m m'.

Lemma CExec_nil S m : CExec [] S m m.
Proof. split; [exact I|]. split; [reflexivity|apply chg_refl]. Qed.
Lemma acts_ok_app c1 c2 : forall (m : mem), acts_ok c1 m -> (forall m1, call_seq c1 m = Some m1 -> acts_ok c2 m1) -> acts_ok (c1 ++ c2) m.
Proof.
  induction c1 as [|[b n|r] c1 IH]; cbn; intros m H1 H2; auto.
  destruct H1 as [H H1]. split; auto. intros m' Hr. apply IH; auto. intros m1 Hs. apply H2. rewrite Hr. auto.
Qed.
Lemma call_seq_app c1 c2 : forall (m : mem), call_seq (c1 ++ c2) m = match call_seq c1 m with Some m1 => call_seq c2 m1 | None => None end.
Proof.
  induction c1 as [|[b n|r] c1 IH]; cbn; intros m; auto.
  destruct (run (region_seq r) m) as [[[] m1]|]; auto.
Qed.
Lemma CExec_app c1 c2 (S1 S2 S : loc -> Prop) m m1 m2 : CExec c1 S1 m m1 -> CExec c2 S2 m1 m2 ->
  (forall l, S1 l -> S l) -> (forall l, S2 l -> S l) -> CExec (c1 ++ c2) S m m2.
Proof.
  intros (O1 & R1 & C1) (O2 & R2 & C2) H1 H2. split; [|split].
  - apply acts_ok_app; auto. intros m' Hr. rewrite R1 in Hr. injection Hr as <-. auto.
  - rewrite call_seq_app, R1. auto.
  - eapply chg_trans; eauto.
Qed.
Lemma CExec_mono r (S S' : loc -> Prop) m m' : (forall l, S l -> S' l) -> CExec r S m m' -> CExec r S' m m'.
Proof. intros H (O & R & C). split; auto. split; auto. eapply chg_mono; eauto. Qed.
Lemma CExec_par r S m m' : Exec r S m m' -> CExec [Par r] S m m'.
Proof.
  intros (O & R & C). split; [|split]; auto.
  - cbn. split; auto.
  - cbn. rewrite R. reflexivity.
Qed.
Lemma CExec_Outcome c S m m' : CExec c S m m' -> Outcome c m m'.
Proof. intros (O & R & _). apply acts_Outcome; auto. Qed.

(** ** loops of straight-line blocks *)
Lemma run_stores_last ws : forall (m : mem) vs, length vs = length ws -> (forall l, In l ws -> m l <> Free) ->
  exists m', run (stores ws vs) m = Some (tt, m') /\ (forall l, ~ In l ws -> m' l = m l) /\
    (forall l, m' l = m l \/ exists v, m' l = Val v) /\
    (forall j l v, nth_error ws j = Some l -> nth_error vs j = Some v ->
       (forall j', j < j' -> nth_error ws j' <> Some l) -> m' l = Val v).
Proof.
  induction ws as [|w ws IH]; intros m [|v vs] Hlen Ha; try discriminate.
  - cbn. exists m. split; auto. split; auto. split; auto. intros [|j] l v; discriminate.
  - cbn in Hlen. injection Hlen as Hlen.
    destruct (IH (upd m w v) vs Hlen) as (m' & Hr & Hf & Hv & Hl).
    { intros l Hl. destruct (loc_eq_dec l w) as [->|Hne]; [rewrite upd_same; discriminate|].
      rewrite upd_other by auto. apply Ha. right. auto. }
    exists m'. split; [|split; [|split]].
    + cbn [stores run]. destruct (m w) eqn:E; auto. exfalso. apply (Ha w); auto. left; auto.
    + intros l Hnin. rewrite Hf by (intros H; apply Hnin; right; auto). apply upd_other. intros ->. apply Hnin. left; auto.
    + intros l. destruct (Hv l) as [E|E]; auto. rewrite E. unfold upd. destruct (loc_eqb l w); eauto.
    + intros [|j] l v' H1 H2 H3; cbn in H1, H2.
      * injection H1 as <-. injection H2 as <-. rewrite Hf; [apply upd_same|].
        intros Hin. apply In_nth_error in Hin as [j' Hj']. apply (H3 (S j') ltac:(lia)). auto.
      * apply (Hl j); auto. intros j' Hj'. apply (H3 (S j') ltac:(lia)).
Qed.

Section BLoop.
Variables (n : nat) (rds wrs : nat -> list loc) (f : nat -> list V -> list V) (m : mem) (vs : nat -> list V).
Hypothesis Hrd : forall i, i < n -> reads m (rds i) (vs i).
Hypothesis Hlen : forall i, i < n -> length (f i (vs i)) = length (wrs i).
Hypothesis Hal : forall i l, i < n -> In l (wrs i) -> m l <> Free.
Hypothesis Hdj : forall i j l, i < n -> j < n -> i <> j -> In l (wrs i) -> ~ In l (wrs j) /\ ~ In l (rds j).

Definition bbody (i : nat) : prog unit := block (rds i) (wrs i) (f i).

Lemma dfp_stores ws : forall (R : loc -> Prop) (m0 : mem) us, length us = length ws -> (forall l, In l ws -> m0 l <> Free) ->
  dfp R (fun l => In l ws) m0 (stores ws us).
Proof.
  assert (G : forall ws (R W : loc -> Prop) (m0 : mem) us, length us = length ws -> (forall l, In l ws -> W l) -> (forall l, In l ws -> m0 l <> Free) -> dfp R W m0 (stores ws us)).
  { clear. induction ws as [|w ws IH]; intros R W m0 [|u us] Hl HW Ha; try discriminate; [exact I|].
    cbn. split; [apply HW; left; auto|]. split; [apply Ha; left; auto|]. apply IH; auto.
    - intros l Hin. apply HW. right; auto.
    - intros l Hin. destruct (loc_eq_dec l w) as [->|Hne]; [rewrite upd_same; discriminate|].
      rewrite upd_other by auto. apply Ha. right. auto. }
  intros R m0 us H1 H2. apply G; auto.
Qed.
Lemma dfp_loads rs : forall (R W : loc -> Prop) (m0 : mem) us, reads m0 rs us -> (forall l, In l rs -> R l) -> dfp R W m0 (loads rs).
Proof.
  induction rs as [|r rs IH]; intros R W m0 us Hr HR; [exact I|].
  destruct us as [|u us]; [discriminate|]. unfold reads in Hr. cbn in Hr. injection Hr as H1 H2.
  cbn. split; [left; apply HR; left; auto|]. exists u. split; auto.
  apply dfp_bind; [|intros; exact I]. eapply IH; eauto. intros l Hl. apply HR. right; auto.
Qed.

Lemma bloop_fp i : i < n -> dfp (fun l => In l (rds i)) (fun l => In l (wrs i)) m (bbody i).
Proof.
  intros Hi. apply dfp_bind; [eapply dfp_loads; eauto|].
  intros a m' Hr. rewrite (run_loads _ _ _ (Hrd i Hi)) in Hr. injection Hr as <- <-.
  apply dfp_stores; auto. intros l. apply Hal; auto.
Qed.

Lemma bloop_c i j : i < n -> j < n -> i <> j ->
  nonconf (fun l => In l (rds i)) (fun l => In l (wrs i)) (fun l => In l (rds j)) (fun l => In l (wrs j)).
Proof.
  intros Hi Hj Hne l. split.
  - intros Hl. destruct (Hdj i j l Hi Hj Hne Hl). auto.
  - intros Hl. destruct (Hdj j i l Hj Hi (not_eq_sym Hne) Hl). auto.
Qed.

Lemma bloop_run : exists m', run (for_ n bbody) m = Some (tt, m') /\
  chg (fun l => exists i, i < n /\ In l (wrs i)) m m' /\
  (forall i j l v, i < n -> nth_error (wrs i) j = Some l -> nth_error (f i (vs i)) j = Some v ->
    (forall j', j < j' -> nth_error (wrs i) j' <> Some l) -> m' l = Val v).
Proof.
  destruct (for_dspec n bbody (fun i l => In l (rds i)) (fun i l => In l (wrs i)) m bloop_fp bloop_c) as (Hd & m' & Hr & Hf & Hv).
  exists m'. split; auto. split.
  - split.
    + intros l Hl. apply Hf. intros i Hi Hin. apply Hl. eauto.
    + destruct (dfp_run _ _ _ _ Hd) as ([] & m2 & Hr2 & _ & H). rewrite Hr in Hr2. injection Hr2 as <-. auto.
  - intros i j l v Hi Hj Hjv Hlast.
    destruct (Hv i Hi) as (mi & Hri & Hl).
    assert (Hin : In l (wrs i)) by (eapply nth_error_In; eauto).
    rewrite Hl.
    2:{ intros j' Hj' Hne Hin'. destruct (Hdj i j' l Hi Hj' (not_eq_sym Hne) Hin). auto. }
    unfold bbody, block in Hri. rewrite run_bind, (run_loads _ _ _ (Hrd i Hi)) in Hri.
    destruct (run_stores_last (wrs i) m (f i (vs i))) as (mi' & Hr' & _ & _ & H'); auto.
    { intros l'. apply Hal; auto. }
    rewrite Hr' in Hri. injection Hri as <-. apply (H' j); auto.
Qed.

Lemma bloop_post (P : mem -> Prop) : (forall m', chg (fun l => exists i, i < n /\ In l (wrs i)) m m' ->
  (forall i j l v, i < n -> nth_error (wrs i) j = Some l -> nth_error (f i (vs i)) j = Some v ->
    (forall j', j < j' -> nth_error (wrs i) j' <> Some l) -> m' l = Val v) -> P m') ->
  (exists m', Exec [(n, bbody)] (fun l => exists i, i < n /\ In l (wrs i)) m m' /\ P m') /\
  (exists m', Exec [(1, fun _ => for_ n bbody)] (fun l => exists i, i < n /\ In l (wrs i)) m m' /\ P m').
Proof.
  intros HP. destruct bloop_run as (m' & Hr & Hc & Hv).
  split; exists m'; (split; [|apply HP; auto]); (split; [|split; auto]).
  - cbn. split; auto. exists (fun i l => In l (rds i)), (fun i l => In l (wrs i)). constructor; [exact bloop_fp|exact bloop_c].
  - cbn. rewrite run_bind, Hr. reflexivity.
  - eapply region_single_ok. apply (for_dspec n bbody _ _ m bloop_fp bloop_c).
  - rewrite region_single_run, Hr. reflexivity.
Qed.
End BLoop.

End Facts.
