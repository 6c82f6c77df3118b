(** * Several application threads using the library at the same time

    Omp.v and Object.v describe one call (with its own team of OpenMP threads) running alone.  Here n application
    threads each execute a sequence of library calls -- a list of actions -- concurrently on one memory, at the
    granularity of single loads, stores and allocations. *)

From Coq Require Import List Arith Bool Lia.
From Verif Require Import Mem Omp OmpFacts Object Footprint.
Import ListNotations.

Section Conc.
Context {V : Type}.
Notation mem := (mem V).
Notation prog := (prog V).
Notation act := (act V).
Notation phase := (phase (V:=V)).
Notation threads := (threads (V:=V)).

(** where an application thread is: the team executing the current loop, the loops left in the current region, the
    actions left *)
Record conf := Conf { cur : option (nat * threads); phs : list phase; todo : list act }.
Definition start (c : list act) : conf := Conf None [] c.
Definition done (c : conf) : Prop := c = Conf None [] [].

Inductive cstep : conf -> mem -> conf -> mem -> Prop :=
| c_new b n c m : cstep (Conf None [] (New b n :: c)) m (Conf None [] c) (malloc m b n)
| c_par r c m : cstep (Conf None [] (Par r :: c)) m (Conf None r c) m
| c_fork ph r c m chunks : schedule ph chunks ->
    cstep (Conf None (ph :: r) c) m (Conf (Some (length chunks, team ph chunks)) r c) m
| c_team k T T' r c m m' : pstep k (T, m) (T', m') -> cstep (Conf (Some (k, T)) r c) m (Conf (Some (k, T')) r c) m'
| c_join k T r c m : finished k T -> cstep (Conf (Some (k, T)) r c) m (Conf None r c) m.

(** the application threads 0 .. n-1 *)
Definition setc (C : nat -> conf) (t : nat) (c : conf) : nat -> conf := fun u => if u =? t then c else C u.
Inductive gstep (n : nat) : (nat -> conf) * mem -> (nat -> conf) * mem -> Prop :=
| g_step C m t c' m' : t < n -> cstep (C t) m c' m' -> gstep n (C, m) (setc C t c', m').
Inductive gsteps (n : nat) : (nat -> conf) * mem -> (nat -> conf) * mem -> Prop :=
| gs_refl s : gsteps n s s
| gs_step s s' s'' : gsteps n s s' -> gstep n s' s'' -> gsteps n s s''.

(** an application thread is about to access location l (w: to write it; releasing and obtaining a block counts as
    writing all of it) *)
Definition about_to (c : conf) (l : loc) (w : bool) : Prop :=
  (exists k T i, cur c = Some (k, T) /\ i < k /\ next_access (T i) = Some (l, w)) \/
  (exists b n rest, cur c = None /\ phs c = [] /\ todo c = New b n :: rest /\ fst l = b /\ w = true).
(** one of its OpenMP threads is about to do something undefined *)
Definition undefined (c : conf) (m : mem) : Prop := exists k T i, cur c = Some (k, T) /\ i < k /\ bad (T i) m.
(** two of its OpenMP threads race *)
Definition races_inside (c : conf) : Prop := exists k T i j, cur c = Some (k, T) /\ i < k /\ j < k /\ i <> j /\ racing (T i) (T j).
(** two application threads race *)
Definition race_between (c d : conf) : Prop := exists l v w, about_to c l v /\ about_to d l w /\ v || w = true.

(** in every reachable state of the call, under every schedule, every thread's next store is to a location of W *)
Definition writes_only (c : list act) (m : mem) (W : loc -> Prop) : Prop :=
  forall k T m1, call_reach c m k T m1 -> forall i l, i < k -> next_access (T i) = Some (l, true) -> W l.
Definition allocates_only (c : list act) (W : loc -> Prop) : Prop := forall b n, In (New b n) c -> forall i, W (b, i).

(** ** one application thread alone *)
Inductive csteps : conf -> mem -> conf -> mem -> Prop :=
| cs_refl c m : csteps c m c m
| cs_step c m c1 m1 c2 m2 : csteps c m c1 m1 -> cstep c1 m1 c2 m2 -> csteps c m c2 m2.

Definition pending (c : list act) (m : mem) (r : list phase) (c' : list act) (m1 : mem) : Prop :=
  (forall m2 m3, region_exec r m1 m2 -> call_exec c' m2 m3 -> call_exec c m m3) /\
  (forall k T m3, region_reach r m1 k T m3 -> call_reach c m k T m3) /\
  (forall m2 k T m3, region_exec r m1 m2 -> call_reach c' m2 k T m3 -> call_reach c m k T m3).
Definition alone (c : list act) (m : mem) (s : conf) (m1 : mem) : Prop :=
  match cur s with
  | None => pending c m (phs s) (todo s) m1
  | Some (k, T) => exists ph chunks m0, schedule ph chunks /\ k = length chunks /\ psteps k (team ph chunks, m0) (T, m1) /\ pending c m (ph :: phs s) (todo s) m0
  end.
Lemma alone_start c m : alone c m (start c) m.
Proof.
  split; [|split].
  - intros m2 m3 H1 H2. inversion H1; subst. exact H2.
  - intros k T m3 H. inversion H.
  - intros m2 k T m3 H1 H2. inversion H1; subst. exact H2.
Qed.
Lemma alone_step c m s m1 s' m2 : alone c m s m1 -> cstep s m1 s' m2 -> alone c m s' m2.
Proof.
  intros H Hs. destruct Hs as [b n c' m1|r c' m1|ph r c' m1 chunks Hsc|k T T' r c' m1 m2 Hp|k T r c' m1 Hf]; unfold alone in *; cbn [cur phs todo] in *.
  - destruct H as (H1 & H2 & H3). split; [|split].
    + intros m2 m3 He Hc. inversion He; subst. apply (H1 m1); [constructor|]. constructor. exact Hc.
    + intros k T m3 Hr. inversion Hr.
    + intros m2 k T m3 He Hc. inversion He; subst. apply (H3 m1); [constructor|]. constructor. exact Hc.
  - destruct H as (H1 & H2 & H3). split; [|split].
    + intros m2 m3 He Hc. apply (H1 m1); [constructor|]. econstructor; eauto.
    + intros k T m3 Hr. apply (H3 m1); [constructor|]. apply cr_here. exact Hr.
    + intros m2 k T m3 He Hc. apply (H3 m1); [constructor|]. eapply cr_later; eauto.
  - exists ph, chunks, m1. repeat (split; auto). constructor.
  - destruct H as (ph & chunks & m0 & H1 & H2 & H3 & H4). exists ph, chunks, m0. repeat (split; auto). eapply ps_step; eauto.
  - destruct H as (ph & chunks & m0 & H1 & -> & H3 & H4 & H5 & H6). split; [|split].
    + intros m2 m3 He Hc. apply (H4 m2); auto. eapply re_cons; eauto.
    + intros k T1 m3 Hr. apply H5. eapply rr_later; eauto.
    + intros m2 k T1 m3 He Hc. apply (H6 m2); auto. eapply re_cons; eauto.
Qed.
Lemma alone_steps c m s m1 : csteps (start c) m s m1 -> alone c m s m1.
Proof. remember (start c) as s0 eqn:E. induction 1; subst; [apply alone_start|eapply alone_step; eauto]. Qed.
Lemma alone_team c m k T r c' m1 : csteps (start c) m (Conf (Some (k, T)) r c') m1 -> call_reach c m k T m1.
Proof.
  intros H. apply alone_steps in H. destruct H as (ph & chunks & m0 & H1 & -> & H3 & H4 & H5 & H6). apply H5. eapply rr_here; eauto.
Qed.
Lemma alone_done c m m1 : csteps (start c) m (Conf None [] []) m1 -> call_exec c m m1.
Proof. intros H. apply alone_steps in H. destruct H as (H & _). apply (H m1); constructor. Qed.
Lemma todo_in c m s m1 : csteps (start c) m s m1 -> forall a, In a (todo s) -> In a c.
Proof.
  remember (start c) as s0 eqn:E. induction 1 as [|c0 m c1 m1 c2 m2 H IH Hs]; subst; intros a Ha; [exact Ha|]. specialize (IH eq_refl).
  destruct Hs; cbn [todo] in *; auto; apply IH; right; auto.
Qed.

(** ** steps depend only on the accessed locations *)
Definition agree (A : loc -> Prop) (m m' : mem) : Prop := forall l, A l -> m l = m' l.
Lemma astep_agree A p m p' m' ms : astep p m p' m' -> agree A m ms -> (forall l w, next_access p = Some (l, w) -> A l) ->
  exists ms', astep p ms p' ms' /\ agree A m' ms'.
Proof.
  intros H Ha Hn. destruct H as [l k m v Hv|l v k m Hv].
  - exists ms. split; auto. constructor. rewrite <- Ha; auto. apply (Hn l false). reflexivity.
  - exists (upd ms l v). split.
    + constructor. rewrite <- Ha; auto. apply (Hn l true). reflexivity.
    + intros l' Hl. unfold upd. destruct (loc_eqb l' l); auto.
Qed.
Lemma cstep_agree (A : loc -> Prop) s m s' m' ms : cstep s m s' m' -> agree A m ms -> (forall l w, about_to s l w -> A l) ->
  exists ms', cstep s ms s' ms' /\ agree A m' ms'.
Proof.
  intros H Ha Hn. destruct H as [b n c m|r c m|ph r c m chunks Hsc|k T T' r c m m' Hp|k T r c m Hf].
  - exists (malloc ms b n). split; [constructor|]. intros l Hl. unfold malloc. destruct (fst l =? b); auto.
  - exists ms. split; auto. constructor.
  - exists ms. split; auto. constructor. auto.
  - inversion Hp as [T0 m0 i p' m1 Hi Hst E1 E2]; subst. destruct (astep_agree A _ _ _ _ ms Hst Ha) as (ms' & H1 & H2).
    { intros l w Hl. apply (Hn l w). left. exists k, T, i. auto. }
    exists ms'. split; auto. constructor. constructor; auto.
  - exists ms. split; auto. constructor. auto.
Qed.
Lemma cstep_writes s m s' m' : cstep s m s' m' -> forall l, m' l = m l \/ about_to s l true.
Proof.
  intros H l. destruct H as [b n c m|r c m|ph r c m chunks Hsc|k T T' r c m m' Hp|k T r c m Hf]; auto.
  - destruct (Nat.eq_dec (fst l) b) as [E|E]; [right; right; exists b, n, c; auto|left]. unfold malloc. apply Nat.eqb_neq in E. rewrite E. auto.
  - inversion Hp as [T0 m0 i p' m1 Hi Hst E1 E2]; subst. inversion Hst as [l0 k0 m0 v Hv E|l0 v k0 m0 Hv E]; subst; auto.
    unfold upd. destruct (loc_eqb l l0) eqn:El; auto. right. left. exists k, T, i. repeat split; auto. rewrite <- E. cbn.
    f_equal. f_equal. symmetry. apply andb_prop in El as [E1 E2]. apply Nat.eqb_eq in E1, E2. destruct l, l0; cbn in *; congruence.
Qed.

(** ** termination *)
Definition csub (s' s : conf) : Prop :=
  (exists a, todo s = a :: todo s') \/
  (todo s' = todo s /\ ((exists ph, phs s = ph :: phs s') \/
    (phs s' = phs s /\ match cur s, cur s' with
                       | Some (k, T), Some (k', T') => k' = k /\ tstep k T' T
                       | Some _, None => True
                       | _, _ => False
                       end))).
Lemma csub_wf : forall s, Acc csub s.
Proof.
  intros [cu ph td]. revert cu ph. induction td as [|a td IHt]; intros cu ph.
  all: revert cu; induction ph as [|p ph IHp]; intros cu.
  all: assert (H0 : forall q, Acc csub (Conf None q (match cu with _ => nil end)) -> True) by auto; clear H0.
  all: match goal with |- Acc csub (Conf ?cu ?ph ?td) =>
         assert (HN : Acc csub (Conf None ph td));
         [constructor; intros [cu' ph' td'] [(a' & E)|(E & [(p' & E2)|(E2 & E3)])]; cbn [cur phs todo] in *; try discriminate; try contradiction; try (injection E as -> ->); try (injection E2 as -> ->); subst; auto|];
         destruct cu as [[k T]|]; [|exact HN]; induction (tstep_wf k T) as [T _ IHT];
         constructor; intros [cu' ph' td'] [(a' & E)|(E & [(p' & E2)|(E2 & E3)])]; cbn [cur phs todo] in *; try discriminate; try (injection E as -> ->); try (injection E2 as -> ->); subst; auto;
         destruct cu' as [[k' T']|]; [destruct E3 as [-> E3]; apply IHT; exact E3|exact HN]
       end.
Qed.
Lemma cstep_csub s m s' m' : cstep s m s' m' -> csub s' s.
Proof.
  intros H. destruct H as [b n c m|r c m|ph r c m chunks Hsc|k T T' r c m m' Hp|k T r c m Hf]; unfold csub; cbn [cur phs todo].
  - left. eauto.
  - left. eauto.
  - right. split; auto. left. eauto.
  - right. split; auto. right. split; auto. split; auto. inversion Hp as [T0 m0 i p' m1 Hi Hst E1 E2]; subst.
    exists i. split; auto. split.
    + unfold setth. rewrite Nat.eqb_refl. inversion Hst; subst; [left|right]; eauto.
    + intros j Hj. unfold setth. destruct (Nat.eqb_spec j i); congruence.
  - right. split; auto.
Qed.
Lemma gsub_wf n : forall C, Acc (fun C' C => exists t, t < n /\ csub (C' t) (C t) /\ forall u, u <> t -> C' u = C u) C.
Proof.
  induction n as [|n IH]; intros C; [constructor; intros C' (i & Hi & _); lia|].
  remember (C n) as p eqn:Ep. revert C Ep. induction (csub_wf p) as [p _ IHp]; intros C Ep. induction (IH C) as [C _ IHT].
  constructor. intros C' (i & Hi & Hs & Ho). destruct (Nat.eq_dec i n) as [->|Hne].
  - apply (IHp (C' n)); [rewrite Ep; auto|reflexivity].
  - apply IHT; [exists i; split; [lia|]; auto|]. rewrite Ho by auto. exact Ep.
Qed.
Lemma gstep_acc n s : Acc (fun s' s => gstep n s s') s.
Proof.
  destruct s as [C m]. revert m. induction (gsub_wf n C) as [C _ IH]. intros m. constructor. intros s' Hs. inversion Hs as [C1 m1 t c' m' Ht Hc E1 E2]; subst.
  apply IH. exists t. split; auto. split.
  - unfold setc. rewrite Nat.eqb_refl. eapply cstep_csub; eauto.
  - intros u Hu. unfold setc. destruct (Nat.eqb_spec u t); congruence.
Qed.

(** ** the theorem *)
Section Threads.
Variables (n : nat) (c : nat -> list act) (A W : nat -> loc -> Prop) (m : mem) (m' : nat -> mem).
Hypothesis HO : forall t, t < n -> Outcome (c t) m (m' t).
Hypothesis HA : forall t, t < n -> accesses_only (c t) m (A t).
Hypothesis HW : forall t, t < n -> writes_only (c t) m (W t).
Hypothesis HN : forall t, t < n -> allocates_only (c t) (W t).
Hypothesis HWA : forall t l, t < n -> W t l -> A t l.
Hypothesis HD : forall t u l, t < n -> u < n -> t <> u -> W t l -> A u l -> False.

Lemma about_A t s ms : t < n -> csteps (start (c t)) m s ms -> forall l w, about_to s l w -> A t l.
Proof.
  intros Ht Hs l w [(k & T & i & E & Hi & Hn)|(b & q & rest & E1 & E2 & E3 & E4 & E5)]; destruct s as [cu ph td]; cbn [cur phs todo] in *; subst.
  - apply (HA t Ht k T ms (alone_team _ _ _ _ _ _ _ Hs) i l w Hi Hn).
  - apply HWA; auto. destruct l as [b i]. apply (HN t Ht b q). apply (todo_in _ _ _ _ Hs). left. reflexivity.
Qed.
Lemma about_W t s ms : t < n -> csteps (start (c t)) m s ms -> forall l, about_to s l true -> W t l.
Proof.
  intros Ht Hs l [(k & T & i & E & Hi & Hn)|(b & q & rest & E1 & E2 & E3 & E4 & E5)]; destruct s as [cu ph td]; cbn [cur phs todo] in *; subst.
  - apply (HW t Ht k T ms (alone_team _ _ _ _ _ _ _ Hs) i l Hi Hn).
  - destruct l as [b i]. apply (HN t Ht b q). apply (todo_in _ _ _ _ Hs). left. reflexivity.
Qed.
Lemma conc_inv C m1 : gsteps n (fun t => start (c t), m) (C, m1) ->
  (forall t, t < n -> exists ms, csteps (start (c t)) m (C t) ms /\ agree (A t) m1 ms) /\
  (forall l, (forall t, t < n -> ~ W t l) -> m1 l = m l).
Proof.
  intros H. remember (C, m1) as s eqn:E. assert (G : (forall t, t < n -> exists ms, csteps (start (c t)) m (fst s t) ms /\ agree (A t) (snd s) ms) /\ (forall l, (forall t, t < n -> ~ W t l) -> snd s l = m l)).
  2:{ subst s. exact G. }
  clear C m1 E. remember (fun t => start (c t), m) as s0 eqn:E0. induction H as [s|s s1 s2 H IH Hst]; subst.
  - cbn [fst snd]. split; auto. intros t Ht. exists m. split; [constructor|]. intros l _. reflexivity.
  - specialize (IH eq_refl). destruct IH as [I1 I2]. destruct Hst as [C m1 t c' m2 Ht Hc]. cbn [fst snd] in *.
    destruct (I1 t Ht) as (ms & Hs & Ha). destruct (cstep_agree (A t) _ _ _ _ ms Hc Ha (about_A t _ _ Ht Hs)) as (ms' & Hc' & Ha'). split.
    + intros u Hu. unfold setc. destruct (Nat.eqb_spec u t) as [->|Hne]; [exists ms'; split; auto; eapply cs_step; eauto|].
      destruct (I1 u Hu) as (mu & Hsu & Hau). exists mu. split; auto. intros l Hl. rewrite <- Hau by auto.
      destruct (cstep_writes _ _ _ _ Hc l) as [E|Hab]; auto. exfalso. apply (HD t u l); auto. eapply about_W; eauto.
    + intros l Hl. rewrite <- I2 by auto. destruct (cstep_writes _ _ _ _ Hc l) as [E|Hab]; auto. exfalso. apply (Hl t Ht). eapply about_W; eauto.
Qed.

Theorem concurrent C m1 : gsteps n (fun t => start (c t), m) (C, m1) ->
  (forall t, t < n -> ~ undefined (C t) m1) /\
  (forall t, t < n -> ~ races_inside (C t)) /\
  (forall t u, t < n -> u < n -> t <> u -> ~ race_between (C t) (C u)) /\
  ((forall t, t < n -> done (C t)) \/ exists s', gstep n (C, m1) s') /\
  Acc (fun s' s => gstep n s s') (C, m1) /\
  (forall t, t < n -> done (C t) -> forall l, A t l -> m1 l = m' t l) /\
  (forall l, (forall t, t < n -> ~ W t l) -> m1 l = m l).
Proof.
  intros H. destruct (conc_inv C m1 H) as [I1 I2]. split; [|split; [|split; [|split; [|split; [|split]]]]]; auto.
  - intros t Ht (k & T & i & E & Hi & Hb). destruct (I1 t Ht) as (ms & Hs & Ha). pose proof (about_A t _ _ Ht Hs) as HA'.
    destruct (C t) as [cu ph td]. cbn [cur] in E. subst cu. pose proof (alone_team _ _ _ _ _ _ _ Hs) as Hr.
    apply (oc_defined _ _ _ (HO t Ht) _ _ _ Hr i Hi). assert (HL : forall l w, next_access (T i) = Some (l, w) -> m1 l = ms l).
    { intros l w Hl. apply Ha. apply (HA' l w). left. exists k, T, i. auto. }
    destruct (T i) as [?| |l q|l v q|? ? ?]; cbn in *; auto; [intros v; rewrite <- (HL l false); auto|rewrite <- (HL l true); auto].
  - intros t Ht (k & T & i & j & E & Hi & Hj & Hij & Hr). destruct (I1 t Ht) as (ms & Hs & _). destruct (C t) as [cu ph td]. cbn [cur] in E. subst cu.
    exact (oc_race_free _ _ _ (HO t Ht) _ _ _ (alone_team _ _ _ _ _ _ _ Hs) i j Hi Hj Hij Hr).
  - intros t u Ht Hu Htu (l & v & w & H1 & H2 & H3). destruct (I1 t Ht) as (mt & Hst & _). destruct (I1 u Hu) as (mu & Hsu & _).
    apply orb_prop in H3 as [-> | ->].
    + apply (HD t u l); auto; [eapply about_W; eauto|eapply about_A; eauto].
    + apply (HD u t l); auto; [eapply about_W; eauto|eapply about_A; eauto].
  - assert (D : forall s : conf, {done s} + {~ done s}).
    { intros [[?|] [|? ?] [|? ?]]; unfold done; (left; reflexivity) || (right; congruence). }
    assert (G : forall q, q <= n -> (forall t, t < q -> done (C t)) \/ exists t, t < q /\ ~ done (C t)).
    { induction q as [|q IH]; intros Hq; [left; lia|]. destruct (IH ltac:(lia)) as [Hall|(t & Ht & Hnd)]; [|right; exists t; split; auto; lia].
      destruct (D (C q)) as [Hd|Hd]; [left|right; exists q; split; auto]. intros t Ht. destruct (Nat.eq_dec t q) as [->|]; auto. apply Hall. lia. }
    destruct (G n ltac:(lia)) as [Hall|(t & Ht & Hnd)]; [left; auto|right].
    assert (S : exists c' m2, cstep (C t) m1 c' m2).
    { destruct (I1 t Ht) as (ms & Hs & Ha). pose proof (about_A t _ _ Ht Hs) as HA'. destruct (C t) as [[[k T]|] ph td].
      - pose proof (alone_team _ _ _ _ _ _ _ Hs) as Hr. destruct (oc_progress _ _ _ (HO t Ht) _ _ _ Hr) as [Hf|[s' Hp]]; [eexists; eexists; apply c_join; auto|].
        inversion Hp as [T0 m0 i p' m2 Hi Hst E1 E2]; subst.
        destruct (astep_agree (A t) _ _ _ _ m1 Hst (fun l Hl => eq_sym (Ha l Hl))) as (m3 & H3 & _).
        { intros l w Hl. apply (HA' l w). left. exists k, T, i. auto. }
        eexists; eexists. eapply c_team. constructor; eauto.
      - destruct ph as [|p ph]; [destruct td as [|[b q|r] td]|].
        + exfalso. apply Hnd. reflexivity.
        + eexists; eexists; apply c_new.
        + eexists; eexists; apply c_par.
        + eexists; eexists. apply (c_fork p ph td m1 [seq 0 (fst p)]). unfold schedule. cbn [concat]. rewrite app_nil_r. apply Permutation.Permutation_refl. }
    destruct S as (c' & m2 & Hst). eexists. constructor; eauto.
  - apply gstep_acc.
  - intros t Ht Hd l Hl. destruct (I1 t Ht) as (ms & Hs & Ha). rewrite (Ha l Hl). unfold done in Hd. rewrite Hd in Hs.
    apply (oc_unique _ _ _ (HO t Ht)). apply alone_done. exact Hs.
Qed.
(** the threads can all complete *)
Theorem concurrent_completes : exists C m1, gsteps n (fun t => start (c t), m) (C, m1) /\ forall t, t < n -> done (C t).
Proof.
  assert (G : forall s, Acc (fun s' s => gstep n s s') s -> gsteps n (fun t => start (c t), m) s -> exists C m1, gsteps n (fun t => start (c t), m) (C, m1) /\ forall t, t < n -> done (C t)).
  { induction 1 as [s _ IH]. intros Hs. destruct s as [C m1]. destruct (concurrent C m1 Hs) as (_ & _ & _ & [Hd|[s' Hst]] & _); [exists C, m1; auto|].
    apply (IH s' Hst). eapply gs_step; eauto. }
  apply (G (fun t => start (c t), m) (gstep_acc n _)). constructor.
Qed.
End Threads.
End Conc.
