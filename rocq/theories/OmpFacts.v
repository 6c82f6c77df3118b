(** * Race freedom and schedule independence from disjoint footprints *)

From Coq Require Import List Arith Bool Lia Permutation.
From Verif Require Import Mem MemFacts Omp.
Import ListNotations.

Section OmpFacts.
Context {V : Type}.
Notation mem := (mem V).
Notation prog := (prog V).

(** [dfp R W m p]: the sequential run of [p] from [m] is free of undefined behaviour and of allocations, stores only to [W] and
    loads only from [R] or [W]. *)
Fixpoint dfp {A} (R W : loc -> Prop) (m : mem) (p : prog A) : Prop :=
  match p with
  | Ret _ => True
  | UB => False
  | Load l k => (R l \/ W l) /\ exists v, m l = Val v /\ dfp R W m (k v)
  | Store l v k => W l /\ m l <> Free /\ dfp R W (upd m l v) k
  | Alloc _ _ _ => False
  end.

Lemma fp_dfp {A} (p : prog A) : forall (R0 R W : loc -> Prop) m,
  fp R0 W p -> (forall l, R0 l -> R l \/ W l) -> initd m R0 -> allocd m W -> dfp R W m p.
Proof.
  induction p as [a| |l k IH|l v k IH|b n k IH]; cbn; intros R0 R W m Hfp Hs Hi Ha; auto.
  - destruct Hfp as [Hl Hk]. split; auto. destruct (Hi l Hl) as [v Hv]. exists v. split; eauto.
  - destruct Hfp as [Hl Hk]. split; [auto|]. split; [apply Ha; auto|].
    eapply IH; [exact Hk| | |].
    + intros l' [->|H]; auto.
    + intros l' [->|H]; [exists v; apply upd_same|].
      destruct (loc_eq_dec l' l) as [->|Hne]; [exists v; apply upd_same|].
      rewrite upd_other by auto. auto.
    + intros l' H. destruct (loc_eq_dec l' l) as [->|Hne]; [rewrite upd_same; discriminate|].
      rewrite upd_other by auto. auto.
Qed.

Lemma dfp_mono {A} (p : prog A) : forall (R W R' W' : loc -> Prop) m,
  (forall l, R l -> R' l \/ W' l) -> (forall l, W l -> W' l) -> dfp R W m p -> dfp R' W' m p.
Proof.
  induction p as [a| |l k IH|l v k IH|b n k IH]; cbn; intros R W R' W' m HR HW H; auto.
  - destruct H as [H1 (v & Hv & H2)]. split.
    + destruct H1 as [H1|H1]; auto.
    + exists v. split; auto. eapply IH; eauto.
  - destruct H as (H1 & H2 & H3). split; auto. split; auto. eapply IH; eauto.
Qed.

Lemma dfp_run {A} (p : prog A) : forall (R W : loc -> Prop) m, dfp R W m p ->
  exists a m', run p m = Some (a, m') /\ (forall l, ~ W l -> m' l = m l) /\
    (forall l, m' l = m l \/ exists v, m' l = Val v).
Proof.
  induction p as [a| |l k IH|l v k IH|b n k IH]; cbn; intros R W m H; try contradiction.
  - exists a, m. auto.
  - destruct H as [H1 (v & Hv & H2)]. rewrite Hv. eapply IH; eauto.
  - destruct H as (H1 & H2 & H3). destruct (IH _ _ _ H3) as (a & m' & Hr & Hf & Hv).
    exists a, m'. split; [destruct (m l); congruence|]. split.
    + intros l' Hl'. rewrite Hf by auto. apply upd_other. intros ->; auto.
    + intros l'. destruct (Hv l') as [E|E]; auto. rewrite E. unfold upd. destruct (loc_eqb l' l); eauto.
Qed.

Lemma dfp_bind {A B} (p : prog A) (f : A -> prog B) : forall (R W : loc -> Prop) m,
  dfp R W m p -> (forall a m', run p m = Some (a, m') -> dfp R W m' (f a)) -> dfp R W m (bind p f).
Proof.
  induction p as [a| |l k IH|l v k IH|b n k IH]; cbn; intros R W m H Hf; auto.
  - destruct H as [H1 (v & Hv & H2)]. split; auto. exists v. split; auto. apply IH; auto.
    intros a m' Hr. apply Hf. rewrite Hv. auto.
  - destruct H as (H1 & H2 & H3). split; auto. split; auto. apply IH; auto.
    intros a m' Hr. apply Hf. destruct (m l); congruence.
Qed.

(** the run depends only on the footprint *)
Lemma dfp_agree {A} (p : prog A) : forall (R W : loc -> Prop) m m2,
  dfp R W m p -> (forall l, R l \/ W l -> m2 l = m l) ->
  dfp R W m2 p /\ exists a m' m2', run p m = Some (a, m') /\ run p m2 = Some (a, m2') /\
     (forall l, m2 l = m l -> m2' l = m' l) /\ (forall l, ~ W l -> m2' l = m2 l /\ m' l = m l).
Proof.
  induction p as [a| |l k IH|l v k IH|b n k IH]; cbn; intros R W m m2 H E; try contradiction.
  - split; auto. exists a, m, m2. auto.
  - destruct H as [H1 (v & Hv & H2)]. destruct (IH v R W m m2 H2 E) as (D & a & m' & m2' & Hr & Hr2 & Hag & Hf).
    rewrite (E l H1), Hv. split; eauto. exists a, m', m2'. auto.
  - destruct H as (H1 & H2 & H3).
    destruct (IH R W (upd m l v) (upd m2 l v) H3) as (D & a & m' & m2' & Hr & Hr2 & Hag & Hf).
    { intros l' Hl'. unfold upd. destruct (loc_eqb l' l); auto. }
    assert (H2' : m2 l <> Free) by (rewrite E; auto).
    split; [auto|]. exists a, m', m2'.
    split; [destruct (m l); congruence|]. split; [destruct (m2 l); congruence|]. split.
    + intros l' Hl'. apply Hag. unfold upd. destruct (loc_eqb l' l); auto.
    + intros l' Hl'. destruct (Hf l' Hl') as [F1 F2]. rewrite F1, F2.
      split; apply upd_other; intros ->; auto.
Qed.

(** stores performed by a sequential run, in order *)
Fixpoint trace {A} (p : prog A) (m : mem) : list (loc * V) :=
  match p with
  | Ret _ | UB => []
  | Load l k => match m l with Val v => trace (k v) m | _ => [] end
  | Store l v k => (l, v) :: trace k (upd m l v)
  | Alloc _ _ _ => []
  end.

Definition applyt (m : mem) (tr : list (loc * V)) : mem :=
  fold_left (fun m lv => upd m (fst lv) (snd lv)) tr m.

Lemma trace_W {A} (p : prog A) : forall R W m l v, dfp R W m p -> In (l, v) (trace p m) -> W l.
Proof.
  induction p as [a| |l0 k IH|l0 v0 k IH|b n k IH]; cbn; intros R W m l v Hfp Hin; try contradiction.
  - destruct Hfp as [Hl (v0 & Hv & Hk)]. rewrite Hv in Hin. eapply IH; eauto.
  - destruct Hfp as (Hl & Hal & Hk). destruct Hin as [E|Hin]; [injection E as -> ->; auto|]. eapply IH; eauto.
Qed.

Lemma trace_agree {A} (p : prog A) : forall R W m1 m2, dfp R W m1 p -> (forall l, R l \/ W l -> m2 l = m1 l) ->
  trace p m2 = trace p m1.
Proof.
  induction p as [a| |l0 k IH|l0 v0 k IH|b n k IH]; cbn; intros R W m1 m2 Hfp Hag; try reflexivity.
  - destruct Hfp as [Hl (v & Hv & Hk)]. rewrite (Hag l0 Hl), Hv. eapply IH; eauto.
  - destruct Hfp as (Hl & Hal & Hk). f_equal. eapply IH; [exact Hk|].
    intros l' H. unfold upd. destruct (loc_eqb l' l0); auto.
Qed.

Lemma applyt_app m t1 t2 : applyt m (t1 ++ t2) = applyt (applyt m t1) t2.
Proof. unfold applyt. apply fold_left_app. Qed.

Section Phase.
Variables (n : nat) (T : nat -> prog unit) (R W : nat -> loc -> Prop) (m0 : mem).
Hypothesis Hfp : forall i, i < n -> dfp (R i) (W i) m0 (T i).
Hypothesis Hc : forall i j, i < n -> j < n -> i <> j -> nonconf (R i) (W i) (R j) (W j).

Record Inv (T' : threads) (m' : mem) (dn : nat -> list (loc * V)) : Prop := {
  inv_tr : forall i, i < n -> trace (T i) m0 = dn i ++ trace (T' i) m';
  inv_un : forall l, (forall i, i < n -> ~ In l (map fst (dn i))) -> m' l = m0 l;
  inv_wr : forall i l, i < n -> In l (map fst (dn i)) -> m' l = applyt m0 (dn i) l;
  inv_fp : forall i, i < n -> dfp (R i) (W i) m' (T' i)
}.

Lemma inv_init : Inv T m0 (fun _ => []).
Proof.
  constructor; auto; intros i l _ [].
Qed.

Lemma dn_W T' m' dn i l : Inv T' m' dn -> i < n -> In l (map fst (dn i)) -> W i l.
Proof.
  intros HI Hin Hl. apply in_map_iff in Hl as ([l' v] & <- & Hv).
  eapply (trace_W (T i) (R i) (W i) m0); [auto|].
  rewrite (inv_tr _ _ _ HI i Hin). apply in_or_app. left. exact Hv.
Qed.

Lemma inv_step T' m' dn i p' m'' : Inv T' m' dn -> i < n -> astep (T' i) m' p' m'' ->
  exists dn', Inv (setth T' i p') m'' dn'.
Proof.
  intros HI Hin Hs.
  pose proof (inv_fp _ _ _ HI i Hin) as Hf.
  remember (T' i) as q eqn:Eq. destruct Hs as [l k m v Hv|l v k m Hv].
  - exists dn. cbn in Hf. destruct Hf as [Hl (v' & Hv' & Hk)]. assert (v' = v) by congruence. subst v'. constructor.
    + intros j Hj. unfold setth. destruct (Nat.eqb_spec j i) as [->|Hne].
      * rewrite (inv_tr _ _ _ HI i Hin), <- Eq. cbn. rewrite Hv. reflexivity.
      * apply (inv_tr _ _ _ HI); auto.
    + apply (inv_un _ _ _ HI).
    + apply (inv_wr _ _ _ HI).
    + intros j Hj. unfold setth. destruct (Nat.eqb_spec j i) as [->|Hne]; auto.
      apply (inv_fp _ _ _ HI); auto.
  - exists (fun j => if j =? i then dn i ++ [(l, v)] else dn j).
    cbn in Hf. destruct Hf as (Hl & _ & Hk).
    assert (Hother : forall j, j < n -> j <> i -> ~ (R j l \/ W j l)).
    { intros j Hj Hne. destruct (Hc i j Hin Hj (not_eq_sym Hne) l) as [H _]. destruct (H Hl). tauto. }
    constructor.
    + intros j Hj. unfold setth. destruct (Nat.eqb_spec j i) as [->|Hne].
      * rewrite (inv_tr _ _ _ HI i Hin), <- Eq. cbn. rewrite <- app_assoc. reflexivity.
      * rewrite (inv_tr _ _ _ HI j Hj). f_equal.
        symmetry. eapply trace_agree; [apply (inv_fp _ _ _ HI j Hj)|].
        intros l' Hl'. apply upd_other. intros ->. apply (Hother j Hj Hne Hl').
    + intros l' Hl'. rewrite upd_other.
      * apply (inv_un _ _ _ HI). intros j Hj Hin'. apply (Hl' j Hj).
        destruct (Nat.eqb_spec j i) as [->|]; auto. rewrite map_app, in_app_iff. auto.
      * intros ->. apply (Hl' i Hin). rewrite Nat.eqb_refl, map_app, in_app_iff. right; left; auto.
    + intros j l' Hj Hl'. destruct (Nat.eqb_spec j i) as [->|Hne].
      * rewrite applyt_app. change (upd m l v l' = upd (applyt m0 (dn i)) l v l').
        destruct (loc_eq_dec l' l) as [->|Hnl]; [rewrite !upd_same; auto|].
        rewrite !upd_other by auto. apply (inv_wr _ _ _ HI i l' Hin).
        rewrite map_app, in_app_iff in Hl'. destruct Hl' as [H|[H|[]]]; auto. cbn in H; congruence.
      * rewrite upd_other; [apply (inv_wr _ _ _ HI); auto|]. intros ->.
        apply (Hother j Hj Hne). right. eapply dn_W; eauto.
    + intros j Hj. unfold setth. destruct (Nat.eqb_spec j i) as [->|Hne]; auto.
      eapply dfp_agree; [apply (inv_fp _ _ _ HI j Hj)|].
      intros l' Hl'. apply upd_other. intros ->. apply (Hother j Hj Hne Hl').
Qed.

Lemma inv_reach s : psteps n (T, m0) s -> exists dn, Inv (fst s) (snd s) dn.
Proof.
  intros H. remember (T, m0) as s0 eqn:E0.
  induction H as [s|s s1 s2 H IH Hs]; subst; [exists (fun _ => []); apply inv_init|].
  destruct IH as [dn HI]; auto.
  inversion Hs as [T1 m1 i p' m' Hin Has]; subst. cbn in *. eapply inv_step; eauto.
Qed.

Lemma inv_not_bad T' m' dn i : Inv T' m' dn -> i < n -> ~ bad (T' i) m'.
Proof.
  intros HI Hin. pose proof (inv_fp _ _ _ HI i Hin) as Hf.
  destruct (T' i); cbn in *; try tauto.
  destruct Hf as [Hl (v & Hv & _)]. intros H. apply (H v Hv).
Qed.

Lemma inv_not_racing T' m' dn i j : Inv T' m' dn -> i < n -> j < n -> i <> j -> ~ racing (T' i) (T' j).
Proof.
  intros HI Hin Hjn Hne (l & b1 & b2 & H1 & H2 & Hb).
  pose proof (inv_fp _ _ _ HI i Hin) as Hfi.
  pose proof (inv_fp _ _ _ HI j Hjn) as Hfj.
  destruct (Hc i j Hin Hjn Hne l) as [Hw1 Hw2].
  destruct (T' i); cbn in *; try discriminate; injection H1 as -> <-;
  destruct (T' j); cbn in *; try discriminate; injection H2 as -> <-; try discriminate; tauto.
Qed.

Lemma inv_progress T' m' dn : Inv T' m' dn -> finished n T' \/ exists s', pstep n (T', m') s'.
Proof.
  intros HI.
  assert (H : forall k, k <= n -> (forall i, i < k -> T' i = Ret tt) \/ exists s', pstep n (T', m') s').
  { induction k as [|k IHk]; intros Hk; [left; intros; lia|].
    destruct IHk as [IHk|IHk]; [lia| |right; auto].
    pose proof (inv_not_bad _ _ _ k HI Hk) as Hnb.
    destruct (T' k) as [[]| |l kk|l v kk|b nn kk] eqn:E; cbn in Hnb; try tauto.
    - left. intros i Hik. destruct (Nat.eq_dec i k) as [->|]; auto. apply IHk; lia.
    - right. destruct (m' l) as [| |v] eqn:El.
      + exfalso. apply Hnb. intros v; congruence.
      + exfalso. apply Hnb. intros v; congruence.
      + exists (setth T' k (kk v), m'). constructor; [lia|]. rewrite E. constructor; auto.
    - right. exists (setth T' k kk, upd m' l v). constructor; [lia|]. rewrite E. constructor; auto. }
  apply (H n (le_n n)).
Qed.

Lemma final_unique T1 m1 dn1 T2 m2 dn2 :
  Inv T1 m1 dn1 -> Inv T2 m2 dn2 -> finished n T1 -> finished n T2 -> forall l, m1 l = m2 l.
Proof.
  intros H1 H2 F1 F2 l.
  assert (E : forall i, i < n -> dn1 i = dn2 i).
  { intros i Hin. pose proof (inv_tr _ _ _ H1 i Hin) as A1. pose proof (inv_tr _ _ _ H2 i Hin) as A2.
    rewrite F1, app_nil_r in A1 by auto. rewrite F2, app_nil_r in A2 by auto. congruence. }
  assert (D : forall k, k <= n -> (exists i, i < k /\ In l (map fst (dn1 i))) \/ (forall i, i < k -> ~ In l (map fst (dn1 i)))).
  { induction k as [|k IHk]; intros Hk; [right; intros; lia|].
    destruct IHk as [(i & Hik & Hl)|IHk]; [lia|left; exists i; auto|].
    destruct (in_dec loc_eq_dec l (map fst (dn1 k))) as [Hl|Hl]; [left; exists k; auto|].
    right. intros i Hik. destruct (Nat.eq_dec i k) as [->|]; auto. apply IHk; lia. }
  destruct (D n (le_n n)) as [(i & Hin & Hl)|Hno].
  - rewrite (inv_wr _ _ _ H1 i l Hin Hl). rewrite (E i Hin) in *. rewrite (inv_wr _ _ _ H2 i l Hin Hl). reflexivity.
  - rewrite (inv_un _ _ _ H1 l Hno). rewrite (inv_un _ _ _ H2 l); auto.
    intros i Hin. rewrite <- E by auto. auto.
Qed.

End Phase.

(** the sequential execution is one of the interleavings *)
Lemma psteps_trans n (s1 s2 s3 : threads * mem) : psteps n s1 s2 -> psteps n s2 s3 -> psteps n s1 s3.
Proof. intros H1 H2. induction H2 as [s|s s' s'' H2 IH Hs]; auto. eapply ps_step; [apply IH; auto|exact Hs]. Qed.

Inductive asteps : prog unit -> mem -> prog unit -> mem -> Prop :=
| as_refl p m : asteps p m p m
| as_step p m p' m' p'' m'' : astep p m p' m' -> asteps p' m' p'' m'' -> asteps p m p'' m''.

Lemma run_asteps (p : prog unit) : forall m m' (R W : loc -> Prop), dfp R W m p -> run p m = Some (tt, m') -> asteps p m (Ret tt) m'.
Proof.
  induction p as [[]| |l k IH|l v k IH|b n k IH]; cbn; intros m m' R W Hf Hr; try contradiction.
  - injection Hr as <-. constructor.
  - destruct Hf as [_ (v & Hv & Hf)]. rewrite Hv in Hr.
    eapply as_step; [constructor; exact Hv|]. eapply IH; eauto.
  - destruct Hf as (_ & Hal & Hf). 
    eapply as_step; [constructor; exact Hal|]. destruct (m l) eqn:E; try discriminate; eapply IH; eauto.
Qed.

Lemma asteps_psteps n (p : prog unit) m p' m' : asteps p m p' m' -> forall T i, i < n -> T i = p ->
  exists T', psteps n (T, m) (T', m') /\ T' i = p' /\ forall j, j <> i -> T' j = T j.
Proof.
  induction 1 as [p m|p m p1 m1 p2 m2 Hs H IH]; intros T i Hin HT.
  - exists T. split; [constructor|]. auto.
  - destruct (IH (setth T i p1) i Hin) as (T' & Hps & HT1 & HT2).
    { unfold setth. rewrite Nat.eqb_refl. auto. }
    exists T'. split; [|split; auto].
    + eapply psteps_trans; [|exact Hps]. econstructor; [constructor|].
      constructor; auto. rewrite HT; auto.
    + intros j Hj. rewrite HT2 by auto. unfold setth. destruct (Nat.eqb_spec j i); congruence.
Qed.

(** termination: every step replaces the program of one thread by an immediate subterm *)
Definition subp (p' p : prog unit) : Prop :=
  (exists l k v, p = Load l k /\ p' = k v) \/ (exists l v, p = Store l v p').

Lemma subp_wf (p : prog unit) : Acc subp p.
Proof.
  induction p as [a| |l k IH|l v k IH|b n k IH]; constructor; intros p' [(l' & k' & v' & E & ->)|(l' & v' & E)];
    try discriminate.
  - injection E as -> ->. auto.
  - injection E as -> -> ->. auto.
Qed.

Definition tstep (n : nat) (T' T : threads) : Prop :=
  exists i, i < n /\ subp (T' i) (T i) /\ forall j, j <> i -> T' j = T j.

Lemma tstep_wf n : forall T, Acc (tstep n) T.
Proof.
  induction n as [|n IH]; intros T; [constructor; intros T' (i & Hi & _); lia|].
  remember (T n) as p eqn:Ep. revert T Ep.
  induction (subp_wf p) as [p _ IHp]; intros T Ep.
  induction (IH T) as [T _ IHT].
  constructor. intros T' (i & Hi & Hs & Ho).
  destruct (Nat.eq_dec i n) as [->|Hne].
  - apply (IHp (T' n)); [rewrite Ep; auto|reflexivity].
  - apply IHT.
    + exists i. split; [lia|]. auto.
    + rewrite Ho by auto. exact Ep.
Qed.

Lemma pstep_acc n (s : threads * mem) : Acc (fun s' s => pstep n s s') s.
Proof.
  destruct s as [T m]. revert m. induction (tstep_wf n T) as [T _ IH]. intros m.
  constructor. intros s' Hs. inversion Hs as [T1 m1 i p' m' Hin Ha]; subst.
  apply IH. exists i. split; auto. split.
  - unfold setth. rewrite Nat.eqb_refl. inversion Ha; subst; [left|right]; eauto.
  - intros j Hj. unfold setth. destruct (Nat.eqb_spec j i); congruence.
Qed.

(** ** Schedules: threads executing chunks of iterations *)

Definition chunkR (R : nat -> loc -> Prop) (is : list nat) (l : loc) := exists i, In i is /\ R i l.

(** independent iterations executed one after the other, in any order *)
Lemma chunk_spec (body : nat -> prog unit) (R W : nat -> loc -> Prop) is : forall m,
  NoDup is ->
  (forall i, In i is -> dfp (R i) (W i) m (body i)) ->
  (forall i j, In i is -> In j is -> i <> j -> nonconf (R i) (W i) (R j) (W j)) ->
  dfp (chunkR R is) (chunkR W is) m (chunk_prog body is) /\
  exists m', run (chunk_prog body is) m = Some (tt, m') /\
    (forall l, (forall i, In i is -> ~ W i l) -> m' l = m l) /\
    (forall i, In i is -> exists mi, run (body i) m = Some (tt, mi) /\
        forall l, (forall j, In j is -> j <> i -> ~ W j l) -> m' l = mi l).
Proof.
  induction is as [|i is IH]; intros m Hnd Hd Hc.
  - cbn. split; [exact I|]. exists m. repeat split; auto. intros ? [].
  - inversion Hnd as [|? ? Hni Hnd']; subst.
    pose proof (Hd i (or_introl eq_refl)) as Hdi.
    destruct (dfp_run _ _ _ _ Hdi) as ([] & m1 & Hr1 & Hf1 & Hv1).
    assert (Hstep : forall j, In j is -> forall l, R j l \/ W j l -> m1 l = m l).
    { intros j Hj l Hl. apply Hf1. intros Hw.
      destruct (Hc i j) with (l := l) as [H _]; [left|right|intros ->|]; auto.
      destruct (H Hw). tauto. }
    destruct (IH m1 Hnd') as (Hdr & m2 & Hr2 & Hf2 & Hv2).
    + intros j Hj. eapply dfp_agree; [apply Hd; right; auto|apply Hstep; auto].
    + intros a b Ha Hb. apply Hc; right; auto.
    + split.
      * cbn. apply dfp_bind.
        { eapply dfp_mono; [| |exact Hdi]; intros l Hl; [left|]; exists i; split; auto; left; auto. }
        intros [] m' Hm'. rewrite Hr1 in Hm'. injection Hm' as <-.
        eapply dfp_mono; [| |exact Hdr].
        { intros l (j & Hj & Hl). left. exists j. split; auto. right; auto. }
        { intros l (j & Hj & Hl). exists j. split; auto. right; auto. }
      * exists m2. split; [cbn; rewrite run_bind, Hr1; exact Hr2|]. split.
        { intros l Hl. rewrite Hf2 by (intros j Hj; apply Hl; right; auto).
          apply Hf1. apply Hl. left; auto. }
        intros k [<-|Hk].
        { exists m1. split; auto. intros l Hl. apply Hf2. intros j Hj. apply Hl; [right; auto|]. intros ->; auto. }
        assert (Hik : i <> k) by (intros ->; auto).
        destruct (dfp_agree (body k) (R k) (W k) m m1 (Hd k (or_intror Hk)) (Hstep k Hk))
          as (_ & [] & mk & mk1 & Hrk & Hrk1 & Hag & Hfk).
        destruct (Hv2 k Hk) as (mk1' & E & Hl2). rewrite Hrk1 in E. injection E as <-.
        exists mk. split; auto. intros l Hl. rewrite Hl2 by (intros j Hj; apply Hl; right; auto).
        apply Hag. apply Hf1. apply Hl; [left|]; auto.
Qed.

Lemma nth_concat_in {A} (ls : list (list A)) t x : In x (nth t ls []) -> In x (concat ls).
Proof.
  intros H. apply in_concat. destruct (Nat.lt_ge_cases t (length ls)) as [Hlt|Hge].
  - exists (nth t ls []). split; auto. apply nth_In; auto.
  - rewrite nth_overflow in H by auto. contradiction.
Qed.

Lemma NoDup_concat_disj {A} (ls : list (list A)) : NoDup (concat ls) ->
  forall t u x, t <> u -> In x (nth t ls []) -> ~ In x (nth u ls []).
Proof.
  induction ls as [|l ls IH]; intros Hnd t u x Hne Ht Hu.
  - destruct t; contradiction.
  - cbn in Hnd.
    assert (Hd : forall y, In y l -> ~ In y (concat ls)).
    { intros y Hy. clear IH Ht Hu. induction l as [|a l IHl]; [contradiction|]. cbn in Hnd.
      inversion Hnd as [|? ? Hni Hnd']; subst. destruct Hy as [->|Hy]; [|apply IHl; auto].
      rewrite in_app_iff in Hni. tauto. }
    assert (Hnd2 : NoDup (concat ls)).
    { clear Hd IH Ht Hu. induction l as [|a l IHl]; auto. cbn in Hnd. inversion Hnd; auto. }
    destruct t as [|t], u as [|u]; cbn in Ht, Hu; try congruence.
    + apply (Hd x Ht). eapply nth_concat_in; eauto.
    + apply (Hd x Hu). eapply nth_concat_in; eauto.
    + apply (IH Hnd2 t u x); auto.
Qed.

Lemma run_chunk_app (body : nat -> prog unit) l1 l2 m :
  run (chunk_prog body (l1 ++ l2)) m =
  match run (chunk_prog body l1) m with Some (_, m') => run (chunk_prog body l2) m' | None => None end.
Proof.
  revert m. induction l1 as [|i l1 IH]; intros m; cbn; auto.
  rewrite !run_bind. destruct (run (body i) m) as [[[] m1]|]; auto.
Qed.

Lemma run_for_ext n (b1 b2 : nat -> prog unit) : (forall i, i < n -> b1 i = b2 i) -> for_ n b1 = for_ n b2.
Proof. induction n as [|n IH]; intros H; cbn; auto. rewrite IH by auto. rewrite H by auto. reflexivity. Qed.

Lemma run_for_team (body : nat -> prog unit) chunks : forall m,
  run (for_ (length chunks) (fun t => chunk_prog body (nth t chunks []))) m = run (chunk_prog body (concat chunks)) m.
Proof.
  induction chunks as [|c chunks IH] using rev_ind; intros m; auto.
  rewrite app_length, Nat.add_comm. cbn [length Nat.add for_].
  rewrite run_bind. 
  rewrite (run_for_ext _ _ (fun t => chunk_prog body (nth t chunks []))).
  2:{ intros i Hi. rewrite app_nth1 by auto. reflexivity. }
  rewrite IH. rewrite concat_app, run_chunk_app. cbn. rewrite app_nil_r.
  destruct (run (chunk_prog body (concat chunks)) m) as [[[] m1]|]; auto.
  rewrite app_nth2 by lia. rewrite Nat.sub_diag. reflexivity.
Qed.

Lemma run_for_chunk (body : nat -> prog unit) n : forall m,
  run (for_ n body) m = run (chunk_prog body (seq 0 n)) m.
Proof.
  induction n as [|n IH]; intros m; auto. cbn [for_]. rewrite run_bind, IH, seq_S, run_chunk_app.
  destruct (run (chunk_prog body (seq 0 n)) m) as [[[] m1]|]; auto. cbn.
  rewrite run_bind. destruct (run (body n) m1) as [[[] m2]|]; auto.
Qed.


Lemma chunk_for_dfp (body : nat -> prog unit) n : forall (R W : loc -> Prop) m,
  dfp R W m (chunk_prog body (seq 0 n)) -> dfp R W m (for_ n body).
Proof.
  assert (H : forall l1 l2 (R W : loc -> Prop) m, dfp R W m (chunk_prog body (l1 ++ l2)) ->
     dfp R W m (chunk_prog body l1) /\ forall m', run (chunk_prog body l1) m = Some (tt, m') -> dfp R W m' (chunk_prog body l2)).
  { assert (Hb : forall A B (p : prog A) (f : A -> prog B) (R W : loc -> Prop) m, dfp R W m (bind p f) ->
       dfp R W m p /\ forall a m', run p m = Some (a, m') -> dfp R W m' (f a)).
    { intros A B p f. induction p as [a| |l k IH|l v k IH|b nn k IH]; cbn; intros R W m H; try contradiction.
      - split; auto. intros a' m' E. injection E as <- <-. auto.
      - destruct H as [H1 (v & Hv & H2)]. apply IH in H2 as [H2 H3]. split; eauto. rewrite Hv. auto.
      - destruct H as (H1 & H2 & H3). apply IH in H3 as [H3 H4]. split; auto.
        intros a m' E. apply H4. destruct (m l); congruence. }
    induction l1 as [|i l1 IH]; intros l2 R W m H.
    - cbn in *. split; auto. intros m' E. injection E as <-. auto.
    - cbn in H. apply Hb in H as [H1 H2]. split.
      + cbn. apply dfp_bind; auto. intros [] m' Hr. apply (IH l2). apply (H2 tt); auto.
      + intros m' Hr. cbn in Hr. rewrite run_bind in Hr. destruct (run (body i) m) as [[[] m1]|] eqn:E; [|discriminate].
        eapply IH; eauto. }
  induction n as [|n IH]; intros R W m Hd; [exact I|].
  rewrite seq_S in Hd. apply H in Hd as [Hd1 Hd2]. cbn [for_]. apply dfp_bind; auto.
  intros [] m' Hr. rewrite run_for_chunk in Hr. specialize (Hd2 m' Hr). cbn in Hd2.
  assert (Hb : forall A B (p : prog A) (f : A -> prog B) (R W : loc -> Prop) m, dfp R W m (bind p f) -> dfp R W m p).
  { clear. intros A B p f. induction p as [a| |l k IH|l v k IH|b nn k IH]; cbn; intros R W m H; try contradiction; auto.
    - destruct H as [H1 (v & Hv & H2)]. split; eauto.
    - destruct H as (H1 & H2 & H3). split; eauto. }
  apply Hb in Hd2. auto.
Qed.

(** A loop with independent iterations. *)
Lemma for_dspec n (body : nat -> prog unit) (R W : nat -> loc -> Prop) m :
  (forall i, i < n -> dfp (R i) (W i) m (body i)) ->
  (forall i j, i < n -> j < n -> i <> j -> nonconf (R i) (W i) (R j) (W j)) ->
  dfp (fun l => exists i, i < n /\ R i l) (fun l => exists i, i < n /\ W i l) m (for_ n body) /\
  exists m', run (for_ n body) m = Some (tt, m') /\
    (forall l, (forall i, i < n -> ~ W i l) -> m' l = m l) /\
    (forall i, i < n -> exists mi, run (body i) m = Some (tt, mi) /\
        forall l, (forall j, j < n -> j <> i -> ~ W j l) -> m' l = mi l).
Proof.
  intros Hd Hc.
  assert (Hin : forall i, In i (seq 0 n) <-> i < n) by (intros i; rewrite in_seq; lia).
  destruct (chunk_spec body R W (seq 0 n) m) as (H1 & m' & Hr & Hf & Hv).
  - apply seq_NoDup.
  - intros i Hi. apply Hd, Hin, Hi.
  - intros i j Hi Hj. apply Hc; apply Hin; auto.
  - split.
    + apply chunk_for_dfp. eapply dfp_mono; [| |exact H1].
      * intros l (i & Hi & Hl). left. exists i. split; auto. apply Hin, Hi.
      * intros l (i & Hi & Hl). exists i. split; auto. apply Hin, Hi.
    + exists m'. split; [rewrite run_for_chunk; auto|]. split.
      * intros l Hl. apply Hf. intros i Hi. apply Hl, Hin, Hi.
      * intros i Hi. destruct (Hv i) as (mi & Hri & Hl); [apply Hin; auto|]. exists mi. split; auto.
        intros l H. apply Hl. intros j Hj. apply H, Hin, Hj.
Qed.

(** footprint data of a phase started in [m] *)
Record phase_ok (ph : phase (V:=V)) (R W : nat -> loc -> Prop) (m : mem) : Prop := {
  po_fp : forall i, i < fst ph -> dfp (R i) (W i) m (snd ph i);
  po_c : forall i j, i < fst ph -> j < fst ph -> i <> j -> nonconf (R i) (W i) (R j) (W j)
}.

Section Chunks.
Variables (ph : phase (V:=V)) (R W : nat -> loc -> Prop) (m : mem) (chunks : list (list nat)).
Hypothesis Hok : phase_ok ph R W m.
Hypothesis Hs : schedule ph chunks.

Lemma chunk_lt t i : In i (nth t chunks []) -> i < fst ph.
Proof.
  intros H. apply nth_concat_in in H. eapply Permutation_in in H; [|exact Hs].
  apply in_seq in H. lia.
Qed.

Lemma chunk_nodup : NoDup (concat chunks).
Proof. eapply Permutation_NoDup; [apply Permutation_sym; exact Hs|apply seq_NoDup]. Qed.

Lemma NoDup_nth_concat {A} (ls : list (list A)) t : NoDup (concat ls) -> NoDup (nth t ls []).
Proof.
  revert t. induction ls as [|l ls IH]; intros t H; [destruct t; constructor|].
  cbn in H. destruct t as [|t]; cbn.
  - clear IH. induction l as [|a l IHl]; [constructor|]. cbn in H. inversion H as [|? ? Hni Hnd]; subst.
    constructor; auto. rewrite in_app_iff in Hni. tauto.
  - apply IH. clear IH. induction l as [|a l IHl]; auto. cbn in H. inversion H; auto.
Qed.

Definition cR t := chunkR R (nth t chunks []).
Definition cW t := chunkR W (nth t chunks []).

Lemma c_fp t : dfp (cR t) (cW t) m (team ph chunks t).
Proof.
  apply chunk_spec.
  - apply NoDup_nth_concat, chunk_nodup.
  - intros i Hi. apply (po_fp _ _ _ _ Hok). eapply chunk_lt; eauto.
  - intros i j Hi Hj. apply (po_c _ _ _ _ Hok); eapply chunk_lt; eauto.
Qed.

Lemma c_c t u : t <> u -> nonconf (cR t) (cW t) (cR u) (cW u).
Proof.
  intros Hne l.
  assert (H : forall t u, t <> u -> cW t l -> ~ cR u l /\ ~ cW u l).
  { clear t u Hne. intros t u Hne (i & Hi & Hl). split; intros (j & Hj & Hl').
    - assert (Hij : i <> j) by (intros ->; eapply (NoDup_concat_disj chunks chunk_nodup t u j); eauto).
      destruct (po_c _ _ _ _ Hok i j (chunk_lt _ _ Hi) (chunk_lt _ _ Hj) Hij l) as [H _]. destruct (H Hl); auto.
    - assert (Hij : i <> j) by (intros ->; eapply (NoDup_concat_disj chunks chunk_nodup t u j); eauto).
      destruct (po_c _ _ _ _ Hok i j (chunk_lt _ _ Hi) (chunk_lt _ _ Hj) Hij l) as [H _]. destruct (H Hl); auto. }
  split; apply H; auto.
Qed.

End Chunks.

Lemma list_psteps n (T0 : nat -> prog unit) (R W : nat -> loc -> Prop) is : forall (T : threads) (m m' : mem),
  NoDup is -> (forall i, In i is -> i < n) ->
  (forall i, In i is -> dfp (R i) (W i) m (T0 i)) ->
  (forall i j, In i is -> In j is -> i <> j -> nonconf (R i) (W i) (R j) (W j)) ->
  (forall i, In i is -> T i = T0 i) ->
  run (chunk_prog T0 is) m = Some (tt, m') ->
  exists T', psteps n (T, m) (T', m') /\ (forall i, In i is -> T' i = Ret tt) /\ (forall i, ~ In i is -> T' i = T i).
Proof.
  induction is as [|i is IH]; intros T m m' Hnd Hlt Hd Hc HT Hr.
  - cbn in Hr. injection Hr as <-. exists T. split; [constructor|]. split; auto. intros ? [].
  - cbn in Hr. rewrite run_bind in Hr. destruct (run (T0 i) m) as [[[] m1]|] eqn:E; [|discriminate].
    inversion Hnd as [|? ? Hni Hnd']; subst.
    pose proof (Hd i (or_introl eq_refl)) as Hdi.
    assert (Has : asteps (T0 i) m (Ret tt) m1) by (eapply run_asteps; eauto).
    destruct (dfp_run _ _ _ _ Hdi) as ([] & m1' & Hr1 & Hf1 & _). rewrite E in Hr1. injection Hr1 as <-.
    destruct (asteps_psteps n _ _ _ _ Has T i) as (T1 & Hps & H1 & H2);
      [apply Hlt; left; auto|apply HT; left; auto|].
    destruct (IH T1 m1 m') as (T2 & Hps2 & H3 & H4); auto.
    { intros j Hj; apply Hlt; right; auto. }
    { intros j Hj. eapply dfp_agree; [apply Hd; right; auto|]. intros l Hl. apply Hf1. intros Hw.
      destruct (Hc i j) with (l := l) as [H _]; [left|right|intros ->|]; auto.
      destruct (H Hw). tauto. }
    { intros a b Ha Hb. apply Hc; right; auto. }
    { intros j Hj. rewrite H2 by (intros ->; auto). apply HT; right; auto. }
    exists T2. split; [eapply psteps_trans; eauto|]. split.
    + intros j [<-|Hj]; auto. rewrite H4 by auto. exact H1.
    + intros j Hj. rewrite H4 by (intros H; apply Hj; right; auto). apply H2. intros ->; apply Hj; left; auto.
Qed.

(** Main theorem for one work-sharing loop. *)
Theorem phase_sched (ph : phase (V:=V)) (R W : nat -> loc -> Prop) (m : mem) chunks :
  phase_ok ph R W m -> schedule ph chunks ->
  exists m', run (for_ (fst ph) (snd ph)) m = Some (tt, m') /\
    forall T1 m1, psteps (length chunks) (team ph chunks, m) (T1, m1) ->
      (forall i, i < length chunks -> ~ bad (T1 i) m1) /\
      (forall i j, i < length chunks -> j < length chunks -> i <> j -> ~ racing (T1 i) (T1 j)) /\
      (finished (length chunks) T1 \/ exists s', pstep (length chunks) (T1, m1) s') /\
      (finished (length chunks) T1 -> forall l, m1 l = m' l).
Proof.
  intros Hok Hs.
  pose proof (c_fp ph R W m chunks Hok Hs) as Cfp.
  pose proof (c_c ph R W m chunks Hok Hs) as Cc.
  destruct (for_dspec (fst ph) (snd ph) R W m (po_fp _ _ _ _ Hok) (po_c _ _ _ _ Hok)) as (_ & m' & Hr & _ & _).
  exists m'. split; auto.
  set (n := length chunks) in *.
  destruct (for_dspec n (team ph chunks) (cR R chunks) (cW W chunks) m) as (_ & mt & Hrt & _ & _); auto.
  assert (Hlt : forall i, In i (concat chunks) -> i < fst ph).
  { intros i Hi. eapply Permutation_in in Hi; [|exact Hs]. apply in_seq in Hi; lia. }
  (* sequential run of the chunks = sequential run of the iterations *)
  assert (Hmt : forall l, mt l = m' l).
  { assert (Hperm : run (chunk_prog (snd ph) (concat chunks)) m = Some (tt, mt)).
    { rewrite <- run_for_team. exact Hrt. }
    rewrite run_for_chunk in Hr.
    destruct (list_psteps (fst ph) (snd ph) R W (concat chunks) (snd ph) m mt) as (Ta & Hpa & Hfa & _); auto.
    { apply (chunk_nodup ph); auto. }
    { intros i Hi. apply (po_fp _ _ _ _ Hok); auto. }
    { intros i j Hi Hj. apply (po_c _ _ _ _ Hok); auto. }
    assert (Hlt2 : forall i, In i (seq 0 (fst ph)) -> i < fst ph) by (intros i Hi; apply in_seq in Hi; lia).
    destruct (list_psteps (fst ph) (snd ph) R W (seq 0 (fst ph)) (snd ph) m m') as (Tb & Hpb & Hfb & _); auto.
    { apply seq_NoDup. }
    { intros i Hi. apply (po_fp _ _ _ _ Hok); auto. }
    { intros i j Hi Hj. apply (po_c _ _ _ _ Hok); auto. }
    destruct (inv_reach _ _ R W m (po_fp _ _ _ _ Hok) (po_c _ _ _ _ Hok) _ Hpa) as [da Ia].
    destruct (inv_reach _ _ R W m (po_fp _ _ _ _ Hok) (po_c _ _ _ _ Hok) _ Hpb) as [db Ib].
    cbn in Ia, Ib.
    eapply final_unique; [exact Ia|exact Ib| |].
    - intros i Hi. apply Hfa. eapply Permutation_in; [apply Permutation_sym; exact Hs|]. apply in_seq; lia.
    - intros i Hi. apply Hfb. apply in_seq; lia. }
  intros T1 m1 Hps.
  destruct (inv_reach n (team ph chunks) (cR R chunks) (cW W chunks) m) with (s := (T1, m1)) as [d1 I1]; auto.
  cbn in I1. split; [|split; [|split]].
  - intros i Hi. eapply inv_not_bad; eauto.
  - intros i j Hi Hj Hne. eapply inv_not_racing; eauto.
  - eapply inv_progress; eauto.
  - intros Hfin l. rewrite <- Hmt. rewrite run_for_chunk in Hrt.
    destruct (list_psteps n (team ph chunks) (cR R chunks) (cW W chunks) (seq 0 n) (team ph chunks) m mt)
      as (T2 & Hps2 & Hf2 & _); auto.
    { apply seq_NoDup. }
    { intros i Hi; apply in_seq in Hi; lia. }
    destruct (inv_reach n (team ph chunks) (cR R chunks) (cW W chunks) m) with (s := (T2, mt)) as [d2 I2]; auto.
    eapply final_unique; [exact I1|exact I2|exact Hfin|]. intros i Hi. apply Hf2. apply in_seq; lia.
Qed.

(** Regions: footprints of all phases; the side conditions of a later phase are
    about the memory left by the earlier ones, which we characterise by the sequential run. *)
Fixpoint region_ok (r : list (phase (V:=V))) (m : mem) : Prop :=
  match r with
  | [] => True
  | ph :: rest =>
      (exists R W, phase_ok ph R W m) /\
      forall m', run (for_ (fst ph) (snd ph)) m = Some (tt, m') -> region_ok rest m'
  end.

Lemma phase_ok_ext ph R W (m m2 : mem) : (forall l, m2 l = m l) -> phase_ok ph R W m -> phase_ok ph R W m2.
Proof.
  intros E [H1 H2]. constructor; auto.
  intros i Hi. eapply dfp_agree; [apply H1; auto|]. auto.
Qed.

Lemma run_ext {A} (p : prog A) : forall (m m2 : mem), (forall l, m2 l = m l) ->
  match run p m, run p m2 with
  | Some (a, m'), Some (a2, m2') => a = a2 /\ forall l, m2' l = m' l
  | None, None => True
  | _, _ => False
  end.
Proof.
  induction p as [a| |l k IH|l v k IH|b n k IH]; cbn; intros m m2 E; auto.
  - rewrite E. destruct (m l); [exact I|exact I|apply IH; exact E].
  - rewrite E. destruct (m l); [exact I| |]; apply IH; intros l'; unfold upd; destruct (loc_eqb l' l); auto.
  - apply IH. intros l'. unfold malloc. destruct (fst l' =? b); auto.
Qed.

Lemma region_ok_ext r : forall (m m2 : mem), (forall l, m2 l = m l) -> region_ok r m -> region_ok r m2.
Proof.
  induction r as [|ph rest IH]; cbn; intros m m2 E H; auto.
  destruct H as [(R & W & Hok) Hrest]. split.
  - exists R, W. eapply phase_ok_ext; eauto.
  - intros m2' Hr2. pose proof (run_ext (for_ (fst ph) (snd ph)) m m2 E) as HE.
    rewrite Hr2 in HE. destruct (run (for_ (fst ph) (snd ph)) m) as [[[] m']|] eqn:Er; [|contradiction].
    eapply IH; [|apply Hrest; reflexivity]. apply HE.
Qed.

Lemma region_seq_run r : forall m, region_ok r m -> exists m', run (region_seq r) m = Some (tt, m').
Proof.
  induction r as [|ph rest IH]; cbn; intros m H; [eauto|].
  destruct H as [(R & W & Hok) Hrest].
  destruct (for_dspec (fst ph) (snd ph) R W m (po_fp _ _ _ _ Hok) (po_c _ _ _ _ Hok)) as (_ & m' & Hr & _ & _).
  destruct (IH m' (Hrest m' Hr)) as [m'' Hr2]. exists m''. rewrite run_bind, Hr. exact Hr2.
Qed.

Theorem region_sched r : forall m, region_ok r m -> schedule_independent r m.
Proof.
  intros m Hok. destruct (region_seq_run r m Hok) as [mf Hmf]. exists mf. split; auto.
  split; [|split].
  - intros m'' Hex. revert mf Hok Hmf. induction Hex as [m|ph rest m chunks T' m' m'' Hs Hps Hfin Hex IH]; intros mf Hok Hmf l.
    + cbn in Hmf. injection Hmf as <-. reflexivity.
    + cbn in Hok, Hmf. destruct Hok as [(R & W & Hok) Hrest].
      destruct (phase_sched ph R W m chunks Hok Hs) as (m1 & Hr & Hall).
      destruct (Hall T' m' Hps) as (_ & _ & _ & Hm). specialize (Hm Hfin).
      rewrite run_bind, Hr in Hmf.
      pose proof (run_ext (region_seq rest) m1 m' Hm) as HE. rewrite Hmf in HE.
      destruct (run (region_seq rest) m') as [[[] mf']|] eqn:E; [|contradiction].
      destruct HE as [_ HE]. rewrite <- HE. apply IH.
      * eapply region_ok_ext; [exact Hm|]. apply Hrest; auto.
      * reflexivity.
  - intros n T m1 Hrr. clear mf Hmf. induction Hrr as [ph rest m chunks T' m' Hs Hps|ph rest m chunks T' m' n T'' m'' Hs Hps Hfin Hrr IH].
    + cbn in Hok. destruct Hok as [(R & W & Hok) Hrest].
      destruct (phase_sched ph R W m chunks Hok Hs) as (m2 & Hr & Hall).
      destruct (Hall T' m' Hps) as (H1 & H2 & H3 & _). auto.
    + cbn in Hok. destruct Hok as [(R & W & Hok) Hrest].
      destruct (phase_sched ph R W m chunks Hok Hs) as (m2 & Hr & Hall).
      destruct (Hall T' m' Hps) as (_ & _ & _ & Hm). specialize (Hm Hfin).
      apply IH. eapply region_ok_ext; [exact Hm|]. apply Hrest; auto.
  - intros n s. apply pstep_acc.
Qed.

(** a [Does]-loop is a phase with disjoint footprints *)
Lemma Does_phase_ok {K : Type} n (body : nat -> prog unit) (D : nat -> K -> Prop) (t : K -> lane V) m :
  (forall i, i < n -> Does (body i) (D i) t) ->
  (forall i j k, i < n -> j < n -> i <> j -> D i k -> ~ D j k) ->
  Disj (fun k => exists i, i < n /\ D i k) t ->
  initd m (RD (fun k => exists i, i < n /\ D i k) t) ->
  allocd m (WR (fun k => exists i, i < n /\ D i k) t) ->
  phase_ok (n, body) (fun i => RD (D i) t) (fun i => WR (D i) t) m.
Proof.
  intros Hd Hdd Hdisj Hini Hall. constructor; cbn.
  - intros i Hi. eapply fp_dfp; [apply (Hd i Hi)|auto| |].
    + intros l (k & Hk & Hl). apply Hini. exists k. split; eauto.
    + intros l (k & Hk & Hl). apply Hall. exists k. split; eauto.
  - intros i j Hi Hj Hne l. split.
    + intros (k & Hk & Hl). split; intros (k' & Hk' & Hl').
      * destruct (Hdisj k k') with (l := l) as [H1 H2]; eauto. intros ->. apply (Hdd i j k'); auto.
      * destruct (Hdisj k k') with (l := l) as [H1 H2]; eauto. intros ->. apply (Hdd i j k'); auto.
    + intros (k & Hk & Hl). split; intros (k' & Hk' & Hl').
      * destruct (Hdisj k k') with (l := l) as [H1 H2]; eauto. intros ->. apply (Hdd i j k'); auto.
      * destruct (Hdisj k k') with (l := l) as [H1 H2]; eauto. intros ->. apply (Hdd i j k'); auto.
Qed.

End OmpFacts.
