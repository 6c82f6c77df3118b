(** * The real transform object (class RFFT behind RealFFT): histories and calls *)

From Coq Require Import List Arith ZArith Bool Lia.
From Verif Require Import Scalar Mem MemFacts Omp OmpFacts Lanes Stage Object ObjectFacts Engine SixClass
  ModelApi History ApiFacts Footprint ComplexThms GObj ModelReal RealFacts RealRun.
Import ListNotations.

Ltac in_cases := repeat match goal with
  | H : In _ (match ?e with _ => _ end) |- _ => destruct e
  | H : In _ (_ ++ _) |- _ => apply in_app_or in H; destruct H as [H|H]
  | H : In _ (_ :: _) |- _ => destruct H as [H|H]
  | H : In _ [] |- _ => destruct H
  | H : Par _ = New _ _ |- _ => discriminate H
  | H : New _ _ = New _ _ |- _ => injection H as <- <-
  end.

(** the result of method k on the input X, any arithmetic *)
Definition rfft_res {Op : Ops} (N : nat) (k : meth) (X : nat -> C) : nat -> C :=
  if meth_inv k then rfft_G N k X else rfft_F N k X.

Section RealObj.
Context {Op : Ops}.
Notation mem := (mem C).
Notation act := (act C).
Variable b : nat.

Definition rcall : Type := (meth * ptr * ptr)%type.
Definition rf_call (N : nat) (a : rcall) : list act := let '(k, x, y) := a in rfft_run b N k x y.
(** the number of elements of x that a method reads: an inverse method reads x[0] .. x[N/2] only *)
Definition rf_in (N : nat) (k : meth) : nat := if meth_inv k then Nat.min N (N / 2 + 1) else N.
Lemma rf_in_le N k : rf_in N k <= N.
Proof. unfold rf_in. destruct (meth_inv k); lia. Qed.
Lemma rf_in_inv N k : real_length N -> meth_inv k = true -> rf_in N k = N / 2 + 1.
Proof. intros (EN & _ & H & _) Hk. unfold rf_in. rewrite Hk. lia. Qed.
(** a legal call: the elements of x that are read are initialised, x and y are allocated, they are disjoint, and
    neither is memory of the object *)
Definition rf_pre (N : nat) (m : mem) (a : rcall) : Prop := let '(k, x, y) := a in
  ~ fft_own b (fst x) /\ ~ fft_own b (fst y) /\ disjR x N y N /\ allocd m (inR y N) /\ allocd m (inR x N) /\ exists X, holds m x (rf_in N k) X.
Definition rf_wr (N : nat) (a : rcall) (l : loc) : Prop := let '(k, x, y) := a in
  inR y N l \/ (meth_inv k = true /\ inR x N l).
Definition rf_post (N : nat) (a : rcall) (m m' : mem) : Prop := let '(k, x, y) := a in
  forall X, holds m x (rf_in N k) X -> holds m' y N (rfft_res N k X).
Definition rf_argb (N : nat) (a : rcall) (l : loc) : bool := let '(k, x, y) := a in inRb x N l || inRb y N l.
Definition fft_ownb (c : nat) : bool := (b <=? c) && (c <=? b + 3).
Lemma fft_ownb_spec c : fft_ownb c = true <-> fft_own b c.
Proof. unfold fft_ownb, fft_own. rewrite andb_true_iff, !Nat.leb_le. tauto. Qed.

Definition rfft_history : option nat -> mem -> Prop :=
  ghistory (fft_own b) (fun _ n => Some n) (rfft_setup b) rf_call rf_pre.

Lemma holds_val (m : mem) x N X Y i : holds m x N X -> holds m x N Y -> i < N -> X i = Y i.
Proof. intros. eapply holds_det; eauto. Qed.
Lemma rf_run_ok N a m : real_length N -> rfft_ready b N m -> rf_pre N m a ->
  exists m', CExec (rf_call N a) (rf_wr N a) m m' /\ rf_post N a m m' /\ rfft_ready b N m'.
Proof.
  destruct a as [[k x] y]. intros HN Hr (Hx & Hy & Hd & Ha & Hax & X & HX). cbn [rf_call rf_wr rf_post]. unfold rfft_run, rfft_res.
  assert (Ek : rf_in N k = if meth_inv k then N / 2 + 1 else N).
  { destruct (meth_inv k) eqn:E; [apply rf_in_inv; auto|unfold rf_in; rewrite E; auto]. }
  rewrite Ek in *. clear Ek.
  assert (K : exists m', CExec (if meth_inv k then rfft_inv b N k x y else rfft_fwd b N k x y) (fun l => inR y N l \/ meth_inv k = true /\ inR x N l) m m' /\
     forall Y, holds m x (if meth_inv k then N / 2 + 1 else N) Y -> holds m' y N (if meth_inv k then rfft_G N k Y else rfft_F N k Y)).
  { destruct (meth_inv k).
    - destruct (rfft_inv_ok b N k x y m X HN Hx Hy Hd Hr HX Hax Ha) as (m' & Hc & Hv). exists m'. split.
      + eapply CExec_mono; [|exact Hc]. intros l [Hl|Hl]; auto.
      + intros Y HY. destruct (rfft_inv_ok b N k x y m Y HN Hx Hy Hd Hr HY Hax Ha) as (m2 & Hc2 & Hv2).
        intros i Hi. rewrite <- (Hv2 i Hi). destruct Hc as (_ & E1 & _), Hc2 as (_ & E2 & _). rewrite E1 in E2. injection E2 as ->. reflexivity.
    - destruct (rfft_fwd_ok b N k x y m X HN Hx Hy Hd Hr HX Ha) as (m' & Hc & Hv). exists m'. split.
      + eapply CExec_mono; [|exact Hc]. intros l Hl; auto.
      + intros Y HY. destruct (rfft_fwd_ok b N k x y m Y HN Hx Hy Hd Hr HY Ha) as (m2 & Hc2 & Hv2).
        intros i Hi. rewrite <- (Hv2 i Hi). destruct Hc as (_ & E1 & _), Hc2 as (_ & E2 & _). rewrite E1 in E2. injection E2 as ->. reflexivity. }
  destruct K as (m' & Hc & Hv). exists m'. split; [exact Hc|]. split; [exact Hv|].
  eapply CExec_ready; [apply rfft_ready_local|exact Hr|exact Hc|].
  intros l [Hl|[_ Hl]] Ho; apply inR_fst in Hl; [apply Hy|apply Hx]; rewrite <- Hl; auto.
Qed.
Lemma rfft_run_par N k x y : Forall (fun c : act => match c with Par _ => True | New _ _ => False end) (rfft_run b N k x y).
Proof.
  unfold rfft_run, rfft_inv, rfft_fwd. cbv zeta.
  repeat match goal with
  | |- Forall _ (_ ++ _) => apply Forall_app; split
  | |- Forall _ (fft0_run _ _ _ _ _) => exact (fft0_run_par _ _ _ _ _)
  | |- Forall _ (if ?e then _ else _) => destruct e
  | |- Forall _ (_ :: _) => constructor
  | |- Forall _ [] => constructor
  | |- True => exact I
  end.
Qed.
Lemma rf_arg_ok N a m : rf_pre N m a -> rf_pre N (restrict (fun l => rf_argb N a l || fft_ownb (fst l)) m) a.
Proof.
  destruct a as [[k x] y]. intros (Hx & Hy & Hd & Ha & Hax & X & HX). cbn [rf_pre rf_argb].
  repeat (split; [assumption|]). split; [|split].
  - intros l Hl. unfold restrict. rewrite (proj2 (inRb_spec y N l) Hl), orb_true_r. cbn. auto.
  - intros l Hl. unfold restrict. rewrite (proj2 (inRb_spec x N l) Hl). cbn. auto.
  - exists X. intros i Hi. unfold restrict. destruct (inRb x N (x +! i) || inRb y N (x +! i) || fft_ownb (fst (x +! i))) eqn:E; [auto|].
    exfalso. apply orb_false_iff in E as (E & _). apply orb_false_iff in E as (E & _).
    rewrite (proj2 (inRb_spec x N _)) in E; [discriminate|]. apply inR_i. pose proof (rf_in_le N k). lia.
Qed.
Lemma fft0_setup_news N c n : In (New c n) (fft0_setup b N) -> six_own b c.
Proof.
  unfold fft0_setup, obj_reset, engine_setup, ModelPow.pow_setup2, ModelPow.pow_setup_serial, ModelPow.pow_setup_parallel, ModelSix.six_setup2, ModelMixedClass.mixed_setup, ModelMixedClass.mixed_setup_serial, ModelMixedClass.mixed_setup_parallel, ModelMixedClass.sloop, ModelMixedClass.ploop,
    ModelSix.init_weight_sub, ModelSix.init_weight_nxn, ModelSix.init_weight_8xm, ModelSix.init_Wnxn, Twid.init_Wt, Twid.init_Wr1. cbv zeta. intros H.
  unfold six_own. in_cases; try lia; unfold Twid.loop_w in *; in_cases.
Qed.
Lemma rfft_setup_news N c n : In (New c n) (rfft_setup b N) -> fft_own b c.
Proof.
  unfold rfft_setup. intros H. apply in_app_or in H as [H|[H|H]].
  - apply six_fft_own. eapply fft0_setup_news. exact H.
  - injection H as <- <-. unfold fft_own. lia.
  - unfold rfft_table in H. cbv zeta in H. in_cases.
Qed.

Definition rf_hset : forall N, real_length N -> SetsUp (fft_own b) (rfft_setup b N) (rfft_ready b N) := fun N _ => rfft_setup_ok b N.
Lemma rf_conf (o : option nat) n N : Some n = Some N -> real_length N -> n = N \/ (o = Some N /\ rfft_setup b n = []).
Proof. intros [= ->] _. auto. Qed.

Lemma rfft_call_gen N k x y m X : real_length N -> rfft_history (Some N) m ->
  ~ fft_own b (fst x) -> ~ fft_own b (fst y) -> disjR x N y N -> allocd m (inR y N) -> allocd m (inR x N) -> holds m x (rf_in N k) X ->
  exists m', Outcome (rfft_run b N k x y) m m' /\ holds m' y N (rfft_res N k X) /\
    (forall l, ~ inR y N l -> (meth_inv k = true -> ~ inR x N l) -> m' l = m l) /\ rfft_history (Some N) m' /\
    accesses_only (rfft_run b N k x y) m (fun l => inR x N l \/ inR y N l \/ fft_own b (fst l)).
Proof.
  intros HN Hh Hx Hy Hd Ha Hax HX.
  assert (Hp : rf_pre N m (k, x, y)) by (repeat (split; [assumption|]); exists X; auto).
  destruct (gcall (fft_own b) _ (rfft_setup b) rf_call rf_pre rf_wr rf_post (rfft_ready b) real_length
    (fun N _ => rfft_ready_local b N) rf_hset rf_conf rf_run_ok N (k, x, y) m HN Hh Hp)
    as (m' & H1 & H2 & H3 & H4).
  exists m'. split; [exact H1|]. split; [apply (H2 X HX)|]. split; [|split; [exact H4|]].
  - intros l A B. apply H3. intros [Hl|[E Hl]]; [auto|]. apply (B E Hl).
  - pose proof (gcall_footprint (fft_own b) fft_ownb fft_ownb_spec (fun _ n => Some n) (rfft_setup b) rf_call rf_pre rf_wr rf_post rf_argb (rfft_ready b) real_length
      (fun N _ => rfft_ready_local b N) rf_hset rf_conf rf_run_ok (fun N a _ => let '(k, x, y) := a in rfft_run_par N k x y) rf_arg_ok N (k, x, y) m HN Hh Hp) as H.
    intros kk T m1 Hre i l w Hi Hac. destruct (H kk T m1 Hre i l w Hi Hac) as [E|E]; [|auto].
    cbn in E. apply orb_true_iff in E as [E|E]; apply inRb_spec in E; auto.
Qed.

Lemma rfft_call_ok N k x y m X : real_length N -> rfft_history (Some N) m ->
  ~ fft_own b (fst x) -> ~ fft_own b (fst y) -> disjR x N y N -> allocd m (inR y N) -> holds m x N X ->
  exists m', Outcome (rfft_run b N k x y) m m' /\ holds m' y N (rfft_res N k X) /\
    (forall l, ~ inR y N l -> (meth_inv k = true -> ~ inR x N l) -> m' l = m l) /\ rfft_history (Some N) m' /\
    accesses_only (rfft_run b N k x y) m (fun l => inR x N l \/ inR y N l \/ fft_own b (fst l)).
Proof.
  intros HN Hh Hx Hy Hd Ha HX. apply rfft_call_gen; auto.
  - eapply holds_allocd; exact HX.
  - intros i Hi. apply HX. pose proof (rf_in_le N k). lia.
Qed.

(** setup works for every length *)
Lemma rfft_setup_call N o m : rfft_history o m ->
  exists m', Outcome (rfft_setup b N) m m' /\ (forall l, ~ fft_own b (fst l) -> m' l = m l) /\ rfft_history (Some N) m' /\
    accesses_only (rfft_setup b N) m (fun l => fft_own b (fst l)).
Proof.
  intros Hh. destruct (rfft_setup_ok b N m) as (m' & Ho & Hr & Hq & Hf).
  pose proof (acts_Outcome _ _ _ Ho Hr) as Oc. exists m'. split; [exact Oc|]. split; [exact Hf|]. split.
  - destruct Oc as [(m2 & He) Hu _ _ _ _]. eapply h_other; [exact (h_setup (fft_own b) (fun _ n => Some n) (rfft_setup b) _ o m m2 N Hh He)|].
    intros l _. symmetry. apply Hu. auto.
  - exact (gsetup_footprint (fft_own b) fft_ownb fft_ownb_spec (rfft_setup b) (rfft_ready b) (fun _ => True) (fun N _ => rfft_setup_ok b N) rfft_setup_news N m I).
Qed.
Lemma rfft_history_any N mo : real_length N -> exists m, rfft_history (Some N) m /\ forall l, ~ fft_own b (fst l) -> m l = mo l.
Proof.
  intros HN. exact (ghistory_any (fft_own b) fft_ownb fft_ownb_spec (fun _ n => Some n) (rfft_setup b) rf_call rf_pre (rfft_ready b) real_length rf_hset (fun _ _ _ => eq_refl) N None (fun _ => Free) mo HN (h_start _ _ _ _ _)).
Qed.

End RealObj.
