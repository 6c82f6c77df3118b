(** * The mixed-radix object computes what its table and its passes compute (any arithmetic) *)

From Coq Require Import List Arith ZArith Bool Lia.
From Verif Require Import Scalar Mem MemFacts Omp OmpFacts Lanes Stage Object ObjectFacts Engine
  FactorFacts ModelMixed MixedStage MixedDrive MixedRun ModelMixedClass.
Import ListNotations.

Section Facts.
Context {Op : Ops}.
Notation mem := (mem C).

Definition mixed_T (n p : nat) : C :=
  let theta0 := sdiv (smul s2 spi) (sofZ (Z.of_nat n)) in
  mkC (scos (smul (sofZ (Z.of_nat p)) theta0)) (sneg (ssin (smul (sofZ (Z.of_nat p)) theta0))).

Definition mixed_ready (b n : nat) (m : mem) : Prop := holds m (b, 0) (S n) (mixed_T n).

Lemma mixed_ready_local b n (own : nat -> Prop) : own b -> Local own (mixed_ready b n).
Proof. intros H. apply holds_own_local. auto. Qed.

Lemma mixed_setup_serial_ok b n (own : nat -> Prop) : own b -> SetsUp own (mixed_setup_serial b n) (mixed_ready b n).
Proof. intros Hb. unfold mixed_ready. replace (S n) with (n + 1) by lia. apply table_setup; auto. Qed.
Lemma mixed_setup_parallel_ok b n (own : nat -> Prop) : own b -> SetsUp own (mixed_setup_parallel b n) (mixed_ready b n).
Proof. intros Hb. unfold mixed_ready. replace (S n) with (n + 1) by lia. apply table_setup; auto. Qed.
Lemma mixed_setup_ok b n (own : nat -> Prop) : own b -> SetsUp own (mixed_setup b n) (mixed_ready b n).
Proof. intros Hb. unfold mixed_setup. destruct (n <? mixed_omp); auto using mixed_setup_serial_ok, mixed_setup_parallel_ok. Qed.

Definition mixed_F (N : nat) (k : meth) (X : nat -> C) : nat -> C :=
  let Z := mixed_ff (meth_inv k) (S N) N 1 (mixed_T N) X in
  match mixed_coef N k with Some c => fun i => cscal c (Z i) | None => Z end.

Lemma scale_body_m c x k : scale_body c x k = mbody (fun i => [x +! i]) x (fun _ v => cscal c (hd c0 v)) k.
Proof. reflexivity. Qed.

Lemma scale_Exec c x N (m : mem) Z : holds m x N Z ->
  (exists m', Exec [(N, scale_body c x)] (inR x N) m m' /\ holds m' x N (fun i => cscal c (Z i))) /\
  (exists m', Exec [(1, fun _ => for_ N (scale_body c x))] (inR x N) m m' /\ holds m' x N (fun i => cscal c (Z i))).
Proof.
  intros H. apply (mloop_Exec N (fun i => [x +! i]) x (fun _ v => cscal c (hd c0 v)) m (fun i => [Z i])).
  - intros i Hi. unfold reads. cbn. rewrite (H i Hi). reflexivity.
  - intros i Hi. rewrite (H i Hi). discriminate.
  - intros i j _ _ Hne [E|[]]. apply padd_inj in E. auto.
Qed.

Lemma mixed_serial_ok b N k (own : nat -> Prop) : own b -> 0 < N -> (Z.of_nat N <= 2 ^ 30)%Z -> factors_fit N ->
  Transforms own (mixed_ready b N) N (mixed_serial b N k) (mixed_F N k).
Proof.
  intros Hb HN Hz Hfit x y m X Hx Hy Hxy Hrd Hh Ha.
  assert (Hok : ok3 x y (b, 0) (N * 1)).
  { rewrite Nat.mul_1_r. split; [auto|]. split; apply (disjR_own own); auto. }
  assert (Hal : allocd m (xy x y N)).
  { intros l [Hl|Hl]; [|auto]. eapply holds_allocd; eauto. }
  unfold mixed_serial, mixed_F. cbv zeta.
  set (Z := mixed_ff (meth_inv k) (S N) N 1 (mixed_T N) X).
  assert (HS : exists m1, Exec [single (fftS (meth_inv k) (S N) N 1 false x y (b, 0))] (xy x y N) m m1 /\ holds m1 x N Z).
  { eapply RComputes_Exec; [|exact Hh|exact Hrd|exact Hal]. apply Computes_single.
    pose proof (fftS_C (meth_inv k) (S N) N 1 false x y (b, 0)) as H. rewrite Nat.mul_1_r in H. apply H; auto; try lia.
    - left. left. auto.
    - rewrite Nat.mul_1_r in Hok. auto. }
  assert (Ebody : (if meth_inv k then invfft (S N) N 1 false x y (b, 0) else fwdfft (S N) N 1 false x y (b, 0)) = fftS (meth_inv k) (S N) N 1 false x y (b, 0))
    by (destruct k; reflexivity).
  rewrite Ebody. destruct HS as (m1 & E1 & H1).
  assert (H2 : exists m2, Exec [single (match mixed_coef N k with Some c => for_ N (scale_body c x) | None => skip end)] (inR x N) m1 m2 /\
     holds m2 x N (match mixed_coef N k with Some c => fun i => cscal c (Z i) | None => Z end)).
  { destruct (mixed_coef N k) as [c|].
    - apply (scale_Exec c x N m1 Z H1).
    - exists m1. split; auto. apply Exec_skip. }
  destruct H2 as (m2 & E2 & H2). exists m2. split; [|exact H2]. apply CExec_par.
  eapply Exec_single_seq; [exact E1|exact E2| |]; auto. intros l Hl. left. auto.
Qed.

Lemma mixed_parallel_ok b N k (own : nat -> Prop) : own b -> 0 < N -> (Z.of_nat N <= 2 ^ 30)%Z -> factors_fit N ->
  Transforms own (mixed_ready b N) N (mixed_parallel b N k) (mixed_F N k).
Proof.
  intros Hb HN Hz Hfit x y m X Hx Hy Hxy Hrd Hh Ha.
  assert (Hok : ok3 x y (b, 0) (N * 1)).
  { rewrite Nat.mul_1_r. split; [auto|]. split; apply (disjR_own own); auto. }
  assert (Hal : allocd m (xy x y N)).
  { intros l [Hl|Hl]; [|auto]. eapply holds_allocd; eauto. }
  unfold mixed_parallel, mixed_F. cbv zeta.
  set (Z := mixed_ff (meth_inv k) (S N) N 1 (mixed_T N) X).
  assert (HP : exists m1, Exec (fftP (meth_inv k) (S N) N 1 false x y (b, 0)) (xy x y N) m m1 /\ holds m1 x N Z).
  { eapply RComputes_Exec; [|exact Hh|exact Hrd|exact Hal].
    pose proof (fftP_R (meth_inv k) (S N) N 1 false x y (b, 0)) as H. rewrite Nat.mul_1_r in H. apply H; auto; try lia.
    - left. left. auto.
    - rewrite Nat.mul_1_r in Hok. auto. }
  assert (Ebody : (if meth_inv k then invfftp (S N) N 1 false x y (b, 0) else fwdfftp (S N) N 1 false x y (b, 0)) = fftP (meth_inv k) (S N) N 1 false x y (b, 0))
    by (destruct k; reflexivity).
  rewrite Ebody. destruct HP as (m1 & E1 & H1).
  destruct (mixed_coef N k) as [c|].
  + destruct (scale_Exec c x N m1 Z H1) as [(m2 & E2 & H2) _]. exists m2. split; auto.
    change (CExec ([Par (fftP (meth_inv k) (S N) N 1 false x y (b, 0))] ++ [Par [(N, scale_body c x)]]) (xy x y N) m m2).
    eapply CExec_app; [apply CExec_par; exact E1|apply CExec_par; exact E2| |]; auto. intros l Hl. left; auto.
  + exists m1. split; auto. apply CExec_par. auto.
Qed.

Lemma mixed_run_ok b N k (own : nat -> Prop) : own b -> 0 < N -> (Z.of_nat N <= 2 ^ 30)%Z -> factors_fit N ->
  Transforms own (mixed_ready b N) N (mixed_run b N k) (mixed_F N k).
Proof.
  intros Hb HN Hz Hfit. unfold mixed_run. destruct (N <? mixed_omp); [apply mixed_serial_ok | apply mixed_parallel_ok]; auto.
Qed.

End Facts.
