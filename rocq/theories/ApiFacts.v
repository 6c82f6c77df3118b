(** * The dispatching objects FFT0 and FFT: selection, setup, methods, any arithmetic *)

From Coq Require Import List Arith ZArith Bool Lia.
From Verif Require Import Scalar Mem MemFacts Omp OmpFacts Lanes Stage Object ObjectFacts Engine ModelMixed FactorFacts
  ModelMixedClass MixedClassFacts ModelPow PowClassFacts ModelSix SixClass ModelApi History.
Import ListNotations.

(** lengths the complex transform supports *)
Definition valid_length (N : nat) : Prop := 2 <= N /\ (Z.of_nat N <= 2 ^ 30)%Z /\ factors_fit N.

(** ** selection *)
Lemma log_loop_spec fuel : forall n l, n <= fuel -> log_loop fuel n l = l + Nat.log2 n.
Proof.
  induction fuel as [|fuel IH]; intros n l H.
  - replace n with 0 by lia. cbn. lia.
  - cbn [log_loop]. destruct (Nat.ltb_spec 1 n) as [H1|H1].
    + rewrite IH by (pose proof (Nat.div_lt n 2); lia).
      assert (E : Nat.log2 n = S (Nat.log2 (n / 2))).
      { pose proof (Nat.div_mod n 2 ltac:(lia)) as Hd. pose proof (Nat.mod_upper_bound n 2 ltac:(lia)) as Hm.
        assert (0 < n / 2) by (apply Nat.div_str_pos; lia).
        destruct (n mod 2) as [|[|r]]; [| |lia].
        - rewrite Hd at 1. rewrite Nat.add_0_r, Nat.log2_double by lia. reflexivity.
        - rewrite Hd at 1. rewrite Nat.log2_succ_double by lia. reflexivity. }
      lia.
    + destruct n as [|[|n]]; cbn; lia.
Qed.

Inductive selects (N : nat) : engine -> Prop :=
| sel_pow a n : N = 2 ^ n -> 1 <= n <= 24 -> selects N (EPow a n)
| sel_six n : N = 2 ^ n -> 1 <= n <= 24 -> selects N (ESix n)
| sel_mixed : selects N (EMixed N).

Lemma select_ok N : N <> 1 -> exists e, select N = Some e /\ selects N e.
Proof.
  intros HN. unfold select. rewrite log_loop_spec by lia. cbn [Nat.add].
  destruct (Nat.eqb_spec N (2 ^ Nat.log2 N)) as [E|E]; cbn [negb].
  2: eexists; split; [reflexivity|constructor].
  remember (Nat.log2 N) as l eqn:El. clear El.
  destruct l as [|l]; [cbn in E; lia|].
  do 24 (destruct l as [|l]; [eexists; split; [reflexivity|constructor; [assumption|lia]]|]).
  eexists; split; [reflexivity|constructor].
Qed.
Lemma select_1 : select 1 = None.
Proof. reflexivity. Qed.

Section Api.
Context {Op : Ops}.
Notation mem := (mem C).

(** ** algorithm objects *)
Definition engine_ready (b : nat) (e : engine) (m : mem) : Prop :=
  match e with
  | EPow a n => pow_ready a b n m
  | ESix n => six_ready b n m
  | EMixed N => mixed_ready b N m
  end.
Definition engine_F (e : engine) (k : meth) (X : nat -> C) : nat -> C :=
  match e with
  | EPow a n => pow_F a n k X
  | ESix n => six_F n k X
  | EMixed N => mixed_F N k X
  end.
Lemma six_own_0 b : six_own b b. Proof. unfold six_own. lia. Qed.
Local Hint Resolve six_own_0 : core.

Lemma engine_ready_local b e : Local (six_own b) (engine_ready b e).
Proof. destruct e; cbn; [apply pow_ready_local|apply six_ready_local|apply mixed_ready_local]; auto. Qed.
Lemma engine_setup_ok b N e : selects N e -> SetsUp (six_own b) (engine_setup b e) (engine_ready b e).
Proof. destruct 1; cbn; [apply pow_setup_ok|apply six_setup_ok|apply mixed_setup_ok]; auto. lia. Qed.
Lemma engine_run_ok b N e k : valid_length N -> selects N e ->
  Transforms (six_own b) (engine_ready b e) N (engine_run b e k) (engine_F e k).
Proof.
  intros (H1 & H2 & H3) [a n -> Hn|n -> Hn|]; cbn [engine_run engine_ready engine_F].
  - apply pow_run_ok; auto.
  - apply six_run_ok; auto.
  - apply mixed_run_ok; auto; lia.
Qed.

(** ** FFT0 *)
Definition fft0_ready (b N : nat) (m : mem) : Prop :=
  match select N with Some e => engine_ready b e m | None => True end.
Definition fft0_F (N : nat) (k : meth) (X : nat -> C) : nat -> C :=
  match select N with Some e => engine_F e (fft0_meth k) X | None => X end.

Lemma fft0_ready_local b N : Local (six_own b) (fft0_ready b N).
Proof. unfold fft0_ready. destruct (select N); [apply engine_ready_local|]. intros m m' _ _. exact I. Qed.

Lemma obj_reset_ok b : SetsUp (six_own b) (obj_reset b) (fun _ : mem => True).
Proof.
  intros m. eexists. split; [|split; [|split]].
  - cbn. auto.
  - cbn. reflexivity.
  - exact I.
  - intros l Hl. unfold six_own in Hl. rewrite !malloc_out; auto; lia.
Qed.

Lemma fft0_setup_ok b N : SetsUp (six_own b) (fft0_setup b N) (fft0_ready b N).
Proof.
  unfold fft0_setup, fft0_ready. eapply SetsUp_app; [apply obj_reset_ok|]. intros m _.
  destruct (select N) as [e|] eqn:E.
  - destruct (Nat.eq_dec N 1) as [->|HN]; [discriminate|].
    destruct (select_ok N HN) as (e' & E' & Hs). rewrite E in E'. injection E' as <-.
    apply (engine_setup_ok b N e Hs m).
  - exists m. cbn. auto.
Qed.

Lemma fft0_run_ok b N k : valid_length N ->
  Transforms (six_own b) (fft0_ready b N) N (fft0_run b N k) (fft0_F N k).
Proof.
  intros HN. unfold fft0_run, fft0_ready, fft0_F. destruct (select_ok N) as (e & E & Hs); [unfold valid_length in HN; lia|].
  rewrite E. apply (engine_run_ok b N e (fft0_meth k) HN Hs).
Qed.

(** ** FFT *)
Definition fft_own (b c : nat) : Prop := b <= c <= b + 3.
Definition fft_ready (b N : nat) (m : mem) : Prop := fft0_ready b N m /\ allocd m (inR (b + 3, 0) N).

Lemma six_fft_own b c : six_own b c -> fft_own b c.
Proof. unfold six_own, fft_own. lia. Qed.
Lemma Local_sub (own own' : nat -> Prop) (r : mem -> Prop) : (forall b, own b -> own' b) -> Local own r -> Local own' r.
Proof. intros H HL m m' Hf. apply HL. auto. Qed.
Lemma allocd_own_local (own : nat -> Prop) b n : own b -> Local own (fun m : mem => allocd m (inR (b, 0) n)).
Proof. intros Ho m m' Hf H l Hl. rewrite Hf; [apply H; auto|]. apply inR_fst in Hl. rewrite Hl. auto. Qed.
Lemma Local_and (own : nat -> Prop) (r1 r2 : mem -> Prop) : Local own r1 -> Local own r2 -> Local own (fun m => r1 m /\ r2 m).
Proof. intros H1 H2 m m' Hf [A B]. split; [eapply H1|eapply H2]; eauto. Qed.

Lemma fft_ready_local b N : Local (fft_own b) (fft_ready b N).
Proof.
  apply Local_and.
  - eapply Local_sub; [|apply fft0_ready_local]. apply six_fft_own.
  - apply allocd_own_local. unfold fft_own. lia.
Qed.

Lemma SetsUp_alloc b n : SetsUp (eq b) [New b n] (fun m : mem => allocd m (inR (b, 0) n)).
Proof.
  intros m. exists (malloc m b n). split; [|split; [|split]].
  - cbn. auto.
  - reflexivity.
  - apply malloc_allocd.
  - intros l Hl. apply malloc_out. congruence.
Qed.

Lemma fft_setup_ok b N : SetsUp (fft_own b) (fft_setup b N) (fft_ready b N).
Proof.
  unfold fft_setup, fft_ready. eapply (SetsUp_two (six_own b) (eq (b + 3))).
  - apply fft0_setup_ok.
  - apply SetsUp_alloc.
  - apply fft0_ready_local.
  - unfold six_own. lia.
  - apply six_fft_own.
  - intros c <-. unfold fft_own. lia.
Qed.

(** x and the object's work area change, nothing else *)
Lemma fft_run_ok b N k x m X : valid_length N -> ~ fft_own b (fst x) -> fft_ready b N m -> holds m x N X ->
  exists m', CExec (fft_run b N k x) (xy x (b + 3, 0) N) m m' /\ holds m' x N (fft0_F N k X).
Proof.
  intros HN Hx [Hr Ha] Hh. apply (fft0_run_ok b N k HN); auto.
  - intros H. apply Hx, six_fft_own, H.
  - unfold six_own. cbn. lia.
  - apply disjR_buf. cbn. unfold fft_own in Hx. lia.
Qed.

Lemma fft_run_ready b N k x m X m' : valid_length N -> ~ fft_own b (fst x) -> fft_ready b N m -> holds m x N X ->
  call_exec (fft_run b N k x) m m' -> fft_ready b N m'.
Proof.
  intros HN Hx Hr Hh He. destruct (fft_run_ok b N k x m X HN Hx Hr Hh) as (m1 & Hc & _).
  eapply fft_ready_local; [intros l _; eapply CExec_exec; eauto|].
  destruct Hr as [Hr Ha]. split.
  - eapply CExec_ready; [apply fft0_ready_local|exact Hr|exact Hc|]. intros l. apply xy_own.
    + intros H. apply Hx, six_fft_own, H.
    + unfold six_own. cbn. lia.
  - destruct Hc as (_ & _ & Hc). eapply chg_allocd; eauto.
Qed.

(** ** histories of an FFT object in buffers b..b+3 *)
Definition fft_legal (b N : nat) (m : mem) (c : list (act C)) : Prop :=
  exists k x X, c = fft_run b N k x /\ ~ fft_own b (fst x) /\ holds m x N X.
Definition fft_history (b : nat) : option nat -> mem -> Prop :=
  History (fft_own b) (fun _ n => Some n) (fft_setup b) (fft_legal b).

Lemma fft_history_ready b N m : fft_history b (Some N) m -> valid_length N -> fft_ready b N m.
Proof.
  intros H HN.
  refine (History_ready (fft_own b) (fun _ n => Some n) (fft_setup b) (fft_legal b) (fft_ready b) valid_length _ _ _ _ _ H N eq_refl HN).
  - intros N0 _. apply fft_ready_local.
  - intros o n m0 m' N0 He [= <-] _ _. eapply SetsUp_exec; [apply fft_ready_local|apply fft_setup_ok|exact He].
  - intros N0 m0 c m' Hv Hr (k & x & X & -> & Hx & Hh) He. eapply fft_run_ready; eauto.
Qed.

End Api.
