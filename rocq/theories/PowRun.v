(** * The power-of-two transforms as functions (any arithmetic) *)

From Coq Require Import List Arith ZArith Bool Lia.
From Verif Require Import Scalar Mem MemFacts Omp OmpFacts Lanes Stage CoreStage Twid Object ObjectFacts Engine MixedDrive ModelPow PowDrive PowKern.
Import ListNotations.

Section PowRun.
Context {Op : Ops}.
Notation mem := (mem C).

(** what fwdfft/invfft compute from the twiddle table T and the input X *)
Definition pow_ff (o : bool) (a : alg) (inv : bool) (mode : smode) : nat -> nat -> nat -> (nat -> C) -> (nat -> C) -> nat -> C :=
  if is_dit a then dit_ff (radix a) (eF o a inv mode) (cF o a inv) else dif_ff (radix a) (eF o a inv mode) (cF o a inv).

(** the entries of the table that are written by the setup and read by the kernels *)
Definition Wt_P (r N i : nat) : Prop :=
  i < (r - 1) * (N / r) \/ exists p k, p < N / r /\ 1 <= k < r /\ i = N + r * p + k.
Definition NWp (o : bool) (a : alg) (N : nat) : nat -> Prop :=
  if o then Lt (N / radix a) else Wt_P (radix a) N.

Lemma ktw_in o a m s N p e : N = radix a * m * s -> 0 < s -> p < m -> In e (ktw o a m s p) -> NWp o a N e.
Proof.
  intros HN Hs Hp. assert (Hr : 1 < radix a) by (destruct a; cbn; lia).
  assert (Eq : N / radix a = m * s) by (rewrite HN; apply quot; lia).
  unfold ktw, NWp. destruct o; [|unfold tw_s; destruct (Nat.eqb_spec s 1) as [->|Hs1]].
  - intros [<-|[]]. unfold Lt. rewrite Eq. nia.
  - intros H. apply in_map_iff in H as (k & <- & Hk). apply in_seq in Hk. left. rewrite Eq. nia.
  - intros H. apply in_map_iff in H as (k & <- & Hk). apply in_seq in Hk. right. rewrite Eq.
    exists (s * p), k. split; [nia|]. split; lia.
Qed.

Lemma radix_pow2 a : pow2 (radix a).
Proof. destruct a; cbn; [exists 2|exists 3|exists 4|exists 2|exists 3|exists 4]; reflexivity. Qed.
Lemma radix_4 a : exists h, radix a = 4 * h.
Proof. destruct a; cbn; [exists 1|exists 2|exists 4|exists 1|exists 2|exists 4]; reflexivity. Qed.
Lemma ends_pow2 n r : pow2 n -> 2 <= n <= r -> r <= 16 -> ends n.
Proof.
  intros [k ->] H Hr. assert (2 ^ k <= 2 ^ 4) by (cbn; lia). apply pow2_inj_le in H0.
  assert (k <> 0) by (intros ->; cbn in H; lia).
  assert (k = 1 \/ k = 2 \/ k = 3 \/ k = 4) as [->|[->|[->| ->]]] by lia; unfold ends; cbn; auto.
Qed.
Lemma radix_16 a : radix a <= 16.
Proof. destruct a; cbn; lia. Qed.
Lemma four_pos s : four_or_1 s -> 0 < s.
Proof. intros [->|(h & -> & H)]; lia. Qed.

Lemma dit_rec_end {A} (seq : A -> A -> A) bad r core fin n s eo x y : 0 < n -> n <= r ->
  dit_rec seq bad r core fin n n s eo x y = fin n s eo x y.
Proof. intros H0 H. destruct n as [|n']; [lia|]. cbn [dit_rec]. apply Nat.leb_le in H. rewrite H. reflexivity. Qed.
Lemma dit_ff_end {V} r (e c : nat -> nat -> (nat -> V) -> (nat -> V) -> nat -> V) n s T X : 0 < n -> n <= r ->
  dit_ff r e c n n s T X = e n s T X.
Proof. intros H0 H. destruct n as [|n']; [lia|]. cbn [dit_ff]. apply Nat.leb_le in H. rewrite H. reflexivity. Qed.
Lemma dif_rec_end {A} (seq : A -> A -> A) bad r core fin n s eo x y : 0 < n -> n <= r ->
  dif_rec seq bad r core fin n n s eo x y = fin n s eo x y.
Proof. intros H0 H. destruct n as [|n']; [lia|]. cbn [dif_rec]. apply Nat.leb_le in H. rewrite H. reflexivity. Qed.
Lemma dif_ff_end {V} r (e c : nat -> nat -> (nat -> V) -> (nat -> V) -> nat -> V) n s T X : 0 < n -> n <= r ->
  dif_ff r e c n n s T X = e n s T X.
Proof. intros H0 H. destruct n as [|n']; [lia|]. cbn [dif_ff]. apply Nat.leb_le in H. rewrite H. reflexivity. Qed.

(** input and output arrays: DIF reads x and leaves the result in Xout eo x y; DIT reads Xout eo x y and leaves it in x *)
Definition inp (a : alg) (eo : bool) (x y : ptr) := if is_dit a then Xout eo x y else x.
Definition outp (a : alg) (eo : bool) (x y : ptr) := if is_dit a then x else Xout eo x y.

Section Whole.
Variables (a : alg) (inv : bool) (mode : smode) (n s : nat) (eo : bool) (x y W : ptr).
Hypothesis Hn2 : 2 <= n.
Hypothesis Hp2 : pow2 n.
Hypothesis Hs : four_or_1 s.

Lemma fft_s_C (NW : nat -> Prop) : (radix a < n -> forall i, NWp false a (n * s) i -> NW i) -> okT (n * s) W NW x y ->
  Computes (fft_s a inv mode n s eo x y W) (inp a eo x y) (n * s) W NW
  (fun l => inR x (n * s) l \/ inR y (n * s) l) (outp a eo x y) (n * s) (pow_ff false a inv mode n n s).
Proof.
  intros Hsub Hok. unfold fft_s, inp, outp, pow_ff.
  assert (Htab : forall m h s', n * s = radix a * m * s' -> m = 2 * h -> 0 < h -> 0 < s' -> (radix a < n) -> forall p e, p < m -> In e (ktw false a m s' p) -> NW e).
  { intros m h s' HN Hm Hh Hs' Hlt p e Hp He. apply Hsub; auto. eapply ktw_in; eauto. }
  destruct (le_lt_dec n (radix a)) as [Hle|Hlt].
  - assert (En : ends n) by (eapply ends_pow2; eauto; apply radix_16).
    destruct (is_dit a) eqn:Ed.
    + rewrite dit_rec_end by (auto; lia). eapply Computes_weaken.
      * eapply Computes_ext; [apply dit_end_C; eauto|]. intros T X i _. rewrite dit_ff_end by (auto; lia). reflexivity.
      * auto.
    + rewrite dif_rec_end by (auto; lia). eapply Computes_weaken.
      * eapply Computes_ext; [apply dif_end_C; eauto|]. intros T X i _. rewrite dif_ff_end by (auto; lia). reflexivity.
      * intros l. destruct eo; cbn; auto.
  - destruct (is_dit a) eqn:Ed.
    + apply (dit_rec_C (V:=C) _ _ _ _ _ _ Computes); auto using radix_pow2, radix_4.
      * intros. eapply Computes_seq; eauto.
      * intros. eapply Computes_ext; eauto.
      * intros. eapply Computes_weaken; eauto.
      * intros m h s' x' y' HN Hm Hh Hs' Hok'. eapply dit_core_C; eauto using four_pos.
      * intros n' s' eo' x' y' HN Hpn Hle Hs' Hok'. eapply dit_end_C; eauto; [|lia]. eapply ends_pow2; eauto. apply radix_16.
    + apply (dif_rec_C (V:=C) _ _ _ _ _ _ Computes); auto using radix_pow2, radix_4.
      * intros. eapply Computes_seq; eauto.
      * intros. eapply Computes_ext; eauto.
      * intros. eapply Computes_weaken; eauto.
      * intros m h s' x' y' HN Hm Hh Hs' Hok'. eapply dif_core_C; eauto using four_pos.
      * intros n' s' eo' x' y' HN Hpn Hle Hs' Hok'. eapply dif_end_C; eauto; [|lia]. eapply ends_pow2; eauto. apply radix_16.
Qed.

Lemma fft_o_R : okT (n * s) W (NWp true a (n * s)) x y ->
  RComputes (fft_o a inv mode n s eo x y W) (inp a eo x y) (n * s) W (NWp true a (n * s))
  (fun l => inR x (n * s) l \/ inR y (n * s) l) (outp a eo x y) (n * s) (pow_ff true a inv mode n n s).
Proof.
  intros Hok. unfold fft_o, inp, outp, pow_ff.
  assert (Htab : forall m h s', n * s = radix a * m * s' -> m = 2 * h -> 0 < h -> 0 < s' -> forall p e, p < m -> In e (ktw true a m s' p) -> NWp true a (n * s) e).
  { intros m h s' HN Hm Hh Hs' p e Hp He. eapply ktw_in; eauto. }
  destruct (is_dit a) eqn:Ed.
  + apply (dit_rec_C (V:=C) _ _ _ _ _ _ RComputes); auto using radix_pow2, radix_4.
    * intros. eapply RComputes_app; eauto.
    * intros. eapply RComputes_ext; eauto.
    * intros. eapply RComputes_weaken; eauto.
    * intros m h s' x' y' HN Hm Hh Hs' Hok'. eapply dit_core_R; eauto using four_pos.
    * intros n' s' eo' x' y' HN Hpn Hle Hs' Hok'. eapply dit_end_R; eauto; [|lia]. eapply ends_pow2; eauto. apply radix_16.
  + apply (dif_rec_C (V:=C) _ _ _ _ _ _ RComputes); auto using radix_pow2, radix_4.
    * intros. eapply RComputes_app; eauto.
    * intros. eapply RComputes_ext; eauto.
    * intros. eapply RComputes_weaken; eauto.
    * intros m h s' x' y' HN Hm Hh Hs' Hok'. eapply dif_core_R; eauto using four_pos.
    * intros n' s' eo' x' y' HN Hpn Hle Hs' Hok'. eapply dif_end_R; eauto; [|lia]. eapply ends_pow2; eauto. apply radix_16.
Qed.
End Whole.

End PowRun.
