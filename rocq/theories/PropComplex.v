(** * Properties of the complex transform (ComplexFFT, class FFT)

    Reading guide.  An FFT object occupies the memory buffers b..b+3 (tables b..b+2, work area b+3).
    [fft_history b (Some N) m]: m is a memory that can arise after ANY sequence of setup calls, legal
    method calls and arbitrary changes to memory not owned by the object, the last setup being setup(N)
    (History.v).  [holds m x N X]: the N elements at x hold the values X 0 .. X (N-1).
    [Outcome c m m'] (Object.v): call c started in m has defined behaviour and ends with memory m',
    for every number of threads and every interleaving: it completes, every execution ends in m', and no
    reachable state is undefined, racy, stuck or part of an infinite run.
    [valid_length N]: 2 <= N <= 2^30 and p*p <= INT_MAX for every prime p dividing N. *)

From Coq Require Import Reals List Arith ZArith Bool Lia.
From Verif Require Import Scalar RealOps Spec Mem MemFacts Omp Lanes Stage Object Engine ApiSpec FactorFacts
  ModelApi History ApiFacts ApiExact Footprint ComplexThms.
Import ListNotations.

(** C01 *)
Theorem C01_forward_is_DFT : forall b N x (m : mem CC) X,
  valid_length N -> fft_history b (Some N) m -> ~ fft_own b (fst x) -> holds m x N X ->
  exists m', Outcome (fft_run b N fwd0 x) m m' /\
    (forall k, k < N -> m' (x +! k) = Val (csum N (fun j => cmul (X j) (cis (- (2 * PI * INR (j * k) / INR N)))))) /\
    (forall l, ~ inR x N l -> ~ inR (b + 3, 0) N l -> m' l = m l).
Proof.
  intros b N x m X HN Hh Hx HX. destruct (fft_call b N fwd0 x m X HN Hh Hx HX) as (m' & H1 & H2 & H3 & _).
  exists m'. split; [exact H1|]. split; [|exact H3]. intros k Hk. rewrite (H2 k Hk). f_equal.
  unfold transform. cbn [factor meth_scaling meth_inv]. rewrite SixExact.cscal_1. apply DftFacts.csum_ext. intros j _. unfold W. do 2 f_equal. ring.
Qed.
Print Assumptions C01_forward_is_DFT.

(** C02 *)
Theorem C02_inverse_is_conjugate_DFT : forall b N k0 x (m : mem CC) X, k0 = inv \/ k0 = inv0 ->
  valid_length N -> fft_history b (Some N) m -> ~ fft_own b (fst x) -> holds m x N X ->
  exists m', Outcome (fft_run b N k0 x) m m' /\
    (forall k, k < N -> m' (x +! k) = Val (csum N (fun j => cmul (X j) (cis (2 * PI * INR (j * k) / INR N))))) /\
    (forall l, ~ inR x N l -> ~ inR (b + 3, 0) N l -> m' l = m l).
Proof.
  intros b N k0 x m X Hk0 HN Hh Hx HX. destruct (fft_call b N k0 x m X HN Hh Hx HX) as (m' & H1 & H2 & H3 & _).
  exists m'. split; [exact H1|]. split; [|exact H3]. intros k Hk. rewrite (H2 k Hk). f_equal.
  assert (E : transform k0 N X k = DFT true N X k) by (destruct Hk0 as [-> | ->]; unfold transform; cbn [factor meth_scaling meth_inv]; apply SixExact.cscal_1).
  rewrite E. apply DftFacts.csum_ext. intros j _. unfold W. do 2 f_equal. ring.
Qed.
Print Assumptions C02_inverse_is_conjugate_DFT.

(** C03: all eight methods; [transform] (ApiSpec.v) multiplies the DFT or conjugate DFT by
    1 (fwd0, inv, inv0), 1/sqrt N (fwdu, invu) or 1/N (fwd, fwdn, invn) *)
Theorem C03_scaling_variants : forall b N k x (m : mem CC) X,
  valid_length N -> fft_history b (Some N) m -> ~ fft_own b (fst x) -> holds m x N X ->
  exists m', Outcome (fft_run b N k x) m m' /\ holds m' x N (transform k N X) /\
    (forall l, ~ inR x N l -> ~ inR (b + 3, 0) N l -> m' l = m l).
Proof.
  intros b N k x m X HN Hh Hx HX. destruct (fft_call b N k x m X HN Hh Hx HX) as (m' & H1 & H2 & H3 & _).
  exists m'. auto.
Qed.
Print Assumptions C03_scaling_variants.
Example C03_table : map meth_scaling [fwd; fwd0; fwdu; fwdn; inv; inv0; invu; invn] =
  [ByLength; Unscaled; Unitary; ByLength; Unscaled; Unscaled; Unitary; ByLength] /\
  map meth_inv [fwd; fwd0; fwdu; fwdn; inv; inv0; invu; invn] = [false; false; false; false; true; true; true; true] /\
  (forall N, factor Unscaled N = 1%R /\ factor Unitary N = (/ sqrt (INR N))%R /\ factor ByLength N = (/ INR N)%R).
Proof. repeat split. Qed.

(** C04: k1 then k2 on the same array, with anything in between that leaves x and the object alone *)
Theorem C04_round_trips : forall k1 k2 b N x (m : mem CC) X,
  In (k1, k2) [(fwd, inv); (fwd, inv0); (fwdn, inv); (fwdn, inv0); (fwd0, invn); (fwdu, invu);
    (inv, fwd); (inv, fwdn); (inv0, fwd); (inv0, fwdn); (invn, fwd0); (invu, fwdu)] ->
  valid_length N -> fft_history b (Some N) m -> ~ fft_own b (fst x) -> holds m x N X ->
  exists m1, Outcome (fft_run b N k1 x) m m1 /\
    forall m2, (forall l, fft_own b (fst l) \/ inR x N l -> m2 l = m1 l) ->
    exists m3, Outcome (fft_run b N k2 x) m2 m3 /\ holds m3 x N X.
Proof.
  intros k1 k2 b N x m X Hk HN Hh Hx HX. destruct (fft_call b N k1 x m X HN Hh Hx HX) as (m1 & H1 & H2 & _ & H4).
  exists m1. split; [exact H1|]. intros m2 Hf.
  destruct (fft_call b N k2 x m2 (transform k1 N X) HN) as (m3 & H5 & H6 & _); [|exact Hx| |].
  - eapply h_other; [exact H4|]. auto.
  - intros i Hi. rewrite Hf by (right; apply inR_i; auto). apply H2. auto.
  - exists m3. split; [exact H5|]. intros i Hi. rewrite (H6 i Hi). f_equal.
    apply transform_inverse; [|unfold valid_length in HN; lia|exact Hi].
    repeat (destruct Hk as [[= <- <-]|Hk]; [reflexivity|]). destruct Hk.
Qed.
Print Assumptions C04_round_trips.

(** C05 *)
Theorem C05_energy : forall k b N x (m : mem CC) X, k = fwdu \/ k = invu ->
  valid_length N -> fft_history b (Some N) m -> ~ fft_own b (fst x) -> holds m x N X ->
  exists m' Y, Outcome (fft_run b N k x) m m' /\ holds m' x N Y /\
    rsum N (fun i => cnorm2 (Y i)) = rsum N (fun i => cnorm2 (X i)).
Proof.
  intros k b N x m X Hk HN Hh Hx HX. destruct (fft_call b N k x m X HN Hh Hx HX) as (m' & H1 & H2 & _).
  exists m', (transform k N X). split; [exact H1|]. split; [exact H2|].
  apply transform_energy; [|unfold valid_length in HN; lia]. destruct Hk as [-> | ->]; reflexivity.
Qed.
Print Assumptions C05_energy.

(** C29 (complex transforms): the result for a X + c Y is a times the result for X plus c times that for Y *)
Theorem C29_complex_linear : forall k b N x (mX mY mZ : mem CC) X Y a c,
  valid_length N -> fft_history b (Some N) mX -> fft_history b (Some N) mY -> fft_history b (Some N) mZ -> ~ fft_own b (fst x) ->
  holds mX x N X -> holds mY x N Y -> holds mZ x N (fun i => cadd (cmul a (X i)) (cmul c (Y i))) ->
  exists mX' mY' mZ' X' Y', Outcome (fft_run b N k x) mX mX' /\ Outcome (fft_run b N k x) mY mY' /\ Outcome (fft_run b N k x) mZ mZ' /\
    holds mX' x N X' /\ holds mY' x N Y' /\ holds mZ' x N (fun i => cadd (cmul a (X' i)) (cmul c (Y' i))).
Proof.
  intros k b N x mX mY mZ X Y a c HN H1 H2 H3 Hx A1 A2 A3.
  destruct (fft_call b N k x mX X HN H1 Hx A1) as (m1 & O1 & R1 & _).
  destruct (fft_call b N k x mY Y HN H2 Hx A2) as (m2 & O2 & R2 & _).
  destruct (fft_call b N k x mZ _ HN H3 Hx A3) as (m3 & O3 & R3 & _).
  exists m1, m2, m3, (transform k N X), (transform k N Y). repeat (split; [assumption|]).
  intros i Hi. rewrite (R3 i Hi). f_equal. apply transform_lin.
Qed.
Print Assumptions C29_complex_linear.

(** C07: setup and transforms access only the N elements of x, the N elements of the work area and the
    object's tables - allocated (and, when read, initialised) cells of them, by [oc_defined] - in every
    reachable state of every execution.  Any arithmetic. *)
Theorem C07_memory_safety : forall (Op : Ops) b N k x (m : mem C) X,
  valid_length N -> fft_history b (Some N) m -> ~ fft_own b (fst x) -> holds m x N X ->
  (exists m', Outcome (fft_run b N k x) m m' /\ (forall l, ~ inR x N l -> ~ inR (b + 3, 0) N l -> m' l = m l)) /\
  accesses_only (fft_run b N k x) m (fun l => inR x N l \/ inR (b + 3, 0) N l \/ b <= fst l <= b + 2).
Proof.
  intros Op b N k x m X HN Hh Hx HX. split.
  - destruct (fft_call_any b N k x m X HN Hh Hx HX) as (m' & H1 & _ & H3 & _). exists m'. auto.
  - exact (fft_call_footprint b N k x m X HN Hh Hx HX).
Qed.
Print Assumptions C07_memory_safety.
(** setup works for every length (also 0, 1 and unsupported ones) and after every history *)
Theorem C07_setup_safety : forall (Op : Ops) b N o (m : mem C), fft_history b o m ->
  (exists m', Outcome (fft_setup b N) m m' /\ (forall l, ~ fft_own b (fst l) -> m' l = m l)) /\
  accesses_only (fft_setup b N) m (fun l => b <= fst l <= b + 3).
Proof.
  intros Op b N o m Hh. destruct (fft_setup_call b N o m Hh) as (m' & H1 & H2 & _ & H4). split; [exists m'; auto|exact H4].
Qed.
Print Assumptions C07_setup_safety.

(** C08, C09, C24, C30: any arithmetic.  The result is a function F of N, the method and the input
    alone: not of the history of the object, the previous contents of its work area and of other memory,
    the location of the object or of x, the number of threads or the schedule. *)
Theorem C09_deterministic : forall (Op : Ops) N k, valid_length N ->
  exists F : (nat -> C) -> nat -> C, forall b x (m : mem C) X,
    fft_history b (Some N) m -> ~ fft_own b (fst x) -> holds m x N X ->
    exists m', Outcome (fft_run b N k x) m m' /\ holds m' x N (F X).
Proof.
  intros Op N k HN. exists (fft0_F N k). intros b x m X Hh Hx HX.
  destruct (fft_call_any b N k x m X HN Hh Hx HX) as (m' & H1 & H2 & _). exists m'. auto.
Qed.
Print Assumptions C09_deterministic.

Theorem C08_work_area_irrelevant : forall (Op : Ops) b N k x (m1 m2 : mem C) X,
  valid_length N -> fft_history b (Some N) m1 -> fft_history b (Some N) m2 -> ~ fft_own b (fst x) ->
  holds m1 x N X -> holds m2 x N X ->
  exists m1' m2' Y, Outcome (fft_run b N k x) m1 m1' /\ Outcome (fft_run b N k x) m2 m2' /\ holds m1' x N Y /\ holds m2' x N Y.
Proof.
  intros Op b N k x m1 m2 X HN H1 H2 Hx A1 A2.
  destruct (fft_call_any b N k x m1 X HN H1 Hx A1) as (m1' & O1 & R1 & _).
  destruct (fft_call_any b N k x m2 X HN H2 Hx A2) as (m2' & O2 & R2 & _).
  exists m1', m2', (fft0_F N k X). auto.
Qed.
Print Assumptions C08_work_area_irrelevant.

(** what [racing] means: the next operations of the two threads touch the same element and not both are loads *)
Lemma racing_iff : forall (Op : Ops) (p q : prog C unit), racing p q <->
  (exists l v w r s, p = Store l v r /\ q = Store l w s) \/
  (exists l v r s, p = Store l v r /\ q = Load l s) \/
  (exists l w r s, p = Load l r /\ q = Store l w s).
Proof.
  intros Op p q. split.
  - intros (l & b1 & b2 & H1 & H2 & H3). destruct p, q; cbn in H1, H2; try discriminate;
      injection H1 as -> <-; injection H2 as -> <-; cbn in H3; try discriminate; eauto 10.
  - intros [(l & v & w & r & s & -> & ->)|[(l & v & r & s & -> & ->)|(l & w & r & s & -> & ->)]];
      [exists l, true, true|exists l, true, false|exists l, false, true]; auto.
Qed.

(** C10: no reachable state of a setup or transform has two threads about to access the same element,
    one of them storing *)
Theorem C10_no_data_race : forall (Op : Ops) b N k x (m : mem C) X,
  valid_length N -> fft_history b (Some N) m -> ~ fft_own b (fst x) -> holds m x N X ->
  forall n T m1, call_reach (fft_run b N k x) m n T m1 -> forall i j, i < n -> j < n -> i <> j -> ~ racing (T i) (T j).
Proof.
  intros Op b N k x m X HN Hh Hx HX. destruct (fft_call_any b N k x m X HN Hh Hx HX) as (m' & [_ _ _ H _ _] & _). exact H.
Qed.
Print Assumptions C10_no_data_race.
Theorem C10_setup_no_data_race : forall (Op : Ops) b N o (m : mem C), fft_history b o m ->
  forall n T m1, call_reach (fft_setup b N) m n T m1 -> forall i j, i < n -> j < n -> i <> j -> ~ racing (T i) (T j).
Proof.
  intros Op b N o m Hh. destruct (fft_setup_call b N o m Hh) as (m' & [_ _ _ H _ _] & _). exact H.
Qed.
Print Assumptions C10_setup_no_data_race.

(** C15: what setup selects for every length other than 1: a power-of-two algorithm only for the powers of
    two 2^1..2^24 it has code for, mixed radix for everything else *)
Theorem C15_dispatch_total : forall N, N <> 1 ->
  exists e, select N = Some e /\
    match e with
    | EPow a n => N = 2 ^ n /\ 1 <= n <= 24
    | ESix n => N = 2 ^ n /\ 1 <= n <= 24
    | EMixed M => M = N
    end.
Proof. intros N HN. destruct (select_ok N HN) as (e & E & Hs). exists e. split; [exact E|]. destruct Hs; auto. Qed.
Print Assumptions C15_dispatch_total.

(** C24: an object set up for N after any history (including other lengths) and one set up for N as its
    first use give the same results *)
Theorem C24_setup_forgets : forall (Op : Ops) N k b o m0 b' m0' m1 m1' x x' (m m' : mem C) X,
  valid_length N ->
  fft_history b o m0 -> call_exec (fft_setup b N) m0 m1 ->
  call_exec (fft_setup b' N) m0' m1' ->
  (forall l, fft_own b (fst l) -> m l = m1 l) -> (forall l, fft_own b' (fst l) -> m' l = m1' l) ->
  ~ fft_own b (fst x) -> holds m x N X -> ~ fft_own b' (fst x') -> holds m' x' N X ->
  exists m2 m2' Y, Outcome (fft_run b N k x) m m2 /\ Outcome (fft_run b' N k x') m' m2' /\ holds m2 x N Y /\ holds m2' x' N Y.
Proof.
  intros Op N k b o m0 b' m0' m1 m1' x x' m m' X HN Hh He He' Hf Hf' Hx HX Hx' HX'.
  assert (H : fft_history b (Some N) m) by (eapply h_other; [eapply fft_h_setup; eauto|auto]).
  assert (H' : fft_history b' (Some N) m') by (eapply h_other; [eapply fft_h_setup; [apply h_start|eauto]|auto]).
  destruct (fft_call_any b N k x m X HN H Hx HX) as (m2 & O & R & _).
  destruct (fft_call_any b' N k x' m' X HN H' Hx' HX') as (m2' & O' & R' & _).
  exists m2, m2', (fft0_F N k X). auto.
Qed.
Print Assumptions C24_setup_forgets.

(** C25: a transform changes nothing of the object but the contents of its work area, and leaves it as
    usable as before: the same call on the same input gives the same result afterwards *)
Theorem C25_object_unchanged : forall (Op : Ops) b N k k' x x' (m m2 : mem C) X X',
  valid_length N -> fft_history b (Some N) m -> ~ fft_own b (fst x) -> holds m x N X -> ~ fft_own b (fst x') -> holds m x' N X' ->
  exists m' m1 Y, Outcome (fft_run b N k x) m m' /\
    (forall l, b <= fst l <= b + 2 -> m' l = m l) /\
    Outcome (fft_run b N k' x') m m1 /\ holds m1 x' N Y /\
    ((forall l, fft_own b (fst l) -> m2 l = m' l) -> holds m2 x' N X' ->
     exists m3, Outcome (fft_run b N k' x') m2 m3 /\ holds m3 x' N Y).
Proof.
  intros Op b N k k' x x' m m2 X X' HN Hh Hx HX Hx' HX'.
  destruct (fft_call_any b N k x m X HN Hh Hx HX) as (m' & H1 & H2 & H3 & H4).
  destruct (fft_call_any b N k' x' m X' HN Hh Hx' HX') as (m1 & I1 & I2 & _).
  exists m', m1, (fft0_F N k' X'). split; [exact H1|]. split; [|split; [exact I1|split; [exact I2|]]].
  - intros l Hl. apply H3; intros (i & _ & ->); cbn in Hl; [apply Hx; unfold fft_own; cbn; lia|lia].
  - intros Hf HX2. destruct (fft_call_any b N k' x' m2 X' HN) as (m3 & J1 & J2 & _); auto.
    + eapply h_other; [exact H4|auto].
    + exists m3. auto.
Qed.
Print Assumptions C25_object_unchanged.

(** ** the hypotheses are met *)
(** any length, data and array position, from any history *)
Theorem complex_hypotheses_met : forall (Op : Ops) b N x X, ~ fft_own b (fst x) ->
  exists m : mem C, fft_history b (Some N) m /\ holds m x N X.
Proof. intros Op b N x X Hx. exact (fft_history_inhabited b None (fun _ => Free) N x X (h_start _ _ _ _ _) Hx). Qed.
(** admissible lengths: every power of two up to 2^30, every N with 2 <= N <= 46340, and products *)
Theorem valid_lengths : (forall n, 1 <= n <= 30 -> valid_length (2 ^ n)) /\
  (forall N, 2 <= N -> (Z.of_nat N <= 46340)%Z -> valid_length N) /\
  (forall N M, valid_length N -> valid_length M -> (Z.of_nat (N * M) <= 2 ^ 30)%Z -> valid_length (N * M)).
Proof.
  split; [|split].
  - intros n Hn. split; [|split].
    + change 2 with (2 ^ 1) at 1. apply Nat.pow_le_mono_r; lia.
    + rewrite Nat2Z.inj_pow. apply Z.pow_le_mono_r; lia.
    + apply factors_fit_pow2.
  - intros N H2 H. split; [auto|]. split; [lia|]. apply factors_fit_small; auto; lia.
  - intros N M (A1 & A2 & A3) (B1 & B2 & B3) H. split; [nia|]. split; [auto|]. apply factors_fit_mul; auto.
Qed.
