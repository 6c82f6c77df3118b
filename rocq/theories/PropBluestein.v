(** * Properties of Bluestein's transform (BluesteinFFT, class Bluestein)

    Reading guide: see PropComplex.v.  A Bluestein object occupies the buffers b..b+6, of which b+3, b+4
    and b+5 are work areas.  [bl_length N]: 1 <= N <= 2^29 (documented: up to 2^28); N may be prime.
    [bl_history b (Some N) m]: m can arise after any sequence of setups, legal method calls and arbitrary
    changes to memory not owned by the object, the last effective setup being setup(N). *)

From Coq Require Import Reals List Arith ZArith Bool Lia Lra.
From Verif Require Import Scalar RealOps Spec DftFacts Mem MemFacts Omp Lanes Stage Object Engine ApiSpec
  ModelApi History ApiFacts Footprint ComplexThms GObj ModelReal ModelBluestein BluesteinRun BluesteinExact.
Import ListNotations.

Lemma bl_exact b N k x (m : mem CC) X : bl_length N -> bl_history b (Some N) m -> ~ bl_own b (fst x) -> holds m x N X ->
  exists m', Outcome (bl_run b N k x) m m' /\ holds m' x N (transform k N X) /\
    (forall l, ~ inR x N l -> ~ b + 3 <= fst l <= b + 5 -> m' l = m l) /\ bl_history b (Some N) m'.
Proof.
  intros HN Hh Hx HX. destruct (bl_call_ok b N k x m X HN Hh Hx HX) as (m' & H1 & H2 & H3 & H4 & _).
  exists m'. split; [exact H1|]. split; [|auto]. intros i Hi. rewrite (H2 i Hi). f_equal. apply bl_F_exact; auto.
Qed.

(** C21: fwd0 computes the DFT, fwd and fwdn that divided by N, fwdu divided by sqrt N *)
Theorem C21_bluestein_forward : forall b N k x (m : mem CC) X,
  In k [fwd; fwd0; fwdu; fwdn] ->
  bl_length N -> bl_history b (Some N) m -> ~ bl_own b (fst x) -> holds m x N X ->
  exists m', Outcome (bl_run b N k x) m m' /\
    (forall i, i < N -> m' (x +! i) = Val (cscal (match k with fwd0 => 1 | fwdu => / sqrt (INR N) | _ => / INR N end)%R
       (csum N (fun j => cmul (X j) (cis (- (2 * PI * INR (j * i) / INR N))))))) /\
    (forall l, ~ inR x N l -> ~ b + 3 <= fst l <= b + 5 -> m' l = m l).
Proof.
  intros b N k x m X Hk HN Hh Hx HX. destruct (bl_exact b N k x m X HN Hh Hx HX) as (m' & H1 & H2 & H3 & _).
  exists m'. split; [exact H1|]. split; [|exact H3]. intros i Hi. rewrite (H2 i Hi). f_equal. unfold transform.
  assert (E : DFT false N X i = csum N (fun j => cmul (X j) (cis (- (2 * PI * INR (j * i) / INR N))))).
  { apply csum_ext. intros j _. unfold W. do 2 f_equal. ring. }
  rewrite <- E. repeat (destruct Hk as [<-|Hk]; [reflexivity|]). destruct Hk.
Qed.
Print Assumptions C21_bluestein_forward.
(** length 1: every method is the identity, and writes nothing *)
Theorem C21_bluestein_length_1 : forall (Op : Ops) b k x (m : mem C) z,
  bl_history b (Some 1) m -> ~ bl_own b (fst x) -> m x = Val z ->
  exists m', Outcome (bl_run b 1 k x) m m' /\ forall l, m' l = m l.
Proof.
  intros Op b k x m z Hh Hx Hz.
  assert (HX : holds m x 1 (fun _ => z)).
  { intros i Hi. assert (i = 0) by lia. subst i. destruct x as [xb xo]. unfold padd. cbn [fst snd]. rewrite Nat.add_0_r. exact Hz. }
  assert (H1 : bl_length 1) by (split; [lia|]; change (2 ^ 29)%Z with 536870912%Z; lia).
  exists m. split; [|auto]. exact (ObjectFacts.CExec_Outcome _ _ _ _ (ObjectFacts.CExec_nil (fun _ => False) m)).
Qed.
Print Assumptions C21_bluestein_length_1.

(** C22: the inverse methods compute the conjugate DFT with their scalings ... *)
Theorem C22_bluestein_inverse : forall b N k x (m : mem CC) X,
  In k [inv; inv0; invu; invn] ->
  bl_length N -> bl_history b (Some N) m -> ~ bl_own b (fst x) -> holds m x N X ->
  exists m', Outcome (bl_run b N k x) m m' /\
    (forall i, i < N -> m' (x +! i) = Val (cscal (match k with invu => / sqrt (INR N) | invn => / INR N | _ => 1 end)%R
       (csum N (fun j => cmul (X j) (cis (2 * PI * INR (j * i) / INR N)))))) /\
    (forall l, ~ inR x N l -> ~ b + 3 <= fst l <= b + 5 -> m' l = m l).
Proof.
  intros b N k x m X Hk HN Hh Hx HX. destruct (bl_exact b N k x m X HN Hh Hx HX) as (m' & H1 & H2 & H3 & _).
  exists m'. split; [exact H1|]. split; [|exact H3]. intros i Hi. rewrite (H2 i Hi). f_equal. unfold transform.
  assert (E : DFT true N X i = csum N (fun j => cmul (X j) (cis (2 * PI * INR (j * i) / INR N)))).
  { apply csum_ext. intros j _. unfold W. do 2 f_equal. ring. }
  rewrite <- E. repeat (destruct Hk as [<-|Hk]; [reflexivity|]). destruct Hk.
Qed.
Print Assumptions C22_bluestein_inverse.
(** ... and are inverse, in both orders, to the forward methods with matching scaling *)
Theorem C22_bluestein_round_trip : forall k1 k2 b N x (m : mem CC) X,
  In (k1, k2) [(fwd, inv); (fwd, inv0); (fwdn, inv); (fwdn, inv0); (fwd0, invn); (fwdu, invu);
    (inv, fwd); (inv, fwdn); (inv0, fwd); (inv0, fwdn); (invn, fwd0); (invu, fwdu)] ->
  bl_length N -> bl_history b (Some N) m -> ~ bl_own b (fst x) -> holds m x N X ->
  exists m1, Outcome (bl_run b N k1 x) m m1 /\
    forall m2, (forall l, bl_own b (fst l) \/ inR x N l -> m2 l = m1 l) ->
    exists m3, Outcome (bl_run b N k2 x) m2 m3 /\ holds m3 x N X.
Proof.
  intros k1 k2 b N x m X Hk HN Hh Hx HX. destruct (bl_exact b N k1 x m X HN Hh Hx HX) as (m1 & H1 & H2 & _ & H4).
  exists m1. split; [exact H1|]. intros m2 Hf.
  destruct (bl_exact b N k2 x m2 (transform k1 N X) HN) as (m3 & H5 & H6 & _); [|exact Hx| |].
  - eapply h_other; [exact H4|]. auto.
  - intros i Hi. rewrite Hf by (right; apply inR_i; auto). apply H2. auto.
  - exists m3. split; [exact H5|]. intros i Hi. rewrite (H6 i Hi). f_equal.
    apply transform_inverse; [|unfold bl_length in HN; lia|exact Hi].
    repeat (destruct Hk as [[= <- <-]|Hk]; [reflexivity|]). destruct Hk.
Qed.
Print Assumptions C22_bluestein_round_trip.

(** C23: the padded length is the smallest power of two >= 2N-1, the doubling loop ends and no int overflows
    on the way; squares p*p fit in int64_t; the four table and buffer indices of every loop iteration are in
    range (the table has 2N+1 elements, the work areas L); b[p] and b[L-p] of any two iterations p, q are
    different elements, so nothing wraps around *)
Theorem C23_padding : forall N, bl_length N ->
  (Z.of_nat 2 * Z.of_nat N <= 2 ^ 31 - 1)%Z /\
  exists n L, pad_loop 32 1 (2 * N - 1) = Some L /\ L = 2 ^ n /\ 2 * N - 1 <= L /\
    (forall n', 2 * N - 1 <= 2 ^ n' -> n <= n') /\ (Z.of_nat L <= 2 ^ 31 - 1)%Z /\
    forall p q, 1 <= p < N -> 0 <= q < N ->
      (Z.of_nat p * Z.of_nat p <= 2 ^ 63 - 1)%Z /\
      (p * p) mod (2 * N) < 2 * N + 1 /\ 2 * N - (p * p) mod (2 * N) < 2 * N + 1 /\
      p < L /\ L - p < L /\ L - p <> q.
Proof.
  intros N HN. destruct (bl_pad N HN) as (n & E & Hn & HL & Hmin). pose proof HN as [H1 H2].
  change (2 ^ 29)%Z with 536870912%Z in H2. split; [change (2 ^ 31)%Z with 2147483648%Z; lia|].
  exists n, (2 ^ n). split; [exact E|]. split; [reflexivity|]. split; [exact HL|].
  split; [|split].
  - intros n' Hn'. destruct Hmin as [Hmin| ->]; [|lia]. destruct (Nat.le_gt_cases n n'); auto. exfalso.
    assert (2 ^ S n' <= 2 ^ n) by (apply Nat.pow_le_mono_r; lia). cbn [Nat.pow] in *. lia.
  - rewrite Nat2Z.inj_pow. assert (2 ^ Z.of_nat n <= 2 ^ 30)%Z by (apply Z.pow_le_mono_r; lia). change (Z.of_nat 2) with 2%Z.
    change (2 ^ 31)%Z with (2 * 2 ^ 30)%Z. lia.
  - intros p q Hp Hq. pose proof (Nat.mod_upper_bound (p * p) (2 * N) ltac:(lia)).
    split; [change (2 ^ 63)%Z with 9223372036854775808%Z; nia|]. repeat split; lia.
Qed.
Print Assumptions C23_padding.
Lemma pad_loop_over fuel : forall n B, (2 ^ 30 < Z.of_nat B)%Z -> (Z.of_nat (2 ^ n) <= 2 ^ 30)%Z -> pad_loop fuel (2 ^ n) B = None.
Proof.
  induction fuel as [|fuel IH]; intros n B HB H30; cbn [pad_loop].
  - destruct (Nat.ltb_spec (2 ^ n) B); [reflexivity|]. lia.
  - destruct (Nat.ltb_spec (2 ^ n) B); [|lia]. destruct (mul_ok (2 ^ n) 2) eqn:Em; [|reflexivity].
    replace (2 ^ n * 2) with (2 ^ S n) by (rewrite Nat.pow_succ_r'; lia). apply IH; [exact HB|].
    unfold mul_ok in Em. apply Z.leb_le in Em. rewrite Nat2Z.inj_pow in *. change (Z.of_nat 2) with 2%Z in *.
    apply Z.pow_le_mono_r; [lia|]. assert (Z.of_nat n < 30)%Z; [|lia]. apply Z.nle_gt. intros Hn.
    assert (2 ^ 30 <= 2 ^ Z.of_nat n)%Z by (apply Z.pow_le_mono_r; lia). unfold INT_MAX in Em. lia.
Qed.
(** beyond 2^29 setup has undefined behaviour: L *= 2 overflows *)
Theorem C23_padding_overflows_beyond : forall N, (2 ^ 29 < Z.of_nat N)%Z -> pad_loop 32 1 (2 * N - 1) = None.
Proof.
  intros N H. change (2 ^ 29)%Z with 536870912%Z in H. apply (pad_loop_over 32 0).
  - change (2 ^ 30)%Z with 1073741824%Z. lia.
  - change (Z.of_nat (2 ^ 0)) with 1%Z. lia.
Qed.

(** C29 for Bluestein *)
Theorem C29_bluestein_linear : forall k b N x (mX mY mZ : mem CC) X Y a c,
  bl_length N -> bl_history b (Some N) mX -> bl_history b (Some N) mY -> bl_history b (Some N) mZ -> ~ bl_own b (fst x) ->
  holds mX x N X -> holds mY x N Y -> holds mZ x N (fun i => cadd (cmul a (X i)) (cmul c (Y i))) ->
  exists mX' mY' mZ' X' Y', Outcome (bl_run b N k x) mX mX' /\ Outcome (bl_run b N k x) mY mY' /\ Outcome (bl_run b N k x) mZ mZ' /\
    holds mX' x N X' /\ holds mY' x N Y' /\ holds mZ' x N (fun i => cadd (cmul a (X' i)) (cmul c (Y' i))).
Proof.
  intros k b N x mX mY mZ X Y a c HN H1 H2 H3 Hx A1 A2 A3.
  destruct (bl_exact b N k x mX X HN H1 Hx A1) as (m1 & O1 & R1 & _).
  destruct (bl_exact b N k x mY Y HN H2 Hx A2) as (m2 & O2 & R2 & _).
  destruct (bl_exact b N k x mZ _ HN H3 Hx A3) as (m3 & O3 & R3 & _).
  exists m1, m2, m3, (transform k N X), (transform k N Y). repeat (split; [assumption|]).
  intros i Hi. rewrite (R3 i Hi). f_equal. apply transform_lin.
Qed.
Print Assumptions C29_bluestein_linear.

(** C31: Bluestein and complex transform objects of equal length give equal results, all eight methods *)
Theorem C31_bluestein_is_complex : forall k b b' N x x' (m m' : mem CC) X,
  bl_length N -> valid_length N -> bl_history b (Some N) m -> ~ bl_own b (fst x) -> holds m x N X ->
  fft_history b' (Some N) m' -> ~ fft_own b' (fst x') -> holds m' x' N X ->
  exists m1 m1' Y, Outcome (bl_run b N k x) m m1 /\ holds m1 x N Y /\ Outcome (fft_run b' N k x') m' m1' /\ holds m1' x' N Y.
Proof.
  intros k b b' N x x' m m' X HN HN' Hh Hx HX Hh' Hx' HX'.
  destruct (bl_exact b N k x m X HN Hh Hx HX) as (m1 & O1 & R1 & _).
  destruct (fft_call b' N k x' m' X HN' Hh' Hx' HX') as (m1' & O2 & R2 & _).
  exists m1, m1', (transform k N X). auto.
Qed.
Print Assumptions C31_bluestein_is_complex.

(** C05 for Bluestein *)
Theorem C05_bluestein_energy : forall k b N x (m : mem CC) X, k = fwdu \/ k = invu ->
  bl_length N -> bl_history b (Some N) m -> ~ bl_own b (fst x) -> holds m x N X ->
  exists m' Y, Outcome (bl_run b N k x) m m' /\ holds m' x N Y /\
    rsum N (fun i => cnorm2 (Y i)) = rsum N (fun i => cnorm2 (X i)).
Proof.
  intros k b N x m X Hk HN Hh Hx HX. destruct (bl_exact b N k x m X HN Hh Hx HX) as (m' & H1 & H2 & _).
  exists m', (transform k N X). split; [exact H1|]. split; [exact H2|].
  apply transform_energy; [|unfold bl_length in HN; lia]. destruct Hk as [-> | ->]; reflexivity.
Qed.
Print Assumptions C05_bluestein_energy.

(** C07, C25: in any arithmetic *)
Theorem C07_bluestein_safety : forall (Op : Ops) b N k x (m : mem C) X,
  bl_length N -> bl_history b (Some N) m -> ~ bl_own b (fst x) -> holds m x N X ->
  (exists m', Outcome (bl_run b N k x) m m' /\ (forall l, ~ inR x N l -> ~ b + 3 <= fst l <= b + 5 -> m' l = m l)) /\
  accesses_only (bl_run b N k x) m (fun l => inR x N l \/ bl_own b (fst l)).
Proof.
  intros Op b N k x m X HN Hh Hx HX. destruct (bl_call_ok b N k x m X HN Hh Hx HX) as (m' & H1 & _ & H3 & _ & H5).
  split; [exists m'; auto|exact H5].
Qed.
Print Assumptions C07_bluestein_safety.
Theorem C07_bluestein_setup_safety : forall (Op : Ops) b N o (m : mem C), bl_length N -> bl_history b o m ->
  (exists m', Outcome (bl_setup b N) m m' /\ (forall l, ~ bl_own b (fst l) -> m' l = m l)) /\
  accesses_only (bl_setup b N) m (fun l => bl_own b (fst l)).
Proof.
  intros Op b N o m HN Hh. destruct (bl_setup_call b N o m HN Hh) as (m' & H1 & H2 & _ & H4). split; [exists m'; auto|exact H4].
Qed.
Print Assumptions C07_bluestein_setup_safety.
(** C08, C09, C24: the result is a function of N, the method and the input alone *)
Theorem C09_bluestein_deterministic : forall (Op : Ops) N k, bl_length N ->
  exists F : (nat -> C) -> nat -> C, forall b x (m : mem C) X,
    bl_history b (Some N) m -> ~ bl_own b (fst x) -> holds m x N X ->
    exists m', Outcome (bl_run b N k x) m m' /\ holds m' x N (F X).
Proof.
  intros Op N k HN. exists (bl_F N k). intros b x m X Hh Hx HX.
  destruct (bl_call_ok b N k x m X HN Hh Hx HX) as (m' & H1 & H2 & _). exists m'. auto.
Qed.
Print Assumptions C09_bluestein_deterministic.
Theorem C10_bluestein_no_data_race : forall (Op : Ops) b N k x (m : mem C) X,
  bl_length N -> bl_history b (Some N) m -> ~ bl_own b (fst x) -> holds m x N X ->
  forall n T m1, call_reach (bl_run b N k x) m n T m1 -> forall i j, i < n -> j < n -> i <> j -> ~ racing (T i) (T j).
Proof.
  intros Op b N k x m X HN Hh Hx HX. destruct (bl_call_ok b N k x m X HN Hh Hx HX) as (m' & [_ _ _ H _ _] & _). exact H.
Qed.
Print Assumptions C10_bluestein_no_data_race.
Theorem C10_bluestein_setup_no_data_race : forall (Op : Ops) b N o (m : mem C), bl_length N -> bl_history b o m ->
  forall n T m1, call_reach (bl_setup b N) m n T m1 -> forall i j, i < n -> j < n -> i <> j -> ~ racing (T i) (T j).
Proof.
  intros Op b N o m HN Hh. destruct (bl_setup_call b N o m HN Hh) as (m' & [_ _ _ H _ _] & _). exact H.
Qed.
Print Assumptions C10_bluestein_setup_no_data_race.
(** C25: of the object, only the work areas b+3 .. b+5 change, and later calls give the same results *)
Theorem C25_bluestein_object_unchanged : forall (Op : Ops) b N k k' x x' (m m2 : mem C) X X',
  bl_length N -> bl_history b (Some N) m -> ~ bl_own b (fst x) -> holds m x N X -> ~ bl_own b (fst x') -> holds m x' N X' ->
  exists m' m1 Y, Outcome (bl_run b N k x) m m' /\
    (forall l, b <= fst l <= b + 2 \/ fst l = b + 6 -> m' l = m l) /\
    Outcome (bl_run b N k' x') m m1 /\ holds m1 x' N Y /\
    ((forall l, bl_own b (fst l) -> m2 l = m' l) -> holds m2 x' N X' ->
     exists m3, Outcome (bl_run b N k' x') m2 m3 /\ holds m3 x' N Y).
Proof.
  intros Op b N k k' x x' m m2 X X' HN Hh Hx HX Hx' HX'.
  destruct (bl_call_ok b N k x m X HN Hh Hx HX) as (m' & H1 & H2 & H3 & H4 & _).
  destruct (bl_call_ok b N k' x' m X' HN Hh Hx' HX') as (m1 & I1 & I2 & _).
  exists m', m1, (bl_F N k' X'). split; [exact H1|]. split; [|split; [exact I1|split; [exact I2|]]].
  - intros l Hl. apply H3; [|lia]. intros (i & _ & ->). cbn in Hl. apply Hx. unfold bl_own. cbn. lia.
  - intros Hf HX2. destruct (bl_call_ok b N k' x' m2 X' HN) as (m3 & J1 & J2 & _); auto.
    + eapply h_other; [exact H4|auto].
    + exists m3. auto.
Qed.
Print Assumptions C25_bluestein_object_unchanged.
(** C24, the exception: setup(0) on a Bluestein object does nothing, so the object keeps the length it had *)
Theorem C24_bluestein_setup_0_ignored : forall (Op : Ops) b (m m' : mem C), call_exec (bl_setup b 0) m m' -> forall l, m' l = m l.
Proof. intros Op b m m' H. inversion H; subst. reflexivity. Qed.

(** the hypotheses are met: every length, data, position *)
Theorem bluestein_hypotheses_met : forall (Op : Ops) b N x X, bl_length N -> ~ bl_own b (fst x) ->
  exists m : mem C, bl_history b (Some N) m /\ holds m x N X.
Proof.
  intros Op b N x X HN Hx.
  destruct (bl_history_any b N (poke x N X (fun _ => Uninit)) HN) as (m & Hm & Hf). exists m. split; [exact Hm|].
  intros i Hi. rewrite Hf by auto. apply poke_holds. auto.
Qed.
