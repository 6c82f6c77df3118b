(** * What the inverse real transform makes of an arbitrary spectrum (C60)

    RFFT::inv, inv0, invu, invn (otfft_algo.cpp 399-498) read x[0] .. x[N/2] only: the second half of the array is
    overwritten before it is read.  C18 covers Hermitian spectra; here the spectrum is arbitrary, as after a client
    filtered it.  Reading guide: see PropReal.v. *)

From Coq Require Import Reals List Arith ZArith Bool Lia Lra.
From Verif Require Import Scalar RealOps Spec DftFacts Mem MemFacts Omp Lanes Stage Object Engine ApiSpec FactorFacts FftSpec
  ModelApi History ApiFacts ApiExact Footprint ComplexThms ModelReal RealFacts RealRun RealExact GObj RealObj RealSpec RealThms.
Import ListNotations.

(** C60, first part, in any arithmetic: it is enough that x[0] .. x[N/2] are initialised; the call is defined and free
    of races, and the result depends on nothing else: two objects, with two arrays that agree up to N/2 and
    have anything or nothing in the second half, give the same result *)
Theorem C60_second_half_ignored : forall (Op : Ops) N k b x y (m : mem C) b' x' y' (m' : mem C) X,
  real_length N -> meth_inv k = true ->
  rfft_history b (Some N) m -> ~ fft_own b (fst x) -> ~ fft_own b (fst y) -> disjR x N y N ->
  allocd m (inR y N) -> allocd m (inR x N) -> holds m x (N / 2 + 1) X ->
  rfft_history b' (Some N) m' -> ~ fft_own b' (fst x') -> ~ fft_own b' (fst y') -> disjR x' N y' N ->
  allocd m' (inR y' N) -> allocd m' (inR x' N) -> holds m' x' (N / 2 + 1) X ->
  exists m1 m1' Y, Outcome (rfft_run b N k x y) m m1 /\ Outcome (rfft_run b' N k x' y') m' m1' /\
    holds m1 y N Y /\ holds m1' y' N Y.
Proof.
  intros Op N k b x y m b' x' y' m' X HN Hk Hh Hx Hy Hd Ha Hax HX Hh' Hx' Hy' Hd' Ha' Hax' HX'.
  rewrite <- (rf_in_inv N k HN Hk) in HX, HX'.
  destruct (rfft_call_gen b N k x y m X HN Hh Hx Hy Hd Ha Hax HX) as (m1 & A1 & A2 & _).
  destruct (rfft_call_gen b' N k x' y' m' X HN Hh' Hx' Hy' Hd' Ha' Hax' HX') as (m2 & B1 & B2 & _).
  exists m1, m2, (rfft_res N k X). auto.
Qed.
Print Assumptions C60_second_half_ignored.

(** exact arithmetic: bins 0 and N/2 enter through z[0] only *)
Definition fold_dc (N : nat) (X : nat -> CC) (j : nat) : CC :=
  if Nat.eqb j 0 then rc (Re (X 0) - Im (X (N / 2))) else if Nat.eqb j (N / 2) then rc (Re (X (N / 2)) - Im (X 0)) else X j.
Lemma ri_z_fold N k X j : real_length N -> j < N / 2 -> ri_z N k (U_T N) X j = ri_z N k (U_T N) (fold_dc N X) j.
Proof.
  intros (EN & _ & H2 & _) Hj. unfold ri_z. f_equal. unfold fold_dc.
  destruct (Nat.eqb_spec j 0) as [-> | H0].
  - rewrite Nat.sub_0_r, Nat.eqb_refl. destruct (Nat.eqb_spec (N / 2) 0); [lia|].
    rewrite U_exact by lia. unfold Uval, ang. replace (2 * PI * INR 0 / INR N)%R with 0%R by (cbn [INR]; unfold Rdiv; ring).
    replace (-1 * 0)%R with 0%R by ring. rewrite ?Ropp_0, sin_0, cos_0. destruct (X 0) as [a c], (X (N / 2)) as [d e]. csimp; field.
  - destruct (Nat.eqb_spec j (N / 2)); [lia|]. destruct (Nat.eqb_spec (N / 2 - j) 0); [lia|]. destruct (Nat.eqb_spec (N / 2 - j) (N / 2)); [lia|]. reflexivity.
Qed.
Lemma rfft_G_fold N k X e : real_length N -> e < N -> rfft_G N k X e = rfft_G N k (fold_dc N X) e.
Proof.
  intros HN He. assert (EN : N = 2 * (N / 2)) by apply HN.
  pose proof (Nat.div_mod e 2 ltac:(lia)). pose proof (Nat.mod_upper_bound e 2 ltac:(lia)).
  assert (K : fft0_F (N / 2) (ri_kind k) (ri_z N k (U_T N) X) (e / 2) = fft0_F (N / 2) (ri_kind k) (ri_z N k (U_T N) (fold_dc N X)) (e / 2)).
  { rewrite !fft0_F_exact by (apply HN || lia). apply transform_ext. intros j Hj. apply ri_z_fold; auto. }
  unfold rfft_G, ri_out. rewrite K. reflexivity.
Qed.

(** C60, second part, exact arithmetic: for any spectrum the result is the inverse transform of the Hermitian vector H that
    continues the first half; the imaginary parts of bins 0 and N/2, which a Hermitian vector cannot have, are
    not ignored: that of bin N/2 is subtracted from bin 0 and that of bin 0 from bin N/2 *)
Theorem C60_any_spectrum : forall b N k x y (m : mem CC) X H,
  real_length N -> meth_inv k = true -> rfft_history b (Some N) m ->
  ~ fft_own b (fst x) -> ~ fft_own b (fst y) -> disjR x N y N -> allocd m (inR y N) -> allocd m (inR x N) ->
  holds m x (N / 2 + 1) X ->
  H 0 = rc (Re (X 0) - Im (X (N / 2))) -> H (N / 2) = rc (Re (X (N / 2)) - Im (X 0)) ->
  (forall i, 0 < i < N / 2 -> H i = X i /\ H (N - i) = cconj (X i)) ->
  exists m' r, Outcome (rfft_run b N k x y) m m' /\
    (forall i, i < N -> m' (y +! i) = Val (rc (r i)) /\
       rc (r i) = cscal (factor (meth_scaling k) N) (csum N (fun j => cmul (H j) (cis (2 * PI * INR (j * i) / INR N))))) /\
    (forall l, ~ inR y N l -> ~ inR x N l -> m' l = m l).
Proof.
  intros b N k x y m X H HN Hk Hh Hx Hy Hd Ha Hax HX H0 Hn HH.
  rewrite <- (rf_in_inv N k HN Hk) in HX.
  destruct (rfft_call_gen b N k x y m X HN Hh Hx Hy Hd Ha Hax HX) as (m' & H1 & H2 & H3 & _).
  assert (EN : N = (2 * (N / 2))%nat) by apply HN. assert (Hh2 : (2 <= N / 2)%nat) by apply HN.
  exists m', (fun i => Re (rfft_G N k X i)). split; [exact H1|]. split.
  - intros i Hi. split.
    + rewrite (H2 i Hi). unfold rfft_res. rewrite Hk. reflexivity.
    + rewrite <- transform_cis_inv by auto. transitivity (rfft_G N k X i); [reflexivity|].
      rewrite rfft_G_fold, rfft_G_exact by (auto || (unfold fold_dc; rewrite ?Nat.eqb_refl; try (destruct (Nat.eqb_spec (N / 2) 0); [lia|]); reflexivity)).
      apply transform_ext. intros j Hj. unfold hermit, fold_dc.
      destruct (Nat.leb_spec j (N / 2)).
      * destruct (Nat.eqb_spec j 0) as [-> |]; [auto|]. destruct (Nat.eqb_spec j (N / 2)) as [-> |]; [auto|]. symmetry. apply HH. lia.
      * destruct (Nat.eqb_spec (N - j) 0); [lia|]. destruct (Nat.eqb_spec (N - j) (N / 2)); [lia|].
        destruct (HH (N - j) ltac:(lia)) as (_ & E). rewrite <- E. f_equal. lia.
  - intros l A B. apply H3; auto.
Qed.
Print Assumptions C60_any_spectrum.

(** so a spectrum that is zero but for an imaginary mean value does not give zero: it gives an alternating signal *)
Theorem C60_imaginary_mean : forall b N k x y (m : mem CC) (a : R),
  real_length N -> meth_inv k = true -> rfft_history b (Some N) m ->
  ~ fft_own b (fst x) -> ~ fft_own b (fst y) -> disjR x N y N -> allocd m (inR y N) -> allocd m (inR x N) ->
  holds m x (N / 2 + 1) (fun j => if Nat.eqb j 0 then (0%R, a) else (0%R, 0%R)) ->
  exists m', Outcome (rfft_run b N k x y) m m' /\
    forall i, i < N -> m' (y +! i) = Val (rc (factor (meth_scaling k) N * (if Nat.even i then - a else a))).
Proof.
  intros b N k x y m a HN Hk Hh Hx Hy Hd Ha Hax HX.
  assert (EN : N = (2 * (N / 2))%nat) by apply HN. assert (Hh2 : (2 <= N / 2)%nat) by apply HN.
  assert (En : Nat.eqb (N / 2) 0 = false) by (apply Nat.eqb_neq; lia).
  destruct (C60_any_spectrum b N k x y m _ (fun j => if Nat.eqb j (N / 2) then rc (- a) else rc 0) HN Hk Hh Hx Hy Hd Ha Hax HX) as (m' & r & H1 & H2 & _).
  - destruct (Nat.eqb_spec 0 (N / 2)); [lia|]. cbv beta. rewrite En. cbn. f_equal. ring.
  - rewrite Nat.eqb_refl. cbv beta. rewrite En. cbn. f_equal. ring.
  - intros i Hi. cbv beta. destruct (Nat.eqb_spec i (N / 2)); [lia|]. destruct (Nat.eqb_spec (N - i) (N / 2)); [lia|]. destruct (Nat.eqb_spec i 0); [lia|].
    split; [reflexivity|]. csimp; ring.
  - exists m'. split; [exact H1|]. intros i Hi. destruct (H2 i Hi) as (E & ER). rewrite E. f_equal. rewrite ER.
    assert (EH : INR N = (2 * INR (N / 2))%R) by (rewrite EN at 1; rewrite mult_INR; cbn [INR]; ring).
    assert (Hpos : (0 < INR (N / 2))%R) by (apply lt_0_INR; lia).
    assert (Ec : cis (2 * PI * INR (N / 2 * i) / INR N) = rc (if Nat.even i then 1 else -1)).
    { rewrite mult_INR, EH. replace (2 * PI * (INR (N / 2) * INR i) / (2 * INR (N / 2)))%R with (INR i * PI)%R by (field; lra).
      destruct (Nat.even i) eqn:Ei.
      - apply Nat.even_spec in Ei as (q & ->). replace (INR (2 * q) * PI)%R with (0 + 2 * INR q * PI)%R by (rewrite mult_INR; cbn [INR]; ring).
        unfold cis. rewrite cos_period, sin_period, cos_0, sin_0. reflexivity.
      - assert (Eo : Nat.odd i = true) by (rewrite <- Nat.negb_even, Ei; auto). apply Nat.odd_spec in Eo as (q & ->).
        replace (INR (2 * q + 1) * PI)%R with (PI + 2 * INR q * PI)%R by (rewrite plus_INR, mult_INR; cbn [INR]; ring).
        unfold cis. rewrite cos_period, sin_period, cos_PI, sin_PI. reflexivity. }
    rewrite (csum_single N (N / 2)); [|lia|].
    + rewrite Nat.eqb_refl, Ec. destruct (Nat.even i); csimp; ring.
    + intros j Hj Hne. destruct (Nat.eqb_spec j (N / 2)); [contradiction|]. csimp; ring.
Qed.
Print Assumptions C60_imaginary_mean.

(** the hypotheses are met, also with the second half of x uninitialised *)
Theorem C60_hypotheses_met : forall (Op : Ops) b N x y X, real_length N -> ~ fft_own b (fst x) -> ~ fft_own b (fst y) -> disjR x N y N ->
  exists m : mem C, rfft_history b (Some N) m /\ allocd m (inR y N) /\ allocd m (inR x N) /\ holds m x (N / 2 + 1) X /\
    (forall i, N / 2 < i < N -> m (x +! i) = Uninit).
Proof.
  intros Op b N x y X HN Hx Hy Hd. destruct (real_inhabited b N x y X HN Hx Hy Hd) as (m & Hh & Ha & HX).
  assert (EN : N = (2 * (N / 2))%nat) by apply HN. assert (Hh2 : (2 <= N / 2)%nat) by apply HN.
  set (up := fun l : loc => Nat.eqb (fst l) (fst x) && Nat.ltb (snd x + N / 2) (snd l) && Nat.ltb (snd l) (snd x + N)).
  assert (Hup : forall l, up l = true -> fst l = fst x /\ snd x + N / 2 < snd l < snd x + N).
  { intros l E. unfold up in E. apply andb_true_iff in E as (E & E3). apply andb_true_iff in E as (E1 & E2).
    apply Nat.eqb_eq in E1. apply Nat.ltb_lt in E2, E3. auto. }
  exists (fun l => if up l then Uninit else m l). split; [|split; [|split; [|split]]].
  - eapply h_other; [exact Hh|]. intros l Hl. destruct (up l) eqn:E; [|reflexivity]. apply Hup in E as (E & _). rewrite E in Hl. contradiction.
  - intros l Hl. destruct (up l); [discriminate|auto].
  - intros l (i & Hi & ->). destruct (up _); [discriminate|]. rewrite HX by auto. discriminate.
  - intros i Hi. destruct (up (x +! i)) eqn:E; [|apply HX; lia]. apply Hup in E as (_ & E1 & _). clear - E1 Hi. exfalso. destruct x as [xb xo]. unfold padd in E1. cbn [fst snd] in E1. lia.
  - intros i Hi. replace (up (x +! i)) with true; [reflexivity|]. symmetry. unfold up. clear - Hi. destruct x as [xb xo]. unfold padd. cbn [fst snd].
    rewrite Nat.eqb_refl. apply andb_true_iff. split; [apply andb_true_iff; split; [reflexivity|]|]; apply Nat.ltb_lt; lia.
Qed.
