(** * C59: impulses, tones and peak detection (unit_tests/otfft_find_peak_test.cpp does the last for five sine waves)

    Exact arithmetic: the spectrum of an impulse, of a complex tone and of a real tone A cos(2 pi f n / N + phi) that fits the
    window (0 < f < N/2).  IEEE-754 doubles (see PropIeee.v for the notation): the bin f holds the largest element of the first
    half of the computed spectrum, strictly, whenever the samples and the transform are accurate enough. *)

From Coq Require Import Reals ZArith List Arith Bool Lia Lra Psatz.
From Flocq Require Import Core.Core IEEE754.BinarySingleNaN.
From Verif Require Import PropMysqrt.
From Verif Require Import Scalar RealOps Spec DftFacts Norm Simd Round Mem MemFacts Omp Lanes Stage Object Engine ApiSpec FactorFacts
  ModelApi History ApiFacts ApiExact Footprint ComplexThms ModelReal RealFacts RealRun RealExact GObj RealObj RealSpec RealThms
  RoundMixed RoundApi PropAccuracy PropRealAccuracy Param ParamKern ParamFft Ieee64 PropIeee Grade GradeFft PropOverflow.
Import ListNotations.
Local Open Scope R_scope.

(** ** Spectra *)
Lemma transform_impulse k N s z X i : (s < N)%nat -> (forall j, (j < N)%nat -> X j = if Nat.eqb j s then z else (0, 0)) ->
  transform k N X i = cscal (factor (meth_scaling k) N) (cmul z (W (meth_inv k) N (s * i))).
Proof.
  intros Hs HX. unfold transform. f_equal. unfold DFT. rewrite (csum_single N s); [rewrite HX, Nat.eqb_refl by exact Hs; reflexivity|exact Hs|].
  intros j Hj Hn. rewrite HX by exact Hj. destruct (Nat.eqb_spec j s); [contradiction|]. csimp; ring.
Qed.
Lemma transform_tone k N f z i : (0 < N)%nat -> (f < N)%nat -> (i < N)%nat -> meth_inv k = false ->
  transform k N (fun n => cmul z (W true N (n * f))) i = if Nat.eqb i f then cscal (factor (meth_scaling k) N * INR N) z else (0, 0).
Proof.
  intros HN Hf Hi Hk. unfold transform. rewrite Hk, DFT_scal. unfold DFT. pose proof (W_cancel true N f i HN Hf Hi) as E. cbn [negb] in E. rewrite E.
  rewrite (Nat.eqb_sym f i). destruct (Nat.eqb i f); csimp; ring.
Qed.
Lemma real_tone N f A phi n : (0 < N)%nat -> (f <= N)%nat ->
  rc (A * cos (2 * PI * INR (f * n) / INR N + phi)) =
  cadd (cmul (cscal (A / 2) (cis phi)) (W true N (n * f))) (cmul (cscal (A / 2) (cis (- phi))) (W true N (n * (N - f)))).
Proof.
  intros HN Hf. pose proof (W_negb_mul true N n f HN Hf) as E. cbn [negb] in E. rewrite <- E. unfold W.
  replace (1 * (2 * PI * INR (n * f) / INR N)) with (2 * PI * INR (f * n) / INR N) by (rewrite (Nat.mul_comm n f); ring).
  replace (-1 * (2 * PI * INR (n * f) / INR N)) with (- (2 * PI * INR (f * n) / INR N)) by (rewrite (Nat.mul_comm n f); ring).
  set (t := 2 * PI * INR (f * n) / INR N). rewrite !cis_neg. unfold cis. csimp; rewrite ?cos_plus; field.
Qed.
Lemma transform_real_tone k N f A phi i : (0 < f)%nat -> (2 * f < N)%nat -> (i < N)%nat -> meth_inv k = false ->
  transform k N (fun n => rc (A * cos (2 * PI * INR (f * n) / INR N + phi))) i =
  if Nat.eqb i f then cscal (factor (meth_scaling k) N * INR N * (A / 2)) (cis phi)
  else if Nat.eqb i (N - f) then cscal (factor (meth_scaling k) N * INR N * (A / 2)) (cis (- phi)) else (0, 0).
Proof.
  intros Hf Hf2 Hi Hk.
  rewrite (transform_ext k N _ (fun n => cadd (cmul (@c1 ROps) (cmul (@cscal ROps (A / 2) (cis phi)) (W true N (n * f)))) (cmul (@c1 ROps) (cmul (@cscal ROps (A / 2) (cis (- phi))) (W true N (n * (N - f))))))).
  2:{ intros n _. rewrite real_tone by lia. ring. }
  rewrite transform_lin, !transform_tone by (auto; lia).
  destruct (Nat.eqb_spec i f) as [E1|H1]; destruct (Nat.eqb_spec i (N - f)) as [E|H2]; try lia; csimp; ring.
Qed.

(** ** C59, exact arithmetic *)
Theorem C59_impulse : forall k b N s z x (m : mem CC) X,
  valid_length N -> fft_history b (Some N) m -> ~ fft_own b (fst x) -> holds m x N X ->
  (s < N)%nat -> (forall j, (j < N)%nat -> X j = if Nat.eqb j s then z else (0, 0)) ->
  exists m', Outcome (fft_run b N k x) m m' /\
    holds m' x N (fun i => cscal (factor (meth_scaling k) N) (cmul z (cis ((if meth_inv k then 1 else -1) * (2 * PI * INR (s * i) / INR N))))).
Proof.
  intros k b N s z x m X HN Hh Hx HX Hs Hz. destruct (fft_call b N k x m X HN Hh Hx HX) as (m' & O & R & _).
  exists m'. split; [exact O|]. intros i Hi. rewrite (R i Hi). f_equal. apply transform_impulse; auto.
Qed.
Print Assumptions C59_impulse.

Theorem C59_complex_tone : forall b N f z x (m : mem CC) X k,
  valid_length N -> fft_history b (Some N) m -> ~ fft_own b (fst x) -> holds m x N X -> meth_inv k = false ->
  (f < N)%nat -> (forall n, (n < N)%nat -> X n = cmul z (cis (2 * PI * INR (f * n) / INR N))) ->
  exists m', Outcome (fft_run b N k x) m m' /\
    holds m' x N (fun i => if Nat.eqb i f then cscal (factor (meth_scaling k) N * INR N) z else (0, 0)).
Proof.
  intros b N f z x m X k HN Hh Hx HX Hk Hf Hz. destruct (fft_call b N k x m X HN Hh Hx HX) as (m' & O & R & _).
  exists m'. split; [exact O|]. intros i Hi. rewrite (R i Hi). f_equal. rewrite <- (transform_tone k N f z i) by (auto; unfold valid_length in HN; lia).
  apply transform_ext. intros n Hn. rewrite Hz by exact Hn. unfold W. do 2 f_equal. rewrite (Nat.mul_comm n f). ring.
Qed.
Print Assumptions C59_complex_tone.

Theorem C59_real_tone : forall b N f A phi x y (m : mem CC) v k,
  real_length N -> meth_inv k = false -> rfft_history b (Some N) m ->
  ~ fft_own b (fst x) -> ~ fft_own b (fst y) -> disjR x N y N -> allocd m (inR y N) ->
  holds m x N (fun j => rc (v j)) -> (0 < f)%nat -> (2 * f < N)%nat ->
  (forall n, (n < N)%nat -> v n = A * cos (2 * PI * INR (f * n) / INR N + phi)) ->
  exists m', Outcome (rfft_run b N k x y) m m' /\
    holds m' y N (fun i => if Nat.eqb i f then cscal (factor (meth_scaling k) N * INR N * (A / 2)) (cis phi)
      else if Nat.eqb i (N - f) then cscal (factor (meth_scaling k) N * INR N * (A / 2)) (cis (- phi)) else (0, 0)).
Proof.
  intros b N f A phi x y m v k HN Hk Hh Hx Hy Hd Ha HX Hf Hf2 Hv.
  destruct (real_fwd_gen b N k x y m v HN Hk Hh Hx Hy Hd Ha HX) as (m' & O & R & _).
  exists m'. split; [exact O|]. intros i Hi. rewrite (R i Hi). f_equal. rewrite <- (transform_real_tone k N f A phi i) by auto.
  apply transform_ext. intros n Hn. rewrite Hv by exact Hn. reflexivity.
Qed.
Print Assumptions C59_real_tone.

(** ** C59, IEEE-754 doubles: peak detection with RealFFT::fwd on samples v of a tone of amplitude A.
    delta bounds the Euclidean norm of the error of the samples; the spectrum's bin f has modulus A/2 in exact arithmetic. *)
Lemma cabs_tone A phi : 0 <= A -> cabs (@cscal ROps (A / 2) (cis phi)) = A / 2.
Proof.
  intros HA. rewrite cabs_scal. unfold cabs. rewrite cis_norm, sqrt_1, Rabs_right by lra. ring.
Qed.
Theorem C59_peak : forall dc ds lam, libm dc ds lam -> forall bd b N f A phi delta x y (m : mem (@C (ieee dc ds bd))) (v : nat -> double) ps,
  real_length N -> rfft_history b (Some N) m ->
  ~ fft_own b (fst x) -> ~ fft_own b (fst y) -> disjR x N y N -> allocd m (inR y N) ->
  holds m x N (fun j => @rval (ieee dc ds bd) (v j)) -> factorisation ps N ->
  (0 < f)%nat -> (2 * f < N)%nat -> 0 <= A ->
  nrm N (fun n => rc (B2R (v n) - A * cos (2 * PI * INR (f * n) / INR N + phi))) <= delta ->
  2 * (delta + bound64 lam ps * (nrm N (fun n => rc (B2R (v n))) + sqrt (INR N) * floor64 N)) < sqrt (INR N) * (A / 2) ->
  exists m' Y, Outcome (@rfft_run (ieee dc ds bd) b N fwd x y) m m' /\ holds m' y N Y /\
    ((forall i, (2 * i <= N)%nat -> finite_c (Y i)) -> forall i, (2 * i <= N)%nat -> i <> f -> cabs (val (Y i)) < cabs (val (Y f))).
Proof.
  intros dc ds lam L bd b N f A phi delta x y m v ps HN Hh Hx Hy Hd Ha HX Hp Hf Hf2 HA HD HC.
  destruct (C49_ieee_real_accuracy dc ds lam L bd b N fwd x y m v ps HN eq_refl Hh Hx Hy Hd Ha HX Hp) as (m' & Y & O & R & [HE _]).
  exists m', Y. split; [exact O|]. split; [exact R|]. intros HF i Hi Hne.
  set (T := fun n => A * cos (2 * PI * INR (f * n) / INR N + phi)) in *.
  set (V := fun n => B2R (v n)) in *. fold V in HE.
  assert (HNp : (0 < N)%nat) by lia. assert (HNr : 0 < INR N) by (apply lt_0_INR; lia). pose proof (sqrt_lt_R0 _ HNr) as Hq.
  assert (En : forall G, nrm N (transform fwd N G) = nrm N G / sqrt (INR N)).
  { intros G. rewrite nrm_transform by exact HNp. cbn [meth_scaling factor]. rewrite <- (sqrt_sqrt (INR N)) at 1 by lra. field. lra. }
  set (B := (delta + bound64 lam ps * (nrm N (fun n => rc (V n)) + sqrt (INR N) * floor64 N)) / sqrt (INR N)).
  assert (HB : 2 * B < A / 2).
  { assert (EB : B * sqrt (INR N) = delta + bound64 lam ps * (nrm N (fun n => rc (V n)) + sqrt (INR N) * floor64 N)) by (unfold B; field; lra).
    change (2 * (delta + bound64 lam ps * (nrm N (fun n => rc (V n)) + sqrt (INR N) * floor64 N)) < sqrt (INR N) * (A / 2)) in HC. rewrite <- EB in HC. apply (Rmult_lt_reg_r (sqrt (INR N))); [exact Hq|]. lra. }
  assert (HK : forall j, (2 * j <= N)%nat -> cabs (@csub ROps (val (Y j)) (transform fwd N (fun n => rc (T n)) j)) <= B).
  { intros j Hj. assert (Hj' : (j < N)%nat) by lia. eapply Rle_trans; [apply (cabs_tri _ (transform fwd N (fun n => rc (V n)) j))|].
    pose proof (HE j Hj' (HF j Hj)) as E1. rewrite En in E1. change (fun j => rc (B2R (v j))) with (fun n => rc (V n)) in E1.
    assert (E2 : cabs (@csub ROps (transform fwd N (fun n => rc (V n)) j) (transform fwd N (fun n => rc (T n)) j)) <= delta / sqrt (INR N)).
    { rewrite transform_sub. eapply Rle_trans; [apply (nrm_i N (transform fwd N (fun n => csub (rc (V n)) (rc (T n)))) j Hj')|]. rewrite En.
      apply Rmult_le_compat_r; [left; apply Rinv_0_lt_compat, Hq|]. erewrite nrm_ext; [exact HD|]. intros n _. change (@csub ROps (rc (V n)) (rc (T n)) = rc (V n - T n)). generalize (V n) (T n). intros p q. clear. csimp; ring. }
    eapply Rle_trans; [apply Rplus_le_compat; [exact E1|exact E2]|]. unfold B. apply Req_le. field. lra. }
  pose proof (HK i Hi) as Ki. pose proof (HK f ltac:(lia)) as Kf. unfold T in Ki, Kf.
  rewrite transform_real_tone in Ki, Kf by (auto; lia). rewrite Nat.eqb_refl in Kf.
  destruct (Nat.eqb_spec i f); [contradiction|]. destruct (Nat.eqb_spec i (N - f)); [lia|].
  cbn [meth_scaling factor] in Kf. replace (/ INR N * INR N * (A / 2)) with (A / 2) in Kf by (field; lra).
  pose proof (cabs_near (val (Y i)) (0, 0)) as L1. rewrite cabs_0 in L1.
  pose proof (cabs_near (@cscal ROps (A / 2) (cis phi)) (val (Y f))) as L2. rewrite cabs_tone in L2 by exact HA. rewrite cabs_sub_sym in L2. lra.
Qed.
Print Assumptions C59_peak.

(** with samples of magnitude at most 2^e, e + 10 log2 N <= 1023, and cos and sin off by at most 1, everything is finite (C52), so that
    searching the first half of the array for the largest element finds f *)
Lemma Outcome_same (Op : Ops) c (m m1 m2 : mem (@C Op)) : Outcome c m m1 -> Outcome c m m2 -> forall l, m1 l = m2 l.
Proof. intros O1 O2 l. destruct (oc_completes _ _ _ O1) as (m3 & E). rewrite <- (oc_unique _ _ _ O1 m3 E l). apply (oc_unique _ _ _ O2 m3 E l). Qed.
Theorem C59_peak_found : forall dc ds lam, libm dc ds lam -> lam <= 1 -> forall bd b N f A phi delta x y (m : mem (@C (ieee dc ds bd))) (v : nat -> double) ps e,
  real_length N -> rfft_history b (Some N) m ->
  ~ fft_own b (fst x) -> ~ fft_own b (fst y) -> disjR x N y N -> allocd m (inR y N) ->
  holds m x N (fun j => @rval (ieee dc ds bd) (v j)) -> factorisation ps N ->
  (forall i, (i < N)%nat -> is_finite (v i) = true /\ Rabs (B2R (v i)) <= 2 ^ e) -> (e + 10 * Nat.log2 N <= 1023)%nat ->
  (0 < f)%nat -> (2 * f < N)%nat -> 0 <= A ->
  nrm N (fun n => rc (B2R (v n) - A * cos (2 * PI * INR (f * n) / INR N + phi))) <= delta ->
  2 * (delta + bound64 lam ps * (nrm N (fun n => rc (B2R (v n))) + sqrt (INR N) * floor64 N)) < sqrt (INR N) * (A / 2) ->
  exists m' Y, Outcome (@rfft_run (ieee dc ds bd) b N fwd x y) m m' /\ holds m' y N Y /\ (forall i, (i < N)%nat -> finite_c (Y i)) /\
    forall i, (2 * i <= N)%nat -> i <> f -> cabs (val (Y i)) < cabs (val (Y f)).
Proof.
  intros dc ds lam L Hl bd b N f A phi delta x y m v ps e HN Hh Hx Hy Hd Ha HX Hp HV He Hf Hf2 HA HD HC.
  destruct (C59_peak dc ds lam L bd b N f A phi delta x y m v ps HN Hh Hx Hy Hd Ha HX Hp Hf Hf2 HA HD HC) as (m1 & Y & O1 & R1 & K).
  destruct (C52_real_no_overflow dc ds lam L Hl bd b N fwd x y m v ps e HN eq_refl Hh Hx Hy Hd Ha HX Hp HV He) as (m2 & Z & O2 & R2 & B & _).
  assert (E : forall i, (i < N)%nat -> Y i = Z i).
  { intros i Hi. pose proof (R1 i Hi) as E1. rewrite (Outcome_same _ _ _ _ _ O1 O2), (R2 i Hi) in E1. injection E1 as E1. symmetry. exact E1. }
  assert (F : forall i, (i < N)%nat -> finite_c (Y i)) by (intros i Hi; rewrite (E i Hi); eapply bounded_fin, B, Hi).
  exists m1, Y. split; [exact O1|]. split; [exact R1|]. split; [exact F|]. apply K. intros i Hi. apply F. lia.
Qed.
Print Assumptions C59_peak_found.

(** the hypotheses are met: length 1024, cos and sin accurate to u, samples off by at most 10^-9 in norm, amplitude 64, any bin *)
Example C59_condition : forall T V f phi,  T = (fun n => 64 * cos (2 * PI * INR (f * n) / INR 1024 + phi)) -> nrm 1024 (fun n => rc (V n - T n)) <= / 10 ^ 9 ->
  2 * (/ 10 ^ 9 + bound64 u64 (repeat 2%nat 10) * (nrm 1024 (fun n => rc (V n)) + sqrt (INR 1024) * floor64 1024)) < sqrt (INR 1024) * (64 / 2).
Proof.
  intros T V f phi HT HD. pose proof bound64_1024 as HB. pose proof (bound_pos binary64 (repeat 2%nat 10) : 0 <= bound64 u64 (repeat 2%nat 10)) as H0.
  assert (Hs : sqrt (INR 1024) = 32).
  { rewrite INR_IZR_INZ. replace (IZR (Z.of_nat 1024)) with (32 * 32) by (change (Z.of_nat 1024) with 1024%Z; lra). apply sqrt_square. lra. }
  assert (Ht : nrm 1024 (fun n => rc (T n)) <= 2048).
  { assert (K : nrm 1024 (fun n => rc (T n)) <= 64 * nrm 1024 (fun _ => rc 1)).
    { apply nrm_rel; [lra|]. intros n _. rewrite HT. unfold cabs, cnorm2, rc. cbn [fst snd].
      replace (1 * 1 + 0 * 0) with 1 by ring. rewrite sqrt_1, Rmult_1_r. set (c := cos _). assert (Hc : -1 <= c <= 1) by (unfold c; apply COS_bound). clearbody c.
      rewrite <- (sqrt_square 64) at 3 by lra. apply sqrt_le_1_alt. nra. }
    assert (E1 : nrm 1024 (fun _ => rc 1) <= 32).
    { apply nrm_le; [lra|]. assert (Hr : forall n, rsum n (fun _ => cnorm2 (rc 1)) = INR n).
      { induction n as [|n IH]; [reflexivity|]. cbn [rsum]. rewrite IH, S_INR. unfold cnorm2, rc. cbn [fst snd]. ring. }
      rewrite Hr, INR_IZR_INZ. change (Z.of_nat 1024) with 1024%Z. lra. }
    lra. }
  assert (Hv : nrm 1024 (fun n => rc (V n)) <= 2049).
  { pose proof (nrm_near 1024 (fun n => rc (V n)) (fun n => rc (T n))) as K.
    rewrite (nrm_ext 1024 (vsub (fun n => rc (V n)) (fun n => rc (T n))) (fun n => rc (V n - T n))) in K by (intros n _; unfold vsub; csimp; ring).
    assert (/ 10 ^ 9 <= 1) by lra. lra. }
  assert (F : 0 <= floor64 1024 <= 1).
  { unfold floor64, phi64. rewrite INR_IZR_INZ. change (Z.of_nat 1024) with 1024%Z. assert (E2 : 2 * bpow radix2 (-1022) * 1024 = bpow radix2 (-1011)).
    { replace (-1011)%Z with (1 + -1022 + 10)%Z by reflexivity. rewrite !bpow_plus. replace (bpow radix2 1) with 2 by reflexivity. replace (bpow radix2 10) with 1024 by reflexivity. ring. }
    rewrite E2.
    split; [apply bpow_ge_0|]. change 1 with (bpow radix2 0). apply bpow_le. lia. }
  rewrite Hs. pose proof (nrm_pos 1024 (fun n => rc (V n))).
  set (x := nrm 1024 (fun n => rc (V n))) in *. clearbody x. set (p := floor64 1024) in *. clearbody p. set (e := bound64 u64 (repeat 2%nat 10)) in *. clearbody e.
  assert (e * (x + 32 * p) <= / 10 ^ 12 * 2081) by (apply Rmult_le_compat; lra). lra.
Qed.
