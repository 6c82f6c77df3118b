(** * C66: stability and agreement in floating point

    Two computations on IEEE-754 doubles (see PropIeee.v for the notation): possibly different builds of the library, different C libraries
    (lam, lam': the errors of their cos and sin), different objects, histories, schedules, and nearly equal inputs.  If all outputs are
    finite (C52 says when), the outputs differ by at most the difference of the inputs plus the two rounding errors. *)

From Coq Require Import Reals ZArith List Arith Bool Lia Lra Psatz.
From Flocq Require Import Core.Core IEEE754.BinarySingleNaN.
From Verif Require Import PropMysqrt.
From Verif Require Import Scalar RealOps Spec DftFacts Norm Simd Round Mem MemFacts Omp Lanes Stage Object Engine ApiSpec FactorFacts
  ModelApi History ApiFacts ApiExact Footprint ComplexThms ModelReal RealFacts RealRun RealExact GObj RealObj RealSpec RealThms DctRun
  ModelBluestein BluesteinRun RoundMixed RoundApi PropAccuracy PropRealAccuracy PropBluesteinAccuracy Param ParamKern ParamFft Ieee64 PropIeee PropOverflow.
From Verif Require PropComplex.
Import ListNotations.
Local Open Scope R_scope.

(** ** Specification *)
(** root of the sum of the squared differences of two computed arrays *)
Definition distance (N : nat) (Y Y' : nat -> dcomplex) : R := sqrt (rsum N (fun i => cnorm2 (csub (val (Y i)) (val (Y' i))))).
(** root of the sum of the squared magnitudes *)
Definition size (N : nat) (Y : nat -> dcomplex) : R := sqrt (rsum N (fun i => cnorm2 (val (Y i)))).
(** by how much the exact transform of that method enlarges every vector: sqrt(N) unscaled, 1 unitary, 1/sqrt(N) with 1/N *)
Definition gain (k : meth) (N : nat) : R := match meth_scaling k with Unscaled => sqrt (INR N) | Unitary => 1 | ByLength => / sqrt (INR N) end.

Lemma gain_ok k N : (0 < N)%nat -> factor (meth_scaling k) N * sqrt (INR N) = gain k N.
Proof.
  intros HN. assert (HNr : 0 < INR N) by (apply lt_0_INR; lia). pose proof (sqrt_lt_R0 _ HNr) as Hq.
  unfold gain. destruct (meth_scaling k); cbn [factor]; [ring|field; lra|]. rewrite <- (sqrt_sqrt (INR N)) at 1 by lra. field. lra.
Qed.
Lemma two_within N e P e' P' Y Y' T T' : within N e P Y T -> within N e' P' Y' T' ->
  nrm N (vsub Y Y') <= nrm N (vsub T T') + e * (nrm N T + P) + e' * (nrm N T' + P').
Proof.
  unfold within. intros H H'. pose proof (nrm_tri3 N Y T Y') as A1. pose proof (nrm_tri3 N T T' Y') as A2.
  rewrite (nrm_vsub_sym N T' Y') in A2. unfold vsub in *. lra.
Qed.
Lemma two_calls N k e P e' P' Y Y' X X' : (0 < N)%nat ->
  accurate N e P Y (transform k N (fun i => val (X i))) -> accurate N e' P' Y' (transform k N (fun i => val (X' i))) ->
  (forall i, (i < N)%nat -> finite_c (Y i)) -> (forall i, (i < N)%nat -> finite_c (Y' i)) ->
  distance N Y Y' <= gain k N * (distance N X X' + e * size N X + e' * size N X') + e * P + e' * P'.
Proof.
  intros HN [_ HA] [_ HA'] F F'. pose proof (two_within _ _ _ _ _ _ _ _ _ (HA F) (HA' F')) as K.
  rewrite (nrm_ext N (vsub (transform k N (fun i => val (X i))) (transform k N (fun i => val (X' i)))) (transform k N (fun j => csub (val (X j)) (val (X' j))))) in K by (intros i _; apply transform_sub).
  rewrite !nrm_transform, !gain_ok in K by exact HN.
  change (distance N Y Y') with (nrm N (vsub (fun i => val (Y i)) (fun i => val (Y' i)))).
  change (distance N X X') with (nrm N (fun j => csub (val (X j)) (val (X' j)))).
  change (size N X) with (nrm N (fun j => val (X j))). change (size N X') with (nrm N (fun j => val (X' j))).
  eapply Rle_trans; [exact K|]. apply Req_le. ring.
Qed.

(** ** ComplexFFT, two machines, two inputs *)
Theorem C66_complex_stable : forall dc ds lam dc' ds' lam', libm dc ds lam -> libm dc' ds' lam' ->
  forall bd bd' b b' N k x x' (m : mem (@C (ieee dc ds bd))) (m' : mem (@C (ieee dc' ds' bd'))) (X X' : nat -> dcomplex) ps,
  valid_length N -> factorisation ps N ->
  fft_history b (Some N) m -> ~ fft_own b (fst x) -> holds m x N X ->
  fft_history b' (Some N) m' -> ~ fft_own b' (fst x') -> holds m' x' N X' ->
  exists m1 m1' Y Y', Outcome (@fft_run (ieee dc ds bd) b N k x) m m1 /\ Outcome (@fft_run (ieee dc' ds' bd') b' N k x') m' m1' /\
    holds m1 x N Y /\ holds m1' x' N Y' /\
    ((forall i, (i < N)%nat -> finite_c (Y i)) -> (forall i, (i < N)%nat -> finite_c (Y' i)) ->
     distance N Y Y' <= gain k N * (distance N X X' + bound64 lam ps * size N X + bound64 lam' ps * size N X') +
       bound64 lam ps * floor64 N + bound64 lam' ps * floor64 N).
Proof.
  intros dc ds lam dc' ds' lam' L L' bd bd' b b' N k x x' m m' X X' ps HN Hp Hh Hx HX Hh' Hx' HX'.
  destruct (C49_ieee_accuracy dc ds lam L bd b N k x m X ps HN Hh Hx HX Hp) as (m1 & Y & O & R & A).
  destruct (C49_ieee_accuracy dc' ds' lam' L' bd' b' N k x' m' X' ps HN Hh' Hx' HX' Hp) as (m1' & Y' & O' & R' & A').
  exists m1, m1', Y, Y'. split; [exact O|]. split; [exact O'|]. split; [exact R|]. split; [exact R'|]. intros F F'.
  apply two_calls; auto. destruct HN. lia.
Qed.
Print Assumptions C66_complex_stable.

(** ** BluesteinFFT *)
Theorem C66_bluestein_stable : forall dc ds lam dc' ds' lam', libm dc ds lam -> libm dc' ds' lam' ->
  forall bd bd' b b' N k x x' (m : mem (@C (ieee dc ds bd))) (m' : mem (@C (ieee dc' ds' bd'))) (X X' : nat -> dcomplex) l,
  bl_length N -> padded N l ->
  bl_history b (Some N) m -> ~ bl_own b (fst x) -> holds m x N X ->
  bl_history b' (Some N) m' -> ~ bl_own b' (fst x') -> holds m' x' N X' ->
  exists m1 m1' Y Y', Outcome (@bl_run (ieee dc ds bd) b N k x) m m1 /\ Outcome (@bl_run (ieee dc' ds' bd') b' N k x') m' m1' /\
    holds m1 x N Y /\ holds m1' x' N Y' /\
    ((forall i, (i < N)%nat -> finite_c (Y i)) -> (forall i, (i < N)%nat -> finite_c (Y' i)) ->
     distance N Y Y' <= gain k N * (distance N X X' + bl_bound64 lam l * size N X + bl_bound64 lam' l * size N X') +
       bl_bound64 lam l * bl_floor64 l + bl_bound64 lam' l * bl_floor64 l).
Proof.
  intros dc ds lam dc' ds' lam' L L' bd bd' b b' N k x x' m m' X X' l HN Hl Hh Hx HX Hh' Hx' HX'.
  destruct (C49_ieee_bluestein_accuracy dc ds lam L bd b N k x m X l HN Hh Hx HX Hl) as (m1 & Y & O & R & A).
  destruct (C49_ieee_bluestein_accuracy dc' ds' lam' L' bd' b' N k x' m' X' l HN Hh' Hx' HX' Hl) as (m1' & Y' & O' & R' & A').
  exists m1, m1', Y, Y'. split; [exact O|]. split; [exact O'|]. split; [exact R|]. split; [exact R'|]. intros F F'.
  apply two_calls; auto. destruct HN. lia.
Qed.
Print Assumptions C66_bluestein_stable.

(** ** ComplexFFT and BluesteinFFT on the same data *)
Theorem C66_bluestein_agrees : forall dc ds lam, libm dc ds lam ->
  forall bd b b' N k x x' (m m' : mem (@C (ieee dc ds bd))) (X : nat -> dcomplex) ps l,
  valid_length N -> factorisation ps N -> bl_length N -> padded N l ->
  fft_history b (Some N) m -> ~ fft_own b (fst x) -> holds m x N X ->
  bl_history b' (Some N) m' -> ~ bl_own b' (fst x') -> holds m' x' N X ->
  exists m1 m1' Y Y', Outcome (@fft_run (ieee dc ds bd) b N k x) m m1 /\ Outcome (@bl_run (ieee dc ds bd) b' N k x') m' m1' /\
    holds m1 x N Y /\ holds m1' x' N Y' /\
    ((forall i, (i < N)%nat -> finite_c (Y i)) -> (forall i, (i < N)%nat -> finite_c (Y' i)) ->
     distance N Y Y' <= gain k N * ((bound64 lam ps + bl_bound64 lam l) * size N X) + bound64 lam ps * floor64 N + bl_bound64 lam l * bl_floor64 l).
Proof.
  intros dc ds lam L bd b b' N k x x' m m' X ps l HN Hp HB Hl Hh Hx HX Hh' Hx' HX'.
  destruct (C49_ieee_accuracy dc ds lam L bd b N k x m X ps HN Hh Hx HX Hp) as (m1 & Y & O & R & A).
  destruct (C49_ieee_bluestein_accuracy dc ds lam L bd b' N k x' m' X l HB Hh' Hx' HX' Hl) as (m1' & Y' & O' & R' & A').
  exists m1, m1', Y, Y'. split; [exact O|]. split; [exact O'|]. split; [exact R|]. split; [exact R'|]. intros F F'.
  eapply Rle_trans; [exact (two_calls N k _ _ _ _ Y Y' X X ltac:(destruct HN; lia) A A' F F')|].
  assert (Z : distance N X X = 0).
  { change (distance N X X) with (nrm N (vsub (fun i => val (X i)) (fun i => val (X i)))). rewrite (nrm_ext N _ (fun _ => (0, 0))); [apply nrm_0|].
    intros i _. unfold vsub. generalize (val (X i)). intros z. csimp; ring. }
  rewrite Z. apply Req_le. ring.
Qed.
Print Assumptions C66_bluestein_agrees.

(** ** RealFFT and ComplexFFT on the same real data *)
Theorem C66_real_agrees : forall dc ds lam, libm dc ds lam ->
  forall bd b b' N k x x' y (m m' : mem (@C (ieee dc ds bd))) (v : nat -> double) ps,
  real_length N -> valid_length N -> meth_inv k = false -> factorisation ps N ->
  fft_history b (Some N) m -> ~ fft_own b (fst x) -> holds m x N (fun j => @rval (ieee dc ds bd) (v j)) ->
  rfft_history b' (Some N) m' -> ~ fft_own b' (fst x') -> ~ fft_own b' (fst y) -> disjR x' N y N -> allocd m' (inR y N) ->
  holds m' x' N (fun j => @rval (ieee dc ds bd) (v j)) ->
  exists m1 m1' Y Y', Outcome (@fft_run (ieee dc ds bd) b N k x) m m1 /\ Outcome (@rfft_run (ieee dc ds bd) b' N k x' y) m' m1' /\
    holds m1 x N Y /\ holds m1' y N Y' /\
    ((forall i, (i < N)%nat -> finite_c (Y i)) -> (forall i, (i < N)%nat -> finite_c (Y' i)) ->
     distance N Y Y' <= gain k N * (2 * bound64 lam ps * size N (fun j => @rval (ieee dc ds bd) (v j))) + 2 * bound64 lam ps * floor64 N).
Proof.
  intros dc ds lam L bd b b' N k x x' y m m' v ps HR HN Hk Hp Hh Hx HX Hh' Hx' Hy' Hd Ha HX'.
  set (X := fun j => @rval (ieee dc ds bd) (v j)) in *.
  destruct (C49_ieee_accuracy dc ds lam L bd b N k x m X ps HN Hh Hx HX Hp) as (m1 & Y & O & R & A).
  destruct (C49_ieee_real_accuracy dc ds lam L bd b' N k x' y m' v ps HR Hk Hh' Hx' Hy' Hd Ha HX' Hp) as (m1' & Y' & O' & R' & A').
  exists m1, m1', Y, Y'. split; [exact O|]. split; [exact O'|]. split; [exact R|]. split; [exact R'|]. intros F F'.
  assert (A2 : accurate N (bound64 lam ps) (floor64 N) Y' (transform k N (fun i => val (X i)))) by exact A'.
  eapply Rle_trans; [exact (two_calls N k _ _ _ _ Y Y' X X ltac:(destruct HN; lia) A A2 F F')|].
  assert (Z : distance N X X = 0).
  { change (distance N X X) with (nrm N (vsub (fun i => val (X i)) (fun i => val (X i)))). rewrite (nrm_ext N _ (fun _ => (0, 0))); [apply nrm_0|].
    intros i _. unfold vsub. generalize (val (X i)). intros z. csimp; ring. }
  rewrite Z. apply Req_le. ring.
Qed.
Print Assumptions C66_real_agrees.

(** ** The hypotheses are met: 1024 arbitrary doubles, on the same machine twice *)
Example C66_hypotheses_met : forall bd b x (X X' : nat -> dcomplex), ~ fft_own b (fst x) -> exists m m' : mem (@C (ieee (ideal cos) (ideal sin) bd)),
  libm (ideal cos) (ideal sin) u64 /\ valid_length 1024 /\ factorisation (repeat 2%nat 10) 1024 /\
  fft_history b (Some 1024%nat) m /\ holds m x 1024 X /\ fft_history b (Some 1024%nat) m' /\ holds m' x 1024 X'.
Proof.
  intros bd b x X X' Hx.
  destruct (PropComplex.complex_hypotheses_met (ieee (ideal cos) (ideal sin) bd) b 1024 x X Hx) as (m & H1 & H2).
  destruct (PropComplex.complex_hypotheses_met (ieee (ideal cos) (ideal sin) bd) b 1024 x X' Hx) as (m' & H3 & H4).
  exists m, m'. split; [exact libm_ideal|]. split; [exact (proj1 PropComplex.valid_lengths 10%nat ltac:(lia))|].
  split; [exact factorisation_1024|]. auto.
Qed.
