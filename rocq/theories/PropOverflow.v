(** * No overflow, and round trips, on IEEE-754 binary64 numbers

    Reading guide: see PropIeee.v for [ieee], [libm], [val], [bound64], [floor64], [accurate].
    [bounded e z]: both parts of z are finite (no infinity, no NaN) and at most 2^e in magnitude.
    [lam <= 1]: the C library's cos and sin are off by at most 1 (in practice lam is about 2^-53). *)

From Coq Require Import Reals ZArith List Arith Bool Lia Lra Psatz.
From Flocq Require Import Core.Core IEEE754.BinarySingleNaN.
From Verif Require Import PropMysqrt.
From Verif Require Import Scalar RealOps Spec DftFacts Norm Simd Round Mem MemFacts Omp Lanes Stage Object Engine ApiSpec FactorFacts
  ModelApi History ApiFacts ApiExact Footprint ComplexThms ModelReal RealFacts RealRun RealExact GObj RealObj RealSpec RealThms DctRun DctThms
  ModelBluestein BluesteinRun RoundMixed RoundApi PropAccuracy PropRealAccuracy RoundDct PropDctAccuracy PropBluesteinAccuracy Param ParamKern ParamFft Ieee64 PropIeee Grade GradeFft.
From Verif Require PropComplex.
Import ListNotations.
Local Open Scope R_scope.

Definition bounded (e : nat) (z : dcomplex) : Prop :=
  (is_finite (fst z) = true /\ Rabs (B2R (fst z)) <= 2 ^ e) /\ (is_finite (snd z) = true /\ Rabs (B2R (snd z)) <= 2 ^ e).

Section Facts.
Variables (dc ds : double -> double) (bd : build).
Lemma bounded_GC e z : bounded e z -> GC dc ds bd e z.
Proof. intros [[H1 H2] [H3 H4]]. rewrite pow_bpow in *. split; intros _; auto. Qed.
Lemma bounded_GV N e X : (forall i, (i < N)%nat -> bounded e (X i)) -> GV dc ds bd N e X.
Proof. intros H i Hi. apply bounded_GC, H, Hi. Qed.
Lemma GV_bounded N e X : GV dc ds bd N e X -> (e <= 1023)%nat -> forall i, (i < N)%nat -> bounded e (X i).
Proof. intros H He i Hi. destruct (H i Hi) as [H1 H2]. unfold bounded. rewrite pow_bpow. auto. Qed.
End Facts.
Lemma bounded_fin e z : bounded e z -> finite_c z.
Proof. intros [[H1 _] [H2 _]]. split; assumption. Qed.
Lemma bounded_rval dc ds bd e (d : double) : is_finite d = true -> Rabs (B2R d) <= 2 ^ e -> bounded e (@rval (ieee dc ds bd) d).
Proof.
  intros H1 H2. split; [auto|]. split; [reflexivity|]. change (Rabs 0 <= 2 ^ e). rewrite Rabs_R0. apply pow_le. lra.
Qed.
Lemma log2_30 N : (2 <= N)%nat -> (Z.of_nat N <= 2 ^ 30)%Z -> (Nat.log2 N <= 30)%nat.
Proof.
  intros H2 H. replace 30%nat with (Nat.log2 (2 ^ 30)) by (apply Nat.log2_pow2; lia). apply Nat.log2_le_mono.
  apply Nat2Z.inj_le. rewrite Nat2Z.inj_pow. exact H.
Qed.

(** ** C52: no overflow.  Every method of ComplexFFT, every build: inputs of magnitude at most 2^e give finite outputs of
    magnitude at most 2^(e + 10 log2 N), as accurate as C49 says, if e + 10 log2 N <= 1023. *)
Theorem C52_no_overflow : forall dc ds lam, libm dc ds lam -> lam <= 1 -> forall bd b N k x (m : mem (@C (ieee dc ds bd))) X ps e,
  valid_length N -> fft_history b (Some N) m -> ~ fft_own b (fst x) -> holds m x N X -> factorisation ps N ->
  (forall i, (i < N)%nat -> bounded e (X i)) -> (e + 10 * Nat.log2 N <= 1023)%nat ->
  exists m' Y, Outcome (@fft_run (ieee dc ds bd) b N k x) m m' /\ holds m' x N Y /\
    (forall i, (i < N)%nat -> bounded (e + 10 * Nat.log2 N) (Y i)) /\
    within N (bound64 lam ps) (floor64 N) (fun i => val (Y i)) (transform k N (fun i => val (X i))).
Proof.
  intros dc ds lam L Hl bd b N k x m X ps e HN Hh Hx HX Hp HB He.
  destruct (fft_call_any b N k x m X HN Hh Hx HX) as (m' & H1 & H2 & _).
  exists m', (@fft0_F (ieee dc ds bd) N k X). split; [exact H1|]. split; [exact H2|].
  assert (HY : forall i, (i < N)%nat -> bounded (e + 10 * Nat.log2 N) (@fft0_F (ieee dc ds bd) N k X i))
    by (apply (GV_bounded dc ds bd); [apply (fft0_F_G dc ds lam L Hl); [exact HN|apply bounded_GV, HB]|exact He]).
  split; [exact HY|].
  refine (proj2 (accurate_VR dc ds lam L bd N _ _ _ _ _ (fft0_F_p (ieee_sim dc ds lam L bd) N k X _ HN (VR_val dc ds lam L bd X)) _) (fun i Hi => bounded_fin _ _ (HY i Hi))). apply (fft_within (real64 dc ds lam L)); auto.
Qed.
Print Assumptions C52_no_overflow.
(** in particular: inputs up to 2^723 (about 4.4 * 10^217) cannot overflow, whatever the length *)
Theorem C52_no_overflow_any_length : forall dc ds lam, libm dc ds lam -> lam <= 1 -> forall bd b N k x (m : mem (@C (ieee dc ds bd))) X,
  valid_length N -> fft_history b (Some N) m -> ~ fft_own b (fst x) -> holds m x N X ->
  (forall i, (i < N)%nat -> bounded 723 (X i)) ->
  exists m' Y, Outcome (@fft_run (ieee dc ds bd) b N k x) m m' /\ holds m' x N Y /\ forall i, (i < N)%nat -> finite_c (Y i).
Proof.
  intros dc ds lam L Hl bd b N k x m X HN Hh Hx HX HB. destruct (factorisation_exists N) as (ps & Hp); [destruct HN; lia|].
  assert (He : (723 + 10 * Nat.log2 N <= 1023)%nat) by (pose proof (log2_30 N ltac:(apply HN) ltac:(apply HN)); lia).
  destruct (C52_no_overflow dc ds lam L Hl bd b N k x m X ps 723%nat HN Hh Hx HX Hp HB He) as (m' & Y & H1 & H2 & H3 & _).
  exists m', Y. split; [exact H1|]. split; [exact H2|]. intros i Hi. eapply bounded_fin, H3, Hi.
Qed.
Print Assumptions C52_no_overflow_any_length.

(** RealFFT *)
Theorem C52_real_no_overflow : forall dc ds lam, libm dc ds lam -> lam <= 1 -> forall bd b N k x y (m : mem (@C (ieee dc ds bd))) (v : nat -> double) ps e,
  real_length N -> meth_inv k = false -> rfft_history b (Some N) m ->
  ~ fft_own b (fst x) -> ~ fft_own b (fst y) -> disjR x N y N -> allocd m (inR y N) ->
  holds m x N (fun j => @rval (ieee dc ds bd) (v j)) -> factorisation ps N ->
  (forall i, (i < N)%nat -> is_finite (v i) = true /\ Rabs (B2R (v i)) <= 2 ^ e) -> (e + 10 * Nat.log2 N <= 1023)%nat ->
  exists m' Y, Outcome (@rfft_run (ieee dc ds bd) b N k x y) m m' /\ holds m' y N Y /\
    (forall i, (i < N)%nat -> bounded (e + 10 * Nat.log2 N) (Y i)) /\
    within N (bound64 lam ps) (floor64 N) (fun i => val (Y i)) (transform k N (fun j => rc (B2R (v j)))).
Proof.
  intros dc ds lam L Hl bd b N k x y m v ps e HN Hk Hh Hx Hy Hd Ha HX Hp HB He.
  destruct (rfft_call_ok b N k x y m _ HN Hh Hx Hy Hd Ha HX) as (m' & H1 & H2 & _). unfold rfft_res in H2. rewrite Hk in H2.
  eexists m', _. split; [exact H1|]. split; [exact H2|].
  assert (HY : forall i, (i < N)%nat -> bounded (e + 10 * Nat.log2 N) (@rfft_F (ieee dc ds bd) N k (fun j => @rval (ieee dc ds bd) (v j)) i)).
  { apply (GV_bounded dc ds bd); [apply (rfft_F_G dc ds lam L Hl); [exact HN|apply bounded_GV]|exact He]. intros i Hi. apply bounded_rval; apply HB, Hi. }
  split; [exact HY|].
  refine (proj2 (accurate_VR dc ds lam L bd N _ _ _ _ _ (rfft_F_p (ieee_sim dc ds lam L bd) N k _ _ HN (VR_rval dc ds lam L bd v)) _) (fun i Hi => bounded_fin _ _ (HY i Hi))). apply (rfft_F_within (real64 dc ds lam L)); auto.
Qed.
Print Assumptions C52_real_no_overflow.
Theorem C52_real_inverse_no_overflow : forall dc ds lam, libm dc ds lam -> lam <= 1 -> forall bd b N k x y (m : mem (@C (ieee dc ds bd))) X ps e,
  real_length N -> meth_inv k = true -> rfft_history b (Some N) m ->
  ~ fft_own b (fst x) -> ~ fft_own b (fst y) -> disjR x N y N -> allocd m (inR y N) ->
  holds m x N X -> hermitian N (fun i => val (X i)) -> factorisation ps N ->
  (forall i, (i < N)%nat -> bounded e (X i)) -> (e + 10 * Nat.log2 N <= 1023)%nat ->
  exists m' r, Outcome (@rfft_run (ieee dc ds bd) b N k x y) m m' /\ holds m' y N (fun j => @rval (ieee dc ds bd) (r j)) /\
    (forall i, (i < N)%nat -> is_finite (r i) = true /\ Rabs (B2R (r i)) <= 2 ^ (e + 10 * Nat.log2 N)) /\
    within N (bound64 lam ps) (floor64 N) (fun j => rc (B2R (r j))) (transform k N (fun i => val (X i))).
Proof.
  intros dc ds lam L Hl bd b N k x y m X ps e HN Hk Hh Hx Hy Hd Ha HX HH Hp HB He.
  destruct (rfft_call_ok b N k x y m _ HN Hh Hx Hy Hd Ha HX) as (m' & H1 & H2 & _). unfold rfft_res in H2. rewrite Hk in H2.
  exists m', (fun j => Re (@rfft_G (ieee dc ds bd) N k X j)). split; [exact H1|]. split; [exact H2|].
  assert (HY : forall i, (i < N)%nat -> bounded (e + 10 * Nat.log2 N) (@rfft_G (ieee dc ds bd) N k X i))
    by (apply (GV_bounded dc ds bd); [apply (rfft_G_G dc ds lam L Hl); [exact HN|apply bounded_GV, HB]|exact He]).
  split; [intros i Hi; apply (HY i Hi)|].
  refine (proj2 (accurate_VR dc ds lam L bd N _ _ _ _ _ (rfft_G_p (ieee_sim dc ds lam L bd) N k _ _ HN (VR_val dc ds lam L bd X)) _) (fun i Hi => bounded_fin _ _ (HY i Hi))). apply (rfft_G_within (real64 dc ds lam L)); auto.
Qed.
Print Assumptions C52_real_inverse_no_overflow.

(** RealDCT *)
Theorem C52_dct_no_overflow : forall dc ds lam, libm dc ds lam -> lam <= 1 -> forall bd b N k x (m : mem (@C (ieee dc ds bd))) (v : nat -> double) ps e,
  dct_length N -> dct_history b (Some N) m -> ~ dct_own b (fst x) -> holds m x N (fun j => @rval (ieee dc ds bd) (v j)) -> factorisation ps N ->
  (forall i, (i < N)%nat -> is_finite (v i) = true /\ Rabs (B2R (v i)) <= 2 ^ e) -> (e + 10 * Nat.log2 N + 2 <= 1023)%nat ->
  exists m' r, Outcome (@dct_run (ieee dc ds bd) b N k x) m m' /\ holds m' x N (fun j => @rval (ieee dc ds bd) (r j)) /\
    (forall i, (i < N)%nat -> is_finite (r i) = true /\ Rabs (B2R (r i)) <= 2 ^ (e + 10 * Nat.log2 N + 2)) /\
    within N (dct_bound64 lam ps k) (floor64 N) (fun j => rc (B2R (r j))) (fun j => rc (dct_spec k N (fun i => B2R (v i)) j)).
Proof.
  intros dc ds lam L Hl bd b N k x m v ps e HN Hh Hx HX Hp HB He. destruct (dct_call_ok b N k x m _ HN Hh Hx HX) as (m' & H1 & H2 & _).
  exists m', (fun j => Re (@dct_res (ieee dc ds bd) N k (fun j => @rval (ieee dc ds bd) (v j)) j)). split; [exact H1|]. split.
  { intros j Hj. rewrite <- dct_rval. apply H2, Hj. }
  assert (HY : forall i, (i < N)%nat -> bounded (e + 10 * Nat.log2 N + 2) (@dct_res (ieee dc ds bd) N k (fun j => @rval (ieee dc ds bd) (v j)) i)).
  { apply (GV_bounded dc ds bd); [apply (dct_res_G dc ds lam L Hl); [exact HN|apply bounded_GV]|exact He]. intros i Hi. apply bounded_rval; apply HB, Hi. }
  split; [intros i Hi; apply (HY i Hi)|].
  rewrite <- (dct_bound_eq dc ds lam L).
  apply (accurate_VR dc ds lam L bd N _ _ (fun j => @rval (ieee dc ds bd) (Re (@dct_res (ieee dc ds bd) N k (fun j => @rval (ieee dc ds bd) (v j)) j))) (@dct_res (fl (real64 dc ds lam L) bd) N k (fun j => rc (B2R (v j))))).
  - intros j. rewrite <- dct_rval. apply (dct_res_p (ieee_sim dc ds lam L bd) N k _ _ HN (VR_rval dc ds lam L bd v)).
  - apply (dct_within (real64 dc ds lam L)); auto.
  - intros i Hi. rewrite <- dct_rval. eapply bounded_fin, HY, Hi.
Qed.
Print Assumptions C52_dct_no_overflow.

(** Bluestein *)
Theorem C52_bluestein_no_overflow : forall dc ds lam, libm dc ds lam -> lam <= 1 -> forall bd b N k x (m : mem (@C (ieee dc ds bd))) X l e,
  bl_length N -> bl_history b (Some N) m -> ~ bl_own b (fst x) -> holds m x N X -> padded N l ->
  (forall i, (i < N)%nat -> bounded e (X i)) -> (e + 6 + 30 * l <= 1023)%nat ->
  exists m' Y, Outcome (@bl_run (ieee dc ds bd) b N k x) m m' /\ holds m' x N Y /\
    (forall i, (i < N)%nat -> bounded (e + 6 + 30 * l) (Y i)) /\
    within N (bl_bound64 lam l) (bl_floor64 l) (fun i => val (Y i)) (transform k N (fun i => val (X i))).
Proof.
  intros dc ds lam L Hl bd b N k x m X l e HN Hh Hx HX Hp HB He. destruct (bl_call_ok b N k x m X HN Hh Hx HX) as (m' & H1 & H2 & _).
  exists m', (@bl_F (ieee dc ds bd) N k X). split; [exact H1|]. split; [exact H2|].
  assert (HY : forall i, (i < N)%nat -> bounded (e + 6 + 30 * l) (@bl_F (ieee dc ds bd) N k X i)).
  { apply (GV_bounded dc ds bd); [|exact He]. destruct (Nat.le_gt_cases 2 N) as [HN2|HN2].
    - pose proof (bl_F_G dc ds lam L Hl bd N (2 ^ l) k e X HN HN2 (padded_loop N l HN Hp)) as G. rewrite Nat.log2_pow2 in G by lia. apply G, bounded_GV, HB.
    - assert (N = 1%nat) as -> by (unfold bl_length in HN; lia). intros i Hi. assert (i = 0%nat) as -> by lia.
      change (@bl_F (ieee dc ds bd) 1 k X 0%nat) with (X 0%nat). eapply GC_le; [|apply bounded_GC, HB; lia]. lia. }
  split; [exact HY|].
  refine (proj2 (accurate_VR dc ds lam L bd N _ _ _ _ _ (bl_F_p (ieee_sim dc ds lam L bd) N k X _ HN (VR_val dc ds lam L bd X)) _) (fun i Hi => bounded_fin _ _ (HY i Hi))). apply (bl_within (real64 dc ds lam L)); auto.
Qed.
Print Assumptions C52_bluestein_no_overflow.

(** ** C53: round trips: a method and the method that undoes it, on inputs of magnitude at most 2^e with e + 20 log2 N <= 1023 *)
Definition trip64 (lam : R) (ps : list nat) : R := (1 + bound64 lam ps) * (1 + bound64 lam ps) - 1.
Theorem C53_ieee_round_trip : forall k1 k2 dc ds lam, libm dc ds lam -> lam <= 1 -> forall bd b N x (m : mem (@C (ieee dc ds bd))) X ps e,
  In (k1, k2) [(fwd, inv); (fwd, inv0); (fwdn, inv); (fwdn, inv0); (fwd0, invn); (fwdu, invu);
    (inv, fwd); (inv, fwdn); (inv0, fwd); (inv0, fwdn); (invn, fwd0); (invu, fwdu)] ->
  valid_length N -> fft_history b (Some N) m -> ~ fft_own b (fst x) -> holds m x N X -> factorisation ps N ->
  (forall i, (i < N)%nat -> bounded e (X i)) -> (e + 20 * Nat.log2 N <= 1023)%nat ->
  exists m1, Outcome (@fft_run (ieee dc ds bd) b N k1 x) m m1 /\
    forall m2, (forall l, fft_own b (fst l) \/ inR x N l -> m2 l = m1 l) ->
    exists m3 Z, Outcome (@fft_run (ieee dc ds bd) b N k2 x) m2 m3 /\ holds m3 x N Z /\ (forall i, (i < N)%nat -> finite_c (Z i)) /\
      within N (trip64 lam ps) (sqrt (INR N) * floor64 N) (fun i => val (Z i)) (fun i => val (X i)).
Proof.
  intros k1 k2 dc ds lam L Hl bd b N x m X ps e Hk HN Hh Hx HX Hp HB He. destruct (fft_call_any b N k1 x m X HN Hh Hx HX) as (m1 & H1 & H2 & _ & H4).
  exists m1. split; [exact H1|]. intros m2 Hf. set (Y := @fft0_F (ieee dc ds bd) N k1 X) in *.
  destruct (fft_call_any b N k2 x m2 Y HN) as (m3 & H5 & H6 & _); [|exact Hx| |].
  - eapply h_other; [exact H4|]. auto.
  - intros i Hi. rewrite Hf by (right; apply inR_i; auto). apply H2. auto.
  - exists m3, (@fft0_F (ieee dc ds bd) N k2 Y). split; [exact H5|]. split; [exact H6|].
    assert (Hu : undoes k1 k2 = true) by (repeat (destruct Hk as [[= <- <-]|Hk]; [reflexivity|]); destruct Hk).
    assert (HZ : forall i, (i < N)%nat -> finite_c (@fft0_F (ieee dc ds bd) N k2 Y i)).
    { intros i Hi. eapply bounded_fin, (GV_bounded dc ds bd N (e + 10 * Nat.log2 N + 10 * Nat.log2 N)); [|lia|exact Hi].
      apply (fft0_F_G dc ds lam L Hl); [exact HN|]. apply (fft0_F_G dc ds lam L Hl); [exact HN|]. apply bounded_GV, HB. }
    split; [exact HZ|].
    pose proof (fft0_F_p (ieee_sim dc ds lam L bd) N k1 X _ HN (VR_val dc ds lam L bd X)) as V1.
    pose proof (fft0_F_p (ieee_sim dc ds lam L bd) N k2 _ _ HN V1) as V2.
    refine (proj2 (accurate_VR dc ds lam L bd N _ _ _ _ _ V2 _) HZ).
    rewrite <- (floor_eq dc ds lam L). unfold trip64. rewrite <- (bound_eq dc ds lam L).
    apply (round_trip_err N k1 k2 _ _ _ (@fft0_F (fl (real64 dc ds lam L) bd) N k1 (fun i => val (X i)))); [unfold valid_length in HN; lia|apply bound_pos|apply floor_pos|exact Hu| |]; apply fft_within; auto.
Qed.
Print Assumptions C53_ieee_round_trip.

(** RealFFT: forward from x to y, then the matching inverse from y to z *)
Theorem C53_ieee_real_round_trip : forall k1 k2 dc ds lam, libm dc ds lam -> lam <= 1 -> forall bd b N x y z (m : mem (@C (ieee dc ds bd))) (v : nat -> double) ps e,
  In (k1, k2) [(fwd, inv); (fwd, inv0); (fwdn, inv); (fwdn, inv0); (fwd0, invn); (fwdu, invu)] ->
  real_length N -> rfft_history b (Some N) m ->
  ~ fft_own b (fst x) -> ~ fft_own b (fst y) -> ~ fft_own b (fst z) ->
  disjR x N y N -> disjR y N z N -> allocd m (inR y N) ->
  holds m x N (fun j => @rval (ieee dc ds bd) (v j)) -> factorisation ps N ->
  (forall i, (i < N)%nat -> is_finite (v i) = true /\ Rabs (B2R (v i)) <= 2 ^ e) -> (e + 20 * Nat.log2 N <= 1023)%nat ->
  exists m1, Outcome (@rfft_run (ieee dc ds bd) b N k1 x y) m m1 /\
    forall m2, (forall l, fft_own b (fst l) \/ inR y N l -> m2 l = m1 l) -> allocd m2 (inR z N) ->
    exists m3 r, Outcome (@rfft_run (ieee dc ds bd) b N k2 y z) m2 m3 /\ holds m3 z N (fun j => @rval (ieee dc ds bd) (r j)) /\
      (forall i, (i < N)%nat -> is_finite (r i) = true) /\
      within N (trip64 lam ps) (sqrt (INR N) * floor64 N) (fun j => rc (B2R (r j))) (fun j => rc (B2R (v j))).
Proof.
  intros k1 k2 dc ds lam L Hl bd b N x y z m v ps e Hk HN Hh Hx Hy Hz Hd1 Hd2 Ha HX Hp HB He.
  assert (Hk1 : meth_inv k1 = false /\ meth_inv k2 = true /\ undoes k1 k2 = true).
  { repeat (destruct Hk as [[= <- <-]|Hk]; [split; [reflexivity|split; reflexivity]|]). destruct Hk. }
  destruct Hk1 as (Hk1 & Hk2 & Hu).
  destruct (rfft_call_ok b N k1 x y m _ HN Hh Hx Hy Hd1 Ha HX) as (m1 & H1 & H2 & _ & H4 & _). unfold rfft_res in H2. rewrite Hk1 in H2.
  exists m1. split; [exact H1|]. intros m2 Hf Ha2. set (Y := @rfft_F (ieee dc ds bd) N k1 (fun j => @rval (ieee dc ds bd) (v j))) in *.
  destruct (rfft_call_ok b N k2 y z m2 Y HN) as (m3 & H5 & H6 & _); auto.
  - eapply h_other; [exact H4|]. auto.
  - intros i Hi. rewrite Hf by (right; apply inR_i; auto). apply H2. auto.
  - unfold rfft_res in H6. rewrite Hk2 in H6. exists m3, (fun j => Re (@rfft_G (ieee dc ds bd) N k2 Y j)). split; [exact H5|]. split; [exact H6|].
    assert (HZ : forall i, (i < N)%nat -> finite_c (@rfft_G (ieee dc ds bd) N k2 Y i)).
    { intros i Hi. eapply bounded_fin, (GV_bounded dc ds bd N (e + 10 * Nat.log2 N + 10 * Nat.log2 N)); [|lia|exact Hi].
      apply (rfft_G_G dc ds lam L Hl); [exact HN|]. apply (rfft_F_G dc ds lam L Hl); [exact HN|]. apply bounded_GV. intros j Hj. apply bounded_rval; apply HB, Hj. }
    split; [intros i Hi; apply (HZ i Hi)|].
    pose proof (rfft_F_p (ieee_sim dc ds lam L bd) N k1 _ _ HN (VR_rval dc ds lam L bd v)) as V1.
    pose proof (rfft_G_p (ieee_sim dc ds lam L bd) N k2 _ _ HN V1) as V2.
    refine (proj2 (accurate_VR dc ds lam L bd N _ _ _ _ _ V2 _) HZ).
    rewrite <- (floor_eq dc ds lam L). unfold trip64. rewrite <- (bound_eq dc ds lam L).
    apply (round_trip_err N k1 k2 _ _ _ (@rfft_F (fl (real64 dc ds lam L) bd) N k1 (fun j => rc (B2R (v j))))); [apply real_length_pos; auto|apply bound_pos|apply floor_pos|exact Hu| |].
    + apply rfft_F_within; auto.
    + apply rfft_G_within; auto. apply rfft_F_hermitian; auto.
Qed.
Print Assumptions C53_ieee_real_round_trip.

(** RealDCT *)
Theorem C53_ieee_dct_round_trip : forall k1 k2 dc ds lam, libm dc ds lam -> lam <= 1 -> forall bd b N x (m : mem (@C (ieee dc ds bd))) (v : nat -> double) ps e,
  In (k1, k2) [(Dfwd, Dinv); (Dfwd, Dinv0); (Dfwdn, Dinv); (Dfwdn, Dinv0); (Dfwd0, Dinvn);
    (Dinv, Dfwd); (Dinv, Dfwdn); (Dinv0, Dfwd); (Dinv0, Dfwdn); (Dinvn, Dfwd0)] ->
  dct_length N -> dct_history b (Some N) m -> ~ dct_own b (fst x) -> holds m x N (fun j => @rval (ieee dc ds bd) (v j)) -> factorisation ps N ->
  (forall i, (i < N)%nat -> is_finite (v i) = true /\ Rabs (B2R (v i)) <= 2 ^ e) -> (e + 20 * Nat.log2 N + 4 <= 1023)%nat ->
  exists m1, Outcome (@dct_run (ieee dc ds bd) b N k1 x) m m1 /\
    forall m2, (forall l, dct_own b (fst l) \/ inR x N l -> m2 l = m1 l) ->
    exists m3 r, Outcome (@dct_run (ieee dc ds bd) b N k2 x) m2 m3 /\ holds m3 x N (fun j => @rval (ieee dc ds bd) (r j)) /\
      (forall i, (i < N)%nat -> is_finite (r i) = true) /\
      within N (sqrt 2 * trip64 lam ps) (sqrt (INR N) * floor64 N) (fun j => rc (B2R (r j))) (fun j => rc (B2R (v j))).
Proof.
  intros k1 k2 dc ds lam L Hl bd b N x m v ps e Hk HN Hh Hx HX Hp HB He. destruct (dct_call_ok b N k1 x m _ HN Hh Hx HX) as (m1 & H1 & H2 & _ & _ & H5 & _).
  exists m1. split; [exact H1|]. intros m2 Hf. set (Y := @dct_res (ieee dc ds bd) N k1 (fun j => @rval (ieee dc ds bd) (v j))) in *.
  destruct (dct_call_ok b N k2 x m2 Y HN) as (m3 & H6 & H7 & _); [|exact Hx| |].
  - eapply h_other; [exact H5|]. auto.
  - intros i Hi. rewrite Hf by (right; apply inR_i; auto). apply H2. auto.
  - exists m3, (fun j => Re (@dct_res (ieee dc ds bd) N k2 Y j)). split; [exact H6|]. split; [intros j Hj; rewrite <- dct_rval; apply H7, Hj|].
    assert (HZ : forall i, (i < N)%nat -> finite_c (@dct_res (ieee dc ds bd) N k2 Y i)).
    { intros i Hi. eapply bounded_fin, (GV_bounded dc ds bd N (e + 10 * Nat.log2 N + 2 + 10 * Nat.log2 N + 2)); [|lia|exact Hi].
      apply (dct_res_G dc ds lam L Hl); [exact HN|]. apply (dct_res_G dc ds lam L Hl); [exact HN|]. apply bounded_GV. intros j Hj. apply bounded_rval; apply HB, Hj. }
    split; [intros i Hi; apply (HZ i Hi)|].
    pose proof (dct_res_p (ieee_sim dc ds lam L bd) N k1 _ _ HN (VR_rval dc ds lam L bd v)) as V1.
    pose proof (dct_res_p (ieee_sim dc ds lam L bd) N k2 _ _ HN V1) as V2.
    apply (accurate_VR dc ds lam L bd N _ _ (fun j => @rval (ieee dc ds bd) (Re (@dct_res (ieee dc ds bd) N k2 Y j))) (@dct_res (fl (real64 dc ds lam L) bd) N k2 (@dct_res (fl (real64 dc ds lam L) bd) N k1 (fun j => rc (B2R (v j)))))).
    + intros j. rewrite <- dct_rval. apply V2.
    + apply (dct_trip_within (real64 dc ds lam L)); auto.
    + intros i Hi. rewrite <- dct_rval. apply HZ, Hi.
Qed.
Print Assumptions C53_ieee_dct_round_trip.

(** Bluestein *)
Definition bl_trip64 (lam : R) (l : nat) : R := (1 + bl_bound64 lam l) * (1 + bl_bound64 lam l) - 1.
Theorem C53_ieee_bluestein_round_trip : forall k1 k2 dc ds lam, libm dc ds lam -> forall bd b N x (m : mem (@C (ieee dc ds bd))) X l,
  In (k1, k2) [(fwd, inv); (fwd, inv0); (fwdn, inv); (fwdn, inv0); (fwd0, invn); (fwdu, invu);
    (inv, fwd); (inv, fwdn); (inv0, fwd); (inv0, fwdn); (invn, fwd0); (invu, fwdu)] ->
  bl_length N -> bl_history b (Some N) m -> ~ bl_own b (fst x) -> holds m x N X -> padded N l ->
  exists m1, Outcome (@bl_run (ieee dc ds bd) b N k1 x) m m1 /\
    forall m2, (forall l, bl_own b (fst l) \/ inR x N l -> m2 l = m1 l) ->
    exists m3 Z, Outcome (@bl_run (ieee dc ds bd) b N k2 x) m2 m3 /\ holds m3 x N Z /\
      accurate N (bl_trip64 lam l) (sqrt (INR N) * bl_floor64 l) Z (fun i => val (X i)).
Proof.
  intros k1 k2 dc ds lam L bd b N x m X l Hk HN Hh Hx HX Hl. destruct (bl_call_ok b N k1 x m X HN Hh Hx HX) as (m1 & H1 & H2 & _ & H4 & _).
  exists m1. split; [exact H1|]. intros m2 Hf. set (Y := @bl_F (ieee dc ds bd) N k1 X) in *.
  destruct (bl_call_ok b N k2 x m2 Y HN) as (m3 & H5 & H6 & _); [|exact Hx| |].
  - eapply h_other; [exact H4|]. auto.
  - intros i Hi. rewrite Hf by (right; apply inR_i; auto). apply H2. auto.
  - exists m3, (@bl_F (ieee dc ds bd) N k2 Y). split; [exact H5|]. split; [exact H6|].
    assert (Hu : undoes k1 k2 = true) by (repeat (destruct Hk as [[= <- <-]|Hk]; [reflexivity|]); destruct Hk).
    pose proof (bl_F_p (ieee_sim dc ds lam L bd) N k1 X _ HN (VR_val dc ds lam L bd X)) as V1.
    pose proof (bl_F_p (ieee_sim dc ds lam L bd) N k2 _ _ HN V1) as V2.
    refine (accurate_VR dc ds lam L bd N _ _ _ _ _ V2 _).
    apply (round_trip_err N k1 k2 _ _ _ (@bl_F (fl (real64 dc ds lam L) bd) N k1 (fun i => val (X i)))); [unfold bl_length in HN; lia|apply (bb_pos (real64 dc ds lam L))|apply (blf_pos (real64 dc ds lam L))|exact Hu| |];
      apply (bl_within (real64 dc ds lam L)); auto.
Qed.
Print Assumptions C53_ieee_bluestein_round_trip.

(** the hypotheses are met: length 1024, correctly rounded cos and sin, any build, any object history, inputs up to 2^800 *)
Example C52_example : forall bd b k x, ~ fft_own b (fst x) -> forall X, (forall i, (i < 1024)%nat -> bounded 800 (X i)) ->
  exists (m : mem (@C (ieee (ideal cos) (ideal sin) bd))) m' Y, fft_history b (Some 1024%nat) m /\ holds m x 1024 X /\
  Outcome (@fft_run (ieee (ideal cos) (ideal sin) bd) b 1024 k x) m m' /\ holds m' x 1024 Y /\ (forall i, (i < 1024)%nat -> bounded 900 (Y i)) /\
  within 1024 (/ 10 ^ 12) (floor64 1024) (fun i => val (Y i)) (transform k 1024 (fun i => val (X i))).
Proof.
  intros bd b k x Hx X HB.
  destruct (PropComplex.complex_hypotheses_met (ieee (ideal cos) (ideal sin) bd) b 1024 x X Hx) as (m & H1 & H2).
  assert (Hu : u64 <= 1) by (rewrite u64_val; lra). assert (El : Nat.log2 1024 = 10%nat) by reflexivity.
  destruct (C52_no_overflow _ _ _ libm_ideal Hu bd b 1024 k x m X (repeat 2%nat 10) 800) as (m' & Y & H3 & H4 & H5 & H6); auto.
  - apply (proj1 PropComplex.valid_lengths 10%nat). lia.
  - apply factorisation_1024.
  - rewrite El. lia.
  - rewrite El in H5. exists m, m', Y. split; [exact H1|]. split; [exact H2|]. split; [exact H3|]. split; [exact H4|]. split; [exact H5|].
    unfold within in *. eapply Rle_trans; [exact H6|]. apply Rmult_le_compat_r; [|apply bound64_1024].
    pose proof (nrm_pos 1024 (transform k 1024 (fun i => val (X i)))). pose proof (floor_pos (real64 _ _ _ libm_ideal) 1024) as Hf. rewrite floor_eq in Hf. lra.
Qed.
