(** * C69, floating point: the spectrum of an image computed on IEEE doubles is accurate *)

From Coq Require Import Reals ZArith List Arith Bool Lia Lra Psatz.
From Flocq Require Import Core.Core IEEE754.BinarySingleNaN.
From Verif Require Import PropMysqrt.
From Verif Require Import Scalar RealOps Spec DftFacts Norm Simd Round Mem MemFacts Omp Lanes Stage Object Engine ApiSpec FactorFacts
  ModelApi History ApiFacts ApiExact Footprint ComplexThms ModelReal RealFacts RealRun RealObj RealThms RoundMixed RoundApi PropAccuracy PropRealAccuracy
  Param ParamKern ParamFft Ieee64 PropIeee Grade GradeFft PropOverflow PropConvAccuracy PropReal PropBatch PropImage PropStability PropBatchAccuracy.
Import ListNotations.
Local Open Scope R_scope.

Theorem C69_image_accuracy : forall dc ds lam, libm dc ds lam -> forall bd k b b' N P x y z (m : mem (@C (ieee dc ds bd))) (v : nat -> nat -> double) ps qs,
  real_length N -> valid_length P -> factorisation ps N -> factorisation qs P -> meth_inv k = false ->
  rfft_history b (Some N) m -> fft_history b' (Some P) m ->
  (forall d, ~ (fft_own b d /\ fft_own b' d)) -> (forall q, In q [x; y; z] -> ~ fft_own b (fst q) /\ ~ fft_own b' (fst q)) ->
  disjR x (P * N) y (P * N) -> allocd m (inR y (P * N)) ->
  holds m x (P * N) (fun i => @rval (ieee dc ds bd) (v (i / N)%nat (i mod N)%nat)) ->
  (* rows *)
  exists m1 Y, @rbatch (ieee dc ds bd) b N k x y P m m1 /\ (forall r c, (r < P)%nat -> (c < N)%nat -> m1 (y +! (r * N + c)) = Val (Y r c)) /\
    (* the client transposes *)
    forall m2, (forall l, fft_own b' (fst l) -> m2 l = m1 l) -> (forall r c, (r < P)%nat -> (c < N)%nat -> m2 (z +! (c * P + r)) = Val (Y r c)) ->
    (* columns *)
    exists m3 Z, @batch (ieee dc ds bd) b' P k z N m2 m3 /\ (forall r c, (r < P)%nat -> (c < N)%nat -> m3 (z +! (c * P + r)) = Val (Z r c)) /\
      (* the image leaves room for the growth: nothing overflows *)
      (forall e, lam <= 1 -> (forall r c, (r < P)%nat -> (c < N)%nat -> is_finite (v r c) = true /\ Rabs (B2R (v r c)) <= 2 ^ e) -> (e + 10 * Nat.log2 N + 10 * Nat.log2 P <= 1023)%nat ->
         forall r c, (r < P)%nat -> (c < N)%nat -> finite_c (Y r c) /\ finite_c (Z r c)) /\
      ((forall r c, (r < P)%nat -> (c < N)%nat -> finite_c (Y r c) /\ finite_c (Z r c)) ->
       let exact := fun r c => @cscal ROps (factor (meth_scaling k) P * factor (meth_scaling k) N) (dft2 false P N (fun r' c' => rc (B2R (v r' c'))) r c) in
       fro P N (fun r c => csub (val (Z r c)) (exact r c)) <=
         ((1 + bound64 lam ps) * (1 + bound64 lam qs) - 1) * fro P N exact
         + (1 + bound64 lam qs) * bound64 lam ps * gain k P * sqrt (INR P) * floor64 N + bound64 lam qs * sqrt (INR N) * floor64 P).
Proof.
  intros dc ds lam L bd k b b' N P x y z m v ps qs HN HP Hps Hqs Hk Hh Hh' Hown Hq D Ha HX.
  pose proof (real_length_pos N HN) as HNp. assert (HPp : (0 < P)%nat) by (unfold valid_length in HP; lia).
  destruct (Hq x ltac:(cbn; auto)) as [Qx Qx']. destruct (Hq y ltac:(cbn; auto)) as [Qy Qy']. destruct (Hq z ltac:(cbn; auto)) as [Qz Qz']. clear Hq.
  destruct (rbatch_any (ieee dc ds bd) b N k x y P m _ HN Hh Qx Qy D Ha HX) as (m1 & B1 & R1 & F1 & H1).
  set (vr := fun r i => v ((r * N + i) / N)%nat ((r * N + i) mod N)%nat).
  set (Y := fun r c => @rfft_F (ieee dc ds bd) N k (fun i => @rval (ieee dc ds bd) (vr r i)) c).
  assert (Evr : forall r i, (i < N)%nat -> vr r i = v r i) by (intros r i Hi; unfold vr; rewrite (Nat.add_comm (r * N)), Nat.div_add, Nat.div_small, Nat.mod_add, Nat.mod_small by lia; reflexivity).
  exists m1, Y. split; [exact B1|]. split.
  { intros r c Hr Hc. rewrite <- padd_padd. rewrite (R1 r Hr c Hc). unfold rfft_res. rewrite Hk. reflexivity. }
  intros m2 Hf HY.
  assert (Hm2 : fft_history b' (Some P) m2).
  { eapply h_other; [exact Hh'|]. intros l Hl. rewrite Hf by exact Hl. apply F1; [|rewrite Hk; discriminate]. intros (j & _ & ->). apply Qy'. exact Hl. }
  destruct (batch_any (ieee dc ds bd) b' P k z N m2 (fun i => Y (i mod P)%nat (i / P)%nat) HP Hm2 Qz') as (m3 & B3 & R3 & _).
  { intros i Hi. pose proof (Nat.div_mod i P ltac:(lia)) as E. rewrite E at 1. rewrite (Nat.mul_comm P). apply HY; [apply Nat.mod_upper_bound; lia|].
    apply Nat.div_lt_upper_bound; lia. }
  set (Yc := fun c => fun i => Y ((c * P + i) mod P)%nat ((c * P + i) / P)%nat) in *.
  assert (EYc : forall c i, (i < P)%nat -> Yc c i = Y i c) by (intros c i Hi; unfold Yc; rewrite (Nat.add_comm (c * P)), Nat.mod_add, Nat.mod_small, Nat.div_add, Nat.div_small by lia; reflexivity).
  set (Z := fun r c => @fft0_F (ieee dc ds bd) P k (Yc c) r).
  exists m3, Z. split; [exact B3|]. split; [intros r c Hr Hc; rewrite <- padd_padd; apply (R3 c Hc r Hr)|]. split.
  { intros e Hl HB He.
    assert (HBY : forall r c, (r < P)%nat -> (c < N)%nat -> bounded (e + 10 * Nat.log2 N) (Y r c)).
    { intros r c Hr Hc. revert c Hc. apply (GV_bounded dc ds bd); [apply (rfft_F_G dc ds lam L Hl); [exact HN|apply bounded_GV]|lia].
      intros i Hi. rewrite Evr by exact Hi. apply bounded_rval; apply (HB r i Hr Hi). }
    intros r c Hr Hc. split; [eapply bounded_fin, HBY; assumption|].
    apply (bounded_fin (e + 10 * Nat.log2 N + 10 * Nat.log2 P)). revert r Hr. apply (GV_bounded dc ds bd); [apply (fft0_F_G dc ds lam L Hl); [exact HP|apply bounded_GV]|lia].
    intros i Hi. rewrite EYc by exact Hi. apply HBY; assumption. }
  intros Hfin exact.
  set (T := fun r c => transform k P (fun r' => transform k N (fun j => rc (B2R (v r' j))) c) r).
  assert (ET : forall r c, T r c = exact r c) by (intros r c; unfold T, exact; rewrite dft2_transform, Hk; reflexivity).
  rewrite (fro_ext P N _ (fun r c => csub (val (Z r c)) (T r c))) by (intros r c _ _; rewrite ET; reflexivity).
  rewrite (fro_ext P N exact T) by (intros r c _ _; symmetry; apply ET).
  apply (two_dim_err k P N (bound64 lam ps) (bound64 lam qs) (floor64 N) (floor64 P) (fun r j => rc (B2R (v r j))) (fun r c => val (Y r c)) (fun r c => val (Z r c))); auto.
  - rewrite <- (bound_eq dc ds lam L). apply bound_pos.
  - rewrite <- (bound_eq dc ds lam L). apply bound_pos.
  - rewrite <- (floor_eq dc ds lam L). apply floor_pos.
  - rewrite <- (floor_eq dc ds lam L). apply floor_pos.
  - intros r Hr. apply (within_ext N _ _ _ (transform k N (fun i => rc (B2R (vr r i))))).
    { intros c _. apply transform_ext. intros i Hi. rewrite Evr by exact Hi. reflexivity. }
    refine (proj2 (accurate_VR dc ds lam L bd N _ _ _ _ _ (rfft_F_p (ieee_sim dc ds lam L bd) N k _ _ HN (VR_rval dc ds lam L bd (vr r))) _) _);
      [apply (rfft_F_within (real64 dc ds lam L)); auto|intros i Hi; apply (Hfin r i Hr Hi)].
  - intros c Hc. apply (within_ext P _ _ _ (transform k P (fun i => val (Yc c i)))).
    { intros r _. apply transform_ext. intros i Hi. rewrite EYc by exact Hi. reflexivity. }
    refine (proj2 (accurate_VR dc ds lam L bd P _ _ _ _ _ (fft0_F_p (ieee_sim dc ds lam L bd) P k (Yc c) _ HP (VR_val dc ds lam L bd (Yc c))) _) _);
      [apply (fft_within (real64 dc ds lam L)); auto|intros i Hi; apply (Hfin i c Hi Hc)].
Qed.
Print Assumptions C69_image_accuracy.
