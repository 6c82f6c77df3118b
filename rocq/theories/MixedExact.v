(** * The mixed-radix object in exact arithmetic *)

From Coq Require Import Reals List Arith ZArith Lia Lra.
From Verif Require Import Scalar RealOps Spec DftFacts Engine ApiSpec FactorFacts FftSpec MixedSpec MixedRun ModelMixedClass MixedClassFacts.
Import ListNotations.

Lemma mixed_T_exact n : (0 < n)%nat -> Wtab n (mixed_T n).
Proof.
  intros Hn p Hp. unfold mixed_T, W, cis.
  assert (E : (-1 * (2 * PI * INR p / INR n) = - (INR p * (2 * PI / INR n)))%R).
  { unfold Rdiv. ring. }
  rewrite E. rewrite cos_neg, sin_neg.
  cbn [sofZ scos ssin smul sdiv sneg ROps spi s2]. rewrite <- !INR_IZR_INZ. unfold s2, mkC. cbn [sofZ ROps Sc].
  reflexivity.
Qed.

Lemma scale1 (z : CC) : cscal (1%R : R) z = z.
Proof. csimp; ring. Qed.

Lemma mixed_F_exact N k X i : (0 < N)%nat -> (Z.of_nat N <= 2 ^ 30)%Z -> factors_fit N -> (i < N)%nat ->
  mixed_F N k X i = transform k N X i.
Proof.
  intros HN Hz Hfit Hi. unfold mixed_F, transform.
  assert (E : mixed_ff (meth_inv k) (S N) N 1 (mixed_T N) X i = DFT (meth_inv k) N X i).
  { apply fft_spec_DFT; auto. apply mixed_ff_spec; auto; try lia. rewrite Nat.mul_1_r. apply mixed_T_exact. auto. }
  assert (HN' : (0 < INR N)%R) by (apply lt_0_INR; auto).
  destruct k; cbn [mixed_coef meth_scaling factor]; rewrite ?E, ?scale1; auto;
    (f_equal; unfold s1; cbn [sofZ sdiv ssqrt ROps Sc]; rewrite <- INR_IZR_INZ; unfold Rdiv; rewrite ?Rmult_1_l; auto;
     rewrite sqrt_inv; auto).
Qed.
