(** * The power-of-two objects in exact arithmetic *)

From Coq Require Import Reals List Arith ZArith Bool Lia Lra.
From Verif Require Import Scalar RealOps Spec DftFacts Engine ApiSpec FftSpec CoreStage Twid ModelPow PowDrive PowKern PowRun PowClassFacts PowSpec.
Import ListNotations.
Local Open Scope nat_scope.

Lemma W_expj (t : R) N k : t = (- (2 * PI * INR k / INR N))%R -> expj (Op := ROps) t = W false N k.
Proof.
  intros ->. unfold W, cis, expj. cbn [scos ssin ROps].
  replace (-1 * (2 * PI * INR k / INR N))%R with (- (2 * PI * INR k / INR N))%R by ring. reflexivity.
Qed.
Lemma tw_val_exact N k p : 0 < N -> tw_val (Op := ROps) N k p = W false N (k * p).
Proof.
  intros HN. apply W_expj. unfold theta_of. cbn [smul sdiv sneg sofZ spi ROps s2]. unfold s2. cbn [sofZ ROps Sc].
  rewrite <- !INR_IZR_INZ, mult_INR. unfold Rdiv. ring.
Qed.
Lemma Wr1_exact N p : 0 < N -> Wr1_T (Op := ROps) N p = W false N p.
Proof.
  intros HN. apply W_expj. unfold theta_of. cbn [smul sdiv sneg sofZ spi ROps s2]. unfold s2. cbn [sofZ ROps Sc].
  rewrite <- !INR_IZR_INZ. unfold Rdiv. ring.
Qed.

Lemma Wt_exact a N : pow2 N -> radix a <= N -> TabOk false a N (Wt_T (Op := ROps) (radix a) N).
Proof.
  intros Hp Hle. destruct (pow2_div (radix a) N (radix_pow2 a) Hp Hle) as (q & HN & Hq & Eq).
  assert (Hr0 : 0 < radix a) by (destruct a; cbn; lia).
  intros p k Hpq Hk. rewrite Eq in *. rewrite (Wt_lo (radix a) N q) by auto. rewrite (Wt_hi (radix a) N q) by auto.
  rewrite tw_val_exact by nia. auto.
Qed.

Lemma pow_T_exact a N : pow2 N -> radix a < N -> TabOk (pow_par a N) a N (pow_T (Op := ROps) a N).
Proof.
  intros Hp Hlt. unfold pow_T. assert (El : N <=? radix a = false) by (apply Nat.leb_gt; auto). rewrite El.
  destruct (pow_par a N).
  - intros p k _ _. apply Wr1_exact. lia.
  - apply Wt_exact; auto. lia.
Qed.

Lemma sc_factor N k : 0 < N -> sc N (meth_mode k) = factor (meth_scaling k) N.
Proof.
  intros HN. unfold sc. destruct k; cbn [meth_mode scale_of meth_scaling factor]; unfold s1; cbn [sofZ sdiv ssqrt smysqrt ROps Sc]; 
    rewrite <- ?INR_IZR_INZ; unfold Rdiv; rewrite ?Rmult_1_l; auto.
Qed.

Lemma DFT_cscal inv N c (X : nat -> CC) i : DFT inv N (fun j => cscal c (X j)) i = cscal c (DFT inv N X i).
Proof. unfold DFT. rewrite <- csum_cscal. apply csum_ext. intros j _. symmetry. apply cscal_cmul_l. Qed.

Theorem pow_F_exact a n k X i : 1 <= n -> i < 2 ^ n -> pow_F (Op := ROps) a n k X i = transform k (2 ^ n) X i.
Proof.
  intros Hn Hi. unfold pow_F, transform. cbv zeta.
  assert (Hp : pow2 (2 ^ n)) by (eexists; reflexivity).
  assert (H2 : 2 <= 2 ^ n). { destruct n; [lia|]. cbn [Nat.pow]. pose proof (pow2_pos n). lia. }
  set (N := 2 ^ n) in *. clearbody N.
  rewrite <- sc_factor by lia. rewrite <- DFT_cscal.
  pose proof (pow_ff_spec (pow_par a N) a (meth_inv k) (meth_mode k) N N 1 (pow_T a N) X (le_n _) H2 Hp (or_introl eq_refl)) as H.
  rewrite Nat.mul_1_r in H. specialize (H (pow_T_exact a N Hp)).
  apply (fft_spec_DFT _ N); auto.
Qed.
