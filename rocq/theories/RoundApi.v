(** * Rounding errors of the transform objects *)

From Coq Require Import Reals ZArith List Arith Bool Lia Lra Psatz Permutation.
From Verif Require Import Scalar RealOps Spec DftFacts Norm Simd Round RoundBf RoundTab RoundStage RoundPow RoundSix RoundMixed.
From Verif Require Import Mem Object Engine ApiSpec FactorFacts MixedRun FftSpec PowSpec PowExact PowClassFacts SixClass ModelMixedClass MixedClassFacts ModelApi ApiFacts ApiExact.
Import ListNotations.
Local Open Scope nat_scope.

Lemma pow_cost n : forall ps, Forall prime ps -> prodl ps = 2 ^ n -> suml ca ps = n * 60 /\ suml cb ps = n * 15.
Proof.
  induction n as [|n IH]; intros ps Hp E.
  - destruct ps as [|p ps]; [auto|]. cbn [prodl Nat.pow] in E. inversion Hp as [|? ? [H2 _] _]; subst. apply Nat.eq_mul_1 in E. lia.
  - destruct (prime_split 2 ps (2 ^ n) prime_2 Hp E) as (l & P & Hl & El). destruct (IH l Hl El) as [E1 E2].
    rewrite (suml_perm ca _ _ P), (suml_perm cb _ _ P). cbn [suml]. rewrite E1, E2. change (ca 2) with 60. change (cb 2) with 15. lia.
Qed.

Section Api.
Variables (A : rounding) (bd : build).
Notation F := (fl A bd).
Notation ap := (approx A).
Notation fft_err := (fft_err (psi A)).
Let f0 : (0 <= psi A)%R := psi0 A.

Lemma rel_coef N k : 0 < N -> (Z.of_nat N <= 2 ^ 31)%Z ->
  match @mixed_coef F N k with Some c => rel A 2 c (sc N (meth_mode k)) | None => sc N (meth_mode k) = 1%R end.
Proof.
  intros HN H. pose proof HN as HN'. apply lt_INR in HN'. cbn [INR] in HN'.
  assert (G : rel A 1 (rnd A (rnd A (IZR 1) / rnd A (IZR (Z.of_nat N))))%R (IZR 1 / IZR (Z.of_nat N))%R).
  { rewrite one_ok, int_ok by auto. rewrite <- INR_IZR_INZ. apply rel_1. apply big_quot; auto. apply abs_1. }
  assert (P : (0 < IZR 1 / IZR (Z.of_nat N))%R) by (rewrite <- INR_IZR_INZ; apply Rdiv_lt_0_compat; lra).
  assert (G2 : rel A 2 (rnd A (sqrt (rnd A (rnd A (IZR 1) / rnd A (IZR (Z.of_nat N)))))) (IZR 1 / sqrt (IZR (Z.of_nat N)))%R).
  { assert (E : (IZR 1 / sqrt (IZR (Z.of_nat N)) = sqrt (IZR 1 / IZR (Z.of_nat N)))%R).
    { rewrite sqrt_div by (try rewrite <- INR_IZR_INZ; lra). rewrite sqrt_1. reflexivity. }
    apply rel_rnd; [lia| |rewrite E; apply rel_sqrt; auto]. rewrite <- INR_IZR_INZ. unfold Rdiv. rewrite Rmult_1_l. apply big_rsqrt; auto. }
  destruct k; cbn [mixed_coef meth_mode]; try reflexivity; try exact G2; apply (rel_mono A 1); try lia; exact G.
Qed.

Lemma mixed_F_err N k ps (X : nat -> CC) : 0 < N -> (Z.of_nat N <= 2 ^ 30)%Z -> factors_fit N -> Forall prime ps -> prodl ps = N ->
  res_err A N k (EE A (3 + suml ca ps) (suml cb ps)) X (@mixed_F F N k X).
Proof.
  intros HN Hz Hfit Hps Hpr. apply fft_res; auto. unfold mixed_F. cbv zeta.
  assert (HN31 : (Z.of_nat N <= 2 ^ 31)%Z) by lia.
  set (Z' := @mixed_ff F (meth_inv k) (S N) N 1 (@mixed_T F N) X).
  assert (H : fft_err (meth_inv k) N 1 1 (EE A (suml ca ps) (suml cb ps)) X Z').
  { apply mixed_ff_err; auto; try lia. rewrite Nat.mul_1_r. intros p Hp. apply mixed_ap; auto. }
  pose proof (rel_coef N k HN HN31) as Hc. pose proof (sc_pos N (meth_mode k) HN) as Hp.
  destruct (@mixed_coef F N k) as [c|].
  - intros V HV. set (R0 := RoundStage.fftS (meth_inv k) N 1 (vscal 1 X)). pose proof (fftS_ok (meth_inv k) N 1 (vscal 1 X)) as HR0. fold R0 in HR0.
    pose proof (H R0 HR0) as HR. pose proof (fft_norm _ _ _ _ _ HN HR0) as HNR. rewrite nrm_vscal, Rmult_1_l in HNR by lra.
    rewrite Nat.mul_1_r in *.
    replace (sqrt (INR N) * (EE A (3 + suml ca ps) (suml cb ps) - 1) * (sc N (meth_mode k) * nrm N X + flo (psi A) N))%R
      with ((EE A 3 0 * EE A (suml ca ps) (suml cb ps) - 1) * (sc N (meth_mode k) * (sqrt (INR N) * nrm N X) + sqrt (INR N) * flo (psi A) N))%R by (rewrite EE_mul; cbn [Nat.add]; ring).
    apply (point_err (psi A) f0 N (sc N (meth_mode k)) (EE A 3 0) (fun _ => @cscal ROps (sc N (meth_mode k)) c1) R0 Z').
    + split; [lra|apply sc_le1; auto].
    + apply EE_ge1.
    + apply EE_ge1.
    + apply Rmult_le_pos; [apply sqrt_pos|apply nrm_pos].
    + pose proof (flo_pos (psi A) f0 N). pose proof (sqrt_ge1 N HN). nra.
    + intros i Hi. rewrite cabs_scal. replace (cabs c1) with 1%R by (rewrite <- (W_0 false 1); symmetry; apply cabs_W). rewrite Rabs_right by lra. ring.
    + intros i Hi. pose proof (ap_scal A bd 2 0 0 c (sc N (meth_mode k)) _ _ _ (sc N (meth_mode k) * cabs (Z' i) + psi A)%R Hc (ap_id A (Z' i))) as G. rewrite Rabs_right in G by lra.
      pose proof (sc_le1 N (meth_mode k) HN) as Hs1. destruct G as [_ G]; [nra|lra|].
      replace (cmul (@cscal ROps (sc N (meth_mode k)) c1) (Z' i)) with (@cscal ROps (sc N (meth_mode k)) (Z' i)) by (csimp; ring). exact G.
    + intros i Hi. replace i with (0 + 1 * i) by lia. rewrite HV, HR0 by lia. unfold DFT.
      transitivity (@cscal ROps (sc N (meth_mode k)) (csum N (fun i0 => cmul (vscal 1 X (0 + 1 * i0)) (W (meth_inv k) N (i0 * i))))); [|csimp; ring].
      rewrite <- csum_cscal. apply csum_ext. intros j Hj. rewrite cscal_cmul_l. f_equal. unfold vscal. rewrite cscal1. reflexivity.
    + apply Req_le. exact HNR.
    + eapply Rle_trans; [exact HR|]. apply Req_le. ring.
  - rewrite Hc. eapply fft_err_mono; [exact f0|lra| |exact H]. apply EE_mono; lia.
Qed.

Lemma rhs_pos N k X : (0 <= nrm N (transform k N X) + psi A * INR N)%R.
Proof. pose proof (nrm_pos N (transform k N X)). pose proof (pos_INR N). pose proof f0. assert (0 <= psi A * INR N)%R by (apply Rmult_le_pos; auto). lra. Qed.
(** every length, every method *)
Theorem fft0_F_err N k ps (X : nat -> CC) : valid_length N -> Forall prime ps -> prodl ps = N ->
  res_err A N k (EE A (3 + suml ca ps) (suml cb ps)) X (@fft0_F F N k X).
Proof.
  intros HN Hps Hpr. unfold fft0_F. destruct (select_ok N) as (e & E & Hs); [unfold valid_length in HN; lia|]. rewrite E.
  assert (G : res_err A N (fft0_meth k) (EE A (3 + suml ca ps) (suml cb ps)) X (@engine_F F e (fft0_meth k) X)).
  { destruct HN as (H1 & H2 & H3). destruct Hs as [a n EN Hn|n EN Hn|]; cbn [engine_F].
    - rewrite EN in *. destruct (pow_cost n ps Hps Hpr) as [E1 E2]. rewrite E1, E2.
      pose proof (pow_F_err A bd a n (fft0_meth k) X Hn) as G. unfold res_err in *. eapply Rle_trans; [exact G|].
      apply Rmult_le_compat_r; [apply rhs_pos|]. pose proof (EE_mono A (n * 60) (n * 15) (3 + n * 60) (n * 15) ltac:(lia) ltac:(lia)). lra.
    - rewrite EN in *. destruct (pow_cost n ps Hps Hpr) as [E1 E2]. rewrite E1, E2.
      pose proof (six_F_err A bd n (fft0_meth k) X Hn) as G. unfold res_err in *. eapply Rle_trans; [exact G|].
      apply Rmult_le_compat_r; [apply rhs_pos|]. pose proof (EE_mono A (n * 60) (n * 15) (3 + n * 60) (n * 15) ltac:(lia) ltac:(lia)). lra.
    - apply mixed_F_err; auto. lia. }
  unfold res_err in *.
  assert (ET : forall i, transform (fft0_meth k) N X i = transform k N X i) by (intros; apply fft0_meth_transform).
  rewrite (nrm_ext N (transform k N X) (transform (fft0_meth k) N X)) by (intros; symmetry; apply ET).
  rewrite (nrm_ext N (vsub _ (transform k N X)) (vsub (@engine_F F e (fft0_meth k) X) (transform (fft0_meth k) N X))); [exact G|].
  intros i Hi. unfold vsub. rewrite ET. reflexivity.
Qed.
End Api.
