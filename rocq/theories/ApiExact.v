(** * FFT0 and FFT compute the exact transforms in real arithmetic *)

From Coq Require Import Reals List Arith ZArith Lia.
From Verif Require Import Scalar RealOps Spec Mem Stage Object Engine ApiSpec FactorFacts
  MixedClassFacts MixedExact PowClassFacts PowExact SixClass SixExact ModelApi ApiFacts.

Lemma fft0_meth_transform k N X i : transform (fft0_meth k) N X i = transform k N X i.
Proof. destruct k; reflexivity. Qed.

Lemma engine_F_exact N e k X i : valid_length N -> selects N e -> i < N -> engine_F (Op := ROps) e k X i = transform k N X i.
Proof.
  intros (H1 & H2 & H3) [a n -> Hn|n -> Hn|] Hi; cbn [engine_F].
  - apply pow_F_exact; auto. lia.
  - apply six_F_exact; auto.
  - apply mixed_F_exact; auto. lia.
Qed.

Lemma fft0_F_exact N k X i : valid_length N -> i < N -> fft0_F (Op := ROps) N k X i = transform k N X i.
Proof.
  intros HN Hi. unfold fft0_F. destruct (select_ok N) as (e & E & Hs); [unfold valid_length in HN; lia|]. rewrite E.
  rewrite (engine_F_exact N e _ X i HN Hs Hi). apply fft0_meth_transform.
Qed.
