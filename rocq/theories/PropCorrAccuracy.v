(** * C64, floating point: accuracy of correlations computed through the transforms

    fwd0 on x, fwd0 on y, conj(U) * V by the library's complex conjugate and product (operator* of complex_t, mulpz2 of the vector builds)
    stored in x, invn on x; against the exact circular cross-correlation [corr] (PropCorrelation.v).  Notation as in PropConvAccuracy.v. *)

From Coq Require Import Reals ZArith List Arith Bool Lia Lra Psatz.
From Flocq Require Import Core.Core IEEE754.BinarySingleNaN.
From Verif Require Import PropMysqrt.
From Verif Require Import Scalar RealOps Spec DftFacts Norm Simd Round Mem MemFacts Omp Lanes Stage Object Engine ApiSpec FactorFacts
  ModelApi History ApiFacts ApiExact Footprint ComplexThms PropConvolution PropCorrelation PropSymmetry RoundMixed RoundApi PropAccuracy
  Param ParamKern ParamFft Ieee64 PropIeee Grade GradeFft PropOverflow PropConvAccuracy.
Import ListNotations.
Local Open Scope R_scope.

(** ** correlation as a convolution with the reversed conjugate *)
Definition rconj (N : nat) (X : nat -> CC) (n : nat) : CC := @cconj ROps (X ((N - n) mod N)%nat).
Lemma transform_rconj N X i : (0 < N)%nat -> (i < N)%nat -> transform fwd0 N (rconj N X) i = @cconj ROps (transform fwd0 N X i).
Proof.
  intros HN Hi. unfold transform. cbn [meth_scaling factor meth_inv]. rewrite !SixExact.cscal_1, DFT_conj.
  unfold rconj. rewrite (DFT_reverse false N (fun n => @cconj ROps (X n)) i HN Hi), DFT_mod by exact HN.
  unfold DFT. apply csum_ext. intros j _. f_equal. symmetry. apply (W_negb_mul false); lia.
Qed.
Lemma nrm_rconj N X : (0 < N)%nat -> nrm N (rconj N X) = nrm N X.
Proof.
  intros HN. pose proof (nrm_transform fwd0 N (rconj N X) HN) as E1. pose proof (nrm_transform fwd0 N X HN) as E2. cbn [meth_scaling factor] in E1, E2.
  assert (E : nrm N (transform fwd0 N (rconj N X)) = nrm N (transform fwd0 N X)).
  { rewrite (nrm_ext N _ (fun i => @cconj ROps (transform fwd0 N X i))) by (intros i Hi; apply transform_rconj; auto).
    unfold nrm. f_equal. apply rsum_ext. intros i _. generalize (transform fwd0 N X i). intros [p q]. unfold cnorm2, cconj, mkC, Re, Im. cbn [fst snd sneg ROps]. ring. }
  assert (Hs : 0 < sqrt (INR N)) by (apply sqrt_lt_R0, lt_0_INR; exact HN).
  apply (Rmult_eq_reg_l (sqrt (INR N))); [|lra]. lra.
Qed.
Lemma circ_rconj N X Y i : (0 < N)%nat -> (i < N)%nat -> circ N (rconj N X) Y i = corr N X Y i.
Proof.
  intros HN Hi. rewrite <- (transform_circ fwd0 fwd0 invn N (rconj N X) Y i), <- (transform_corr fwd0 fwd0 invn N X Y i) by auto.
  apply transform_ext. intros j Hj. rewrite transform_rconj by auto. reflexivity.
Qed.

(** ** the error *)
Lemma corr_F_err A bd bd' N ps X Y : valid_length N -> factorisation ps N ->
  nrm N (fun i => @csub ROps (@fft0_F (fl A bd) N invn (fun i => @cmul (fl A bd') (@cconj (fl A bd') (@fft0_F (fl A bd) N fwd0 X i)) (@fft0_F (fl A bd) N fwd0 Y i)) i) (corr N X Y i))
  <= conv_bound (error_bound A ps) (uu A) (floor A N) N X Y.
Proof.
  intros HN Hp. assert (HNp : (0 < N)%nat) by (unfold valid_length in HN; lia). pose proof (uu_range A) as Hu.
  assert (H3 : 0 <= (1 + uu A) ^ 3 - 1).
  { assert (1 <= (1 + uu A) ^ 3) by (apply pow_R1_Rle; lra). lra. }
  unfold conv_bound. rewrite Rpow_mult_distr. replace ((1 + uu A) ^ 3) with (1 + ((1 + uu A) ^ 3 - 1)) by ring.
  rewrite <- (nrm_rconj N X HNp).
  rewrite (nrm_ext N _ (fun i => @csub ROps (@fft0_F (fl A bd) N invn (fun i => @cmul (fl A bd') (@cconj (fl A bd') (@fft0_F (fl A bd) N fwd0 X i)) (@fft0_F (fl A bd) N fwd0 Y i)) i) (circ N (rconj N X) Y i)))
    by (intros i Hi; cbv beta; rewrite circ_rconj by auto; reflexivity).
  eapply (conv_err N _ _ _ (rconj N X) Y (fun i => @cconj ROps (@fft0_F (fl A bd) N fwd0 X i)) (@fft0_F (fl A bd) N fwd0 Y)
    (fun i => @cmul (fl A bd') (@cconj (fl A bd') (@fft0_F (fl A bd) N fwd0 X i)) (@fft0_F (fl A bd) N fwd0 Y i)));
    [exact HNp|apply bound_pos|apply floor_pos|exact H3| |apply fft_within; auto| |apply fft_within; auto].
  - pose proof (fft_within A bd N fwd0 ps X HN Hp) as W. unfold within in *.
    assert (E : nrm N (transform fwd0 N (rconj N X)) = nrm N (transform fwd0 N X)) by (rewrite !nrm_transform, nrm_rconj by exact HNp; reflexivity).
    rewrite E. eapply Rle_trans; [|exact W]. apply Req_le. unfold nrm. f_equal. apply rsum_ext. intros i Hi. rewrite transform_rconj by auto.
    generalize (transform fwd0 N X i), (@fft0_F (fl A bd) N fwd0 X i). intros [p q] [r s]. unfold cnorm2, csub, cconj, mkC, Re, Im. cbn [fst snd sneg ssub ROps]. ring.
  - intros i Hi. eapply Rle_trans; [apply (fl_mul A bd')|]. apply Rmult_le_compat_l; [exact H3|]. apply Rplus_le_compat_l.
    unfold floor, psi. assert (1 <= INR N) by (change 1 with (INR 1); apply le_INR; lia). pose proof (phi_range A). nra.
Qed.

(** ** on IEEE doubles: no overflow, and the error bound of the convolution *)
Theorem C64_ieee_correlation : forall dc ds lam, libm dc ds lam -> lam <= 1 -> forall bd bd' b N x y (m : mem (@C (ieee dc ds bd))) X Y ps e1 e2,
  valid_length N -> fft_history b (Some N) m -> ~ fft_own b (fst x) -> ~ fft_own b (fst y) -> disjR x N y N ->
  holds m x N X -> holds m y N Y -> factorisation ps N ->
  (forall i, (i < N)%nat -> bounded e1 (X i) /\ bounded e2 (Y i)) -> (e1 + e2 + 30 * Nat.log2 N + 1 <= 1023)%nat ->
  exists m1 m2 U V, Outcome (@fft_run (ieee dc ds bd) b N fwd0 x) m m1 /\ Outcome (@fft_run (ieee dc ds bd) b N fwd0 y) m1 m2 /\
    holds m2 x N U /\ holds m2 y N V /\
    forall m3, (forall l, fft_own b (fst l) -> m3 l = m2 l) -> holds m3 x N (fun i => @cmul (ieee dc ds bd') (@cconj (ieee dc ds bd') (U i)) (V i)) ->
    exists m4 Z, Outcome (@fft_run (ieee dc ds bd) b N invn x) m3 m4 /\ holds m4 x N Z /\ (forall i, (i < N)%nat -> finite_c (Z i)) /\
      nrm N (fun i => @csub ROps (val (Z i)) (corr N (fun i => val (X i)) (fun i => val (Y i)) i)) <=
      conv_bound (bound64 lam ps) u64 (floor64 N) N (fun i => val (X i)) (fun i => val (Y i)).
Proof.
  intros dc ds lam L Hl bd bd' b N x y m X Y ps e1 e2 HN Hh Hx Hy Hd HX HY Hp HB He.
  destruct (conv_calls (ieee dc ds bd) b N x y m X Y HN Hh Hx Hy Hd HX HY) as (m1 & m2 & O1 & O2 & A1 & A2 & K).
  exists m1, m2, (@fft0_F (ieee dc ds bd) N fwd0 X), (@fft0_F (ieee dc ds bd) N fwd0 Y). split; [exact O1|]. split; [exact O2|]. split; [exact A1|]. split; [exact A2|].
  intros m3 Hf HQ. destruct (K m3 _ Hf HQ) as (m4 & O4 & R4). eexists m4, _. split; [exact O4|]. split; [exact R4|].
  set (Q := fun i => @cmul (ieee dc ds bd') (@cconj (ieee dc ds bd') (@fft0_F (ieee dc ds bd) N fwd0 X i)) (@fft0_F (ieee dc ds bd) N fwd0 Y i)) in *.
  assert (HG : GV dc ds bd N (S ((e1 + 10 * Nat.log2 N) + (e2 + 10 * Nat.log2 N))) Q).
  { assert (G1 : GV dc ds bd N e1 X) by (apply bounded_GV; intros j Hj; apply HB, Hj).
    assert (G2 : GV dc ds bd N e2 Y) by (apply bounded_GV; intros j Hj; apply HB, Hj).
    intros i Hi. exact (cmul_small dc ds lam L Hl bd' _ _ _ _ (gc_conj dc ds lam L Hl bd _ _ (fft0_F_G dc ds lam L Hl bd N fwd0 _ X HN G1 i Hi))
      (fft0_F_G dc ds lam L Hl bd N fwd0 _ Y HN G2 i Hi)). }
  assert (HZ : forall i, (i < N)%nat -> finite_c (@fft0_F (ieee dc ds bd) N invn Q i)).
  { intros i Hi. pose proof (fft0_F_G dc ds lam L Hl bd N invn _ Q HN HG) as G.
    eapply bounded_fin, (GV_bounded dc ds bd N _ _ G); [lia|exact Hi]. }
  split; [exact HZ|].
  pose (A := real64 dc ds lam L). pose (X' := fun i => val (X i)). pose (Y' := fun i => val (Y i)).
  pose (Z' := @fft0_F (fl A bd) N invn (fun i => @cmul (fl A bd') (@cconj (fl A bd') (@fft0_F (fl A bd) N fwd0 X' i)) (@fft0_F (fl A bd) N fwd0 Y' i))).
  assert (HV : @VR (ieee dc ds bd) (fl A bd) Rf (@fft0_F (ieee dc ds bd) N invn Q) Z').
  { apply (fft0_F_p (ieee_sim dc ds lam L bd) N invn); [exact HN|]. intros i.
    apply (p_mul (ieee_sim dc ds lam L bd')); [apply (p_conj (ieee_sim dc ds lam L bd'))|]; apply (fft0_F_p (ieee_sim dc ds lam L bd) N fwd0 _ _ HN (VR_val dc ds lam L bd _)). }
  erewrite nrm_ext; [exact (corr_F_err A bd bd' N ps X' Y' HN Hp)|]. intros i Hi. cbv beta.
  rewrite (CR_fin dc ds lam L bd _ _ (HV i) (HZ i Hi)). reflexivity.
Qed.
Print Assumptions C64_ieee_correlation.

(** ** integers: if the bound is below 1/2, rounding the result to integers gives the exact correlation *)
Definition zcorr (N : nat) (a c : nat -> Z) (k : nat) : Z := zsum N (fun j => (a j * c ((j + k) mod N)%nat)%Z).
Lemma corr_Z N X Y a c k : (forall i, (i < N)%nat -> X i = rc (IZR (a i)) /\ Y i = rc (IZR (c i))) -> corr N X Y k = rc (IZR (zcorr N a c k)).
Proof.
  intros H. unfold corr, zcorr. rewrite (csum_ext N _ (fun j => rc (IZR (a j * c ((j + k) mod N)%nat)%Z))).
  - apply (csum_Z N (fun j => (a j * c ((j + k) mod N)%nat)%Z)).
  - intros j Hj. destruct (H j Hj) as [-> _]. destruct (H ((j + k) mod N)%nat) as [_ ->]; [apply Nat.mod_upper_bound; lia|].
    rewrite mult_IZR. csimp; ring.
Qed.
Theorem C64_integer_correlation : forall dc ds lam, libm dc ds lam -> lam <= 1 -> forall bd bd' b N x y (m : mem (@C (ieee dc ds bd))) X Y (a c : nat -> Z) ps e1 e2,
  valid_length N -> fft_history b (Some N) m -> ~ fft_own b (fst x) -> ~ fft_own b (fst y) -> disjR x N y N ->
  holds m x N X -> holds m y N Y -> factorisation ps N ->
  (forall i, (i < N)%nat -> bounded e1 (X i) /\ bounded e2 (Y i)) -> (e1 + e2 + 30 * Nat.log2 N + 1 <= 1023)%nat ->
  (forall i, (i < N)%nat -> val (X i) = rc (IZR (a i)) /\ val (Y i) = rc (IZR (c i))) ->
  conv_bound (bound64 lam ps) u64 (floor64 N) N (fun i => rc (IZR (a i))) (fun i => rc (IZR (c i))) < / 2 ->
  exists m1 m2 U V, Outcome (@fft_run (ieee dc ds bd) b N fwd0 x) m m1 /\ Outcome (@fft_run (ieee dc ds bd) b N fwd0 y) m1 m2 /\
    holds m2 x N U /\ holds m2 y N V /\
    forall m3, (forall l, fft_own b (fst l) -> m3 l = m2 l) -> holds m3 x N (fun i => @cmul (ieee dc ds bd') (@cconj (ieee dc ds bd') (U i)) (V i)) ->
    exists m4 Z, Outcome (@fft_run (ieee dc ds bd) b N invn x) m3 m4 /\ holds m4 x N Z /\
      forall i, (i < N)%nat -> finite_c (Z i) /\ ZnearestE (B2R (fst (Z i))) = zcorr N a c i /\ ZnearestE (B2R (snd (Z i))) = 0%Z.
Proof.
  intros dc ds lam L Hl bd bd' b N x y m X Y a c ps e1 e2 HN Hh Hx Hy Hd HX HY Hp HB He Hac Hb.
  destruct (C64_ieee_correlation dc ds lam L Hl bd bd' b N x y m X Y ps e1 e2 HN Hh Hx Hy Hd HX HY Hp HB He) as (m1 & m2 & U & V & O1 & O2 & A1 & A2 & K).
  exists m1, m2, U, V. split; [exact O1|]. split; [exact O2|]. split; [exact A1|]. split; [exact A2|].
  intros m3 Hf HQ. destruct (K m3 Hf HQ) as (m4 & Z & O4 & R4 & F4 & W). exists m4, Z. split; [exact O4|]. split; [exact R4|]. intros i Hi.
  split; [apply F4, Hi|].
  assert (E : conv_bound (bound64 lam ps) u64 (floor64 N) N (fun i => val (X i)) (fun i => val (Y i)) =
    conv_bound (bound64 lam ps) u64 (floor64 N) N (fun i => rc (IZR (a i))) (fun i => rc (IZR (c i)))).
  { unfold conv_bound. rewrite (nrm_ext N (fun i => val (X i)) (fun i => rc (IZR (a i)))), (nrm_ext N (fun i => val (Y i)) (fun i => rc (IZR (c i)))); [reflexivity| |]; intros j Hj; apply Hac, Hj. }
  rewrite E in W. pose proof (nrm_i N (fun i => @csub ROps (val (Z i)) (corr N (fun i => val (X i)) (fun i => val (Y i)) i)) i Hi) as Hn. cbv beta in Hn.
  rewrite (corr_Z N _ _ a c i Hac) in Hn. assert (Hc : cabs (@csub ROps (val (Z i)) (rc (IZR (zcorr N a c i)))) < / 2) by lra.
  assert (Hr : forall z : CC, Rabs (fst z) <= cabs z /\ Rabs (snd z) <= cabs z).
  { intros [p q]. pose proof (cabs_pos (p, q)) as P. pose proof (cabs_sq (p, q)) as S. unfold cnorm2 in S. cbn [fst snd] in *. split; apply sq_le; auto; rewrite <- Rabs_mult, Rabs_right; nra. }
  destruct (Hr (@csub ROps (val (Z i)) (rc (IZR (zcorr N a c i))))) as [H1 H2]. split; apply Znearest_imp.
  - eapply Rle_lt_trans; [|exact Hc]. exact H1.
  - eapply Rle_lt_trans; [|exact Hc]. exact H2.
Qed.
Print Assumptions C64_integer_correlation.
(** the conditions of the integer theorem are met: 1024 signed integers of at most 10 bits each (PropConvAccuracy.C58_integers) *)
