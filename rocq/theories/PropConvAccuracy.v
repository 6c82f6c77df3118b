(** * C58: accuracy of convolutions computed through the transforms

    fwd0 on x, fwd0 on y, the product of the two results by the library's complex multiplication (operator* of complex_t,
    mulpz2 of the vector builds) stored in x, invn on x; against the exact circular convolution [circ] (PropConvolution.v).
    See PropAccuracy.v for [fl A bd], [error_bound], [floor] and [nrm], PropIeee.v for [ieee dc ds bd], [val] and [finite_c].
    The error is at most (((1+u)(1+e))^3 - 1) (sqrt N (|X| + p) (|Y| + p) + p), e the error bound and p the underflow floor of one
    transform; sqrt N |X| |Y| is the largest norm the convolution of vectors of these norms can have. *)

From Coq Require Import Reals ZArith List Arith Bool Lia Lra Psatz.
From Flocq Require Import Core.Core IEEE754.BinarySingleNaN.
From Verif Require Import Scalar RealOps Spec DftFacts Norm Simd Round Mem MemFacts Omp Lanes Stage Object Engine ApiSpec FactorFacts
  ModelApi History ApiFacts ApiExact Footprint ComplexThms PropConvolution RoundMixed RoundApi PropAccuracy Param ParamKern ParamFft Ieee64 PropIeee Grade GradeFft PropOverflow.
Import ListNotations.
Local Open Scope R_scope.

Lemma nrm_const N c : 0 <= c -> nrm N (fun _ => rc c) = sqrt (INR N) * c.
Proof.
  intros Hc. assert (E : nrm N (fun _ => rc c) * nrm N (fun _ => rc c) = (sqrt (INR N) * c) * (sqrt (INR N) * c)).
  { rewrite nrm_sq. replace (sqrt (INR N) * c * (sqrt (INR N) * c)) with ((sqrt (INR N) * sqrt (INR N)) * (c * c)) by ring.
    rewrite sqrt_sqrt by apply pos_INR. induction N as [|N IH]; [cbn [rsum INR]; ring|]. cbn [rsum]. rewrite IH, S_INR. unfold cnorm2, rc. cbn [fst snd]. ring. }
  pose proof (nrm_pos N (fun _ => rc c)). pose proof (sqrt_pos (INR N)).
  apply Rle_antisym; apply sq_le; try nra.
Qed.
Lemma nrm_pmul N X Y : nrm N (fun i => cmul (X i) (Y i)) <= nrm N X * nrm N Y.
Proof. apply nrm_rel; [apply nrm_pos|]. intros i Hi. rewrite cabs_mul. apply Rmult_le_compat_r; [apply cabs_pos|apply nrm_i, Hi]. Qed.
Lemma cabs_rc r : 0 <= r -> cabs (rc r) = r.
Proof. intros H. unfold cabs, cnorm2, rc. cbn [fst snd]. replace (r * r + 0 * 0) with (r * r) by ring. apply sqrt_square, H. Qed.

Lemma conv_err N e P eta X Y U V Q Z : (0 < N)%nat -> 0 <= e -> 0 <= P -> 0 <= eta ->
  within N e P U (transform fwd0 N X) -> within N e P V (transform fwd0 N Y) ->
  (forall i, (i < N)%nat -> cabs (csub (Q i) (cmul (U i) (V i))) <= eta * (cabs (U i) * cabs (V i) + P)) ->
  within N e P Z (transform invn N Q) ->
  nrm N (fun i => csub (Z i) (circ N X Y i)) <= ((1 + eta) * (1 + e) ^ 3 - 1) * (sqrt (INR N) * (nrm N X + P) * (nrm N Y + P) + P).
Proof.
  intros HN He HP Ht HU HV HQ HZ. unfold within in *.
  set (TX := transform fwd0 N X) in *. set (TY := transform fwd0 N Y) in *.
  assert (Hq : 1 <= sqrt (INR N)) by (rewrite <- sqrt_1 at 1; apply sqrt_le_1_alt; change 1 with (INR 1); apply le_INR; lia).
  assert (EX : nrm N TX = sqrt (INR N) * nrm N X) by (unfold TX; rewrite nrm_transform by exact HN; cbn [meth_scaling factor]; ring).
  assert (EY : nrm N TY = sqrt (INR N) * nrm N Y) by (unfold TY; rewrite nrm_transform by exact HN; cbn [meth_scaling factor]; ring).
  assert (Ei : forall G, nrm N (transform invn N G) = nrm N G / sqrt (INR N)).
  { intros G. rewrite nrm_transform by exact HN. cbn [meth_scaling factor]. rewrite <- (sqrt_sqrt (INR N)) at 1 by apply pos_INR. field. lra. }
  pose proof (nrm_near N U TX) as NU. pose proof (nrm_near N V TY) as NV.
  change (fun i => csub (U i) (TX i)) with (vsub U TX) in HU. change (fun i => csub (V i) (TY i)) with (vsub V TY) in HV.
  (* the product of the spectra *)
  set (UV := fun i => cmul (U i) (V i)). set (T := fun i => cmul (TX i) (TY i)).
  assert (D1 : nrm N (vsub UV T) <= nrm N U * nrm N (vsub V TY) + nrm N (vsub U TX) * nrm N TY).
  { eapply Rle_trans; [|apply Rplus_le_compat; apply nrm_pmul]. rewrite (nrm_ext N _ (fun i => cadd (cmul (U i) (vsub V TY i)) (cmul (vsub U TX i) (TY i)))).
    - apply nrm_tri.
    - intros i _. unfold vsub, UV, T. ring. }
  assert (D2 : nrm N (vsub Q UV) <= eta * (nrm N U * nrm N V + sqrt (INR N) * P)).
  { assert (K : nrm N (vsub Q UV) <= 1 * nrm N (fun i => cadd (rc (eta * cabs (UV i))) (rc (eta * P)))).
    { apply nrm_rel; [lra|]. intros i Hi. unfold vsub at 1. eapply Rle_trans; [apply (HQ i Hi)|].
      replace (cadd (rc (eta * cabs (UV i))) (rc (eta * P))) with (rc (eta * (cabs (U i) * cabs (V i) + P))) by (unfold UV; rewrite cabs_mul; csimp; ring).
      rewrite cabs_rc; [lra|]. pose proof (cabs_pos (U i)). pose proof (cabs_pos (V i)). apply Rmult_le_pos; [exact Ht|]. nra. }
    rewrite Rmult_1_l in K. eapply Rle_trans; [exact K|]. eapply Rle_trans; [apply nrm_tri|]. rewrite nrm_const by nra.
    assert (K2 : nrm N (fun i => rc (eta * cabs (UV i))) <= eta * nrm N UV).
    { apply nrm_rel; [exact Ht|]. intros i _. rewrite cabs_rc; [lra|]. pose proof (cabs_pos (UV i)). nra. }
    pose proof (nrm_pmul N U V) as K3. fold UV in K3. pose proof (nrm_pos N UV). nra. }
  (* the inverse *)
  assert (D3 : nrm N (vsub Z (circ N X Y)) <= nrm N (vsub Z (transform invn N Q)) + nrm N (vsub Q T) / sqrt (INR N)).
  { eapply Rle_trans; [apply (nrm_tri3 _ _ (transform invn N Q))|]. apply Rplus_le_compat_l. rewrite <- Ei.
    apply Req_le, nrm_ext. intros i Hi. unfold vsub. rewrite <- transform_sub. f_equal. symmetry. apply (transform_circ fwd0 fwd0 invn); auto. }
  change (fun i => csub (Z i) (circ N X Y i)) with (vsub Z (circ N X Y)).
  change (fun i => csub (Z i) (transform invn N Q i)) with (vsub Z (transform invn N Q)) in HZ. rewrite Ei in HZ.
  pose proof (nrm_tri3 N Q UV T) as D4. pose proof (nrm_near N Q T) as D5. pose proof (nrm_pmul N TX TY) as D6. fold T in D6.
  pose proof (nrm_pos N U). pose proof (nrm_pos N V). pose proof (nrm_pos N X). pose proof (nrm_pos N Y). pose proof (nrm_pos N (vsub U TX)). pose proof (nrm_pos N (vsub V TY)).
  pose proof (nrm_pos N (vsub Q UV)). pose proof (nrm_pos N (vsub UV T)). pose proof (nrm_pos N (vsub Q T)). pose proof (nrm_pos N Q). pose proof (nrm_pos N T).
  rewrite EX in *. rewrite EY in *.
  set (q := sqrt (INR N)) in *. set (x := nrm N X) in *. set (y := nrm N Y) in *. set (dU := nrm N (vsub U TX)) in *. set (dV := nrm N (vsub V TY)) in *.
  set (nU := nrm N U) in *. set (nV := nrm N V) in *. set (nQ := nrm N Q) in *. set (nT := nrm N T) in *. set (dQ := nrm N (vsub Q UV)) in *.
  set (dT := nrm N (vsub UV T)) in *. set (dQT := nrm N (vsub Q T)) in *. set (dZ := nrm N (vsub Z (circ N X Y))) in *. set (dI := nrm N (vsub Z (transform invn N Q))) in *.
  clearbody q x y dU dV nU nV nQ nT dQ dT dQT dZ dI. clear Ei EX EY TX TY UV T.
  set (a := q * x + P) in *. set (c := q * y + P) in *.
  assert (Ha : 0 <= a) by (unfold a; nra). assert (Hc : 0 <= c) by (unfold c; nra).
  assert (LU : nU <= (1 + e) * a) by (unfold a in *; nra). assert (LV : nV <= (1 + e) * c) by (unfold c in *; nra).
  assert (Hac : 0 <= a * c) by nra.
  assert (LT : dT <= ((1 + e) * (1 + e) - 1) * (a * c)).
  { assert (S1 : nU * dV <= ((1 + e) * a) * (e * c)) by (apply Rmult_le_compat; auto). assert (S2 : dU * (q * y) <= (e * a) * c) by (apply Rmult_le_compat; unfold c; nra). nra. }
  assert (LQ : dQ <= eta * ((1 + e) * (1 + e) * (a * c) + q * P)).
  { eapply Rle_trans; [exact D2|]. apply Rmult_le_compat_l; [exact Ht|]. apply Rplus_le_compat_r.
    replace ((1 + e) * (1 + e) * (a * c)) with (((1 + e) * a) * ((1 + e) * c)) by ring. apply Rmult_le_compat; auto. }
  assert (LQT : dQT <= ((1 + eta) * ((1 + e) * (1 + e)) - 1) * (a * c) + eta * (q * P)) by nra.
  assert (LnT : nT <= a * c).
  { eapply Rle_trans; [exact D6|]. apply Rmult_le_compat; unfold a, c; nra. }
  assert (LnQ : nQ <= (1 + eta) * ((1 + e) * (1 + e)) * (a * c) + eta * (q * P)) by nra.
  assert (Hiq : 0 < / q) by (apply Rinv_0_lt_compat; lra).
  assert (Dq : dZ <= e * (((1 + eta) * ((1 + e) * (1 + e)) * (a * c) + eta * (q * P)) / q + P) + (((1 + eta) * ((1 + e) * (1 + e)) - 1) * (a * c) + eta * (q * P)) / q).
  { eapply Rle_trans; [exact D3|]. apply Rplus_le_compat.
    - eapply Rle_trans; [exact HZ|]. apply Rmult_le_compat_l; [exact He|]. apply Rplus_le_compat_r. apply Rmult_le_compat_r; [lra|exact LnQ].
    - apply Rmult_le_compat_r; [lra|exact LQT]. }
  set (w := a * c / q) in *.
  assert (Dw : dZ <= ((1 + eta) * (1 + e) ^ 3 - 1) * w + ((1 + eta) * (1 + e) - 1) * P).
  { eapply Rle_trans; [exact Dq|]. apply Req_le. unfold w. field. lra. }
  assert (Hw : w <= q * (x + P) * (y + P)).
  { unfold w. apply (Rmult_le_reg_r q); [lra|]. replace (a * c / q * q) with (a * c) by (field; lra).
    replace (q * (x + P) * (y + P) * q) with ((q * (x + P)) * (q * (y + P))) by ring. apply Rmult_le_compat; unfold a, c; nra. }
  assert (Hee : 0 <= (1 + eta) * (1 + e) - 1) by nra.
  assert (Hpp : (1 + eta) * (1 + e) - 1 <= (1 + eta) * (1 + e) ^ 3 - 1).
  { assert (1 + e <= (1 + e) ^ 3) by (replace ((1 + e) ^ 3) with ((1 + e) * ((1 + e) * (1 + e))) by ring; assert (1 <= (1 + e) * (1 + e)) by nra; nra).
    apply Rplus_le_compat_r. apply Rmult_le_compat_l; lra. }
  rewrite Rmult_plus_distr_l. eapply Rle_trans; [exact Dw|]. apply Rplus_le_compat; [apply Rmult_le_compat_l; [lra|exact Hw]|apply Rmult_le_compat_r; auto].
Qed.

(** the three calls, for any arithmetic and any values Q that the client stores in between *)
Lemma conv_calls (Op : Ops) b N x y (m : mem (@C Op)) X Y :
  valid_length N -> fft_history b (Some N) m -> ~ fft_own b (fst x) -> ~ fft_own b (fst y) -> disjR x N y N ->
  holds m x N X -> holds m y N Y ->
  exists m1 m2, Outcome (fft_run b N fwd0 x) m m1 /\ Outcome (fft_run b N fwd0 y) m1 m2 /\
    holds m2 x N (fft0_F N fwd0 X) /\ holds m2 y N (fft0_F N fwd0 Y) /\
    forall m3 Q, (forall l, fft_own b (fst l) -> m3 l = m2 l) -> holds m3 x N Q ->
    exists m4, Outcome (fft_run b N invn x) m3 m4 /\ holds m4 x N (fft0_F N invn Q).
Proof.
  intros HN Hh Hx Hy Hd HX HY.
  assert (Hb : forall z : ptr, ~ fft_own b (fst z) -> forall i, ~ inR ((b + 3)%nat, 0%nat) N (z +! i)).
  { intros z Hz i (j & _ & E). apply Hz. apply (f_equal fst) in E. cbn in E. rewrite E. unfold fft_own. lia. }
  destruct (fft_call_any b N fwd0 x m X HN Hh Hx HX) as (m1 & O1 & R1 & F1 & H1).
  assert (HY1 : holds m1 y N Y).
  { intros i Hi. rewrite F1; [apply HY, Hi| |apply Hb, Hy]. intros C. eapply disjR_inR; [exact Hd|exact C|]. apply inR_i. exact Hi. }
  destruct (fft_call_any b N fwd0 y m1 Y HN H1 Hy HY1) as (m2 & O2 & R2 & F2 & H2).
  exists m1, m2. split; [exact O1|]. split; [exact O2|]. split; [|split; [exact R2|]].
  { intros i Hi. rewrite F2; [apply R1, Hi| |apply Hb, Hx]. intros C. eapply disjR_inR; [exact Hd| |exact C]. apply inR_i. exact Hi. }
  intros m3 Q Hf HP. assert (H3 : fft_history b (Some N) m3) by (eapply h_other; [exact H2|auto]).
  destruct (fft_call_any b N invn x m3 Q HN H3 Hx HP) as (m4 & O4 & R4 & _). exists m4. auto.
Qed.

Definition conv_bound (e u P : R) (N : nat) (X Y : nat -> CC) : R :=
  (((1 + u) * (1 + e)) ^ 3 - 1) * (sqrt (INR N) * (nrm N X + P) * (nrm N Y + P) + P).

Lemma conv_F_err A bd bd' N ps X Y : valid_length N -> factorisation ps N ->
  nrm N (fun i => @csub ROps (@fft0_F (fl A bd) N invn (fun i => @cmul (fl A bd') (@fft0_F (fl A bd) N fwd0 X i) (@fft0_F (fl A bd) N fwd0 Y i)) i) (circ N X Y i))
  <= conv_bound (error_bound A ps) (uu A) (floor A N) N X Y.
Proof.
  intros HN Hp. assert (HNp : (0 < N)%nat) by (unfold valid_length in HN; lia). pose proof (uu_range A) as Hu.
  assert (H3 : 0 <= (1 + uu A) ^ 3 - 1).
  { assert (1 <= (1 + uu A) ^ 3) by (apply pow_R1_Rle; lra). lra. }
  unfold conv_bound. rewrite Rpow_mult_distr. replace ((1 + uu A) ^ 3) with (1 + ((1 + uu A) ^ 3 - 1)) by ring.
  eapply (conv_err N _ _ _ X Y (@fft0_F (fl A bd) N fwd0 X) (@fft0_F (fl A bd) N fwd0 Y) (fun i => @cmul (fl A bd') (@fft0_F (fl A bd) N fwd0 X i) (@fft0_F (fl A bd) N fwd0 Y i)));
    [exact HNp|apply bound_pos|apply floor_pos|exact H3|apply fft_within; auto|apply fft_within; auto| |apply fft_within; auto].
  intros i Hi. eapply Rle_trans; [apply (fl_mul A bd')|]. apply Rmult_le_compat_l; [exact H3|]. apply Rplus_le_compat_l.
  unfold floor, psi. assert (1 <= INR N) by (change 1 with (INR 1); apply le_INR; lia). pose proof (phi_range A). nra.
Qed.

(** C58: rounded arithmetic; bd is the build of the library, bd' the way the client's code computes the products *)
Theorem C58_convolution_accuracy : forall A bd bd' b N x y (m : mem (@C (fl A bd))) X Y ps,
  valid_length N -> fft_history b (Some N) m -> ~ fft_own b (fst x) -> ~ fft_own b (fst y) -> disjR x N y N ->
  holds m x N X -> holds m y N Y -> factorisation ps N ->
  exists m1 m2 U V, Outcome (@fft_run (fl A bd) b N fwd0 x) m m1 /\ Outcome (@fft_run (fl A bd) b N fwd0 y) m1 m2 /\
    holds m2 x N U /\ holds m2 y N V /\
    forall m3, (forall l, fft_own b (fst l) -> m3 l = m2 l) -> holds m3 x N (fun i => @cmul (fl A bd') (U i) (V i)) ->
    exists m4 Z, Outcome (@fft_run (fl A bd) b N invn x) m3 m4 /\ holds m4 x N Z /\
      nrm N (fun i => @csub ROps (Z i) (circ N X Y i)) <= conv_bound (error_bound A ps) (uu A) (floor A N) N X Y.
Proof.
  intros A bd bd' b N x y m X Y ps HN Hh Hx Hy Hd HX HY Hp.
  destruct (conv_calls (fl A bd) b N x y m X Y HN Hh Hx Hy Hd HX HY) as (m1 & m2 & O1 & O2 & A1 & A2 & K).
  exists m1, m2, (@fft0_F (fl A bd) N fwd0 X), (@fft0_F (fl A bd) N fwd0 Y). split; [exact O1|]. split; [exact O2|]. split; [exact A1|]. split; [exact A2|].
  intros m3 Hf HQ. destruct (K m3 _ Hf HQ) as (m4 & O4 & R4). eexists m4, _. split; [exact O4|]. split; [exact R4|]. apply conv_F_err; auto.
Qed.
Print Assumptions C58_convolution_accuracy.

(** C58 on binary64 numbers: every finite element of the result is that close, and if all are finite, the array as a whole *)
Theorem C58_ieee_convolution_accuracy : forall dc ds lam, libm dc ds lam -> forall bd bd' b N x y (m : mem (@C (ieee dc ds bd))) X Y ps,
  valid_length N -> fft_history b (Some N) m -> ~ fft_own b (fst x) -> ~ fft_own b (fst y) -> disjR x N y N ->
  holds m x N X -> holds m y N Y -> factorisation ps N ->
  let C := circ N (fun i => val (X i)) (fun i => val (Y i)) in
  let B := conv_bound (bound64 lam ps) u64 (floor64 N) N (fun i => val (X i)) (fun i => val (Y i)) in
  exists m1 m2 U V, Outcome (@fft_run (ieee dc ds bd) b N fwd0 x) m m1 /\ Outcome (@fft_run (ieee dc ds bd) b N fwd0 y) m1 m2 /\
    holds m2 x N U /\ holds m2 y N V /\
    forall m3, (forall l, fft_own b (fst l) -> m3 l = m2 l) -> holds m3 x N (fun i => @cmul (ieee dc ds bd') (U i) (V i)) ->
    exists m4 Z, Outcome (@fft_run (ieee dc ds bd) b N invn x) m3 m4 /\ holds m4 x N Z /\
      (forall i, (i < N)%nat -> finite_c (Z i) -> cabs (@csub ROps (val (Z i)) (C i)) <= B) /\
      ((forall i, (i < N)%nat -> finite_c (Z i)) -> nrm N (fun i => @csub ROps (val (Z i)) (C i)) <= B).
Proof.
  intros dc ds lam L bd bd' b N x y m X Y ps HN Hh Hx Hy Hd HX HY Hp C B. pose (A := real64 dc ds lam L).
  destruct (conv_calls (ieee dc ds bd) b N x y m X Y HN Hh Hx Hy Hd HX HY) as (m1 & m2 & O1 & O2 & A1 & A2 & K).
  exists m1, m2, (@fft0_F (ieee dc ds bd) N fwd0 X), (@fft0_F (ieee dc ds bd) N fwd0 Y). split; [exact O1|]. split; [exact O2|]. split; [exact A1|]. split; [exact A2|].
  intros m3 Hf HQ. destruct (K m3 _ Hf HQ) as (m4 & O4 & R4). eexists m4, _. split; [exact O4|]. split; [exact R4|].
  set (Z := @fft0_F (ieee dc ds bd) N invn _).
  pose (X' := fun i => val (X i)). pose (Y' := fun i => val (Y i)).
  pose (Z' := @fft0_F (fl A bd) N invn (fun i => @cmul (fl A bd') (@fft0_F (fl A bd) N fwd0 X' i) (@fft0_F (fl A bd) N fwd0 Y' i))).
  assert (HV : @VR (ieee dc ds bd) (fl A bd) Rf Z Z').
  { apply (fft0_F_p (ieee_sim dc ds lam L bd) N invn); [exact HN|]. intros i.
    apply (p_mul (ieee_sim dc ds lam L bd')); apply (fft0_F_p (ieee_sim dc ds lam L bd) N fwd0 _ _ HN (VR_val dc ds lam L bd _)). }
  assert (W : nrm N (fun i => @csub ROps (Z' i) (C i)) <= B) by (apply (conv_F_err A bd bd' N ps X' Y' HN Hp)).
  split.
  - intros i Hi Fi. rewrite (CR_fin dc ds lam L bd _ _ (HV i) Fi). eapply Rle_trans; [apply (nrm_i N (fun i => @csub ROps (Z' i) (C i)) i Hi)|exact W].
  - intros Fi. erewrite nrm_ext; [exact W|]. intros i Hi. cbv beta. rewrite (CR_fin dc ds lam L bd _ _ (HV i) (Fi i Hi)). reflexivity.
Qed.
Print Assumptions C58_ieee_convolution_accuracy.

(** C58 without overflow: inputs of magnitude at most 2^e1 and 2^e2 with e1 + e2 + 30 log2 N + 1 <= 1023 give finite results *)
Lemma cmul_small dc ds lam (L : libm dc ds lam) (Hl : lam <= 1) bd n1 n2 z w : GC dc ds bd n1 z -> GC dc ds bd n2 w ->
  GC dc ds bd (S (n1 + n2)) (@cmul (ieee dc ds bd) z w).
Proof.
  intros [H1 H2] [H3 H4].
  destruct (p_mul (grade_sim dc ds lam L Hl bd 0) z (((0, n1), (0, n1)) : @C grade)%nat w (((0, n2), (0, n2)) : @C grade)%nat) as [K1 K2].
  - split; [exact H1|exact H2].
  - split; [exact H3|exact H4].
  - assert (E : expo 0 (fst (@cmul grade ((0, n1), (0, n1)) ((0, n2), (0, n2))))%nat = S (n1 + n2) /\
      expo 0 (snd (@cmul grade ((0, n1), (0, n1)) ((0, n2), (0, n2))))%nat = S (n1 + n2)).
    { unfold cmul, mkC, Re, Im. cbn [fst snd smulre smulim grade]. unfold gmul, gadd, expo. cbn [fst snd]. rewrite !Nat.max_id. split; lia. }
    destruct E as [E1 E2]. split; [unfold GR in K1; rewrite <- E1; exact K1|unfold GR in K2; rewrite <- E2; exact K2].
Qed.
Theorem C58_ieee_no_overflow : forall dc ds lam, libm dc ds lam -> lam <= 1 -> forall bd bd' b N x y (m : mem (@C (ieee dc ds bd))) X Y ps e1 e2,
  valid_length N -> fft_history b (Some N) m -> ~ fft_own b (fst x) -> ~ fft_own b (fst y) -> disjR x N y N ->
  holds m x N X -> holds m y N Y -> factorisation ps N ->
  (forall i, (i < N)%nat -> bounded e1 (X i) /\ bounded e2 (Y i)) -> (e1 + e2 + 30 * Nat.log2 N + 1 <= 1023)%nat ->
  exists m1 m2 U V, Outcome (@fft_run (ieee dc ds bd) b N fwd0 x) m m1 /\ Outcome (@fft_run (ieee dc ds bd) b N fwd0 y) m1 m2 /\
    holds m2 x N U /\ holds m2 y N V /\
    forall m3, (forall l, fft_own b (fst l) -> m3 l = m2 l) -> holds m3 x N (fun i => @cmul (ieee dc ds bd') (U i) (V i)) ->
    exists m4 Z, Outcome (@fft_run (ieee dc ds bd) b N invn x) m3 m4 /\ holds m4 x N Z /\ (forall i, (i < N)%nat -> finite_c (Z i)) /\
      nrm N (fun i => @csub ROps (val (Z i)) (circ N (fun i => val (X i)) (fun i => val (Y i)) i)) <=
      conv_bound (bound64 lam ps) u64 (floor64 N) N (fun i => val (X i)) (fun i => val (Y i)).
Proof.
  intros dc ds lam L Hl bd bd' b N x y m X Y ps e1 e2 HN Hh Hx Hy Hd HX HY Hp HB He.
  destruct (conv_calls (ieee dc ds bd) b N x y m X Y HN Hh Hx Hy Hd HX HY) as (m1 & m2 & O1 & O2 & A1 & A2 & K).
  exists m1, m2, (@fft0_F (ieee dc ds bd) N fwd0 X), (@fft0_F (ieee dc ds bd) N fwd0 Y). split; [exact O1|]. split; [exact O2|]. split; [exact A1|]. split; [exact A2|].
  intros m3 Hf HQ. destruct (K m3 _ Hf HQ) as (m4 & O4 & R4). eexists m4, _. split; [exact O4|]. split; [exact R4|].
  set (Q := fun i => @cmul (ieee dc ds bd') (@fft0_F (ieee dc ds bd) N fwd0 X i) (@fft0_F (ieee dc ds bd) N fwd0 Y i)) in *.
  assert (HG : GV dc ds bd N (S ((e1 + 10 * Nat.log2 N) + (e2 + 10 * Nat.log2 N))) Q).
  { assert (G1 : GV dc ds bd N e1 X) by (apply bounded_GV; intros j Hj; apply HB, Hj).
    assert (G2 : GV dc ds bd N e2 Y) by (apply bounded_GV; intros j Hj; apply HB, Hj).
    intros i Hi. exact (cmul_small dc ds lam L Hl bd' _ _ _ _ (fft0_F_G dc ds lam L Hl bd N fwd0 _ X HN G1 i Hi) (fft0_F_G dc ds lam L Hl bd N fwd0 _ Y HN G2 i Hi)). }
  assert (HZ : forall i, (i < N)%nat -> finite_c (@fft0_F (ieee dc ds bd) N invn Q i)).
  { intros i Hi. pose proof (fft0_F_G dc ds lam L Hl bd N invn _ Q HN HG) as G.
    eapply bounded_fin, (GV_bounded dc ds bd N _ _ G); [lia|exact Hi]. }
  split; [exact HZ|].
  pose (A := real64 dc ds lam L). pose (X' := fun i => val (X i)). pose (Y' := fun i => val (Y i)).
  pose (Z' := @fft0_F (fl A bd) N invn (fun i => @cmul (fl A bd') (@fft0_F (fl A bd) N fwd0 X' i) (@fft0_F (fl A bd) N fwd0 Y' i))).
  assert (HV : @VR (ieee dc ds bd) (fl A bd) Rf (@fft0_F (ieee dc ds bd) N invn Q) Z').
  { apply (fft0_F_p (ieee_sim dc ds lam L bd) N invn); [exact HN|]. intros i.
    apply (p_mul (ieee_sim dc ds lam L bd')); apply (fft0_F_p (ieee_sim dc ds lam L bd) N fwd0 _ _ HN (VR_val dc ds lam L bd _)). }
  erewrite nrm_ext; [exact (conv_F_err A bd bd' N ps X' Y' HN Hp)|]. intros i Hi. cbv beta.
  rewrite (CR_fin dc ds lam L bd _ _ (HV i) (HZ i Hi)). reflexivity.
Qed.
Print Assumptions C58_ieee_no_overflow.

(** C58 for integers: if the bound is below 1/2, rounding the result to integers gives the exact convolution *)
Fixpoint zsum (n : nat) (f : nat -> Z) : Z := match n with O => 0%Z | S n' => (zsum n' f + f n')%Z end.
Definition zcirc (N : nat) (a c : nat -> Z) (k : nat) : Z := zsum N (fun j => (a j * c ((k + (N - j)) mod N)%nat)%Z).
Lemma zsum_ext n f g : (forall i, (i < n)%nat -> f i = g i) -> zsum n f = zsum n g.
Proof. induction n as [|n IH]; intros H; [reflexivity|]. cbn [zsum]. rewrite IH, H by (intros; auto; lia). reflexivity. Qed.
Lemma csum_Z n (f : nat -> Z) : csum n (fun j => rc (IZR (f j))) = rc (IZR (zsum n f)).
Proof. induction n as [|n IH]; [reflexivity|]. cbn [csum zsum]. rewrite IH, plus_IZR. csimp; ring. Qed.
Lemma circ_Z N X Y a c k : (forall i, (i < N)%nat -> X i = rc (IZR (a i)) /\ Y i = rc (IZR (c i))) -> circ N X Y k = rc (IZR (zcirc N a c k)).
Proof.
  intros H. unfold circ, zcirc. rewrite (csum_ext N _ (fun j => rc (IZR (a j * c ((k + (N - j)) mod N)%nat)%Z))).
  - apply (csum_Z N (fun j => (a j * c ((k + (N - j)) mod N)%nat)%Z)).
  - intros j Hj. destruct (H j Hj) as [-> _]. destruct (H ((k + (N - j)) mod N)%nat) as [_ ->]; [apply Nat.mod_upper_bound; lia|].
    rewrite mult_IZR. csimp; ring.
Qed.
Theorem C58_integer_convolution : forall dc ds lam, libm dc ds lam -> lam <= 1 -> forall bd bd' b N x y (m : mem (@C (ieee dc ds bd))) X Y (a c : nat -> Z) ps e1 e2,
  valid_length N -> fft_history b (Some N) m -> ~ fft_own b (fst x) -> ~ fft_own b (fst y) -> disjR x N y N ->
  holds m x N X -> holds m y N Y -> factorisation ps N ->
  (forall i, (i < N)%nat -> bounded e1 (X i) /\ bounded e2 (Y i)) -> (e1 + e2 + 30 * Nat.log2 N + 1 <= 1023)%nat ->
  (forall i, (i < N)%nat -> val (X i) = rc (IZR (a i)) /\ val (Y i) = rc (IZR (c i))) ->
  conv_bound (bound64 lam ps) u64 (floor64 N) N (fun i => rc (IZR (a i))) (fun i => rc (IZR (c i))) < / 2 ->
  exists m1 m2 U V, Outcome (@fft_run (ieee dc ds bd) b N fwd0 x) m m1 /\ Outcome (@fft_run (ieee dc ds bd) b N fwd0 y) m1 m2 /\
    holds m2 x N U /\ holds m2 y N V /\
    forall m3, (forall l, fft_own b (fst l) -> m3 l = m2 l) -> holds m3 x N (fun i => @cmul (ieee dc ds bd') (U i) (V i)) ->
    exists m4 Z, Outcome (@fft_run (ieee dc ds bd) b N invn x) m3 m4 /\ holds m4 x N Z /\
      forall i, (i < N)%nat -> finite_c (Z i) /\ ZnearestE (B2R (fst (Z i))) = zcirc N a c i /\ ZnearestE (B2R (snd (Z i))) = 0%Z.
Proof.
  intros dc ds lam L Hl bd bd' b N x y m X Y a c ps e1 e2 HN Hh Hx Hy Hd HX HY Hp HB He Hac Hb.
  destruct (C58_ieee_no_overflow dc ds lam L Hl bd bd' b N x y m X Y ps e1 e2 HN Hh Hx Hy Hd HX HY Hp HB He) as (m1 & m2 & U & V & O1 & O2 & A1 & A2 & K).
  exists m1, m2, U, V. split; [exact O1|]. split; [exact O2|]. split; [exact A1|]. split; [exact A2|].
  intros m3 Hf HQ. destruct (K m3 Hf HQ) as (m4 & Z & O4 & R4 & F4 & W). exists m4, Z. split; [exact O4|]. split; [exact R4|]. intros i Hi.
  split; [apply F4, Hi|].
  assert (E : conv_bound (bound64 lam ps) u64 (floor64 N) N (fun i => val (X i)) (fun i => val (Y i)) =
    conv_bound (bound64 lam ps) u64 (floor64 N) N (fun i => rc (IZR (a i))) (fun i => rc (IZR (c i)))).
  { unfold conv_bound. rewrite (nrm_ext N (fun i => val (X i)) (fun i => rc (IZR (a i)))), (nrm_ext N (fun i => val (Y i)) (fun i => rc (IZR (c i)))); [reflexivity| |]; intros j Hj; apply Hac, Hj. }
  rewrite E in W. pose proof (nrm_i N (fun i => @csub ROps (val (Z i)) (circ N (fun i => val (X i)) (fun i => val (Y i)) i)) i Hi) as Hn. cbv beta in Hn.
  rewrite (circ_Z N _ _ a c i Hac) in Hn. assert (Hc : cabs (@csub ROps (val (Z i)) (rc (IZR (zcirc N a c i)))) < / 2) by lra.
  assert (Hr : forall z : CC, Rabs (fst z) <= cabs z /\ Rabs (snd z) <= cabs z).
  { intros [p q]. pose proof (cabs_pos (p, q)) as P. pose proof (cabs_sq (p, q)) as S. unfold cnorm2 in S. cbn [fst snd] in *. split; apply sq_le; auto; rewrite <- Rabs_mult, Rabs_right; nra. }
  destruct (Hr (@csub ROps (val (Z i)) (rc (IZR (zcirc N a c i))))) as [H1 H2]. split; apply Znearest_imp.
  - eapply Rle_lt_trans; [|exact Hc]. exact H1.
  - eapply Rle_lt_trans; [|exact Hc]. exact H2.
Qed.
Print Assumptions C58_integer_convolution.

(** a concrete case: length 1024 in binary64, any builds: the factor is at most 4 * 10^-12 *)
Example C58_example : forall X Y, conv_bound (error_bound binary64 (repeat 2%nat 10)) (uu binary64) (floor binary64 1024) 1024 X Y
  <= 4 / 10 ^ 12 * (32 * (nrm 1024 X + / 10 ^ 300) * (nrm 1024 Y + / 10 ^ 300) + / 10 ^ 300).
Proof.
  intros X Y. unfold conv_bound. pose proof bound_1024 as HB. pose proof (bound_pos binary64 (repeat 2%nat 10)) as H0. cbn [uu binary64].
  assert (Hs : sqrt (INR 1024) = 32).
  { rewrite INR_IZR_INZ. change (IZR (Z.of_nat 1024)) with (32 * 32)%R || replace (IZR (Z.of_nat 1024)) with (32 * 32) by (change (Z.of_nat 1024) with 1024%Z; lra). apply sqrt_square. lra. }
  rewrite Hs.
  assert (S : u64 <= / 10 ^ 15).
  { rewrite u64_val. apply Rinv_le_contravar; [lra|]. rewrite (pow_IZR 2 53), (pow_IZR 10 15). apply IZR_le. vm_compute. discriminate. }
  pose proof u64_pos as Hu.
  assert (F : 0 <= floor binary64 1024 <= / 10 ^ 300).
  { split; [apply floor_pos|]. unfold floor. cbn [phi binary64]. unfold phi64. rewrite INR_IZR_INZ. change 2 with (bpow radix2 1) at 1.
    change (IZR (Z.of_nat 1024)) with (bpow radix2 10). rewrite <- !bpow_plus. change (1 + -1022 + 10)%Z with (- (1011))%Z. rewrite bpow_opp.
    apply Rinv_le_contravar; [apply pow_lt; lra|]. rewrite (pow_IZR 10 300). rewrite <- IZR_Zpower by lia. apply IZR_le. vm_compute. discriminate. }
  set (t := / 10 ^ 300) in *. clearbody t. set (P := floor binary64 1024) in *. clearbody P. set (e := error_bound binary64 (repeat 2%nat 10)) in *. clearbody e.
  set (x := nrm 1024 X). set (y := nrm 1024 Y). pose proof (nrm_pos 1024 X : 0 <= x) as Hx. pose proof (nrm_pos 1024 Y : 0 <= y) as Hy. clearbody x y.
  assert (Hf : 0 <= ((1 + u64) * (1 + e)) ^ 3 - 1 <= 4 / 10 ^ 12).
  { set (d := (1 + u64) * (1 + e) - 1). replace ((1 + u64) * (1 + e)) with (1 + d) by (unfold d; ring). assert (Hd : 0 <= d <= 11 / 10 * / 10 ^ 12) by (unfold d; split; nra).
    replace ((1 + d) ^ 3 - 1) with (d * (3 + 3 * d + d * d)) by ring. clearbody d. split; [nra|].
    assert (d <= / 100) by lra. assert (3 + 3 * d + d * d <= 33 / 10) by nra. nra. }
  apply Rmult_le_compat; [lra| |lra|].
  - assert (0 <= (x + P) * (y + P)) by nra. nra.
  - assert ((x + P) * (y + P) <= (x + t) * (y + t)) by nra. nra.
Qed.
(** so the convolution of two arrays of 1024 signed integers of at most 10 bits comes out exactly *)
Example C58_integers : forall a c : nat -> Z, (forall i, (Z.abs (a i) <= 1023)%Z /\ (Z.abs (c i) <= 1023)%Z) ->
  conv_bound (bound64 u64 (repeat 2%nat 10)) u64 (floor64 1024) 1024 (fun i => rc (IZR (a i))) (fun i => rc (IZR (c i))) < / 2.
Proof.
  intros a c H. pose proof (C58_example (fun i => rc (IZR (a i))) (fun i => rc (IZR (c i)))) as E.
  eapply Rle_lt_trans; [exact E|]. clear E.
  assert (Hn : forall f : nat -> Z, (forall i, (Z.abs (f i) <= 1023)%Z) -> 0 <= nrm 1024 (fun i => rc (IZR (f i))) <= 32736).
  { intros f Hf. split; [apply nrm_pos|]. pose proof (nrm_rel 1024 (fun i => rc (IZR (f i))) (fun _ => rc 1) 1023) as K.
    rewrite nrm_const in K by lra. assert (Hs : sqrt (INR 1024) = 32).
    { rewrite INR_IZR_INZ. replace (IZR (Z.of_nat 1024)) with (32 * 32) by (change (Z.of_nat 1024) with 1024%Z; lra). apply sqrt_square. lra. }
    rewrite Hs in K. eapply Rle_trans; [apply K; [lra|]|lra]. intros i _. rewrite (cabs_rc 1) by lra.
    assert (Ea : cabs (rc (IZR (f i))) = Rabs (IZR (f i))).
    { unfold cabs, cnorm2, rc. cbn [fst snd]. replace (IZR (f i) * IZR (f i) + 0 * 0) with (Rsqr (IZR (f i))) by (unfold Rsqr; ring). apply sqrt_Rsqr_abs. }
    rewrite Ea, <- abs_IZR. specialize (Hf i). apply IZR_le in Hf. lra. }
  pose proof (Hn a (fun i => proj1 (H i))) as Ha. pose proof (Hn c (fun i => proj2 (H i))) as Hc.
  set (x := nrm 1024 (fun i => rc (IZR (a i)))) in *. set (y := nrm 1024 (fun i => rc (IZR (c i)))) in *. clearbody x y.
  assert (Ht : 0 <= / 10 ^ 300 <= 1).
  { assert (1 <= 10 ^ 300) by (apply pow_R1_Rle; lra). split; [left; apply Rinv_0_lt_compat; lra|]. rewrite <- Rinv_1. apply Rinv_le_contravar; lra. }
  set (t := / 10 ^ 300) in *. clearbody t.
  assert ((x + t) * (y + t) <= 32737 * 32737) by (apply Rmult_le_compat; lra).
  apply Rle_lt_trans with (4 / 10 ^ 12 * (32 * (32737 * 32737) + 1)); [|lra].
  apply Rmult_le_compat_l; lra.
Qed.
