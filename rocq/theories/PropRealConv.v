(** * C58 for RealFFT: accuracy of convolutions of real signals

    fwd0 from x to u and from y to t, the products of the first N/2 + 1 elements of the two spectra stored in u (the other
    elements of u are never read by the inverse, so they are left as they are), invn from u to z; against the exact circular
    convolution [rcirc] (PropConvolution.v).  Only half of the products are needed, and the bound is the one of the complex transforms. *)

From Coq Require Import Reals ZArith List Arith Bool Lia Lra Psatz.
From Flocq Require Import Core.Core IEEE754.BinarySingleNaN.
From Verif Require Import PropMysqrt.
From Verif Require Import Scalar RealOps Spec DftFacts Norm Simd Round Mem MemFacts Omp Lanes Stage Object Engine ApiSpec FactorFacts
  ModelApi History ApiFacts ApiExact Footprint ComplexThms ModelReal RealFacts RealRun RealExact RealObj RealSpec RealThms PropConvolution
  RoundMixed RoundApi PropAccuracy RoundReal PropRealAccuracy Param ParamKern ParamFft Ieee64 PropIeee Grade GradeFft PropOverflow PropConvAccuracy.
Import ListNotations.
Local Open Scope R_scope.

(** the product of two numbers with zero imaginary part has zero imaginary part, in every build *)
Lemma mul_im0 A bd (z w : CC) : Im z = 0 -> Im w = 0 -> Im (@cmul (fl A bd) z w) = 0.
Proof.
  destruct z as [a b], w as [c d]. unfold Im. cbn [snd]. intros -> ->. pose proof (rd0 A) as Z.
  unfold cmul, mkC, Re, Im. cbn [fst snd]. unfold fl, build_ops, set_ops, build_six. cbn [smulim k_mulim].
  change (rnd A (IZR 0) = 0) in Z.
  destruct bd; cbn [sadd ssub smul sneg rops k_mulim]; repeat progress rewrite ?Rmult_0_r, ?Rmult_0_l, ?Ropp_0, ?Rplus_0_l, ?Rminus_0_r, ?Z; reflexivity.
Qed.

Lemma rfft_G_within_half A bd N k ps (X : nat -> CC) : real_length N -> meth_inv k = true -> Im (X 0%nat) = 0 -> Im (X (N / 2)%nat) = 0 -> factorisation ps N ->
  within N (error_bound A ps) (floor A N) (@rfft_G (fl A bd) N k X) (transform k N (hermit N X)).
Proof.
  intros HN Hk H0 Hh Hp. destruct (fact_prod _ _ Hp) as [H1 H2]. unfold within. rewrite bound_EE.
  exact (rfft_G_err A bd N k ps X HN Hk H0 Hh H1 H2).
Qed.

Lemma rconv_F_err A bd bd' N ps (v w : nat -> R) : real_length N -> factorisation ps N ->
  nrm N (fun i => @csub ROps (@rfft_G (fl A bd) N invn (fun i => @cmul (fl A bd') (@rfft_F (fl A bd) N fwd0 (fun j => rc (v j)) i) (@rfft_F (fl A bd) N fwd0 (fun j => rc (w j)) i)) i) (rc (rcirc N v w i)))
  <= conv_bound (error_bound A ps) (uu A) (floor A N) N (fun j => rc (v j)) (fun j => rc (w j)).
Proof.
  intros HN Hp. pose proof (real_length_pos N HN) as HNp. pose proof (uu_range A) as Hu.
  assert (H3 : 0 <= (1 + uu A) ^ 3 - 1).
  { assert (1 <= (1 + uu A) ^ 3) by (apply pow_R1_Rle; lra). lra. }
  unfold conv_bound. rewrite Rpow_mult_distr. replace ((1 + uu A) ^ 3) with (1 + ((1 + uu A) ^ 3 - 1)) by ring.
  pose proof (rfft_F_hermitian A bd N fwd0 (fun j => rc (v j)) HN) as HU. pose proof (rfft_F_hermitian A bd N fwd0 (fun j => rc (w j)) HN) as HV.
  pose proof (rfft_F_within A bd N fwd0 ps v HN eq_refl Hp) as WU. pose proof (rfft_F_within A bd N fwd0 ps w HN eq_refl Hp) as WV.
  set (U := @rfft_F (fl A bd) N fwd0 (fun j => rc (v j))) in *. set (V := @rfft_F (fl A bd) N fwd0 (fun j => rc (w j))) in *.
  set (Q := fun i => @cmul (fl A bd') (U i) (V i)).
  assert (EN : N = (2 * (N / 2))%nat) by apply HN.
  rewrite (nrm_ext N _ (fun i => @csub ROps (@rfft_G (fl A bd) N invn Q i) (circ N (fun j => rc (v j)) (fun j => rc (w j)) i))) by (intros i _; rewrite circ_rc; reflexivity).
  assert (HF : forall z z' : CC, cabs (@csub ROps (@cmul (fl A bd') z z') (cmul z z')) <= ((1 + uu A) ^ 3 - 1) * (cabs z * cabs z' + floor A N)).
  { intros z z'. eapply Rle_trans; [apply (fl_mul A bd')|]. apply Rmult_le_compat_l; [exact H3|]. apply Rplus_le_compat_l.
    unfold floor, psi. assert (1 <= INR N) by (change 1 with (INR 1); apply le_INR; lia). pose proof (phi_range A). nra. }
  eapply (conv_err N _ _ _ _ _ U V (hermit N Q)); [exact HNp|apply bound_pos|apply floor_pos|exact H3|exact WU|exact WV| |].
  - intros i Hi. unfold hermit. destruct (Nat.leb_spec i (N / 2)) as [L|L]; [apply HF|].
    assert (EU : U i = @cconj ROps (U (N - i)%nat)) by (pose proof (proj2 HU (N - i)%nat ltac:(lia)) as E; replace (N - (N - i))%nat with i in E by lia; exact E).
    assert (EV : V i = @cconj ROps (V (N - i)%nat)) by (pose proof (proj2 HV (N - i)%nat ltac:(lia)) as E; replace (N - (N - i))%nat with i in E by lia; exact E).
    rewrite EU, EV. assert (AC : forall z : CC, cabs (cconj z) = cabs z) by (intros z; unfold cabs; rewrite cnorm2_conj; reflexivity).
    rewrite !AC. unfold Q.
    assert (CS : forall q p p' : CC, cabs (csub (cconj q) (cmul (cconj p) (cconj p'))) = cabs (csub q (cmul p p'))).
    { intros [q1 q2] [p1 p2] [p3 p4]. rewrite <- AC. f_equal. csimp; ring. }
    eapply Rle_trans; [apply Req_le; apply CS|].
    apply HF.
  - apply rfft_G_within_half; auto.
    + apply mul_im0; [apply HU|apply HV].
    + apply mul_im0; apply hermitian_h; auto.
Qed.

(** the three calls, for any arithmetic; the client stores N/2 + 1 values Q in u *)
Lemma rconv_calls (Op : Ops) b N x y u t z (m : mem (@C Op)) X Y :
  real_length N -> rfft_history b (Some N) m ->
  ~ fft_own b (fst x) -> ~ fft_own b (fst y) -> ~ fft_own b (fst u) -> ~ fft_own b (fst t) -> ~ fft_own b (fst z) ->
  disjR x N u N -> disjR y N t N -> disjR u N y N -> disjR u N t N -> disjR u N z N ->
  allocd m (inR u N) -> allocd m (inR t N) -> holds m x N X -> holds m y N Y ->
  exists m1 m2, Outcome (rfft_run b N fwd0 x u) m m1 /\ Outcome (rfft_run b N fwd0 y t) m1 m2 /\
    holds m2 u N (rfft_F N fwd0 X) /\ holds m2 t N (rfft_F N fwd0 Y) /\
    forall m3 Q, (forall l, fft_own b (fst l) -> m3 l = m2 l) -> allocd m3 (inR u N) -> allocd m3 (inR z N) -> holds m3 u (N / 2 + 1) Q ->
    exists m4, Outcome (rfft_run b N invn u z) m3 m4 /\ holds m4 z N (rfft_G N invn Q).
Proof.
  intros HN Hh Hx Hy Hu Ht Hz Dxu Dyt Duy Dut Duz Au At HX HY.
  destruct (rfft_call_ok b N fwd0 x u m X HN Hh Hx Hu Dxu Au HX) as (m1 & O1 & R1 & F1 & H1 & _).
  assert (F1' : forall l, ~ inR u N l -> m1 l = m l) by (intros l Hl; apply F1; [exact Hl|intros E; discriminate E]).
  assert (HY1 : holds m1 y N Y).
  { intros i Hi. rewrite F1'; [apply HY, Hi|]. intros C. eapply disjR_inR; [exact Duy|exact C|]. apply inR_i. exact Hi. }
  assert (At1 : allocd m1 (inR t N)).
  { intros l Hl. rewrite F1'; [apply At, Hl|]. intros C. eapply disjR_inR; [exact Dut|exact C|exact Hl]. }
  destruct (rfft_call_ok b N fwd0 y t m1 Y HN H1 Hy Ht Dyt At1 HY1) as (m2 & O2 & R2 & F2 & H2 & _).
  assert (F2' : forall l, ~ inR t N l -> m2 l = m1 l) by (intros l Hl; apply F2; [exact Hl|intros E; discriminate E]).
  exists m1, m2. split; [exact O1|]. split; [exact O2|]. split; [|split; [exact R2|]].
  { intros i Hi. rewrite F2'; [apply R1, Hi|]. intros C. eapply disjR_inR; [exact Dut| |exact C]. apply inR_i. exact Hi. }
  intros m3 Q Hf Au3 Az HP. assert (H3 : rfft_history b (Some N) m3) by (eapply h_other; [exact H2|auto]).
  rewrite <- (rf_in_inv N invn HN eq_refl) in HP.
  destruct (rfft_call_gen b N invn u z m3 Q HN H3 Hu Hz Duz Az Au3 HP) as (m4 & O4 & R4 & _). exists m4. split; [exact O4|exact R4].
Qed.

(** C58, RealFFT, rounded arithmetic *)
Theorem C58_real_convolution_accuracy : forall A bd bd' b N x y u t z (m : mem (@C (fl A bd))) v w ps,
  real_length N -> rfft_history b (Some N) m ->
  ~ fft_own b (fst x) -> ~ fft_own b (fst y) -> ~ fft_own b (fst u) -> ~ fft_own b (fst t) -> ~ fft_own b (fst z) ->
  disjR x N u N -> disjR y N t N -> disjR u N y N -> disjR u N t N -> disjR u N z N ->
  allocd m (inR u N) -> allocd m (inR t N) ->
  holds m x N (fun j => rc (v j)) -> holds m y N (fun j => rc (w j)) -> factorisation ps N ->
  exists m1 m2 U V, Outcome (@rfft_run (fl A bd) b N fwd0 x u) m m1 /\ Outcome (@rfft_run (fl A bd) b N fwd0 y t) m1 m2 /\
    holds m2 u N U /\ holds m2 t N V /\
    forall m3, (forall l, fft_own b (fst l) -> m3 l = m2 l) -> allocd m3 (inR u N) -> allocd m3 (inR z N) ->
    holds m3 u (N / 2 + 1) (fun i => @cmul (fl A bd') (U i) (V i)) ->
    exists m4 r, Outcome (@rfft_run (fl A bd) b N invn u z) m3 m4 /\ holds m4 z N (fun j => rc (r j)) /\
      nrm N (fun i => rc (r i - rcirc N v w i)) <= conv_bound (error_bound A ps) (uu A) (floor A N) N (fun j => rc (v j)) (fun j => rc (w j)).
Proof.
  intros A bd bd' b N x y u t z m v w ps HN Hh Hx Hy Hu Ht Hz Dxu Dyt Duy Dut Duz Au At HX HY Hp.
  destruct (rconv_calls (fl A bd) b N x y u t z m _ _ HN Hh Hx Hy Hu Ht Hz Dxu Dyt Duy Dut Duz Au At HX HY) as (m1 & m2 & O1 & O2 & A1 & A2 & K).
  exists m1, m2, (@rfft_F (fl A bd) N fwd0 (fun j => rc (v j))), (@rfft_F (fl A bd) N fwd0 (fun j => rc (w j))).
  split; [exact O1|]. split; [exact O2|]. split; [exact A1|]. split; [exact A2|].
  intros m3 Hf Au3 Az HQ. destruct (K m3 _ Hf Au3 Az HQ) as (m4 & O4 & R4).
  pose proof (rconv_F_err A bd bd' N ps v w HN Hp) as W. cbv beta in *.
  set (Z := @rfft_G (fl A bd) N invn _) in *.
  assert (EZ : forall j, Z j = rc (Re (Z j))) by (intros j; unfold Z, rfft_G; rewrite ri_out_F; unfold ri_out, rval; reflexivity).
  exists m4, (fun j => Re (Z j)). split; [exact O4|]. split.
  - intros j Hj. rewrite <- EZ. apply R4. exact Hj.
  - rewrite (nrm_ext N _ (fun i => @csub ROps (Z i) (rc (rcirc N v w i)))); [exact W|]. intros i _. rewrite (EZ i) at 2. csimp; ring.
Qed.
Print Assumptions C58_real_convolution_accuracy.

(** C58, RealFFT, binary64 numbers: inputs of magnitude at most 2^e1 and 2^e2 with e1 + e2 + 30 log2 N + 1 <= 1023 *)
Theorem C58_ieee_real_convolution : forall dc ds lam, libm dc ds lam -> lam <= 1 -> forall bd bd' b N x y u t z (m : mem (@C (ieee dc ds bd))) (v w : nat -> double) ps e1 e2,
  real_length N -> rfft_history b (Some N) m ->
  ~ fft_own b (fst x) -> ~ fft_own b (fst y) -> ~ fft_own b (fst u) -> ~ fft_own b (fst t) -> ~ fft_own b (fst z) ->
  disjR x N u N -> disjR y N t N -> disjR u N y N -> disjR u N t N -> disjR u N z N ->
  allocd m (inR u N) -> allocd m (inR t N) ->
  holds m x N (fun j => @rval (ieee dc ds bd) (v j)) -> holds m y N (fun j => @rval (ieee dc ds bd) (w j)) -> factorisation ps N ->
  (forall i, (i < N)%nat -> (is_finite (v i) = true /\ Rabs (B2R (v i)) <= 2 ^ e1) /\ (is_finite (w i) = true /\ Rabs (B2R (w i)) <= 2 ^ e2)) ->
  (e1 + e2 + 30 * Nat.log2 N + 1 <= 1023)%nat ->
  exists m1 m2 U V, Outcome (@rfft_run (ieee dc ds bd) b N fwd0 x u) m m1 /\ Outcome (@rfft_run (ieee dc ds bd) b N fwd0 y t) m1 m2 /\
    holds m2 u N U /\ holds m2 t N V /\
    forall m3, (forall l, fft_own b (fst l) -> m3 l = m2 l) -> allocd m3 (inR u N) -> allocd m3 (inR z N) ->
    holds m3 u (N / 2 + 1) (fun i => @cmul (ieee dc ds bd') (U i) (V i)) ->
    exists m4 r, Outcome (@rfft_run (ieee dc ds bd) b N invn u z) m3 m4 /\ holds m4 z N (fun j => @rval (ieee dc ds bd) (r j)) /\
      (forall i, (i < N)%nat -> is_finite (r i) = true) /\
      nrm N (fun i => rc (B2R (r i) - rcirc N (fun j => B2R (v j)) (fun j => B2R (w j)) i)) <=
      conv_bound (bound64 lam ps) u64 (floor64 N) N (fun j => rc (B2R (v j))) (fun j => rc (B2R (w j))).
Proof.
  intros dc ds lam L Hl bd bd' b N x y u t z m v w ps e1 e2 HN Hh Hx Hy Hu Ht Hz Dxu Dyt Duy Dut Duz Au At HX HY Hp HB He.
  destruct (rconv_calls (ieee dc ds bd) b N x y u t z m _ _ HN Hh Hx Hy Hu Ht Hz Dxu Dyt Duy Dut Duz Au At HX HY) as (m1 & m2 & O1 & O2 & A1 & A2 & K).
  exists m1, m2, (@rfft_F (ieee dc ds bd) N fwd0 (fun j => @rval (ieee dc ds bd) (v j))), (@rfft_F (ieee dc ds bd) N fwd0 (fun j => @rval (ieee dc ds bd) (w j))).
  split; [exact O1|]. split; [exact O2|]. split; [exact A1|]. split; [exact A2|].
  intros m3 Hf Au3 Az HQ. destruct (K m3 _ Hf Au3 Az HQ) as (m4 & O4 & R4). cbv beta in *.
  set (Q := fun i => @cmul (ieee dc ds bd') (@rfft_F (ieee dc ds bd) N fwd0 (fun j => @rval (ieee dc ds bd) (v j)) i) (@rfft_F (ieee dc ds bd) N fwd0 (fun j => @rval (ieee dc ds bd) (w j)) i)) in *.
  exists m4, (fun j => Re (@rfft_G (ieee dc ds bd) N invn Q j)). split; [exact O4|]. split; [exact R4|].
  assert (HG : GV dc ds bd N (S ((e1 + 10 * Nat.log2 N) + (e2 + 10 * Nat.log2 N))) Q).
  { assert (G1 : GV dc ds bd N e1 (fun j => @rval (ieee dc ds bd) (v j))) by (apply bounded_GV; intros j Hj; apply bounded_rval; apply HB, Hj).
    assert (G2 : GV dc ds bd N e2 (fun j => @rval (ieee dc ds bd) (w j))) by (apply bounded_GV; intros j Hj; apply bounded_rval; apply HB, Hj).
    intros i Hi. exact (cmul_small dc ds lam L Hl bd' _ _ _ _ (rfft_F_G dc ds lam L Hl bd N fwd0 _ _ HN G1 i Hi) (rfft_F_G dc ds lam L Hl bd N fwd0 _ _ HN G2 i Hi)). }
  assert (HZ : forall i, (i < N)%nat -> finite_c (@rfft_G (ieee dc ds bd) N invn Q i)).
  { intros i Hi. pose proof (rfft_G_G dc ds lam L Hl bd N invn _ Q HN HG) as G.
    eapply bounded_fin, (GV_bounded dc ds bd N _ _ G); [lia|exact Hi]. }
  split; [intros i Hi; apply (HZ i Hi)|].
  pose (A := real64 dc ds lam L).
  pose (Z' := @rfft_G (fl A bd) N invn (fun i => @cmul (fl A bd') (@rfft_F (fl A bd) N fwd0 (fun j => rc (B2R (v j))) i) (@rfft_F (fl A bd) N fwd0 (fun j => rc (B2R (w j))) i))).
  assert (HV : @VR (ieee dc ds bd) (fl A bd) Rf (@rfft_G (ieee dc ds bd) N invn Q) Z').
  { apply (rfft_G_p (ieee_sim dc ds lam L bd) N invn); [exact HN|]. intros i.
    apply (p_mul (ieee_sim dc ds lam L bd')); apply (rfft_F_p (ieee_sim dc ds lam L bd) N fwd0 _ _ HN (VR_rval dc ds lam L bd _)). }
  assert (EZ : forall j, Z' j = rc (Re (Z' j))) by (intros j; unfold Z', rfft_G; rewrite ri_out_F; unfold ri_out, rval; reflexivity).
  erewrite nrm_ext; [exact (rconv_F_err A bd bd' N ps (fun j => B2R (v j)) (fun j => B2R (w j)) HN Hp)|]. intros i Hi. cbv beta. change (@rfft_G (fl A bd) N invn _ i) with (Z' i).
  pose proof (CR_fin dc ds lam L bd _ _ (HV i) (HZ i Hi)) as E. 
  assert (E1 : B2R (Re (@rfft_G (ieee dc ds bd) N invn Q i)) = Re (Z' i)) by (rewrite <- E; reflexivity).
  rewrite (EZ i), E1. generalize (Re (Z' i)), (rcirc N (fun j => B2R (v j)) (fun j => B2R (w j)) i). intros p q. change (@eq CC (rc (p - q)) (@csub ROps (rc p) (rc q))). csimp; ring.
Qed.
Print Assumptions C58_ieee_real_convolution.

(** C58, RealFFT, integers: the rounded result is the exact convolution *)
Lemma rcirc_Z N (v w : nat -> R) (a c : nat -> Z) k : (forall i, (i < N)%nat -> v i = IZR (a i) /\ w i = IZR (c i)) -> rcirc N v w k = IZR (zcirc N a c k).
Proof.
  intros H. pose proof (circ_Z N (fun j => rc (v j)) (fun j => rc (w j)) a c k) as E. rewrite circ_rc in E.
  assert (E' : rc (rcirc N v w k) = rc (IZR (zcirc N a c k))) by (apply E; intros i Hi; destruct (H i Hi) as [-> ->]; auto).
  exact (f_equal fst E').
Qed.
Theorem C58_integer_real_convolution : forall dc ds lam, libm dc ds lam -> lam <= 1 -> forall bd bd' b N x y u t z (m : mem (@C (ieee dc ds bd))) (v w : nat -> double) (a c : nat -> Z) ps e1 e2,
  real_length N -> rfft_history b (Some N) m ->
  ~ fft_own b (fst x) -> ~ fft_own b (fst y) -> ~ fft_own b (fst u) -> ~ fft_own b (fst t) -> ~ fft_own b (fst z) ->
  disjR x N u N -> disjR y N t N -> disjR u N y N -> disjR u N t N -> disjR u N z N ->
  allocd m (inR u N) -> allocd m (inR t N) ->
  holds m x N (fun j => @rval (ieee dc ds bd) (v j)) -> holds m y N (fun j => @rval (ieee dc ds bd) (w j)) -> factorisation ps N ->
  (forall i, (i < N)%nat -> (is_finite (v i) = true /\ Rabs (B2R (v i)) <= 2 ^ e1) /\ (is_finite (w i) = true /\ Rabs (B2R (w i)) <= 2 ^ e2)) ->
  (e1 + e2 + 30 * Nat.log2 N + 1 <= 1023)%nat ->
  (forall i, (i < N)%nat -> B2R (v i) = IZR (a i) /\ B2R (w i) = IZR (c i)) ->
  conv_bound (bound64 lam ps) u64 (floor64 N) N (fun i => rc (IZR (a i))) (fun i => rc (IZR (c i))) < / 2 ->
  exists m1 m2 U V, Outcome (@rfft_run (ieee dc ds bd) b N fwd0 x u) m m1 /\ Outcome (@rfft_run (ieee dc ds bd) b N fwd0 y t) m1 m2 /\
    holds m2 u N U /\ holds m2 t N V /\
    forall m3, (forall l, fft_own b (fst l) -> m3 l = m2 l) -> allocd m3 (inR u N) -> allocd m3 (inR z N) ->
    holds m3 u (N / 2 + 1) (fun i => @cmul (ieee dc ds bd') (U i) (V i)) ->
    exists m4 r, Outcome (@rfft_run (ieee dc ds bd) b N invn u z) m3 m4 /\ holds m4 z N (fun j => @rval (ieee dc ds bd) (r j)) /\
      forall i, (i < N)%nat -> is_finite (r i) = true /\ ZnearestE (B2R (r i)) = zcirc N a c i.
Proof.
  intros dc ds lam L Hl bd bd' b N x y u t z m v w a c ps e1 e2 HN Hh Hx Hy Hu Ht Hz Dxu Dyt Duy Dut Duz Au At HX HY Hp HB He Hac Hb.
  destruct (C58_ieee_real_convolution dc ds lam L Hl bd bd' b N x y u t z m v w ps e1 e2 HN Hh Hx Hy Hu Ht Hz Dxu Dyt Duy Dut Duz Au At HX HY Hp HB He)
    as (m1 & m2 & U & V & O1 & O2 & A1 & A2 & K).
  exists m1, m2, U, V. split; [exact O1|]. split; [exact O2|]. split; [exact A1|]. split; [exact A2|].
  intros m3 Hf Au3 Az HQ. destruct (K m3 Hf Au3 Az HQ) as (m4 & r & O4 & R4 & F4 & W). exists m4, r. split; [exact O4|]. split; [exact R4|]. intros i Hi.
  split; [apply F4, Hi|].
  assert (E : conv_bound (bound64 lam ps) u64 (floor64 N) N (fun j => rc (B2R (v j))) (fun j => rc (B2R (w j))) =
    conv_bound (bound64 lam ps) u64 (floor64 N) N (fun i => rc (IZR (a i))) (fun i => rc (IZR (c i)))).
  { unfold conv_bound. rewrite (nrm_ext N (fun j => rc (B2R (v j))) (fun i => rc (IZR (a i)))), (nrm_ext N (fun j => rc (B2R (w j))) (fun i => rc (IZR (c i)))); [reflexivity| |]; intros j Hj; destruct (Hac j Hj) as [E1 E2]; rewrite ?E1, ?E2; reflexivity. }
  rewrite E in W. pose proof (nrm_i N (fun i => rc (B2R (r i) - rcirc N (fun j => B2R (v j)) (fun j => B2R (w j)) i)) i Hi) as Hn. cbv beta in Hn.
  rewrite (rcirc_Z N _ _ a c i Hac) in Hn. apply Znearest_imp.
  pose proof (re_abs (rc (B2R (r i) - IZR (zcirc N a c i)))) as Ha. change (Re (rc (B2R (r i) - IZR (zcirc N a c i)))) with (B2R (r i) - IZR (zcirc N a c i)) in Ha. lra.
Qed.
Print Assumptions C58_integer_real_convolution.

(** the hypotheses are met: the five arrays in buffers 20 to 24, after a setup of an object in buffers 0 to 3 *)
Theorem C58_real_hypotheses_met : forall (Op : Ops) N (X Y : nat -> @C Op), real_length N -> exists m : mem (@C Op),
  rfft_history 0 (Some N) m /\ allocd m (inR (22%nat, 0%nat) N) /\ allocd m (inR (23%nat, 0%nat) N) /\ allocd m (inR (24%nat, 0%nat) N) /\
  holds m (20%nat, 0%nat) N X /\ holds m (21%nat, 0%nat) N Y.
Proof.
  intros Op N X Y HN. assert (Ow : forall q, (20 <= q)%nat -> ~ fft_own 0 q) by (intros q Hq; unfold fft_own; lia).
  destruct (real_inhabited 0 N (20%nat, 0%nat) (22%nat, 0%nat) X HN) as (m & Hh & Ha & HX).
  - apply Ow. cbn. lia.
  - apply Ow. cbn. lia.
  - apply disjR_buf. cbn. lia.
  - exists (fun l : loc => if Nat.eqb (fst l) 21 then Val (Y (snd l)) else if Nat.ltb 22 (fst l) then Uninit else m l).
    split; [|split; [|split; [|split; [|split]]]].
    + eapply h_other; [exact Hh|]. intros [p o] Hl. assert (p < 20)%nat by (unfold fft_own in Hl; cbn [fst] in Hl; lia). cbn [fst].
      destruct (Nat.eqb_spec p 21); [lia|]. destruct (Nat.ltb_spec 22 p); [lia|]. reflexivity.
    + intros l Hl. pose proof (Ha l Hl) as K. destruct Hl as (i & Hi & ->). exact K.
    + intros l (i & Hi & ->). discriminate.
    + intros l (i & Hi & ->). discriminate.
    + intros i Hi. exact (HX i Hi).
    + intros i Hi. reflexivity.
Qed.
(** with [C58_integers] (PropConvAccuracy.v): 1024 signed integers of at most 10 bits each, ideal libm, come out exactly *)

(** C56 in exact arithmetic, with only the first N/2 + 1 products stored *)
Theorem C56_real_half_spectrum : forall b N x y u t z (m : mem CC) v w,
  real_length N -> rfft_history b (Some N) m ->
  ~ fft_own b (fst x) -> ~ fft_own b (fst y) -> ~ fft_own b (fst u) -> ~ fft_own b (fst t) -> ~ fft_own b (fst z) ->
  disjR x N u N -> disjR y N t N -> disjR u N y N -> disjR u N t N -> disjR u N z N ->
  allocd m (inR u N) -> allocd m (inR t N) ->
  holds m x N (fun j => rc (v j)) -> holds m y N (fun j => rc (w j)) ->
  exists m1 m2 U V, Outcome (rfft_run b N fwd0 x u) m m1 /\ Outcome (rfft_run b N fwd0 y t) m1 m2 /\ holds m2 u N U /\ holds m2 t N V /\
    forall m3, (forall l, fft_own b (fst l) -> m3 l = m2 l) -> allocd m3 (inR u N) -> allocd m3 (inR z N) -> holds m3 u (N / 2 + 1) (fun i => cmul (U i) (V i)) ->
    exists m4, Outcome (rfft_run b N invn u z) m3 m4 /\ holds m4 z N (fun k => rc (rcirc N v w k)).
Proof.
  intros b N x y u t z m v w HN Hh Hx Hy Hu Ht Hz Dxu Dyt Duy Dut Duz Au At HX HY. pose proof (real_length_pos N HN) as HNp.
  destruct (rconv_calls ROps b N x y u t z m _ _ HN Hh Hx Hy Hu Ht Hz Dxu Dyt Duy Dut Duz Au At HX HY) as (m1 & m2 & O1 & O2 & A1 & A2 & K).
  assert (EN : N = (2 * (N / 2))%nat) by apply HN. assert (Hh2 : (2 <= N / 2)%nat) by apply HN.
  assert (EF : forall (f : nat -> R) i, (i < N)%nat -> @rfft_F ROps N fwd0 (fun j => rc (f j)) i = transform fwd0 N (fun j => rc (f j)) i).
  { intros f i Hi. rewrite rfft_F_exact by auto. apply transform_ext. intros j _. reflexivity. }
  exists m1, m2, (transform fwd0 N (fun j => rc (v j))), (transform fwd0 N (fun j => rc (w j))).
  split; [exact O1|]. split; [exact O2|]. split; [intros i Hi; rewrite <- EF by exact Hi; apply A1, Hi|]. split; [intros i Hi; rewrite <- EF by exact Hi; apply A2, Hi|].
  intros m3 Hf Au3 Az HQ. destruct (K m3 _ Hf Au3 Az HQ) as (m4 & O4 & R4). exists m4. split; [exact O4|]. intros i Hi. rewrite R4 by exact Hi. f_equal.
  set (Q := fun i => cmul (transform fwd0 N (fun j => rc (v j)) i) (transform fwd0 N (fun j => rc (w j)) i)) in *.
  assert (MI : forall f j, (0 < j < N)%nat -> transform fwd0 N (fun j => rc (f j)) (N - j) = cconj (transform fwd0 N (fun j => rc (f j)) j))
    by (intros f j Hj; apply transform_mirror; auto using isreal_rc; lia).
  assert (I0 : forall f, Im (transform fwd0 N (fun j => rc (f j)) 0) = 0) by (intros f; apply (transform_Im0 fwd0 N _ eq_refl HNp (isreal_rc f))).
  assert (Ih : forall f, Im (transform fwd0 N (fun j => rc (f j)) (N / 2)) = 0).
  { intros f. apply self_conj_real. rewrite <- MI by lia. f_equal. lia. }
  assert (IM : forall p q : CC, Im p = 0 -> Im q = 0 -> Im (cmul p q) = 0).
  { intros [p1 p2] [q1 q2] E1 E2. creduce. rewrite E1, E2. ring. }
  rewrite rfft_G_exact; [|exact HN|reflexivity|apply IM; apply I0|apply IM; apply Ih|exact Hi].
  rewrite <- circ_rc, <- (transform_circ fwd0 fwd0 invn) by auto. apply transform_ext. intros j Hj. unfold hermit.
  destruct (Nat.leb_spec j (N / 2)) as [L|L]; [reflexivity|]. unfold Q. rewrite conj_mul, <- !MI by lia. replace (N - (N - j))%nat with j by lia. reflexivity.
Qed.
Print Assumptions C56_real_half_spectrum.
