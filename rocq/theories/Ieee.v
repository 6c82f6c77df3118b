(** * IEEE-754 double precision (Flocq) as an instance of the model's arithmetic

    NaNs are identified with each other (Flocq's BinarySingleNaN); rounding is to nearest, ties to even. *)

From Coq Require Import Reals ZArith Bool Lia SpecFloat.
From Flocq Require Import Core.Zaux Core.FLT Core.Generic_fmt Core.Round_NE IEEE754.BinarySingleNaN.
From Verif Require Import Scalar Simd SimdFacts Mysqrt.

Section Ieee.
Variables prec emax : Z.
Context (prec_gt_0_ : FLX.Prec_gt_0 prec) (prec_lt_emax_ : Prec_lt_emax prec emax).
Notation F := (binary_float prec emax).
Notation add := (@Bplus prec emax _ _ mode_NE).
Notation sub := (@Bminus prec emax _ _ mode_NE).
Notation mul := (@Bmult prec emax _ _ mode_NE).
Notation neg := (@Bopp prec emax).

Lemma add_comm (x y : F) : add x y = add y x.
Proof.
  destruct x as [sx|sx| |sx mx ex Hx], y as [sy|sy| |sy my ey Hy]; try reflexivity.
  - cbn. destruct sx, sy; reflexivity.
  - cbn. destruct sx, sy; reflexivity.
  - unfold Bplus. cbv zeta. rewrite (Z.min_comm ex ey). f_equal. unfold Fplus_naive. apply Z.add_comm.
Qed.
Lemma sub_add (x y : F) : sub x y = add x (neg y).
Proof. destruct x as [sx|sx| |sx mx ex Hx], y as [sy|sy| |sy my ey Hy]; reflexivity. Qed.

Lemma round_aux_negb s m e l : binary_round_aux prec emax mode_NE (negb s) m e l = SFopp (binary_round_aux prec emax mode_NE s m e l).
Proof.
  unfold binary_round_aux. destruct (shr_fexp prec emax m e l) as [mrs' e'].
  assert (E : forall s', choice_mode mode_NE s' (shr_m mrs') (loc_of_shr_record mrs') = choice_mode mode_NE s (shr_m mrs') (loc_of_shr_record mrs')) by reflexivity.
  rewrite (E (negb s)). destruct (shr_fexp prec emax _ e' loc_Exact) as [m2 e2].
  destruct (shr_m m2); try reflexivity. unfold binary_fit_aux. destruct (Z.leb e2 (emax - prec)); reflexivity.
Qed.
Lemma mul_neg (x y : F) : mul x (neg y) = neg (mul x y).
Proof.
  destruct x as [sx|sx| |sx mx ex Hx], y as [sy|sy| |sy my ey Hy]; try (destruct sx, sy; reflexivity); try reflexivity.
  apply B2SF_inj. replace (B2SF (neg (mul (B754_finite sx mx ex Hx) (B754_finite sy my ey Hy))))
    with (SFopp (B2SF (mul (B754_finite sx mx ex Hx) (B754_finite sy my ey Hy)))) by (destruct (mul _ _); reflexivity).
  cbn [Bopp]. unfold Bmult. rewrite !B2SF_SF2B.
  replace (xorb sx (negb sy)) with (negb (xorb sx sy)) by (destruct sx, sy; reflexivity). apply round_aux_negb.
Qed.

(** cos and sin are whatever the C library computes; the literal constants are whatever doubles they denote *)
Variables (f_cos f_sin : F -> F) (f_pi f_sqrt1_2 f_H1X f_H1Y : F).
Definition F_ops0 : Ops := {|
  Sc := F; sadd := add; ssub := sub; smul := mul; sdiv := @Bdiv prec emax _ _ mode_NE; sneg := neg;
  ssqrt := @Bsqrt prec emax _ _ mode_NE; smysqrt := mysqrt_Z prec emax _ _; scos := f_cos; ssin := f_sin;
  sofZ := fun z => binary_normalize prec emax _ _ mode_NE z 0 false; spi := f_pi;
  ssqrt1_2 := f_sqrt1_2; sH1X := f_H1X; sH1Y := f_H1Y;
  smulre := fun a b x y => sub (mul a x) (mul b y); smulim := fun a b x y => add (mul a y) (mul b x);
  sv8re := fun x y => mul f_sqrt1_2 (sub x y); sv8im := fun x y => mul f_sqrt1_2 (add x y);
  sw8re := fun x y => mul f_sqrt1_2 (add x y); sw8im := fun x y => mul f_sqrt1_2 (sub y x) |}.
Definition f_fma (x y z : F) : F := @Bfma prec emax _ _ mode_NE x y z.
Definition f_fms (x y z : F) : F := @Bfma prec emax _ _ mode_NE x y (neg z).
(** the arithmetic of a build on IEEE doubles *)
Definition F_ops (b : build) : Ops := @build_ops F_ops0 f_fma f_fms b.

Lemma F_ops_nofma (P : six (F_ops0) -> Prop) b b' : has_fma b = false -> has_fma b' = false ->
  P (@build_six F_ops0 f_fma f_fms b') -> P (@build_six F_ops0 f_fma f_fms b).
Proof. intros H1 H2. rewrite (@build_six_nofma F_ops0 _ _ f_fma f_fms add_comm sub_add mul_neg b b' H1 H2). auto. Qed.
End Ieee.
