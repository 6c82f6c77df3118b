(** * C41: the compile-time square root mysqrt (Mysqrt.v) in IEEE double precision

    The unitary methods of ComplexFFT multiply by 1.0/mysqrt(N) when N is a power of two, 2 <= N <= 2^24. *)

From Coq Require Import Reals ZArith List Bool Arith Lia Lra Psatz SpecFloat.
From Flocq Require Import Core.Core IEEE754.BinarySingleNaN.
From Verif Require Import Scalar Simd Mysqrt Ieee.
Import ListNotations.
Local Open Scope R_scope.

Definition P53 : FLX.Prec_gt_0 53. Proof. reflexivity. Qed.
Definition E53 : Prec_lt_emax 53 1024. Proof. reflexivity. Qed.
(** double *)
Notation double := (binary_float 53 1024).
Notation d_ofZ := (f_ofZ 53 1024 P53 E53).
Notation d_mysqrt := (mysqrt 53 1024 P53 E53).
Notation d_mysqrt_Z := (mysqrt_Z 53 1024 P53 E53).
Notation d_sqrt := (@Bsqrt 53 1024 P53 E53 mode_NE).

(** ** Proof *)
Definition mant (n : nat) : positive := if Nat.even n then 4503599627370496 else 6369051672525772.
Definition value (n : nat) : spec_float := S754_finite false (mant n) (Z.of_nat (n / 2) - 52).
Definition sf_eqb (a b : spec_float) : bool :=
  match a, b with S754_finite s m e, S754_finite s' m' e' => Bool.eqb s s' && Pos.eqb m m' && Z.eqb e e' | _, _ => false end.
Lemma sf_eqb_ok a b : sf_eqb a b = true -> a = b.
Proof.
  destruct a, b; cbn; try discriminate. intros H. apply andb_prop in H as [H H3]. apply andb_prop in H as [H1 H2].
  apply Bool.eqb_prop in H1. apply Pos.eqb_eq in H2. apply Z.eqb_eq in H3. subst. reflexivity.
Qed.
Lemma check_all : forallb (fun n => match d_mysqrt 17 (d_ofZ (2 ^ Z.of_nat n)) with Some r => sf_eqb (B2SF r) (value n) | None => false end) (seq 0 25) = true.
Proof. vm_compute. reflexivity. Qed.
Lemma check_odd : forallb (fun n => Nat.even n || negb (sf_eqb (B2SF (d_sqrt (d_ofZ (2 ^ Z.of_nat n)))) (value n))) (seq 0 25) = true.
Proof. vm_compute. reflexivity. Qed.
Lemma mysqrt_value n : (n <= 24)%nat -> exists r, d_mysqrt 17 (d_ofZ (2 ^ Z.of_nat n)) = Some r /\ B2SF r = value n.
Proof.
  intros Hn. pose proof (proj1 (forallb_forall _ _) check_all n ltac:(apply in_seq; lia)) as H. cbv beta in H.
  destruct (d_mysqrt 17 (d_ofZ (2 ^ Z.of_nat n))) as [r|]; [|discriminate]. exists r. split; auto. apply sf_eqb_ok, H.
Qed.
Lemma mysqrt_Z_value n : (n <= 24)%nat -> exists r, d_mysqrt 17 (d_ofZ (2 ^ Z.of_nat n)) = Some r /\ d_mysqrt_Z (2 ^ Z.of_nat n) = r /\ B2SF r = value n.
Proof.
  intros Hn. destruct (mysqrt_value n Hn) as (r & H1 & H2). exists r. split; [exact H1|]. split; [|exact H2].
  exact (mysqrt_Z_more 53 1024 P53 E53 17 (2 ^ Z.of_nat n) r ltac:(apply Nat.leb_le; reflexivity) H1).
Qed.
Lemma B2R_value (r : double) n : B2SF r = value n -> B2R r = IZR (Zpos (mant n)) * / 2 ^ 52 * 2 ^ (n / 2) /\ is_finite r = true.
Proof.
  destruct r as [s|s| |s m e He]; unfold value; cbn [B2SF]; try discriminate. intros [= -> -> ->]. cbn [B2R is_finite]. split; [|reflexivity].
  unfold F2R. cbn [Fnum Fexp cond_Zopp]. rewrite Rmult_assoc. f_equal.
  unfold Z.sub. rewrite bpow_plus, Rmult_comm. f_equal.
  - change (-52)%Z with (- (52))%Z. rewrite bpow_opp. f_equal. rewrite <- (IZR_Zpower radix2) by lia. change (Zpower radix2 52) with (2 ^ 52)%Z. rewrite (pow_IZR 2 52). reflexivity.
  - rewrite <- (IZR_Zpower radix2) by lia. change (radix2 : Z) with 2%Z. rewrite pow_IZR. reflexivity.
Qed.
Lemma half_pow n : 2 ^ n = (2 ^ (n / 2)) * (2 ^ (n / 2)) * (if Nat.even n then 1 else 2).
Proof.
  pose proof (Nat.div_mod_eq n 2) as H. pose proof (Nat.bit0_mod n) as Hb. rewrite Nat.bit0_odd in Hb. rewrite <- Nat.negb_even in Hb.
  rewrite H at 1. replace (2 * (n / 2))%nat with (n / 2 + n / 2)%nat by lia. rewrite !pow_add. f_equal.
  destruct (Nat.even n); cbn [negb Nat.b2n] in Hb; rewrite <- Hb; [apply pow_O|apply pow_1].
Qed.
Lemma sqrt_pow n : sqrt (2 ^ n) = 2 ^ (n / 2) * (if Nat.even n then 1 else sqrt 2).
Proof.
  rewrite half_pow. pose proof (pow_lt 2 (n / 2) ltac:(lra)) as Hp.
  rewrite sqrt_mult_alt by nra. rewrite sqrt_square by lra. destruct (Nat.even n); [rewrite sqrt_1|]; reflexivity.
Qed.
Lemma p52 : 2 ^ 52 = 4503599627370496. Proof. rewrite (pow_IZR 2 52). reflexivity. Qed.
Lemma p53 : 2 ^ 53 = 9007199254740992. Proof. rewrite (pow_IZR 2 53). reflexivity. Qed.
(** sqrt 2 to 17 digits *)
Lemma sqrt2_lo : 14142135623730950 / 10000000000000000 <= sqrt 2.
Proof. rewrite <- (sqrt_square (14142135623730950 / 10000000000000000)) by lra. apply sqrt_le_1_alt. lra. Qed.
Lemma sqrt2_hi : sqrt 2 <= 14142135623730951 / 10000000000000000.
Proof. rewrite <- (sqrt_square (14142135623730951 / 10000000000000000)) by lra. apply sqrt_le_1_alt. lra. Qed.
Lemma odd_err : Rabs (6369051672525772 * / 2 ^ 52 - sqrt 2) <= 3 / 2 * / 2 ^ 53 * sqrt 2.
Proof. rewrite p52, p53. pose proof sqrt2_lo. pose proof sqrt2_hi. apply Rabs_le. split; lra. Qed.

(** ** C41 *)
(** For every power of two the library uses, the constexpr recursion ends (after at most 17 calls), and its result has
    a relative error of at most 3/2 * 2^-53; it is exact for powers of four.  For the other powers of two it is not
    the correctly rounded square root. *)
Theorem C41_mysqrt : forall n, (n <= 24)%nat ->
  exists r : double, d_mysqrt 17 (d_ofZ (2 ^ Z.of_nat n)) = Some r /\ is_finite r = true /\
    Rabs (B2R r - sqrt (2 ^ n)) <= 3 / 2 * / 2 ^ 53 * sqrt (2 ^ n) /\
    (Nat.even n = true -> B2R r = sqrt (2 ^ n)) /\
    (Nat.even n = false -> r <> d_sqrt (d_ofZ (2 ^ Z.of_nat n))).
Proof.
  intros n Hn. destruct (mysqrt_value n Hn) as (r & H1 & H2). exists r. split; [exact H1|].
  destruct (B2R_value r n H2) as [E Ef]. split; [exact Ef|].
  assert (HE : Nat.even n = true -> B2R r = sqrt (2 ^ n)).
  { intros He. rewrite E, sqrt_pow. unfold mant. rewrite He, p52. field. }
  split; [|split; [exact HE|]].
  - destruct (Nat.even n) eqn:He.
    + rewrite HE by reflexivity. rewrite Rminus_diag_eq, Rabs_R0 by reflexivity. pose proof (sqrt_pos (2 ^ n)). rewrite p53. lra.
    + rewrite E, sqrt_pow. unfold mant. rewrite He. pose proof (pow_lt 2 (n / 2) ltac:(lra)) as Hp. pose proof odd_err as HO.
      replace (6369051672525772 * / 2 ^ 52 * 2 ^ (n / 2) - 2 ^ (n / 2) * sqrt 2) with (2 ^ (n / 2) * (6369051672525772 * / 2 ^ 52 - sqrt 2)) by ring.
      rewrite Rabs_mult, (Rabs_right (2 ^ (n / 2))) by lra.
      replace (3 / 2 * / 2 ^ 53 * (2 ^ (n / 2) * sqrt 2)) with (2 ^ (n / 2) * (3 / 2 * / 2 ^ 53 * sqrt 2)) by ring.
      apply Rmult_le_compat_l; lra.
  - intros He Hr. pose proof (proj1 (forallb_forall _ _) check_odd n ltac:(apply in_seq; lia)) as H. cbv beta in H. rewrite He in H. cbn [orb] in H.
    rewrite <- Hr, H2 in H. unfold value, sf_eqb in H. rewrite Bool.eqb_reflx, Pos.eqb_refl, Z.eqb_refl in H. discriminate.
Qed.
Print Assumptions C41_mysqrt.
(** the value the model's arithmetic on IEEE doubles (Ieee.v) uses for mysqrt(N) *)
Lemma mysqrt_Z_err n : (n <= 24)%nat -> Rabs (B2R (d_mysqrt_Z (2 ^ Z.of_nat n)) - sqrt (2 ^ n)) <= 3 / 2 * / 2 ^ 53 * sqrt (2 ^ n).
Proof.
  intros Hn. destruct (mysqrt_Z_value n Hn) as (r & H1 & -> & _). destruct (C41_mysqrt n Hn) as (r' & H1' & _ & H & _).
  rewrite H1 in H1'. injection H1' as <-. exact H.
Qed.

(** ** the factor 1.0/mysqrt(N) itself is the correctly rounded 1/sqrt(N), for every power of two the library uses *)
Definition mant' (n : nat) : positive := if Nat.even n then 4503599627370496 else 6369051672525773.
Definition expo' (n : nat) : Z := if Nat.even n then - Z.of_nat (n / 2) - 52 else - Z.of_nat (n / 2) - 53.
Definition d_factor (n : nat) : double := @Bdiv 53 1024 P53 E53 mode_NE (d_ofZ 1) (d_mysqrt_Z (2 ^ Z.of_nat n)).
Lemma check_factor : forallb (fun n => sf_eqb (B2SF (d_factor n)) (S754_finite false (mant' n) (expo' n))) (seq 0 25) = true.
Proof. vm_compute. reflexivity. Qed.
Lemma factor_value n : (n <= 24)%nat -> B2SF (d_factor n) = S754_finite false (mant' n) (expo' n).
Proof. intros Hn. apply sf_eqb_ok. exact (proj1 (forallb_forall _ _) check_factor n ltac:(apply in_seq; lia)). Qed.
Lemma factor_R n : (n <= 24)%nat -> B2R (d_factor n) = IZR (Zpos (mant' n)) * bpow radix2 (expo' n) /\ is_finite (d_factor n) = true.
Proof.
  intros Hn. pose proof (factor_value n Hn) as H. destruct (d_factor n) as [s|s| |s m e He]; cbn [B2SF] in H; try discriminate.
  injection H as -> -> ->. split; reflexivity.
Qed.
Lemma pow_bpow h : 2 ^ h = bpow radix2 (Z.of_nat h).
Proof. rewrite <- (IZR_Zpower radix2) by lia. change (radix2 : Z) with 2%Z. rewrite pow_IZR. reflexivity. Qed.
Lemma near2 : Rabs (sqrt 2 * bpow radix2 52 - IZR 6369051672525773) < / 2.
Proof.
  replace (bpow radix2 52) with 4503599627370496 by reflexivity.
  assert (H1 : 63690516725257725 / 45035996273704960 < sqrt 2).
  { rewrite <- (sqrt_square (63690516725257725 / 45035996273704960)) by lra. apply sqrt_lt_1_alt. lra. }
  assert (H2 : sqrt 2 < 63690516725257735 / 45035996273704960).
  { rewrite <- (sqrt_square (63690516725257735 / 45035996273704960)) by lra. apply sqrt_lt_1_alt. lra. }
  apply Rabs_def1; lra.
Qed.
Definition round64 (x : R) : R := round radix2 (FLX_exp 53) ZnearestE x.
Lemma factor_round : forall n, (n <= 24)%nat ->
  is_finite (d_factor n) = true /\ B2R (d_factor n) = round64 (/ sqrt (2 ^ n)).
Proof.
  intros n Hn. destruct (factor_R n Hn) as [E Ef]. split; [exact Ef|]. rewrite E, sqrt_pow. unfold mant', expo'. destruct (Nat.even n) eqn:He.
  - rewrite Rmult_1_r, pow_bpow, <- bpow_opp. unfold round64. rewrite round_generic; [|apply valid_rnd_N|].
    + unfold Z.sub. rewrite bpow_plus. change (bpow radix2 (- (52))) with (/ 4503599627370496). lra.
    + apply generic_format_bpow. unfold FLX_exp. lia.
  - set (h := Z.of_nat (n / 2)). rewrite pow_bpow. fold h. pose proof sqrt2_lo as L. pose proof sqrt2_hi as U.
    assert (Ex : / (bpow radix2 h * sqrt 2) = sqrt 2 * bpow radix2 (- h - 1)).
    { unfold Z.sub. rewrite bpow_plus, bpow_opp. replace (bpow radix2 (-(1))) with (/ 2) by reflexivity. rewrite Rinv_mult.
      assert (Hs : / sqrt 2 = sqrt 2 * / 2). { apply (Rmult_eq_reg_l (sqrt 2)); [|lra]. rewrite Rinv_r by lra. rewrite <- Rmult_assoc, sqrt_def by lra. field. }
      rewrite Hs. ring. }
    rewrite Ex. unfold round64, round, scaled_mantissa, cexp.
    assert (Hm : mag radix2 (sqrt 2 * bpow radix2 (- h - 1)) = (- h)%Z :> Z).
    { apply mag_unique. pose proof (bpow_gt_0 radix2 (- h - 1)) as P. rewrite Rabs_right by nra.
      assert (B : bpow radix2 (- h) = 2 * bpow radix2 (- h - 1)).
      { replace (- h)%Z with ((- h - 1) + 1)%Z at 1 by lia. rewrite bpow_plus. replace (bpow radix2 1) with 2 by reflexivity. ring. }
      rewrite B. split; nra. }
    rewrite Hm. unfold FLX_exp.
    assert (En : Znearest (fun x => negb (Z.even x)) (sqrt 2 * bpow radix2 (- h - 1) * bpow radix2 (- (- h - 53))) = 6369051672525773%Z).
    { apply Znearest_imp. rewrite Rmult_assoc, <- bpow_plus. replace (- h - 1 + - (- h - 53))%Z with 52%Z by lia. exact near2. }
    rewrite En. reflexivity.
Qed.
(** [scale_of N scale_unitary] (Scalar.v) is the constant of scalepz<N, scale_unitary>, which multiplies the data in the
    unitary methods of the power-of-two transforms; here in IEEE arithmetic, for every build *)
Theorem C41_unitary_factor : forall f_cos f_sin f_pi f_sqrt1_2 f_H1X f_H1Y bd n, (n <= 24)%nat ->
  let c : double := @scale_of (F_ops 53 1024 P53 E53 f_cos f_sin f_pi f_sqrt1_2 f_H1X f_H1Y bd) (2 ^ n) scale_unitary in
  is_finite c = true /\ B2R c = round64 (/ sqrt (2 ^ n)).
Proof.
  intros fc fs f1 f2 f3 f4 bd n Hn c.
  assert (E : c = d_factor n).
  { unfold c, scale_of, d_factor, s1. rewrite Nat2Z.inj_pow. destruct bd; reflexivity. }
  rewrite E. apply factor_round. exact Hn.
Qed.
Print Assumptions C41_unitary_factor.
