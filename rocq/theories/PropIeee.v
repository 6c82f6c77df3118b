(** * The transforms on IEEE-754 binary64 numbers

    Reading guide.  [ieee dc ds bd] (Ieee64.v) is the arithmetic of the build bd of the library on binary64 numbers, with
    infinities, NaNs, signed zeros, gradual underflow, fused multiply-add in the FMA build, and the literal constants of
    the source; dc and ds are the C library's cos and sin, and [libm dc ds lam] is what is assumed of them.
    [finite_c z]: neither part of z is an infinity or a NaN.  [val z]: the complex number that z stands for (0 for a part that is
    not finite).  [bound64 lam ps] is error_bound (PropAccuracy.v) with u = 2^-53; [floor64 N] = 2^-1021 N.
    [transform k N X] (ApiSpec.v): the exact result of method k; [within]: PropAccuracy.v; cabs: the modulus. *)

From Coq Require Import Reals ZArith List Arith Bool Lia Lra Psatz.
From Flocq Require Import Core.Core IEEE754.BinarySingleNaN.
From Verif Require Import PropMysqrt.
From Verif Require Import Scalar RealOps Spec DftFacts Norm Simd Round Mem MemFacts Omp Lanes Stage Object Engine ApiSpec FactorFacts
  ModelApi History ApiFacts ApiExact Footprint ComplexThms ModelReal RealFacts RealRun RealExact GObj RealObj RealSpec RealThms DctRun DctThms
  ModelBluestein BluesteinRun RoundMixed RoundApi PropAccuracy PropRealAccuracy RoundDct PropDctAccuracy PropBluesteinAccuracy Param ParamKern ParamFft Ieee64.
From Verif Require PropComplex.
Import ListNotations.
Local Open Scope R_scope.

Definition table_error64 (lam : R) : R := 2 * PI * ((1 + u64) ^ 5 - 1) + 2 * lam.
Definition bound64 (lam : R) (ps : list nat) : R :=
  (1 + u64) ^ (3 + total roundings ps) * (1 + table_error64 lam) ^ (total lookups ps) - 1.
Definition floor64 (N : nat) : R := 2 * phi64 * INR N.

(** ** the values of computed arrays *)
Definition dcomplex : Type := (double * double)%type.
Definition finite_c (z : dcomplex) : Prop := is_finite (fst z) = true /\ is_finite (snd z) = true.
Definition val (z : dcomplex) : CC := (B2R (fst z), B2R (snd z)).

Section Facts.
Variables (dc ds : double -> double) (la : R) (L : libm dc ds la) (bd : build).
Notation Op := (ieee dc ds bd).
Notation A := (real64 dc ds la L).
Notation S := (ieee_sim dc ds la L bd).
Notation CRf := (@CR Op (fl A bd) Rf).
Notation VRf := (@VR Op (fl A bd) Rf).
Lemma bound_eq ps : error_bound A ps = bound64 la ps.
Proof. reflexivity. Qed.
Lemma floor_eq N : floor A N = floor64 N.
Proof. reflexivity. Qed.
Lemma VR_val (X : nat -> dcomplex) : VRf X (fun i => val (X i)).
Proof. intros i. split; intros _; reflexivity. Qed.
Lemma CR_fin (z : dcomplex) (z' : CC) : CRf z z' -> finite_c z -> val z = z'.
Proof. intros [H1 H2] [F1 F2]. rewrite (surjective_pairing z'). exact (f_equal2 pair (H1 F1) (H2 F2)). Qed.
End Facts.

Lemma nrm_i N X i : (i < N)%nat -> cabs (X i) <= nrm N X.
Proof.
  intros Hi. apply cabs_le; [apply nrm_pos|]. rewrite nrm_sq. induction N as [|N IH]; [lia|]. cbn [rsum].
  assert (P : forall n f, (forall i, 0 <= f i) -> 0 <= rsum n f) by (intros; apply rsum_pos; auto).
  specialize (P N (fun i => cnorm2 (X i)) (fun i => cnorm2_pos (X i))). pose proof (cnorm2_pos (X N)).
  destruct (Nat.eq_dec i N) as [->|Hn]; [lra|]. specialize (IH ltac:(lia)). lra.
Qed.
Lemma within_i N e P Y Z i : within N e P Y Z -> (i < N)%nat -> cabs (csub (Y i) (Z i)) <= e * (nrm N Z + P).
Proof. intros H Hi. eapply Rle_trans; [apply (nrm_i N (fun i => csub (Y i) (Z i)) i Hi)|exact H]. Qed.

(** every finite element of Y is within eps * (|T| + floor) of that of T; if all are finite, Y as a whole is *)
Definition accurate (N : nat) (eps fl : R) (Y : nat -> dcomplex) (T : nat -> CC) : Prop :=
  (forall i, (i < N)%nat -> finite_c (Y i) -> cabs (csub (val (Y i)) (T i)) <= eps * (nrm N T + fl)) /\
  ((forall i, (i < N)%nat -> finite_c (Y i)) -> within N eps fl (fun i => val (Y i)) T).
Lemma accurate_VR dc ds lam L bd N e P Y Y' T : @VR (ieee dc ds bd) (fl (real64 dc ds lam L) bd) Rf Y Y' -> within N e P Y' T -> accurate N e P Y T.
Proof.
  intros HV W. split.
  - intros i Hi Hf. rewrite (CR_fin dc ds lam L bd _ _ (HV i) Hf). apply (within_i _ _ _ _ _ i W Hi).
  - intros Hf. unfold within in *. erewrite nrm_ext; [exact W|]. intros i Hi. cbv beta. rewrite (CR_fin dc ds lam L bd _ _ (HV i) (Hf i Hi)). reflexivity.
Qed.

(** C49: ComplexFFT *)
Theorem C49_ieee_accuracy : forall dc ds lam, libm dc ds lam -> forall bd b N k x (m : mem (@C (ieee dc ds bd))) X ps,
  valid_length N -> fft_history b (Some N) m -> ~ fft_own b (fst x) -> holds m x N X -> factorisation ps N ->
  exists m' Y, Outcome (@fft_run (ieee dc ds bd) b N k x) m m' /\ holds m' x N Y /\
    accurate N (bound64 lam ps) (floor64 N) Y (transform k N (fun i => val (X i))).
Proof.
  intros dc ds lam L bd b N k x m X ps HN Hh Hx HX Hp. destruct (fft_call_any b N k x m X HN Hh Hx HX) as (m' & H1 & H2 & _).
  exists m', (@fft0_F (ieee dc ds bd) N k X). split; [exact H1|]. split; [exact H2|].
  eapply accurate_VR; [apply (fft0_F_p (ieee_sim dc ds lam L bd) N k X _ HN (VR_val dc ds lam L bd X))|].
  apply (fft_within (real64 dc ds lam L)); auto.
Qed.
Print Assumptions C49_ieee_accuracy.

(** RealFFT: forward methods on real data, inverse methods on Hermitian spectra; an element of a real array is [rval d] *)
Lemma VR_rval dc ds lam L bd (v : nat -> double) : @VR (ieee dc ds bd) (fl (real64 dc ds lam L) bd) Rf (fun j => @rval (ieee dc ds bd) (v j)) (fun j => rc (B2R (v j))).
Proof. intros i. split; intros _; reflexivity. Qed.
Theorem C49_ieee_real_accuracy : forall dc ds lam, libm dc ds lam -> forall bd b N k x y (m : mem (@C (ieee dc ds bd))) (v : nat -> double) ps,
  real_length N -> meth_inv k = false -> rfft_history b (Some N) m ->
  ~ fft_own b (fst x) -> ~ fft_own b (fst y) -> disjR x N y N -> allocd m (inR y N) ->
  holds m x N (fun j => @rval (ieee dc ds bd) (v j)) -> factorisation ps N ->
  exists m' Y, Outcome (@rfft_run (ieee dc ds bd) b N k x y) m m' /\ holds m' y N Y /\
    accurate N (bound64 lam ps) (floor64 N) Y (transform k N (fun j => rc (B2R (v j)))).
Proof.
  intros dc ds lam L bd b N k x y m v ps HN Hk Hh Hx Hy Hd Ha HX Hp.
  destruct (rfft_call_ok b N k x y m _ HN Hh Hx Hy Hd Ha HX) as (m' & H1 & H2 & _). unfold rfft_res in H2. rewrite Hk in H2.
  eexists m', _. split; [exact H1|]. split; [exact H2|].
  eapply accurate_VR; [apply (rfft_F_p (ieee_sim dc ds lam L bd) N k _ _ HN (VR_rval dc ds lam L bd v))|].
  apply (rfft_F_within (real64 dc ds lam L)); auto.
Qed.
Print Assumptions C49_ieee_real_accuracy.
Theorem C49_ieee_real_inverse_accuracy : forall dc ds lam, libm dc ds lam -> forall bd b N k x y (m : mem (@C (ieee dc ds bd))) X ps,
  real_length N -> meth_inv k = true -> rfft_history b (Some N) m ->
  ~ fft_own b (fst x) -> ~ fft_own b (fst y) -> disjR x N y N -> allocd m (inR y N) ->
  holds m x N X -> hermitian N (fun i => val (X i)) -> factorisation ps N ->
  exists m' r, Outcome (@rfft_run (ieee dc ds bd) b N k x y) m m' /\ holds m' y N (fun j => @rval (ieee dc ds bd) (r j)) /\
    accurate N (bound64 lam ps) (floor64 N) (fun j => @rval (ieee dc ds bd) (r j)) (transform k N (fun i => val (X i))).
Proof.
  intros dc ds lam L bd b N k x y m X ps HN Hk Hh Hx Hy Hd Ha HX HH Hp.
  destruct (rfft_call_ok b N k x y m _ HN Hh Hx Hy Hd Ha HX) as (m' & H1 & H2 & _). unfold rfft_res in H2. rewrite Hk in H2.
  exists m', (fun j => Re (@rfft_G (ieee dc ds bd) N k X j)). split; [exact H1|]. split; [exact H2|].
  eapply accurate_VR; [apply (rfft_G_p (ieee_sim dc ds lam L bd) N k _ _ HN (VR_val dc ds lam L bd X))|].
  apply (rfft_G_within (real64 dc ds lam L)); auto.
Qed.
Print Assumptions C49_ieee_real_inverse_accuracy.

(** RealDCT *)
Definition dct_bound64 (lam : R) (ps : list nat) (k : dmeth) : R :=
  match k with Dfwd | Dfwd0 | Dfwdn => sqrt 2 * bound64 lam ps | _ => bound64 lam ps end.
Lemma dct_bound_eq dc ds lam L ps k : dct_bound (real64 dc ds lam L) ps k = dct_bound64 lam ps k.
Proof. destruct k; reflexivity. Qed.
Lemma dct_rval (Op : Ops) N k X j : @dct_res Op N k X j = @rval Op (Re (@dct_res Op N k X j)).
Proof. unfold dct_res, dct_G, di_out, rfft_G, ri_out, dct_F, df_out, rval. destruct (dmeth_inv k); [destruct (Nat.even j)|]; reflexivity. Qed.
Theorem C49_ieee_dct_accuracy : forall dc ds lam, libm dc ds lam -> forall bd b N k x (m : mem (@C (ieee dc ds bd))) (v : nat -> double) ps,
  dct_length N -> dct_history b (Some N) m -> ~ dct_own b (fst x) -> holds m x N (fun j => @rval (ieee dc ds bd) (v j)) -> factorisation ps N ->
  exists m' r, Outcome (@dct_run (ieee dc ds bd) b N k x) m m' /\ holds m' x N (fun j => @rval (ieee dc ds bd) (r j)) /\
    accurate N (dct_bound64 lam ps k) (floor64 N) (fun j => @rval (ieee dc ds bd) (r j)) (fun j => rc (dct_spec k N (fun i => B2R (v i)) j)).
Proof.
  intros dc ds lam L bd b N k x m v ps HN Hh Hx HX Hp. destruct (dct_call_ok b N k x m _ HN Hh Hx HX) as (m' & H1 & H2 & _).
  exists m', (fun j => Re (@dct_res (ieee dc ds bd) N k (fun j => @rval (ieee dc ds bd) (v j)) j)). split; [exact H1|]. split.
  - intros j Hj. rewrite <- dct_rval. apply H2, Hj.
  - rewrite <- (dct_bound_eq dc ds lam L). apply (accurate_VR dc ds lam L bd N _ _ _ (@dct_res (fl (real64 dc ds lam L) bd) N k (fun j => rc (B2R (v j))))).
    + intros j. rewrite <- dct_rval. apply (dct_res_p (ieee_sim dc ds lam L bd) N k _ _ HN (VR_rval dc ds lam L bd v)).
    + apply (dct_within (real64 dc ds lam L)); auto.
Qed.
Print Assumptions C49_ieee_dct_accuracy.

(** Bluestein *)
Definition bl_bound64 (lam : R) (l : nat) : R :=
  sqrt (2 * 2 ^ l) * ((1 + u64) ^ (21 + 180 * l) * (1 + table_error64 lam) ^ (3 + 45 * l) - 1).
Definition bl_floor64 (l : nat) : R := 4 * floor64 (2 ^ l).
Theorem C49_ieee_bluestein_accuracy : forall dc ds lam, libm dc ds lam -> forall bd b N k x (m : mem (@C (ieee dc ds bd))) X l,
  bl_length N -> bl_history b (Some N) m -> ~ bl_own b (fst x) -> holds m x N X -> padded N l ->
  exists m' Y, Outcome (@bl_run (ieee dc ds bd) b N k x) m m' /\ holds m' x N Y /\
    accurate N (bl_bound64 lam l) (bl_floor64 l) Y (transform k N (fun i => val (X i))).
Proof.
  intros dc ds lam L bd b N k x m X l HN Hh Hx HX Hl. destruct (bl_call_ok b N k x m X HN Hh Hx HX) as (m' & H1 & H2 & _).
  exists m', (@bl_F (ieee dc ds bd) N k X). split; [exact H1|]. split; [exact H2|].
  eapply accurate_VR; [apply (bl_F_p (ieee_sim dc ds lam L bd) N k X _ HN (VR_val dc ds lam L bd X))|].
  apply (bl_within (real64 dc ds lam L)); auto.
Qed.
Print Assumptions C49_ieee_bluestein_accuracy.

(** ** the literal constants of the source (src/otfft_misc.h:28-43) as doubles *)
Definition lit_pi : R := 314159265358979323846264338327950288 / 10 ^ 35.
Definition lit_sqrt1_2 : R := 707106781186547524400844362104849039 / 10 ^ 36.
Definition lit_H1X : R := 923879532511286762010323247995557949 / 10 ^ 36.
Definition lit_H1Y : R := - (382683432365089757574419179753100195 / 10 ^ 36).
Lemma rn_near x m e : (-1074 <= e)%Z -> bpow radix2 (e + 52) <= Rabs x < bpow radix2 (e + 53) -> Rabs (x * bpow radix2 (- e) - IZR m) < / 2 ->
  rn x = IZR m * bpow radix2 e.
Proof.
  intros He Hx Hm. unfold rn, round, scaled_mantissa, cexp. assert (Hg : mag radix2 x = (e + 53)%Z :> Z).
  { apply mag_unique. replace (e + 53 - 1)%Z with (e + 52)%Z by lia. exact Hx. }
  rewrite Hg. unfold FLT_exp. replace (Z.max (e + 53 - 53) (-1074)) with e by lia.
  rewrite (Znearest_imp _ _ m Hm). reflexivity.
Qed.
Lemma p10 : 10 ^ 35 = 100000000000000000000000000000000000 /\ 10 ^ 36 = 1000000000000000000000000000000000000.
Proof. split; rewrite pow_IZR; reflexivity. Qed.
Lemma near_pi x : 31415926535897932 / 10000000000000000 <= x <= 31415926535897933 / 10000000000000000 -> rn x = B2R d_pi.
Proof.
  intros H. rewrite (proj2 v_pi). change (7074237752028440 / 2251799813685248) with (IZR 7074237752028440 * bpow radix2 (-51)). apply rn_near; [lia| |].
  - change (bpow radix2 (-51 + 52)) with 2. change (bpow radix2 (-51 + 53)) with 4. rewrite Rabs_right; lra.
  - change (bpow radix2 (- (-51))) with 2251799813685248. apply Rabs_def1; lra.
Qed.
Lemma near_sqrt1_2 x : s12_lo <= x <= s12_hi -> rn x = B2R d_sqrt1_2.
Proof.
  unfold s12_lo, s12_hi. intros H. rewrite (proj2 v_sqrt1_2). change (6369051672525773 / 9007199254740992) with (IZR 6369051672525773 * bpow radix2 (-53)). apply rn_near; [lia| |].
  - change (bpow radix2 (-53 + 52)) with (/ 2). change (bpow radix2 (-53 + 53)) with 1. rewrite Rabs_right; lra.
  - change (bpow radix2 (- (-53))) with 9007199254740992. apply Rabs_def1; lra.
Qed.
Lemma near_H1X x : 9238795325112867561 / 10000000000000000000 <= x <= 9238795325112867621 / 10000000000000000000 -> rn x = B2R d_H1X.
Proof.
  intros H. rewrite (proj2 v_H1X). change (8321567036706118 / 9007199254740992) with (IZR 8321567036706118 * bpow radix2 (-53)). apply rn_near; [lia| |].
  - change (bpow radix2 (-53 + 52)) with (/ 2). change (bpow radix2 (-53 + 53)) with 1. rewrite Rabs_right; lra.
  - change (bpow radix2 (- (-53))) with 9007199254740992. apply Rabs_def1; lra.
Qed.
Lemma near_H1Y x : -38268343236508977174 / 100000000000000000000 <= x <= -38268343236508975757 / 100000000000000000000 -> rn x = B2R d_H1Y.
Proof.
  intros H. rewrite (proj2 v_H1Y). change (-6893811853601123 / 18014398509481984) with (IZR (-6893811853601123) * bpow radix2 (-54)). apply rn_near; [lia| |].
  - change (bpow radix2 (-54 + 52)) with (/ 4). change (bpow radix2 (-54 + 53)) with (/ 2). rewrite Rabs_left; lra.
  - change (bpow radix2 (- (-54))) with 18014398509481984. apply Rabs_def1; lra.
Qed.
(** C51: the four constants are the doubles nearest to pi, 1/sqrt 2, cos(pi/8) and -sin(pi/8), and the doubles nearest to the
    decimal literals of the source (of the literals H1X and H1Y only 17 of the 36 digits are right) *)
Theorem C51_constants :
  (B2R d_pi = rn PI /\ B2R d_pi = rn lit_pi) /\ (B2R d_sqrt1_2 = rn (/ sqrt 2) /\ B2R d_sqrt1_2 = rn lit_sqrt1_2) /\
  (B2R d_H1X = rn (cos (PI / 8)) /\ B2R d_H1X = rn lit_H1X) /\ (B2R d_H1Y = rn (- sin (PI / 8)) /\ B2R d_H1Y = rn lit_H1Y).
Proof.
  destruct p10 as [E1 E2]. unfold lit_pi, lit_sqrt1_2, lit_H1X, lit_H1Y. rewrite E1, E2.
  split; [|split; [|split]]; split; symmetry.
  - apply near_pi, PI_bounds.
  - apply near_pi. lra.
  - apply near_sqrt1_2, sqrt1_2_bounds.
  - apply near_sqrt1_2. unfold s12_lo, s12_hi. lra.
  - apply near_H1X. pose proof cos8_bounds. lra.
  - apply near_H1X. lra.
  - apply near_H1Y. pose proof sin8_bounds. lra.
  - apply near_H1Y. lra.
Qed.
Print Assumptions C51_constants.

(** ** the hypotheses are met: correctly rounded cos and sin are a [libm] with lam = 2^-53 *)
Definition ideal (f : R -> R) (x : double) : double := if is_finite x then to_d (rn (f (B2R x))) else B754_nan.
Lemma rn_format x : generic_format radix2 fx (rn x).
Proof. apply generic_format_round; [apply FLT_exp_valid; reflexivity|apply valid_rnd_N]. Qed.
Lemma rn_abs1 x : Rabs x <= 1 -> Rabs (rn x) <= 1.
Proof. intros H. apply Rabs_le_inv in H. apply Rabs_le. rewrite <- rn_1. split; [|apply rn_mono; lra]. replace (- rn 1) with (rn (-1)); [apply rn_mono; lra|]. rewrite rn_1. apply (rn_int (-1)). cbn. lia. Qed.
Lemma ideal_val f x : (forall t, Rabs (f t) <= 1) -> is_finite x = true -> is_finite (ideal f x) = true /\ B2R (ideal f x) = rn (f (B2R x)).
Proof.
  intros Hf Hx. unfold ideal. rewrite Hx. pose proof (rn_abs1 _ (Hf (B2R x))) as H1. set (r := rn (f (B2R x))) in *.
  assert (G : generic_format radix2 fx r) by apply rn_format. pose proof G as G'. unfold generic_format in G'.
  pose proof (dbl_ok (Ztrunc (scaled_mantissa radix2 fx r)) (cexp radix2 fx r)) as H. rewrite <- G' in H. unfold op_ok in H.
  assert (E : rn r = r) by (unfold rn; apply round_generic; [apply valid_rnd_N|exact G]). rewrite E in H.
  destruct H as [[H2 H3]|[_ H]]; [split; assumption|]. exfalso. pose proof bpow1024 as B. rewrite p53 in B. lra.
Qed.
Example libm_ideal : libm (ideal cos) (ideal sin) u64.
Proof.
  split.
  - intros x Hx. destruct (ideal_val cos x cos_le1 Hx) as [H1 H2]. split; [exact H1|]. rewrite H2. apply rn_le1, cos_le1.
  - intros x Hx. destruct (ideal_val sin x sin_le1 Hx) as [H1 H2]. split; [exact H1|]. rewrite H2. apply rn_le1, sin_le1.
  - intros x Hx. unfold ideal. rewrite Hx. reflexivity.
  - intros x Hx. unfold ideal. rewrite Hx. reflexivity.
  - intros x y Hx Hy E. rewrite (proj2 (ideal_val cos x cos_le1 Hx)), (proj2 (ideal_val cos y cos_le1 Hy)), E. reflexivity.
  - intros x y Hx Hy E. rewrite (proj2 (ideal_val sin x sin_le1 Hx)), (proj2 (ideal_val sin y sin_le1 Hy)), E. reflexivity.
Qed.
Example bound64_1024 : bound64 u64 (repeat 2%nat 10) <= / 10 ^ 12.
Proof. exact bound_1024. Qed.
