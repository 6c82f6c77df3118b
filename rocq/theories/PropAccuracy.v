(** * Accuracy of the complex transform in rounded arithmetic

    Reading guide.  [A : rounding] (Round.v) is any rounded arithmetic on the reals: a rounding function with relative
    error at most u = [uu A] above the smallest normal number [phi A] and absolute error at most u*phi below it (exact on
    int), library functions cos and sin with absolute error at most [lam A], and rounded constants M_PI, M_SQRT1_2,
    cos(pi/8), sin(pi/8).  IEEE-754 binary64 with gradual underflow is one (below) as long as no operation overflows
    (PropIeee.v is about the IEEE data type itself).  [fl A bd] is that arithmetic as used by the build bd of the library (plain C++, SSE2, SSE3,
    AVX, AVX with FMA: Simd.v); an FMA rounds once.
    [nrm N X] = sqrt (sum over i < N of |X i|^2).  [transform k N X] (ApiSpec.v): the exact result of method k.
    The bound is relative, in the Euclidean norm, and depends only on u, lam and the prime factors of N, plus eps times
    the floor 2*phi*N that underflow can cost (2^-1021 N in binary64). *)

From Coq Require Import Reals ZArith List Arith Bool Lia Lra Psatz.
From Flocq Require Import Core.Zaux Core.Raux Core.Defs Core.FLT Core.Generic_fmt Core.Round_NE Core.Ulp Relative.
From Flocq Require IEEE754.BinarySingleNaN.
From Verif Require Mysqrt PropMysqrt.
From Verif Require Import Scalar RealOps Spec DftFacts Norm Simd Round Mem MemFacts Omp Lanes Stage Object Engine ApiSpec FactorFacts
  ModelApi History ApiFacts ApiExact Footprint ComplexThms RoundStage RoundSix RoundMixed RoundApi PowSpec PowExact.
Import ListNotations.
Local Open Scope R_scope.

(** roundings (first) and table look-ups (second) charged to a prime factor p of N:
    2 costs 60 and 15, an odd p costs ceil(sqrt p) * (p + 23) and ceil(sqrt p) * 8 *)
Definition roundings (p : nat) : nat := if (p =? 2)%nat then 60 else Nat.sqrt_up p * (p + 23).
Definition lookups (p : nat) : nat := if (p =? 2)%nat then 15 else Nat.sqrt_up p * 8.
Definition total (f : nat -> nat) (ps : list nat) : nat := fold_right (fun p n => f p + n)%nat 0%nat ps.
(** error of one table entry: five roundings of an angle up to 2 pi, and the errors of cos and sin *)
Definition table_error (A : rounding) : R := 2 * PI * ((1 + uu A) ^ 5 - 1) + 2 * lam A.
Definition error_bound (A : rounding) (ps : list nat) : R :=
  (1 + uu A) ^ (3 + total roundings ps) * (1 + table_error A) ^ (total lookups ps) - 1.
Definition factorisation (ps : list nat) (N : nat) : Prop := Forall prime ps /\ fold_right Nat.mul 1%nat ps = N.
(** what underflow may add to the norm of the result *)
Definition floor (A : rounding) (N : nat) : R := 2 * phi A * INR N.
Definition within (N : nat) (eps fl : R) (Y Z : nat -> CC) : Prop := nrm N (fun i => csub (Y i) (Z i)) <= eps * (nrm N Z + fl).

Lemma bound_EE A ps : error_bound A ps = EE A (3 + suml ca ps) (suml cb ps) - 1.
Proof.
  unfold error_bound, EE, table_error. assert (E1 : total roundings ps = suml ca ps) by (clear; induction ps as [|p ps IH]; [reflexivity|]; unfold total in *; cbn [fold_right suml]; rewrite IH; reflexivity).
  assert (E2 : total lookups ps = suml cb ps) by (clear; induction ps as [|p ps IH]; [reflexivity|]; unfold total in *; cbn [fold_right suml]; rewrite IH; reflexivity). rewrite E1, E2. reflexivity.
Qed.
Lemma fact_prod ps N : factorisation ps N -> Forall prime ps /\ prodl ps = N.
Proof. intros [H1 H2]. split; auto. Qed.

Lemma fft_within A bd N k ps X : valid_length N -> factorisation ps N -> within N (error_bound A ps) (floor A N) (@fft0_F (fl A bd) N k X) (transform k N X).
Proof.
  intros HN Hp. destruct (fact_prod _ _ Hp) as [H1 H2]. unfold within. rewrite bound_EE. apply (fft0_F_err A bd N k ps X HN H1 H2).
Qed.

(** C34 *)
Theorem C34_accuracy : forall A bd b N k x (m : mem (@C (fl A bd))) X ps,
  valid_length N -> fft_history b (Some N) m -> ~ fft_own b (fst x) -> holds m x N X -> factorisation ps N ->
  exists m' Y, Outcome (@fft_run (fl A bd) b N k x) m m' /\ holds m' x N Y /\ within N (error_bound A ps) (floor A N) Y (transform k N X).
Proof.
  intros A bd b N k x m X ps HN Hh Hx HX Hp. destruct (fft_call_any b N k x m X HN Hh Hx HX) as (m' & H1 & H2 & _).
  exists m', (@fft0_F (fl A bd) N k X). split; [exact H1|]. split; [exact H2|]. apply fft_within; auto.
Qed.
Print Assumptions C34_accuracy.

(** ** round trips *)
Lemma nrm_transform k N X : (0 < N)%nat -> nrm N (transform k N X) = factor (meth_scaling k) N * sqrt (INR N) * nrm N X.
Proof.
  intros HN. assert (Hf : 0 <= factor (meth_scaling k) N).
  { assert (0 < INR N) by (apply lt_0_INR; auto). destruct (meth_scaling k); cbn [factor]; [lra| |]; apply Rlt_le, Rinv_0_lt_compat; auto. apply sqrt_lt_R0; auto. }
  assert (E : nrm N (transform k N X) = factor (meth_scaling k) N * nrm N (DFT (meth_inv k) N X)).
  { rewrite <- (Rabs_right (factor (meth_scaling k) N)) at 1 by lra. rewrite <- nrm_scal. reflexivity. }
  rewrite E, Rmult_assoc. f_equal. apply nrm_eq; [apply pos_INR|]. apply Plancherel; auto.
Qed.
Lemma undoes_factor k1 k2 N : undoes k1 k2 = true -> (0 < N)%nat -> factor (meth_scaling k2) N * sqrt (INR N) * (factor (meth_scaling k1) N * sqrt (INR N)) = 1.
Proof.
  intros Hu HN. assert (HN' : 0 < INR N) by (apply lt_0_INR; auto). pose proof (sqrt_lt_R0 _ HN') as Hq. pose proof (sqrt_sqrt (INR N) ltac:(lra)) as Hs.
  unfold undoes in Hu. apply andb_prop in Hu as [_ Hu]. set (q := sqrt (INR N)) in *.
  destruct (meth_scaling k1), (meth_scaling k2); try discriminate; cbn [factor]; fold q; rewrite <- ?Hs; field; lra.
Qed.
Lemma transform_sub k N X Y i : csub (transform k N X i) (transform k N Y i) = transform k N (fun j => csub (X j) (Y j)) i.
Proof.
  assert (E : transform k N (fun j => csub (X j) (Y j)) i = transform k N (fun j => cadd (cmul c1 (X j)) (cmul (cneg c1) (Y j))) i).
  { apply transform_ext. intros j _. ring. }
  rewrite E, transform_lin. ring.
Qed.

(** two transforms that undo each other, each within e of the exact one *)
Lemma factor_range k N : (0 < N)%nat -> 0 <= factor (meth_scaling k) N <= 1.
Proof.
  intros HN. assert (H1 : 1 <= INR N) by (change 1 with (INR 1); apply le_INR; lia).
  assert (H2 : 1 <= sqrt (INR N)) by (rewrite <- sqrt_1 at 1; apply sqrt_le_1_alt; auto).
  destruct (meth_scaling k); cbn [factor]; [lra| |]; (split; [apply Rlt_le, Rinv_0_lt_compat; lra|rewrite <- Rinv_1; apply Rinv_le_contravar; lra]).
Qed.
Lemma round_trip_err N k1 k2 e P X Y Z : (0 < N)%nat -> 0 <= e -> 0 <= P -> undoes k1 k2 = true ->
  within N e P Y (transform k1 N X) -> within N e P Z (transform k2 N Y) -> within N ((1 + e) * (1 + e) - 1) (sqrt (INR N) * P) Z X.
Proof.
  intros HN He HP Hu H1 H2. unfold within in *.
  change (fun i => csub (Z i) (X i)) with (vsub Z X). change (fun i => csub (Z i) (transform k2 N Y i)) with (vsub Z (transform k2 N Y)) in H2.
  change (fun i => csub (Y i) (transform k1 N X i)) with (vsub Y (transform k1 N X)) in H1.
  eapply Rle_trans; [apply (nrm_tri3 _ _ (transform k2 N Y))|].
  assert (E : nrm N (vsub (transform k2 N Y) X) = nrm N (transform k2 N (vsub Y (transform k1 N X)))).
  { apply nrm_ext. intros i Hi. unfold vsub. rewrite <- transform_sub. f_equal. symmetry. apply transform_inverse; auto. }
  rewrite E. rewrite nrm_transform in H1 by auto. rewrite nrm_transform in H2 by auto. rewrite nrm_transform by auto.
  pose proof (undoes_factor k1 k2 N Hu HN) as Hf. pose proof (nrm_near N Y (transform k1 N X)) as Hn. rewrite (nrm_transform k1) in Hn by auto.
  pose proof (sqrt_ge1 N HN) as Hq. pose proof (factor_range k2 N HN) as Hr2.
  assert (Hf2 : 0 <= factor (meth_scaling k2) N * sqrt (INR N) <= sqrt (INR N)) by nra.
  set (f1 := factor (meth_scaling k1) N * sqrt (INR N)) in *. set (f2 := factor (meth_scaling k2) N * sqrt (INR N)) in *. set (q := sqrt (INR N)) in *.
  set (d := nrm N (vsub Y (transform k1 N X))) in *. set (y := nrm N Y) in *. set (x := nrm N X) in *.
  assert (G1 : f2 * d <= e * x + e * (f2 * P)).
  { apply Rle_trans with (f2 * (e * (f1 * x + P))); [apply Rmult_le_compat_l; lra|]. apply Req_le.
    replace (f2 * (e * (f1 * x + P))) with (e * (f2 * f1 * x) + e * (f2 * P)) by ring. rewrite Hf. ring. }
  assert (G2 : f2 * y <= x + f2 * d).
  { apply Rle_trans with (f2 * (f1 * x) + f2 * d); [rewrite <- Rmult_plus_distr_l; apply Rmult_le_compat_l; lra|]. apply Req_le.
    replace (f2 * (f1 * x)) with (f2 * f1 * x) by ring. rewrite Hf. ring. }
  assert (G3 : f2 * P <= q * P) by (apply Rmult_le_compat_r; lra). assert (G4 : P <= q * P) by nra.
  assert (G5 : e * (f2 * P) <= e * (q * P)) by (apply Rmult_le_compat_l; auto).
  assert (G6 : e * (f2 * y + P) <= e * (x + (e * x + e * (q * P)) + q * P)) by (apply Rmult_le_compat_l; lra).
  lra.
Qed.
Lemma floor_pos A N : 0 <= floor A N.
Proof. unfold floor. pose proof (ph0 A). pose proof (pos_INR N). apply Rmult_le_pos; lra. Qed.
Lemma bound_pos A ps : 0 <= error_bound A ps.
Proof. rewrite bound_EE. pose proof (EE_ge1 A (3 + suml ca ps) (suml cb ps)). lra. Qed.

(** C35 *)
Theorem C35_round_trip_accuracy : forall k1 k2 A bd b N x (m : mem (@C (fl A bd))) X ps,
  In (k1, k2) [(fwd, inv); (fwd, inv0); (fwdn, inv); (fwdn, inv0); (fwd0, invn); (fwdu, invu);
    (inv, fwd); (inv, fwdn); (inv0, fwd); (inv0, fwdn); (invn, fwd0); (invu, fwdu)] ->
  valid_length N -> fft_history b (Some N) m -> ~ fft_own b (fst x) -> holds m x N X -> factorisation ps N ->
  exists m1, Outcome (@fft_run (fl A bd) b N k1 x) m m1 /\
    forall m2, (forall l, fft_own b (fst l) \/ inR x N l -> m2 l = m1 l) ->
    exists m3 Z, Outcome (@fft_run (fl A bd) b N k2 x) m2 m3 /\ holds m3 x N Z /\
      within N ((1 + error_bound A ps) * (1 + error_bound A ps) - 1) (sqrt (INR N) * floor A N) Z X.
Proof.
  intros k1 k2 A bd b N x m X ps Hk HN Hh Hx HX Hp. destruct (fft_call_any b N k1 x m X HN Hh Hx HX) as (m1 & H1 & H2 & _ & H4).
  exists m1. split; [exact H1|]. intros m2 Hf. set (Y := @fft0_F (fl A bd) N k1 X) in *.
  destruct (fft_call_any b N k2 x m2 Y HN) as (m3 & H5 & H6 & _); [|exact Hx| |].
  - eapply h_other; [exact H4|]. auto.
  - intros i Hi. rewrite Hf by (right; apply inR_i; auto). apply H2. auto.
  - exists m3, (@fft0_F (fl A bd) N k2 Y). split; [exact H5|]. split; [exact H6|].
    assert (Hu : undoes k1 k2 = true) by (repeat (destruct Hk as [[= <- <-]|Hk]; [reflexivity|]); destruct Hk).
    apply (round_trip_err N k1 k2 _ _ X Y); [unfold valid_length in HN; lia|apply bound_pos|apply floor_pos|exact Hu| |]; apply fft_within; auto.
Qed.
Print Assumptions C35_round_trip_accuracy.

(** ** the hypotheses are met: every length has a factorisation *)
Lemma prime_dec_div n : (2 <= n)%nat -> exists p, prime p /\ Nat.divide p n.
Proof.
  induction n as [n IH] using lt_wf_ind. intros Hn.
  assert (D : (exists e, (2 <= e < n)%nat /\ Nat.divide e n) \/ forall e, (2 <= e < n)%nat -> ~ Nat.divide e n).
  { assert (D : forall k, (exists e, (2 <= e < k)%nat /\ Nat.divide e n) \/ forall e, (2 <= e < k)%nat -> ~ Nat.divide e n); [|exact (D n)]. clear IH.
    intros k. induction k as [|k IHk]; [right; lia|]. destruct IHk as [(e & He & Hd)|H]; [left; exists e; split; auto; lia|].
    destruct (Nat.eq_dec (n mod k) 0) as [E|E].
    - destruct (le_lt_dec 2 k) as [H2|H2]; [|right; intros e He; lia]. left. exists k. split; [lia|]. apply Nat.mod_divide; [lia|auto].
    - right. intros e He Hd. destruct (Nat.eq_dec e k) as [->|Hne]; [|apply (H e); auto; lia]. apply E. apply Nat.mod_divide; [lia|auto]. }
  destruct D as [(e & He & Hd)|H].
  - destruct (IH e ltac:(lia) ltac:(lia)) as (p & Hp & Hpe). exists p. split; auto. eapply Nat.divide_trans; eauto.
  - exists n. split; [|apply Nat.divide_refl]. split; auto. intros e He. pose proof (Nat.divide_pos_le e n ltac:(lia) He) as Hle.
    destruct (Nat.eq_dec e n); auto. left. destruct e as [|[|e]]; auto; [destruct He as [c Hc]; lia|]. exfalso. apply (H (S (S e))); auto. lia.
Qed.
Theorem factorisation_exists N : (0 < N)%nat -> exists ps, factorisation ps N.
Proof.
  induction N as [N IH] using lt_wf_ind. intros HN. destruct (Nat.eq_dec N 1) as [->|H1]; [exists nil; split; [constructor|reflexivity]|].
  destruct (prime_dec_div N ltac:(lia)) as (p & Hp & [c Hc]). pose proof Hp as [Hp2 _].
  destruct (IH c) as (ps & H2 & H3); [nia|nia|]. exists (p :: ps). split; [constructor; auto|]. cbn [fold_right]. lia.
Qed.

(** ** IEEE-754 binary64 with gradual underflow and without overflow, round to nearest even *)
Definition rn (x : R) : R := round radix2 (FLT_exp (-1074) 53) ZnearestE x.
Definition u64 : R := / 2 * bpow radix2 (-53 + 1).
(** smallest normal number *)
Definition phi64 : R := bpow radix2 (-1022).
Lemma rn_rel x : phi64 <= Rabs x -> Rabs (rn x - x) <= u64 * Rabs x.
Proof. intros H. apply relative_error_N_FLT; [reflexivity|exact H]. Qed.
Lemma u64_pos : 0 <= u64.
Proof. unfold u64. pose proof (bpow_gt_0 radix2 (-53 + 1)). lra. Qed.
Lemma u64_val : u64 = / 2 ^ 53.
Proof. unfold u64. cbn [bpow]. change (radix2 : Z) with 2%Z. change (-53 + 1)%Z with (-52)%Z. cbn [bpow]. change (Zpower_pos radix2 52) with (2 ^ 52)%Z.
  rewrite <- Rinv_mult. f_equal. rewrite (pow_IZR 2 53). change (2) with (IZR 2) at 1. rewrite <- mult_IZR. f_equal. Qed.
Lemma u64_range : 0 <= u64 <= 1 / 8.
Proof. split; [apply u64_pos|]. rewrite u64_val. assert (8 <= 2 ^ 53) by (rewrite (pow_IZR 2 53); apply IZR_le; vm_compute; discriminate).
  pose proof (Rinv_le_contravar 8 (2 ^ 53) ltac:(lra) H). lra. Qed.
Lemma phi64_range : 0 <= phi64 <= / 8796093022208.
Proof.
  unfold phi64. split; [apply bpow_ge_0|]. replace (/ 8796093022208) with (bpow radix2 (-43)); [apply bpow_le; lia|].
  cbn [bpow]. reflexivity.
Qed.
Lemma rn_abs x : Rabs (rn x - x) <= u64 * (Rabs x + phi64).
Proof.
  destruct (Rle_or_lt phi64 (Rabs x)) as [H|H].
  - eapply Rle_trans; [apply rn_rel, H|]. pose proof u64_pos. pose proof phi64_range. apply Rmult_le_compat_l; lra.
  - destruct (error_N_FLT radix2 (-1074) 53 ltac:(reflexivity) (fun z => negb (Z.even z)) x) as (e & t & He & Ht & Het & E).
    change (round radix2 (FLT_exp (-1074) 53) (Znearest (fun z => negb (Z.even z))) x) with (rn x) in E. rewrite E.
    replace (x * (1 + e) + t - x) with (x * e + t) by ring. eapply Rle_trans; [apply Rabs_triang|]. rewrite Rabs_mult, Rmult_plus_distr_l.
    apply Rplus_le_compat.
    + rewrite Rmult_comm. apply Rmult_le_compat_r; [apply Rabs_pos|exact He].
    + eapply Rle_trans; [exact Ht|]. apply Req_le. unfold u64, phi64. rewrite Rmult_assoc, <- bpow_plus. reflexivity.
Qed.
Lemma rn_int z : (Z.abs z <= 2 ^ 31)%Z -> rn (IZR z) = IZR z.
Proof.
  intros Hz. unfold rn. apply round_generic; [apply valid_rnd_N|]. apply generic_format_FLT. exists (Float radix2 z 0).
  - unfold F2R. cbn [Fnum Fexp bpow]. ring.
  - cbn [Fnum]. change (Zpower radix2 53) with (2 ^ 53)%Z. lia.
  - cbn [Fexp]. lia.
Qed.
Lemma rn_le1 x : Rabs x <= 1 -> Rabs (rn x - x) <= u64.
Proof.
  intros H. pose proof u64_pos. destruct (Rle_or_lt phi64 (Rabs x)) as [Hx|Hx].
  - pose proof (rn_rel x Hx). nra.
  - pose proof (rn_abs x). pose proof phi64_range. nra.
Qed.
Lemma rn_rel1 x : / 1024 <= Rabs x -> Rabs (rn x - x) <= u64 * Rabs x.
Proof. intros H. apply rn_rel. pose proof phi64_range. lra. Qed.
Lemma cs8_range : / 1024 <= Rabs (cos (PI / 8)) /\ / 1024 <= Rabs (sin (PI / 8)).
Proof.
  pose proof (cos_2a_cos (PI / 8)) as H1. pose proof (cos_2a_sin (PI / 8)) as H2. replace (2 * (PI / 8)) with (PI / 4) in * by field. rewrite cos_PI4 in *.
  assert (S0 : 0 < sqrt 2) by (apply sqrt_lt_R0; lra). pose proof (sqrt_def 2 ltac:(lra)) as S2.
  assert (S1 : 14 / 10 <= sqrt 2 <= 15 / 10) by (split; nra). assert (Hi : 0 <= 1 / sqrt 2 <= 9 / 10).
  { unfold Rdiv. rewrite Rmult_1_l. split; [apply Rlt_le, Rinv_0_lt_compat; auto|]. apply Rle_trans with (/ (14 / 10)); [apply Rinv_le_contravar; lra|lra]. }
  assert (G : forall t, / 100 <= t * t -> / 1024 <= Rabs t). { intros t Ht. apply Rnot_lt_le. intros C. pose proof (Rabs_pos t).
    assert (t * t = Rabs t * Rabs t) by (rewrite <- Rabs_mult; symmetry; apply Rabs_right; apply Rle_ge; apply Rle_0_sqr). nra. }
  split; apply G; nra.
Qed.
Lemma cos_le1 t : Rabs (cos t) <= 1.
Proof. apply Rabs_le. apply COS_bound. Qed.
Lemma sin_le1 t : Rabs (sin t) <= 1.
Proof. apply Rabs_le. apply SIN_bound. Qed.

Definition binary64 : rounding.
Proof.
  refine {| rnd := rn; f_cos := fun t => rn (cos t); f_sin := fun t => rn (sin t); f_mysqrt := fun z => BinarySingleNaN.B2R (Mysqrt.mysqrt_Z 53 1024 PropMysqrt.P53 PropMysqrt.E53 z);
    c_pi := rn PI; c_sqrt1_2 := rn (/ sqrt 2); c_H1X := rn (cos (PI / 8)); c_H1Y := rn (- sin (PI / 8)); uu := u64; lam := u64; phi := phi64 |}.
  - exact u64_range.
  - exact phi64_range.
  - exact rn_rel.
  - exact rn_abs.
  - exact rn_int.
  - intros t. apply rn_le1, cos_le1.
  - intros t. apply rn_le1, sin_le1.
  - intros n Hn. rewrite u64_val. apply PropMysqrt.mysqrt_Z_err. exact Hn.
  - pose proof PI2_1 as H2. assert (HP : Rabs PI = PI) by (apply Rabs_right; lra). pose proof (rn_rel1 PI) as H. rewrite HP in H. apply H. lra.
  - assert (HP : 0 < / sqrt 2) by (apply Rinv_0_lt_compat, sqrt_lt_R0; lra). assert (HA : Rabs (/ sqrt 2) = / sqrt 2) by (apply Rabs_right; lra).
    pose proof (rn_rel1 (/ sqrt 2)) as H. rewrite HA in H. apply H. apply Rinv_le_contravar; [apply sqrt_lt_R0; lra|]. apply sq_le; [lra|]. rewrite sqrt_def; lra.
  - apply rn_rel1, cs8_range.
  - pose proof (rn_rel1 (- sin (PI / 8))) as H. rewrite (Rabs_Ropp (sin (PI / 8))) in H. apply H, cs8_range.
Defined.

(** ** the bound in the usual form g / (1 - g) *)
Lemma pow_gamma x n : 0 <= x -> (1 + x) ^ n * (1 - INR n * x) <= 1.
Proof.
  intros Hx. induction n as [|n IH]; [cbn; lra|]. rewrite S_INR. cbn [pow].
  assert (P : 0 <= (1 + x) ^ n) by (apply pow_le; lra). pose proof (pos_INR n).
  assert (E : (1 + x) * (1 - (INR n + 1) * x) <= 1 - INR n * x) by nra.
  replace ((1 + x) * (1 + x) ^ n * (1 - (INR n + 1) * x)) with ((1 + x) ^ n * ((1 + x) * (1 - (INR n + 1) * x))) by ring.
  eapply Rle_trans; [apply Rmult_le_compat_l; [exact P|exact E]|exact IH].
Qed.
Lemma table_error_pos A : 0 <= table_error A.
Proof. pose proof (T1 A). unfold table_error. unfold tau in *. lra. Qed.
Theorem C34_bound : forall A ps,
  let g := INR (3 + total roundings ps) * uu A + INR (total lookups ps) * table_error A in
  g < 1 -> error_bound A ps <= g / (1 - g).
Proof.
  intros A ps g Hg. unfold error_bound. set (a := (3 + total roundings ps)%nat) in *. set (b := total lookups ps) in *.
  pose proof (u0 A) as Hu. pose proof (table_error_pos A) as Ht. set (u := uu A) in *. set (t := table_error A) in *.
  pose proof (pow_gamma u a Hu) as P1. pose proof (pow_gamma t b Ht) as P2.
  assert (Q1 : 1 <= (1 + u) ^ a) by (apply pow_R1_Rle; lra). assert (Q2 : 1 <= (1 + t) ^ b) by (apply pow_R1_Rle; lra).
  set (x := (1 + u) ^ a) in *. set (y := (1 + t) ^ b) in *. pose proof (pos_INR a) as Ha. pose proof (pos_INR b) as Hb.
  assert (G1 : 0 <= INR a * u) by nra. assert (G2 : 0 <= INR b * t) by nra. unfold g in *.
  set (p := INR a * u) in *. set (q := INR b * t) in *. clearbody p q x y.
  assert (M : x * y * (1 - (p + q)) <= 1).
  { assert (x * y * (1 - (p + q)) <= x * y * ((1 - p) * (1 - q))) by (apply Rmult_le_compat_l; nra).
    assert (x * y * ((1 - p) * (1 - q)) = (x * (1 - p)) * (y * (1 - q))) as E by ring. rewrite E in H.
    assert ((x * (1 - p)) * (y * (1 - q)) <= 1 * 1) by (apply Rmult_le_compat; nra). lra. }
  apply (Rmult_le_reg_r (1 - (p + q))); [lra|]. unfold Rdiv. rewrite Rmult_assoc, Rinv_l by lra. lra.
Qed.

(** ** a concrete case: length 1024 in binary64, any build: relative error at most 10^-12 *)
Example factorisation_1024 : factorisation (repeat 2%nat 10) 1024.
Proof. split; [|vm_compute; reflexivity]. apply Forall_forall. intros p Hp. apply repeat_spec in Hp. subst p. apply prime_2. Qed.
Lemma table_error_64 : table_error binary64 <= 43 * u64.
Proof.
  unfold table_error. cbn [uu lam binary64]. pose proof u64_pos as P. assert (S : u64 <= / 1024).
  { rewrite u64_val. apply Rinv_le_contravar; [lra|]. rewrite (pow_IZR 2 53). apply IZR_le. vm_compute. discriminate. }
  set (u := u64) in *. clearbody u. pose proof PI_4 as H4. pose proof PI_RGT_0.
  assert (E : (1 + u) ^ 5 - 1 <= 5.1 * u).
  { replace ((1 + u) ^ 5 - 1) with (u * (5 + 10 * u + 10 * u * u + 5 * u * u * u + u * u * u * u)) by ring.
    assert (u * u <= / 1024 * u) by nra. assert (u * u * u <= / 1024 * u) by nra. assert (u * u * u * u <= / 1024 * u) by nra. nra. }
  assert (0 <= (1 + u) ^ 5 - 1) by (assert (1 <= (1 + u) ^ 5) by (apply pow_R1_Rle; lra); lra). nra.
Qed.
Lemma bound_1024 : error_bound binary64 (repeat 2%nat 10) <= / 10 ^ 12.
Proof.
  pose proof (C34_bound binary64 (repeat 2%nat 10)) as HB. cbv zeta in HB. change (3 + total roundings (repeat 2%nat 10))%nat with 603%nat in HB.
  change (total lookups (repeat 2%nat 10)) with 150%nat in HB. cbn [uu binary64] in HB.
  pose proof table_error_64 as HT. pose proof u64_pos as P. rewrite !INR_IZR_INZ in HB. change (Z.of_nat 603) with 603%Z in HB. change (Z.of_nat 150) with 150%Z in HB.
  assert (S : u64 <= / (9 * 10 ^ 15)).
  { rewrite u64_val. apply Rinv_le_contravar; [lra|]. rewrite (pow_IZR 2 53), (pow_IZR 10 15), <- mult_IZR. apply IZR_le. vm_compute. discriminate. }
  pose proof (table_error_pos binary64) as Tp.
  set (g := 603 * u64 + 150 * table_error binary64) in *.
  assert (Hg : g <= 7053 * / (9 * 10 ^ 15)) by (unfold g; nra).
  assert (Hg1 : 7053 * / (9 * 10 ^ 15) <= 8 / 10 * / 10 ^ 12) by (rewrite Rinv_mult; lra).
  assert (Hg2 : g <= / 100) by lra. assert (0 <= g) by (unfold g; nra).
  eapply Rle_trans; [apply HB; lra|]. apply (Rmult_le_reg_r (1 - g)); [lra|]. unfold Rdiv. rewrite Rmult_assoc, Rinv_l by lra.
  assert (0 < / 10 ^ 12) by (apply Rinv_0_lt_compat; lra). nra.
Qed.
Theorem C34_example : forall bd b k x (m : mem (@C (fl binary64 bd))) X,
  fft_history b (Some 1024%nat) m -> ~ fft_own b (fst x) -> holds m x 1024 X ->
  exists m' Y, Outcome (@fft_run (fl binary64 bd) b 1024 k x) m m' /\ holds m' x 1024 Y /\ within 1024 (/ 10 ^ 12) (bpow radix2 (-1011)) Y (transform k 1024 X).
Proof.
  intros bd b k x m X Hh Hx HX.
  assert (HV : valid_length 1024).
  { split; [lia|]. split; [lia|]. intros p [Hp _] Hd. apply Nat.divide_pos_le in Hd; [|lia]. apply Z.leb_le. unfold INT_MAX. nia. }
  destruct (C34_accuracy binary64 bd b 1024 k x m X _ HV Hh Hx HX factorisation_1024) as (m' & Y & H1 & H2 & H3).
  exists m', Y. split; [exact H1|]. split; [exact H2|]. unfold within in *. assert (E : floor binary64 1024 = bpow radix2 (-1011)).
  { unfold floor. cbn [phi binary64]. unfold phi64. rewrite INR_IZR_INZ. change 2 with (bpow radix2 1). change (IZR (Z.of_nat 1024)) with (bpow radix2 10). rewrite <- !bpow_plus. reflexivity. }
  rewrite E in H3. eapply Rle_trans; [exact H3|]. pose proof (nrm_pos 1024 (transform k 1024 X)). pose proof (bpow_ge_0 radix2 (-1011)).
  apply Rmult_le_compat_r; [lra|]. exact bound_1024.
Qed.
Print Assumptions C34_example.
