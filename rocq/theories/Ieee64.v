(** * IEEE-754 binary64 numbers with infinities, NaNs and signed zeros, against the rounded reals of Round.v

    [ieee bd]: the arithmetic of the build bd on binary64 numbers (Ieee.v), with the literal constants of the source.
    [libm dc ds lam]: what is assumed of the C library's cos and sin.
    [ieee_sim]: as long as a result is finite, it is the number that the rounded-real arithmetic gives. *)

From Coq Require Import Reals ZArith List Bool Arith Lia Lra Psatz SpecFloat Machin Ratan.
From Flocq Require Import Core.Core IEEE754.BinarySingleNaN.
From Verif Require Import Scalar RealOps Simd Mysqrt Ieee PropMysqrt Norm Round PropAccuracy Param.
Local Open Scope R_scope.

(** std::cos and std::sin: finite numbers to finite numbers with absolute error at most lam (and the same value for
    0.0 and -0.0); infinities and NaNs to NaNs *)
Record libm (dc ds : double -> double) (lam : R) : Prop := {
  lm_cos : forall x, is_finite x = true -> is_finite (dc x) = true /\ Rabs (B2R (dc x) - cos (B2R x)) <= lam;
  lm_sin : forall x, is_finite x = true -> is_finite (ds x) = true /\ Rabs (B2R (ds x) - sin (B2R x)) <= lam;
  lm_cos_nan : forall x, is_finite x = false -> is_finite (dc x) = false;
  lm_sin_nan : forall x, is_finite x = false -> is_finite (ds x) = false;
  lm_cos_0 : forall x y, is_finite x = true -> is_finite y = true -> B2R x = B2R y -> B2R (dc x) = B2R (dc y);
  lm_sin_0 : forall x y, is_finite x = true -> is_finite y = true -> B2R x = B2R y -> B2R (ds x) = B2R (ds y)
}.

(** mantissa * 2^exponent as a double *)
Definition dbl (m e : Z) : double := binary_normalize 53 1024 P53 E53 mode_NE m e false.
(** M_PI, M_SQRT1_2 (src/otfft_misc.h:28-37), H1X, H1Y (src/otfft_misc.h:42-43): the doubles nearest to the decimal
    literals; PropIeee.v proves that they are, and how far they are from pi, 1/sqrt 2, cos(pi/8) and -sin(pi/8) *)
Definition d_pi : double := dbl 7074237752028440 (-51).
Definition d_sqrt1_2 : double := dbl 6369051672525773 (-53).
Definition d_H1X : double := dbl 8321567036706118 (-53).
Definition d_H1Y : double := dbl (-6893811853601123) (-54).

Definition ieee (dc ds : double -> double) (bd : build) : Ops := F_ops 53 1024 P53 E53 dc ds d_pi d_sqrt1_2 d_H1X d_H1Y bd.

Notation fx := (SpecFloat.fexp 53 1024).
Lemma rn_fx x : round radix2 fx ZnearestE x = rn x.
Proof. reflexivity. Qed.
Lemma overflow_nf (x : double) s : B2SF x = binary_overflow 53 1024 mode_NE s -> is_finite x = false.
Proof. destruct x; cbn; auto; discriminate. Qed.
Notation add := (@Bplus 53 1024 P53 E53 mode_NE).
Notation sub := (@Bminus 53 1024 P53 E53 mode_NE).
Notation mul := (@Bmult 53 1024 P53 E53 mode_NE).
Notation div := (@Bdiv 53 1024 P53 E53 mode_NE).
Notation sqr := (@Bsqrt 53 1024 P53 E53 mode_NE).
Notation fma := (@Bfma 53 1024 P53 E53 mode_NE).
Notation neg := (@Bopp 53 1024).

(** a finite result has finite operands *)
Lemma add_fin x y : is_finite (add x y) = true -> is_finite x = true /\ is_finite y = true.
Proof. destruct x as [[]|[]| |[] ? ? ?], y as [[]|[]| |[] ? ? ?]; cbn; try discriminate; auto. Qed.
Lemma sub_fin x y : is_finite (sub x y) = true -> is_finite x = true /\ is_finite y = true.
Proof. destruct x as [[]|[]| |[] ? ? ?], y as [[]|[]| |[] ? ? ?]; cbn; try discriminate; auto. Qed.
Lemma mul_fin x y : is_finite (mul x y) = true -> is_finite x = true /\ is_finite y = true.
Proof. destruct x as [[]|[]| |[] ? ? ?], y as [[]|[]| |[] ? ? ?]; cbn; try discriminate; auto. Qed.
Lemma fma_fin x y z : is_finite (fma x y z) = true -> is_finite x = true /\ is_finite y = true /\ is_finite z = true.
Proof. destruct x as [[]|[]| |[] ? ? ?], y as [[]|[]| |[] ? ? ?], z as [[]|[]| |[] ? ? ?]; cbn; try discriminate; auto. Qed.
Lemma neg_fin x : is_finite (neg x) = is_finite x.
Proof. apply is_finite_Bopp. Qed.

(** ** the relation *)
Definition Rf (f : double) (r : R) : Prop := is_finite f = true -> B2R f = r.
Definition Kf (f : double) (r : R) : Prop := is_finite f = true /\ B2R f = r /\ r <> 0.

(** an operation on finite operands: the rounded exact result, or not finite because that is too large *)
Definition op_ok (z : double) (v : R) : Prop :=
  (is_finite z = true /\ B2R z = rn v) \/ (is_finite z = false /\ bpow radix2 1024 <= Rabs (rn v)).
Lemma add_ok x y : is_finite x = true -> is_finite y = true -> op_ok (add x y) (B2R x + B2R y).
Proof.
  intros Fx Fy. pose proof (Bplus_correct 53 1024 P53 E53 mode_NE x y Fx Fy) as H. cbn [round_mode] in H. rewrite rn_fx in H.
  destruct (Rlt_bool_spec (Rabs (rn (B2R x + B2R y))) (bpow radix2 1024)) as [L|L]; [left; tauto|right]. split; [|exact L].
  apply (overflow_nf _ _ (proj1 H)).
Qed.
Lemma sub_ok x y : is_finite x = true -> is_finite y = true -> op_ok (sub x y) (B2R x - B2R y).
Proof.
  intros Fx Fy. pose proof (Bminus_correct 53 1024 P53 E53 mode_NE x y Fx Fy) as H. cbn [round_mode] in H. rewrite rn_fx in H.
  destruct (Rlt_bool_spec (Rabs (rn (B2R x - B2R y))) (bpow radix2 1024)) as [L|L]; [left; tauto|right]. split; [|exact L].
  apply (overflow_nf _ _ (proj1 H)).
Qed.
Lemma mul_ok x y : is_finite x = true -> is_finite y = true -> op_ok (mul x y) (B2R x * B2R y).
Proof.
  intros Fx Fy. pose proof (Bmult_correct 53 1024 P53 E53 mode_NE x y) as H. cbn [round_mode] in H. rewrite rn_fx in H.
  destruct (Rlt_bool_spec (Rabs (rn (B2R x * B2R y))) (bpow radix2 1024)) as [L|L].
  - left. destruct H as (H1 & H2 & _). rewrite Fx, Fy in H2. auto.
  - right. split; [|exact L]. apply (overflow_nf _ _ H).
Qed.
Lemma div_ok x y : is_finite x = true -> B2R y <> 0 -> op_ok (div x y) (B2R x / B2R y).
Proof.
  intros Fx Hy. pose proof (Bdiv_correct 53 1024 P53 E53 mode_NE x y Hy) as H. cbn [round_mode] in H. rewrite rn_fx in H.
  destruct (Rlt_bool_spec (Rabs (rn (B2R x / B2R y))) (bpow radix2 1024)) as [L|L].
  - left. destruct H as (H1 & H2 & _). rewrite Fx in H2. auto.
  - right. split; [|exact L]. apply (overflow_nf _ _ H).
Qed.
Lemma fma_ok x y z : is_finite x = true -> is_finite y = true -> is_finite z = true -> op_ok (fma x y z) (B2R x * B2R y + B2R z).
Proof.
  intros Fx Fy Fz. pose proof (Bfma_correct 53 1024 P53 E53 mode_NE x y z Fx Fy Fz) as H. cbn [round_mode] in H. cbv zeta in H. rewrite rn_fx in H.
  destruct (Rlt_bool_spec (Rabs (rn (B2R x * B2R y + B2R z))) (bpow radix2 1024)) as [L|L]; [left; tauto|right]. split; [|exact L].
  apply (overflow_nf _ _ H).
Qed.
Lemma dbl_ok m e : op_ok (dbl m e) (F2R (Float radix2 m e)).
Proof.
  pose proof (binary_normalize_correct 53 1024 P53 E53 mode_NE m e false) as H. cbn [round_mode] in H. cbv zeta in H. rewrite rn_fx in H.
  fold (dbl m e) in H. destruct (Rlt_bool_spec (Rabs (rn (F2R (Float radix2 m e)))) (bpow radix2 1024)) as [L|L]; [left; tauto|right].
  split; [|exact L]. apply (overflow_nf _ _ H).
Qed.
Lemma op_val z v : op_ok z v -> is_finite z = true -> B2R z = rn v.
Proof. intros [[_ H]|[H _]] F; [exact H|congruence]. Qed.

Lemma r_add x x' y y' : Rf x x' -> Rf y y' -> Rf (add x y) (rn (x' + y')).
Proof.
  intros Hx Hy H. destruct (add_fin _ _ H) as [Fx Fy]. rewrite <- (Hx Fx), <- (Hy Fy). apply (op_val _ _ (add_ok x y Fx Fy) H).
Qed.
Lemma r_sub x x' y y' : Rf x x' -> Rf y y' -> Rf (sub x y) (rn (x' - y')).
Proof.
  intros Hx Hy H. destruct (sub_fin _ _ H) as [Fx Fy]. rewrite <- (Hx Fx), <- (Hy Fy). apply (op_val _ _ (sub_ok x y Fx Fy) H).
Qed.
Lemma r_mul x x' y y' : Rf x x' -> Rf y y' -> Rf (mul x y) (rn (x' * y')).
Proof.
  intros Hx Hy H. destruct (mul_fin _ _ H) as [Fx Fy]. rewrite <- (Hx Fx), <- (Hy Fy). apply (op_val _ _ (mul_ok x y Fx Fy) H).
Qed.
Lemma r_neg x x' : Rf x x' -> Rf (neg x) (- x').
Proof. intros Hx H. rewrite neg_fin in H. rewrite B2R_Bopp, (Hx H). reflexivity. Qed.
Lemma r_fma x x' y y' z z' : Rf x x' -> Rf y y' -> Rf z z' -> Rf (fma x y z) (rn (x' * y' + z')).
Proof.
  intros Hx Hy Hz H. destruct (fma_fin _ _ _ H) as (Fx & Fy & Fz). rewrite <- (Hx Fx), <- (Hy Fy), <- (Hz Fz).
  apply (op_val _ _ (fma_ok x y z Fx Fy Fz) H).
Qed.
Lemma r_fms x x' y y' z z' : Rf x x' -> Rf y y' -> Rf z z' -> Rf (fma x y (neg z)) (rn (x' * y' - z')).
Proof. intros Hx Hy Hz. unfold Rminus. apply r_fma; auto. apply r_neg, Hz. Qed.
Lemma r_div x x' y y' : Rf x x' -> Kf y y' -> Rf (div x y) (rn (x' / y')).
Proof.
  intros Hx (Fy & <- & Hy) H. assert (Fx : is_finite x = true).
  { destruct x as [[]|[]| |[] ? ? ?], y as [[]|[]| |[] ? ? ?]; cbn in *; try discriminate; auto. }
  rewrite <- (Hx Fx). apply (op_val _ _ (div_ok x y Fx Hy) H).
Qed.
Lemma sqr_ok x : B2R (sqr x) = rn (sqrt (B2R x)) /\ (is_finite (sqr x) = true -> is_finite x = true).
Proof.
  destruct (Bsqrt_correct 53 1024 P53 E53 mode_NE x) as (H1 & H2 & _). cbn [round_mode] in H1. rewrite rn_fx in H1. split; [exact H1|].
  rewrite H2. destruct x as [[]|[]| |[] ? ? ?]; cbn; auto.
Qed.
Lemma r_sqrt x x' : Rf x x' -> Rf (sqr x) (rn (sqrt x')).
Proof. intros Hx H. destruct (sqr_ok x) as [E F]. rewrite E, (Hx (F H)). reflexivity. Qed.
Lemma ofZ_F2R z : F2R (Float radix2 z 0) = IZR z.
Proof. unfold F2R. cbn [Fnum Fexp bpow]. ring. Qed.
Lemma r_ofZ z : Rf (dbl z 0) (rn (IZR z)).
Proof. intros H. rewrite <- ofZ_F2R. apply (op_val _ _ (dbl_ok z 0) H). Qed.

Lemma bpow1024 : 2 ^ 53 <= bpow radix2 1024.
Proof. rewrite pow_bpow. apply bpow_le. reflexivity || lia. Qed.
Lemma k_ofZ z : (0 < z <= 2 ^ 31)%Z -> Kf (dbl z 0) (rn (IZR z)).
Proof.
  intros Hz. assert (E : rn (IZR z) = IZR z) by (apply rn_int; rewrite Z.abs_eq; lia).
  assert (L : Rabs (rn (IZR z)) < bpow radix2 1024).
  { rewrite E, Rabs_right by (apply Rle_ge, IZR_le; lia). eapply Rlt_le_trans; [|apply bpow1024].
    rewrite (pow_IZR 2 53). apply IZR_lt. eapply Z.le_lt_trans; [apply Hz|]. reflexivity. }
  pose proof (dbl_ok z 0) as H. rewrite ofZ_F2R in H. unfold op_ok in H. destruct H as [[F V]|[_ H]]; [|lra].
  split; [exact F|split; [exact V|]]. rewrite E. apply IZR_neq. lia.
Qed.
Lemma sqr_pos (x : double) : 0 < B2R x -> is_finite (sqr x) = true.
Proof.
  intros H. destruct (Bsqrt_correct 53 1024 P53 E53 mode_NE x) as (_ & -> & _). destruct x as [[]|[]| |[] m e Hm]; cbn [B2R] in H; auto; try lra.
  exfalso. apply (Rlt_irrefl 0). eapply Rlt_trans; [exact H|]. apply F2R_lt_0. reflexivity.
Qed.
Lemma rn_mono x y : x <= y -> rn x <= rn y.
Proof. intros H. apply round_le; [apply FLT_exp_valid; reflexivity|apply valid_rnd_N|exact H]. Qed.
Lemma rn_1 : rn 1 = 1.
Proof. apply (rn_int 1). cbn. lia. Qed.
Lemma k_sqrt z : (0 < z <= 2 ^ 31)%Z -> Kf (sqr (dbl z 0)) (rn (sqrt (rn (IZR z)))).
Proof.
  intros Hz. destruct (k_ofZ z Hz) as (F & V & _). assert (E : rn (IZR z) = IZR z) by (apply rn_int; rewrite Z.abs_eq; lia).
  assert (H1 : 1 <= IZR z) by (apply IZR_le; lia). split; [apply sqr_pos; rewrite V, E; lra|]. destruct (sqr_ok (dbl z 0)) as [V' _].
  split; [rewrite V', V; reflexivity|]. rewrite E. assert (1 <= rn (sqrt (IZR z))); [|lra]. rewrite <- rn_1 at 1. apply rn_mono.
  rewrite <- sqrt_1. apply sqrt_le_1_alt. exact H1.
Qed.
Lemma k_mysqrt n : (n <= 24)%nat -> Kf (d_mysqrt_Z (2 ^ Z.of_nat n)) (B2R (d_mysqrt_Z (2 ^ Z.of_nat n))).
Proof.
  intros Hn. destruct (mysqrt_Z_value n Hn) as (r & _ & -> & Hv). destruct (B2R_value r n Hv) as [E F]. split; [exact F|split; [reflexivity|]].
  rewrite E. assert (0 < IZR (Z.pos (mant n))) by (apply IZR_lt; reflexivity). pose proof (pow_lt 2 (n / 2) ltac:(lra)). pose proof p52.
  assert (0 < / 2 ^ 52) by (apply Rinv_0_lt_compat; lra). apply Rgt_not_eq. apply Rmult_lt_0_compat; [apply Rmult_lt_0_compat|]; auto.
Qed.

(** ** cos and sin as functions on the reals *)
Definition to_d (t : R) : double := dbl (Ztrunc (scaled_mantissa radix2 fx t)) (cexp radix2 fx t).
Lemma to_d_B2R (x : double) : is_finite x = true -> is_finite (to_d (B2R x)) = true /\ B2R (to_d (B2R x)) = B2R x.
Proof.
  intros Hx. pose proof (generic_format_B2R 53 1024 x) as G. pose proof G as G'. unfold generic_format in G'.
  pose proof (dbl_ok (Ztrunc (scaled_mantissa radix2 fx (B2R x))) (cexp radix2 fx (B2R x))) as H. rewrite <- G' in H. unfold op_ok in H.
  assert (E : rn (B2R x) = B2R x) by (unfold rn; apply round_generic; [apply valid_rnd_N|exact G]). rewrite E in H.
  destruct H as [[H1 H2]|[_ H]]; [split; assumption|]. pose proof (abs_B2R_lt_emax 53 1024 x). lra.
Qed.
Definition ext_fun (d : double -> double) (f : R -> R) (t : R) : R :=
  if is_finite (to_d t) then if Req_bool (B2R (to_d t)) t then B2R (d (to_d t)) else f t else f t.
Lemma ext_val d f (x : double) : (forall x y, is_finite x = true -> is_finite y = true -> B2R x = B2R y -> B2R (d x) = B2R (d y)) ->
  is_finite x = true -> ext_fun d f (B2R x) = B2R (d x).
Proof.
  intros Hd Hx. destruct (to_d_B2R x Hx) as [H1 H2]. unfold ext_fun. rewrite H1. rewrite Req_bool_true by exact H2. apply Hd; auto.
Qed.
Lemma ext_err d f e : 0 <= e -> (forall x, is_finite x = true -> is_finite (d x) = true /\ Rabs (B2R (d x) - f (B2R x)) <= e) ->
  forall t, Rabs (ext_fun d f t - f t) <= e.
Proof.
  intros He Hd t. unfold ext_fun. assert (H0 : Rabs (f t - f t) <= e) by (rewrite Rminus_diag_eq, Rabs_R0; auto).
  destruct (is_finite (to_d t)) eqn:E; [|exact H0]. destruct (Req_bool_spec (B2R (to_d t)) t) as [Ht|Ht]; [|exact H0].
  rewrite <- Ht at 2. apply Hd, E.
Qed.

(** ** the constants *)
Lemma dbl_exact m e : (Z.abs m < 2 ^ 53)%Z -> (-1074 <= e)%Z -> (e <= 0)%Z -> is_finite (dbl m e) = true /\ B2R (dbl m e) = IZR m * bpow radix2 e.
Proof.
  intros Hm He He'. pose proof (dbl_ok m e) as H. assert (E : rn (F2R (Float radix2 m e)) = F2R (Float radix2 m e)).
  { unfold rn. apply round_generic; [apply valid_rnd_N|]. apply generic_format_FLT. exists (Float radix2 m e); auto. }
  unfold op_ok in H. rewrite E in H. destruct H as [H|[_ H]]; [exact H|]. exfalso. revert H. apply Rlt_not_le. unfold F2R. cbn [Fnum Fexp].
  rewrite Rabs_mult, (Rabs_right (bpow radix2 e)) by (apply Rle_ge, bpow_ge_0). eapply Rle_lt_trans.
  - apply Rmult_le_compat_l; [apply Rabs_pos|]. change 1 with (bpow radix2 0). apply bpow_le. exact He'.
  - cbn [bpow]. rewrite Rmult_1_r, <- abs_IZR. eapply Rlt_le_trans; [apply IZR_lt; exact Hm|]. eapply Rle_trans; [|apply bpow1024].
    rewrite (pow_IZR 2 53). apply Rle_refl.
Qed.
Lemma PI_bounds : 31415926535897932 / 10000000000000000 <= PI <= 31415926535897933 / 10000000000000000.
Proof.
  pose proof (PI_2_3_7_ineq 8) as [H1 H2]. unfold tg_alt, PI_2_3_7_tg, Ratan_seq in *. cbn -[pow INR IZR Rdiv] in H1, H2.
  apply (Rmult_le_compat_l 4) in H1; [|lra]. apply (Rmult_le_compat_l 4) in H2; [|lra]. replace (4 * (PI / 4)) with PI in * by field.
  split; [eapply Rle_trans; [|exact H1]|eapply Rle_trans; [exact H2|]]; clear; rewrite !INR_IZR_INZ; cbn [Z.of_nat Nat.mul Nat.add Pos.of_succ_nat Pos.succ pow]; lra.
Qed.
Lemma sq_lo a x : 0 <= a -> 0 <= x -> a * a <= x * x -> a <= x.
Proof. intros. apply Rnot_lt_le. intros C. assert (x * x < a * a) by (apply Rmult_le_0_lt_compat; auto). lra. Qed.
Definition s12_lo := 70710678118654752440 / 100000000000000000000.
Definition s12_hi := 70710678118654752441 / 100000000000000000000.
Lemma sqrt1_2_bounds : s12_lo <= / sqrt 2 <= s12_hi.
Proof.
  assert (P : 0 < / sqrt 2) by (apply Rinv_0_lt_compat, sqrt_lt_R0; lra).
  assert (E : / sqrt 2 * / sqrt 2 = / 2). { rewrite <- Rinv_mult, sqrt_def by lra. reflexivity. }
  unfold s12_lo, s12_hi. split; apply sq_lo; try lra; rewrite E; lra.
Qed.
Lemma cos8_bounds : 92387953251128675612 / 100000000000000000000 <= cos (PI / 8) <= 92387953251128675614 / 100000000000000000000.
Proof.
  pose proof (cos_2a_cos (PI / 8)) as H1. replace (2 * (PI / 8)) with (PI / 4) in * by field. rewrite cos_PI4 in *.
  unfold Rdiv in H1 at 1. rewrite Rmult_1_l in H1. pose proof sqrt1_2_bounds as B. unfold s12_lo, s12_hi in B.
  assert (P : 0 <= cos (PI / 8)) by (apply cos_ge_0; pose proof PI_RGT_0; lra). split; apply sq_lo; lra.
Qed.
Lemma sin8_bounds : 38268343236508977172 / 100000000000000000000 <= sin (PI / 8) <= 38268343236508977174 / 100000000000000000000.
Proof.
  pose proof (cos_2a_sin (PI / 8)) as H1. replace (2 * (PI / 8)) with (PI / 4) in * by field. rewrite cos_PI4 in *.
  unfold Rdiv in H1 at 1. rewrite Rmult_1_l in H1. pose proof sqrt1_2_bounds as B. unfold s12_lo, s12_hi in B.
  assert (P : 0 <= sin (PI / 8)) by (apply sin_ge_0; pose proof PI_RGT_0; lra). split; apply sq_lo; lra.
Qed.
Lemma bpow_m51 : bpow radix2 (-51) = / 2251799813685248. Proof. reflexivity. Qed.
Lemma bpow_m53 : bpow radix2 (-53) = / 9007199254740992. Proof. reflexivity. Qed.
Lemma bpow_m54 : bpow radix2 (-54) = / 18014398509481984. Proof. reflexivity. Qed.
Lemma v_pi : is_finite d_pi = true /\ B2R d_pi = 7074237752028440 / 2251799813685248.
Proof. destruct (dbl_exact 7074237752028440 (-51)) as [H1 H2]; [reflexivity|lia|lia|]. split; [exact H1|]. rewrite <- bpow_m51 || idtac. unfold d_pi. rewrite H2. reflexivity. Qed.
Lemma v_sqrt1_2 : is_finite d_sqrt1_2 = true /\ B2R d_sqrt1_2 = 6369051672525773 / 9007199254740992.
Proof. destruct (dbl_exact 6369051672525773 (-53)) as [H1 H2]; [reflexivity|lia|lia|]. split; [exact H1|]. unfold d_sqrt1_2. rewrite H2. reflexivity. Qed.
Lemma v_H1X : is_finite d_H1X = true /\ B2R d_H1X = 8321567036706118 / 9007199254740992.
Proof. destruct (dbl_exact 8321567036706118 (-53)) as [H1 H2]; [reflexivity|lia|lia|]. split; [exact H1|]. unfold d_H1X. rewrite H2. reflexivity. Qed.
Lemma v_H1Y : is_finite d_H1Y = true /\ B2R d_H1Y = -6893811853601123 / 18014398509481984.
Proof. destruct (dbl_exact (-6893811853601123) (-54)) as [H1 H2]; [reflexivity|lia|lia|]. split; [exact H1|]. unfold d_H1Y. rewrite H2. reflexivity. Qed.
Lemma u64_num : u64 = / 9007199254740992.
Proof. rewrite u64_val, p53. reflexivity. Qed.
Lemma err_pi : Rabs (B2R d_pi - PI) <= u64 * PI.
Proof. rewrite (proj2 v_pi), u64_num. pose proof PI_bounds. apply Rabs_le. lra. Qed.
Lemma err_sqrt1_2 : Rabs (B2R d_sqrt1_2 - / sqrt 2) <= u64 * / sqrt 2.
Proof. rewrite (proj2 v_sqrt1_2), u64_num. pose proof sqrt1_2_bounds as B. unfold s12_lo, s12_hi in B. apply Rabs_le. lra. Qed.
Lemma err_H1X : Rabs (B2R d_H1X - cos (PI / 8)) <= u64 * Rabs (cos (PI / 8)).
Proof. rewrite (proj2 v_H1X), u64_num. pose proof cos8_bounds. rewrite (Rabs_right (cos (PI / 8))) by lra. apply Rabs_le. lra. Qed.
Lemma err_H1Y : Rabs (B2R d_H1Y - - sin (PI / 8)) <= u64 * Rabs (sin (PI / 8)).
Proof. rewrite (proj2 v_H1Y), u64_num. pose proof sin8_bounds. rewrite (Rabs_right (sin (PI / 8))) by lra. apply Rabs_le. lra. Qed.

(** ** the rounded-real arithmetic that goes with a C library *)
Section Sim.
Variables (dc ds : double -> double) (la : R) (L : libm dc ds la).
Lemma la_pos : 0 <= la.
Proof. destruct (lm_cos _ _ _ L (B754_zero false) eq_refl) as [_ H]. eapply Rle_trans; [apply Rabs_pos|exact H]. Qed.
Definition real64 : rounding.
Proof.
  refine {| rnd := rn; f_cos := ext_fun dc cos; f_sin := ext_fun ds sin; f_mysqrt := fun z => B2R (d_mysqrt_Z z);
    c_pi := B2R d_pi; c_sqrt1_2 := B2R d_sqrt1_2; c_H1X := B2R d_H1X; c_H1Y := B2R d_H1Y; uu := u64; lam := la; phi := phi64 |}.
  - exact u64_range.
  - exact phi64_range.
  - exact rn_rel.
  - exact rn_abs.
  - exact rn_int.
  - apply ext_err; [apply la_pos|apply (lm_cos _ _ _ L)].
  - apply ext_err; [apply la_pos|apply (lm_sin _ _ _ L)].
  - intros n Hn. rewrite u64_val. apply mysqrt_Z_err. exact Hn.
  - exact err_pi.
  - exact err_sqrt1_2.
  - exact err_H1X.
  - exact err_H1Y.
Defined.

Lemma r_fun d f x x' : (forall x, is_finite x = false -> is_finite (d x) = false) ->
  (forall x y, is_finite x = true -> is_finite y = true -> B2R x = B2R y -> B2R (d x) = B2R (d y)) ->
  Rf x x' -> Rf (d x) (ext_fun d f x').
Proof.
  intros Hn H0 Hx H. destruct (is_finite x) eqn:Fx; [|rewrite (Hn x Fx) in H; discriminate]. rewrite <- (Hx Fx). symmetry. apply ext_val; auto.
Qed.
Lemma r_s12 : Rf d_sqrt1_2 (B2R d_sqrt1_2).
Proof. intros _. reflexivity. Qed.

Theorem ieee_sim bd : sim (ieee dc ds bd) (fl real64 bd) Rf Kf.
Proof.
  constructor.
  - intros x x' y y'. exact (r_add x x' y y').
  - intros x x' y y'. exact (r_sub x x' y y').
  - intros x x' y y'. exact (r_mul x x' y y').
  - intros x x' y y'. exact (r_div x x' y y').
  - intros x x'. exact (r_neg x x').
  - intros z Hz. exact (r_sqrt _ _ (r_div _ _ _ _ (r_ofZ 1) (k_ofZ z Hz))).
  - intros z Hz. exact (k_sqrt z Hz).
  - intros n Hn. exact (k_mysqrt n Hn).
  - intros x x'. exact (r_fun dc cos x x' (lm_cos_nan _ _ _ L) (lm_cos_0 _ _ _ L)).
  - intros x x'. exact (r_fun ds sin x x' (lm_sin_nan _ _ _ L) (lm_sin_0 _ _ _ L)).
  - intros z. exact (r_ofZ z).
  - intros z Hz. exact (k_ofZ z Hz).
  - intros _. reflexivity.
  - intros _. reflexivity.
  - intros _. reflexivity.
  - intros _. reflexivity.
  - intros a a' b b' x x' y y' Ha Hb Hx Hy. destruct bd.
    + exact (r_sub _ _ _ _ (r_mul _ _ _ _ Ha Hx) (r_mul _ _ _ _ Hb Hy)).
    + exact (r_add _ _ _ _ (r_mul _ _ _ _ Ha Hx) (r_mul _ _ _ _ Hb (r_neg _ _ Hy))).
    + exact (r_sub _ _ _ _ (r_mul _ _ _ _ Ha Hx) (r_mul _ _ _ _ Hb Hy)).
    + exact (r_sub _ _ _ _ (r_mul _ _ _ _ Ha Hx) (r_mul _ _ _ _ Hb Hy)).
    + exact (r_fms _ _ _ _ _ _ Ha Hx (r_mul _ _ _ _ Hb Hy)).
  - intros a a' b b' x x' y y' Ha Hb Hx Hy. destruct bd.
    1,2,3,4: exact (r_add _ _ _ _ (r_mul _ _ _ _ Ha Hy) (r_mul _ _ _ _ Hb Hx)).
    exact (r_fma _ _ _ _ _ _ Ha Hy (r_mul _ _ _ _ Hb Hx)).
  - intros x x' y y' Hx Hy. destruct bd.
    + exact (r_mul _ _ _ _ r_s12 (r_sub _ _ _ _ Hx Hy)).
    + exact (r_mul _ _ _ _ r_s12 (r_add _ _ _ _ Hx (r_neg _ _ Hy))).
    + exact (r_mul _ _ _ _ r_s12 (r_sub _ _ _ _ Hx Hy)).
    + exact (r_mul _ _ _ _ r_s12 (r_sub _ _ _ _ Hx Hy)).
    + exact (r_mul _ _ _ _ r_s12 (r_sub _ _ _ _ Hx Hy)).
  - intros x x' y y' Hx Hy. destruct bd.
    1: exact (r_mul _ _ _ _ r_s12 (r_add _ _ _ _ Hx Hy)).
    all: exact (r_mul _ _ _ _ r_s12 (r_add _ _ _ _ Hy Hx)).
  - intros x x' y y' Hx Hy. destruct bd; exact (r_mul _ _ _ _ r_s12 (r_add _ _ _ _ Hx Hy)).
  - intros x x' y y' Hx Hy. destruct bd.
    1: exact (r_mul _ _ _ _ r_s12 (r_sub _ _ _ _ Hy Hx)).
    all: exact (r_mul _ _ _ _ r_s12 (r_add _ _ _ _ Hy (r_neg _ _ Hx))).
Qed.
End Sim.
