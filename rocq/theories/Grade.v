(** * How large the numbers of a computation can become

    [grade]: an arithmetic whose numbers are pairs (d, g), read as the bound 2^(d*e + g) on a magnitude, where e is the exponent
    of the bound on the input data.  [grade_sim]: it bounds the IEEE-754 arithmetic of every build, and as long as the bound is
    at most 2^1023 the number is finite.  Evaluating the butterflies of the model in this arithmetic gives their growth;
    GradeFft.v adds it up over the passes. *)

From Coq Require Import Reals ZArith List Bool Arith Lia Lra Psatz.
From Flocq Require Import Core.Core IEEE754.BinarySingleNaN.
From Verif Require Import Scalar RealOps Simd Mysqrt Ieee PropMysqrt Norm Round PropAccuracy Param Ieee64.
Import ListNotations.

Definition gadd (x y : nat * nat) : nat * nat := (Nat.max (fst x) (fst y), S (Nat.max (snd x) (snd y))).
Definition gmul (x y : nat * nat) : nat * nat := (fst x + fst y, snd x + snd y).
Definition trig (x : nat * nat) : nat * nat := if (fst x =? 0) && (snd x <=? 1023) then (0, 1) else (0, 1024).
Definition grade : Ops := {|
  Sc := nat * nat; sadd := gadd; ssub := gadd; smul := gmul; sdiv := fun x _ => x; sneg := fun x => x; ssqrt := fun x => x;
  smysqrt := fun _ => (0, 1024); scos := trig; ssin := trig; sofZ := fun z => (0, Z.to_nat (Z.log2_up (Z.abs z)));
  spi := (0, 2); ssqrt1_2 := (0, 0); sH1X := (0, 0); sH1Y := (0, 0);
  smulre := fun a b x y => gadd (gmul a x) (gmul b y); smulim := fun a b x y => gadd (gmul a y) (gmul b x);
  sv8re := gadd; sv8im := gadd; sw8re := gadd; sw8im := gadd |}.

(** the exponent that a grade stands for *)
Definition expo (e : nat) (x : nat * nat) : nat := fst x * e + snd x.
Lemma expo_add e x y : expo e x < expo e (gadd x y) /\ expo e y < expo e (gadd x y).
Proof. unfold expo, gadd. cbn [fst snd]. split; nia. Qed.
Lemma expo_mul e x y : expo e (gmul x y) = expo e x + expo e y.
Proof. unfold expo, gmul. cbn [fst snd]. lia. Qed.

Local Open Scope R_scope.
Notation p2 n := (bpow radix2 (Z.of_nat n)).
Lemma p2_S n : p2 (S n) = p2 n + p2 n.
Proof. rewrite Nat2Z.inj_succ, <- Z.add_1_r, bpow_plus. change (bpow radix2 1) with 2. ring. Qed.
Lemma p2_le n m : (n <= m)%nat -> p2 n <= p2 m.
Proof. intros H. apply bpow_le. lia. Qed.
Lemma p2_add n m : p2 (n + m) = p2 n * p2 m.
Proof. rewrite Nat2Z.inj_add, bpow_plus. reflexivity. Qed.
Lemma p2_pos n : 0 < p2 n.
Proof. apply bpow_gt_0. Qed.

(** f is finite and at most 2^n in magnitude, if n is at most 1023 *)
Definition small (n : nat) (f : double) : Prop := (n <= 1023)%nat -> is_finite f = true /\ Rabs (B2R f) <= p2 n.
Lemma small_le n m f : (n <= m)%nat -> small n f -> small m f.
Proof. intros H Hf Hm. destruct (Hf ltac:(lia)) as [H1 H2]. split; [exact H1|]. eapply Rle_trans; [exact H2|]. apply p2_le, H. Qed.

Lemma rn_p2 n : (n <= 1023)%nat -> generic_format radix2 fx (p2 n).
Proof. intros H. apply generic_format_bpow. unfold SpecFloat.fexp, SpecFloat.emin. lia. Qed.
Lemma rn_small v n : (n <= 1023)%nat -> Rabs v <= p2 n -> Rabs (rn v) <= p2 n.
Proof. intros Hn H. apply abs_round_le_generic; [apply FLT_exp_valid; reflexivity|apply valid_rnd_N|apply rn_p2, Hn|exact H]. Qed.
Lemma op_small z v n : op_ok z v -> (n <= 1023)%nat -> Rabs v <= p2 n -> is_finite z = true /\ Rabs (B2R z) <= p2 n.
Proof.
  intros Hz Hn Hv. pose proof (rn_small v n Hn Hv) as Hr. unfold op_ok in Hz. destruct Hz as [[F E]|[_ Hb]].
  - split; [exact F|]. rewrite E. exact Hr.
  - exfalso. assert (p2 n < bpow radix2 1024) by (apply bpow_lt; lia). lra.
Qed.
Lemma abs_add n m k a b : (n < k)%nat -> (m < k)%nat -> Rabs a <= p2 n -> Rabs b <= p2 m -> Rabs (a + b) <= p2 k.
Proof.
  intros Hn Hm Ha Hb. destruct k as [|k]; [lia|]. rewrite p2_S. eapply Rle_trans; [apply Rabs_triang|].
  pose proof (p2_le n k ltac:(lia)). pose proof (p2_le m k ltac:(lia)). lra.
Qed.
Lemma abs_mul n m a b : Rabs a <= p2 n -> Rabs b <= p2 m -> Rabs (a * b) <= p2 (n + m).
Proof. intros Ha Hb. rewrite Rabs_mult, p2_add. apply Rmult_le_compat; auto using Rabs_pos. Qed.

Lemma s_add n m k x y : (n < k)%nat -> (m < k)%nat -> small n x -> small m y -> small k (add x y).
Proof.
  intros Hn Hm Hx Hy Hk. destruct (Hx ltac:(lia)) as [Fx Bx], (Hy ltac:(lia)) as [Fy By].
  eapply op_small; [apply add_ok; auto|exact Hk|]. eapply (abs_add n m); eauto.
Qed.
Lemma s_neg n x : small n x -> small n (neg x).
Proof. intros Hx Hn. destruct (Hx Hn) as [Fx Bx]. rewrite neg_fin, B2R_Bopp, Rabs_Ropp. auto. Qed.
Lemma s_sub n m k x y : (n < k)%nat -> (m < k)%nat -> small n x -> small m y -> small k (sub x y).
Proof.
  intros Hn Hm Hx Hy Hk. destruct (Hx ltac:(lia)) as [Fx Bx], (Hy ltac:(lia)) as [Fy By].
  eapply op_small; [apply sub_ok; auto|exact Hk|]. unfold Rminus. eapply (abs_add n m); eauto. rewrite Rabs_Ropp. exact By.
Qed.
Lemma s_mul n m x y : small n x -> small m y -> small (n + m) (mul x y).
Proof.
  intros Hx Hy Hk. destruct (Hx ltac:(lia)) as [Fx Bx], (Hy ltac:(lia)) as [Fy By].
  eapply op_small; [apply mul_ok; auto|exact Hk|]. apply abs_mul; auto.
Qed.
Lemma s_fma n m k l x y z : (n + m < l)%nat -> (k < l)%nat -> small n x -> small m y -> small k z -> small l (fma x y z).
Proof.
  intros Hn Hm Hx Hy Hz Hl. destruct (Hx ltac:(lia)) as [Fx Bx], (Hy ltac:(lia)) as [Fy By], (Hz ltac:(lia)) as [Fz Bz].
  eapply op_small; [apply fma_ok; auto|exact Hl|]. eapply (abs_add (n + m) k); eauto. apply abs_mul; auto.
Qed.
Definition divisor (f : double) : Prop := is_finite f = true /\ 1 <= B2R f.
Lemma s_div n x y : small n x -> divisor y -> small n (div x y).
Proof.
  intros Hx [Fy Hy] Hn. destruct (Hx Hn) as [Fx Bx]. eapply op_small; [apply div_ok; auto; lra|exact Hn|].
  unfold Rdiv. rewrite Rabs_mult, Rabs_inv, (Rabs_right (B2R y)) by lra. eapply Rle_trans; [|exact Bx].
  rewrite <- (Rmult_1_r (Rabs (B2R x))) at 2. apply Rmult_le_compat_l; [apply Rabs_pos|]. rewrite <- Rinv_1. apply Rinv_le_contravar; lra.
Qed.
Lemma s_ofZ z : small (Z.to_nat (Z.log2_up (Z.abs z))) (dbl z 0).
Proof.
  intros Hn. eapply op_small; [apply dbl_ok|exact Hn|]. rewrite ofZ_F2R, <- abs_IZR, Z2Nat.id by apply Z.log2_up_nonneg.
  assert (H : (Z.abs z <= 2 ^ Z.log2_up (Z.abs z))%Z).
  { destruct (Z.le_gt_cases (Z.abs z) 0) as [H|H]; [eapply Z.le_trans; [exact H|]; apply Z.pow_nonneg; lia|]. apply Z.log2_log2_up_spec. exact H. }
  apply IZR_le in H. eapply Rle_trans; [exact H|]. rewrite <- IZR_Zpower by apply Z.log2_up_nonneg. apply Rle_refl.
Qed.
Lemma d_ofZ z : (0 < z <= 2 ^ 31)%Z -> divisor (dbl z 0).
Proof.
  intros Hz. destruct (k_ofZ z Hz) as (F & V & _). split; [exact F|]. rewrite V, rn_int by (rewrite Z.abs_eq; lia). apply IZR_le. lia.
Qed.
Lemma d_sqrt z : (0 < z <= 2 ^ 31)%Z -> divisor (sqr (dbl z 0)).
Proof.
  intros Hz. destruct (d_ofZ z Hz) as [F V]. split; [apply sqr_pos; lra|]. rewrite (proj1 (sqr_ok _)). rewrite <- rn_1 at 1. apply rn_mono.
  rewrite <- sqrt_1. apply sqrt_le_1_alt. exact V.
Qed.
Lemma d_mysqrt n : (n <= 24)%nat -> divisor (d_mysqrt_Z (2 ^ Z.of_nat n)).
Proof.
  intros Hn. destruct (mysqrt_Z_value n Hn) as (r & _ & -> & Hv). destruct (B2R_value r n Hv) as [E F]. split; [exact F|]. rewrite E.
  assert (M : 4503599627370496 <= IZR (Z.pos (mant n))) by (apply IZR_le; unfold mant; destruct (Nat.even n); discriminate).
  assert (P : 1 <= 2 ^ (n / 2)) by (apply pow_R1_Rle; lra). rewrite p52. nra.
Qed.
Lemma s_const f v : is_finite f = true -> B2R f = v -> Rabs v <= 1 -> small 0 f.
Proof. intros F E H _. split; [exact F|]. rewrite E. exact H. Qed.
Lemma s_sqrt12 : small 0 d_sqrt1_2.
Proof. eapply s_const; [apply v_sqrt1_2|apply v_sqrt1_2|]. rewrite Rabs_right; lra. Qed.
Lemma s_H1X : small 0 d_H1X.
Proof. eapply s_const; [apply v_H1X|apply v_H1X|]. rewrite Rabs_right; lra. Qed.
Lemma s_H1Y : small 0 d_H1Y.
Proof. eapply s_const; [apply v_H1Y|apply v_H1Y|]. rewrite Rabs_left; lra. Qed.
Lemma s_pi : small 2 d_pi.
Proof. intros _. split; [apply v_pi|]. rewrite (proj2 v_pi). change (bpow radix2 (Z.of_nat 2)) with 4. rewrite Rabs_right; lra. Qed.
Lemma s_sqrt z : (0 < z <= 2 ^ 31)%Z -> small 0 (sqr (div (dbl 1 0) (dbl z 0))).
Proof.
  intros Hz _. destruct (d_ofZ z Hz) as [Fz Vz]. pose proof (d_ofZ 1 ltac:(split; [reflexivity|discriminate])) as [F1 _].
  assert (V1 : B2R (dbl 1 0) = 1) by (destruct (k_ofZ 1 ltac:(split; [reflexivity|discriminate])) as (_ & -> & _); apply rn_1).
  assert (B : B2R (dbl z 0) <= bpow radix2 31).
  { destruct (k_ofZ z Hz) as (_ & -> & _). rewrite rn_int by (rewrite Z.abs_eq; lia). change (bpow radix2 31) with (IZR (2 ^ 31)). apply IZR_le. lia. }
  pose proof (div_ok (dbl 1 0) (dbl z 0) F1 ltac:(lra)) as Hd. rewrite V1 in Hd.
  assert (Q : bpow radix2 (-31) <= 1 / B2R (dbl z 0) <= 1).
  { unfold Rdiv. rewrite Rmult_1_l. split.
    - change (bpow radix2 (-31)) with (/ bpow radix2 31). apply Rinv_le_contravar; [lra|exact B].
    - rewrite <- Rinv_1. apply Rinv_le_contravar; lra. }
  assert (Q1 : bpow radix2 (-31) <= rn (1 / B2R (dbl z 0)) <= 1).
  { split; [|rewrite <- rn_1 at 2; apply rn_mono, Q]. replace (bpow radix2 (-31)) with (rn (bpow radix2 (-31))); [apply rn_mono, Q|].
    apply round_generic; [apply valid_rnd_N|]. apply generic_format_bpow. cbn. lia. }
  pose proof (bpow_gt_0 radix2 (-31)) as P. unfold op_ok in Hd. destruct Hd as [[Fd Vd]|[_ Hd]].
  - split; [apply sqr_pos; rewrite Vd; lra|]. rewrite (proj1 (sqr_ok _)), Vd. apply (rn_small _ 0); [lia|]. change (bpow radix2 (Z.of_nat 0)) with 1.
    rewrite Rabs_right by (apply Rle_ge, sqrt_pos). eapply Rle_trans; [apply sqrt_le_1_alt, Q1|]. rewrite sqrt_1. apply Rle_refl.
  - exfalso. rewrite Rabs_right in Hd by lra. pose proof bpow1024 as B'. rewrite p53 in B'. lra.
Qed.
Lemma s_trig (d : double -> double) (f : R -> R) lam x x' : lam <= 1 -> (forall t, Rabs (f t) <= 1) ->
  (forall x, is_finite x = true -> is_finite (d x) = true /\ Rabs (B2R (d x) - f (B2R x)) <= lam) ->
  forall e, small (expo e x') x -> small (expo e (trig x')) (d x).
Proof.
  intros Hl Hf Hd e Hx. unfold trig. destruct (Nat.eqb_spec (fst x') 0) as [E|E]; [|intros H; cbn in H; lia].
  destruct (Nat.leb_spec (snd x') 1023) as [E2|E2]; [|intros H; cbn in H; lia]. intros _. unfold expo in Hx. rewrite E in Hx.
  destruct (Hx E2) as [Fx _]. destruct (Hd x Fx) as [F B]. split; [exact F|].
  cbn [andb expo fst snd Nat.mul Nat.add]. change (p2 1) with 2. specialize (Hf (B2R x)).
  replace (B2R (d x)) with ((B2R (d x) - f (B2R x)) + f (B2R x)) by ring. eapply Rle_trans; [apply Rabs_triang|]. lra.
Qed.

(** ** the simulation, for input data of magnitude at most 2^e *)
Section Sim.
Variables (dc ds : double -> double) (la : R) (L : libm dc ds la) (Hla : la <= 1) (bd : build) (e : nat).
Definition GR (f : double) (x : nat * nat) : Prop := small (expo e x) f.
Definition GK (f : double) (x : nat * nat) : Prop := divisor f.
Lemma g_add x x' y y' : GR x x' -> GR y y' -> GR (add x y) (gadd x' y').
Proof. unfold GR. intros. destruct (expo_add e x' y'). eapply (s_add (expo e x') (expo e y')); auto. Qed.
Lemma g_sub x x' y y' : GR x x' -> GR y y' -> GR (sub x y) (gadd x' y').
Proof. unfold GR. intros. destruct (expo_add e x' y'). eapply (s_sub (expo e x') (expo e y')); auto. Qed.
Lemma g_mul x x' y y' : GR x x' -> GR y y' -> GR (mul x y) (gmul x' y').
Proof. unfold GR. intros. rewrite expo_mul. apply s_mul; auto. Qed.
Lemma g_fma x x' y y' z z' : GR x x' -> GR y y' -> GR z z' -> GR (fma x y z) (gadd (gmul x' y') z').
Proof.
  unfold GR. intros. destruct (expo_add e (gmul x' y') z') as [H2 H3]. rewrite expo_mul in H2.
  eapply (s_fma (expo e x') (expo e y') (expo e z')); auto.
Qed.
Lemma g_neg x x' : GR x x' -> GR (neg x) x'.
Proof. apply s_neg. Qed.
Lemma g_s12 x x' : GR x x' -> GR (mul d_sqrt1_2 x) x'.
Proof. intros H. exact (s_mul 0 _ _ _ s_sqrt12 H). Qed.
Lemma gadd_comm x y : gadd x y = gadd y x.
Proof. unfold gadd. f_equal; [|f_equal]; apply Nat.max_comm. Qed.
Lemma g_add' x x' y y' : GR x x' -> GR y y' -> GR (add y x) (gadd x' y').
Proof. intros. rewrite gadd_comm. apply g_add; auto. Qed.
Lemma g_sub' x x' y y' : GR x x' -> GR y y' -> GR (sub y x) (gadd x' y').
Proof. intros. rewrite gadd_comm. apply g_sub; auto. Qed.

Theorem grade_sim : sim (ieee dc ds bd) grade GR GK.
Proof.
  constructor.
  - intros x x' y y'. exact (g_add x x' y y').
  - intros x x' y y'. exact (g_sub x x' y y').
  - intros x x' y y'. exact (g_mul x x' y y').
  - intros x x' y y'. exact (s_div (expo e x') x y).
  - intros x x'. exact (g_neg x x').
  - intros z Hz. exact (s_sqrt z Hz).
  - intros z Hz. exact (d_sqrt z Hz).
  - intros n Hn. exact (d_mysqrt n Hn).
  - intros x x'. exact (s_trig dc cos la x x' Hla cos_le1 (lm_cos _ _ _ L) e).
  - intros x x'. exact (s_trig ds sin la x x' Hla sin_le1 (lm_sin _ _ _ L) e).
  - intros z. exact (s_ofZ z).
  - intros z Hz. exact (d_ofZ z Hz).
  - exact s_pi.
  - exact s_sqrt12.
  - exact s_H1X.
  - exact s_H1Y.
  - intros a a' b b' x x' y y' Ha Hb Hx Hy. destruct bd.
    + exact (g_sub _ _ _ _ (g_mul _ _ _ _ Ha Hx) (g_mul _ _ _ _ Hb Hy)).
    + exact (g_add _ _ _ _ (g_mul _ _ _ _ Ha Hx) (g_mul _ _ _ _ Hb (g_neg _ _ Hy))).
    + exact (g_sub _ _ _ _ (g_mul _ _ _ _ Ha Hx) (g_mul _ _ _ _ Hb Hy)).
    + exact (g_sub _ _ _ _ (g_mul _ _ _ _ Ha Hx) (g_mul _ _ _ _ Hb Hy)).
    + exact (g_fma _ _ _ _ _ _ Ha Hx (g_neg _ _ (g_mul _ _ _ _ Hb Hy))).
  - intros a a' b b' x x' y y' Ha Hb Hx Hy. destruct bd.
    1,2,3,4: exact (g_add _ _ _ _ (g_mul _ _ _ _ Ha Hy) (g_mul _ _ _ _ Hb Hx)).
    exact (g_fma _ _ _ _ _ _ Ha Hy (g_mul _ _ _ _ Hb Hx)).
  - intros x x' y y' Hx Hy. destruct bd.
    + exact (g_s12 _ _ (g_sub _ _ _ _ Hx Hy)).
    + exact (g_s12 _ _ (g_add _ _ _ _ Hx (g_neg _ _ Hy))).
    + exact (g_s12 _ _ (g_sub _ _ _ _ Hx Hy)).
    + exact (g_s12 _ _ (g_sub _ _ _ _ Hx Hy)).
    + exact (g_s12 _ _ (g_sub _ _ _ _ Hx Hy)).
  - intros x x' y y' Hx Hy. destruct bd.
    1: exact (g_s12 _ _ (g_add _ _ _ _ Hx Hy)).
    all: exact (g_s12 _ _ (g_add' _ _ _ _ Hx Hy)).
  - intros x x' y y' Hx Hy. destruct bd; exact (g_s12 _ _ (g_add _ _ _ _ Hx Hy)).
  - intros x x' y y' Hx Hy. destruct bd.
    1: exact (g_s12 _ _ (g_sub' _ _ _ _ Hx Hy)).
    all: exact (g_s12 _ _ (g_add' _ _ _ _ (g_neg _ _ Hx) Hy)).
Qed.
End Sim.
