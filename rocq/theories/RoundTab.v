(** * Rounding errors of the twiddle tables and of the scaling coefficients *)

From Coq Require Import Reals ZArith List Arith Bool Lia Lra Psatz.
From Verif Require Import Scalar RealOps Spec DftFacts Norm Simd Round Twid ModelPow PowClassFacts MixedClassFacts PowSpec PowExact.
Import ListNotations.
Local Open Scope R_scope.

Section Tab.
Variables (A : rounding) (bd : build).
Notation F := (fl A bd).
Notation ap := (approx A).
Notation tap := (tapx A).
Notation rd := (rnd A).

Lemma int_ok (n : nat) : (Z.of_nat n <= 2 ^ 31)%Z -> rd (IZR (Z.of_nat n)) = INR n.
Proof.
  intros H. rewrite (rnd_int A); [symmetry; apply INR_IZR_INZ|]. rewrite Z.abs_eq by lia. exact H.
Qed.
Lemma two_ok : rd (IZR 2) = 2.
Proof. apply (rnd_int A). cbn. lia. Qed.
Lemma one_ok : rd (IZR 1) = 1.
Proof. apply (rnd_int A). cbn. lia. Qed.
Lemma rel_pi : rel A 1 (c_pi A) PI.
Proof. apply rel_c. rewrite (Rabs_right PI) by (pose proof PI_RGT_0; lra). apply pi_err. Qed.
Lemma rel_mul_l k c x' x : rel A k x' x -> rel A k (c * x') (c * x).
Proof. intros H. rewrite <- (Nat.add_0_l k). apply rel_mul; [apply rel_0|auto]. Qed.
Lemma rel_mul_r k c x' x : rel A k x' x -> rel A k (x' * c) (x * c).
Proof. intros H. rewrite <- (Nat.add_0_r k). apply rel_mul; [auto|apply rel_0]. Qed.

(** numbers far from underflow *)
Lemma len31 N : (Z.of_nat N <= 2 ^ 31)%Z -> INR N <= 2147483648.
Proof. intros H. rewrite INR_IZR_INZ. apply IZR_le in H. exact H. Qed.
Lemma big_1 c : 1 <= Rabs c -> big c.
Proof. intros H. right. lra. Qed.
Lemma big_quot c N : 1 <= Rabs c -> (0 < N)%nat -> (Z.of_nat N <= 2 ^ 31)%Z -> big (c / INR N).
Proof.
  intros Hc HN H. apply len31 in H. apply lt_INR in HN. cbn [INR] in HN. right. unfold Rdiv. rewrite Rabs_mult.
  assert (/ 2147483648 <= / INR N) by (apply Rinv_le_contravar; lra). rewrite (Rabs_right (/ INR N)) by lra. nra.
Qed.
Lemma big_inv N : (0 < N)%nat -> (Z.of_nat N <= 2 ^ 31)%Z -> big (/ INR N).
Proof. intros HN H. replace (/ INR N) with (1 / INR N) by (unfold Rdiv; ring). apply big_quot; auto. rewrite Rabs_R1. lra. Qed.
Lemma big_nat x n : big x -> big (x * INR n).
Proof.
  intros [-> | H]; [left; ring|]. destruct n as [|n]; [left; cbn [INR]; ring|]. right. rewrite Rabs_mult, (Rabs_right (INR (S n))) by (apply Rle_ge, pos_INR).
  rewrite S_INR. pose proof (pos_INR n). pose proof (Rabs_pos x). nra.
Qed.
Lemma big_natl x n : big x -> big (INR n * x).
Proof. rewrite Rmult_comm. apply big_nat. Qed.
Lemma big_rsqrt N : (0 < N)%nat -> (Z.of_nat N <= 2 ^ 31)%Z -> big (/ sqrt (INR N)).
Proof.
  intros HN H. apply len31 in H. assert (H1 : 1 <= INR N) by (change 1 with (INR 1); apply le_INR; lia). right.
  assert (S1 : 1 <= sqrt (INR N)) by (rewrite <- sqrt_1 at 1; apply sqrt_le_1_alt; auto).
  assert (S2 : sqrt (INR N) <= INR N) by (pose proof (sqrt_def (INR N) ltac:(lra)); nra).
  rewrite Rabs_right by (apply Rle_ge, Rlt_le, Rinv_0_lt_compat; lra).
  assert (/ 2147483648 <= / sqrt (INR N)) by (apply Rinv_le_contravar; lra). lra.
Qed.
Lemma big_sqrt N : (0 < N)%nat -> big (sqrt (INR N)).
Proof.
  intros HN. assert (H1 : 1 <= INR N) by (change 1 with (INR 1); apply le_INR; lia). apply big_1.
  assert (S1 : 1 <= sqrt (INR N)) by (rewrite <- sqrt_1 at 1; apply sqrt_le_1_alt; auto). rewrite Rabs_right; lra.
Qed.
Lemma pi_abs c : 1 <= Rabs c -> 1 <= Rabs (c * PI).
Proof. intros H. rewrite Rabs_mult. pose proof PI2_1. rewrite (Rabs_right PI) by lra. nra. Qed.
Lemma abs_2 : 1 <= Rabs 2. Proof. rewrite Rabs_right; lra. Qed.
Lemma abs_m2 : 1 <= Rabs (-2). Proof. rewrite Rabs_left; lra. Qed.
Lemma abs_1 : 1 <= Rabs 1. Proof. rewrite Rabs_R1; lra. Qed.

Lemma rel_theta N : (0 < N)%nat -> (Z.of_nat N <= 2 ^ 31)%Z -> rel A 3 (@theta_of F N) (- 2 * PI / INR N).
Proof.
  intros HN H. change (@theta_of F N) with (rd (rd (- rd (IZR 2) * c_pi A) / rd (IZR (Z.of_nat N)))). rewrite two_ok, int_ok by auto.
  apply rel_rnd; [lia|apply big_quot; auto; apply pi_abs, abs_m2|]. unfold Rdiv. apply rel_mul_r. apply rel_rnd; [lia|apply big_1, pi_abs, abs_m2|]. apply rel_mul_l, rel_pi.
Qed.
Lemma expj_root (t' t : R) : rel A 5 t' t -> Rabs t <= 2 * PI -> tap 0 1 (@expj F t') (cis t).
Proof.
  intros H1 H2. pose proof (ta_root A t' t 1 (or_introl eq_refl) H1 H2) as H. rewrite !Rmult_1_l in H. exact H.
Qed.
Lemma ang N k : (0 < N)%nat -> (k <= N)%nat -> Rabs (- 2 * PI / INR N * INR k) <= 2 * PI.
Proof.
  intros HN Hk. apply lt_INR in HN. apply le_INR in Hk. cbn [INR] in HN. pose proof PI_RGT_0. pose proof (pos_INR k).
  rewrite Rabs_left1.
  - replace (- (- 2 * PI / INR N * INR k)) with (2 * PI * (INR k / INR N)) by (unfold Rdiv; ring).
    assert (INR k / INR N <= 1) by (apply (Rmult_le_reg_r (INR N)); [auto|]; unfold Rdiv; rewrite Rmult_assoc, Rinv_l by lra; lra). nra.
  - assert (0 <= INR k / INR N) by (apply Rmult_le_pos; [auto|apply Rlt_le, Rinv_0_lt_compat; auto]).
    replace (- 2 * PI / INR N * INR k) with (- (2 * PI * (INR k / INR N))) by (unfold Rdiv; ring). nra.
Qed.
Lemma cis_W N k : (0 < N)%nat -> cis (- 2 * PI / INR N * INR k) = W false N k.
Proof. intros HN. unfold W. f_equal. unfold Rdiv. ring. Qed.

Lemma tw_val_ap N k p : (0 < N)%nat -> (Z.of_nat N <= 2 ^ 31)%Z -> (Z.of_nat k <= 2 ^ 31)%Z -> (Z.of_nat p <= 2 ^ 31)%Z -> (k * p <= N)%nat -> tap 0 1 (@tw_val F N k p) (W false N (k * p)).
Proof.
  intros HN H1 H2 H3 Hk. rewrite <- cis_W by auto. apply expj_root; [|apply ang; auto].
  change (rel A 5 (rd (rd (@theta_of F N * rd (IZR (Z.of_nat k))) * rd (IZR (Z.of_nat p)))) (- 2 * PI / INR N * INR (k * p))).
  assert (BT : big (- 2 * PI / INR N)) by (apply big_quot; auto; apply pi_abs, abs_m2).
  rewrite !int_ok by auto. rewrite mult_INR, <- Rmult_assoc. apply rel_rnd; [lia|apply big_nat, big_nat, BT|]. apply rel_mul_r.
  apply rel_rnd; [lia|apply big_nat, BT|]. apply rel_mul_r, rel_theta; auto.
Qed.
Lemma Wr1_ap N p : (0 < N)%nat -> (Z.of_nat N <= 2 ^ 31)%Z -> (p <= N)%nat -> tap 0 1 (@Wr1_T F N p) (W false N p).
Proof.
  intros HN H1 Hk. rewrite <- cis_W by auto. apply expj_root; [|apply ang; auto].
  change (rel A 5 (rd (@theta_of F N * rd (IZR (Z.of_nat p)))) (- 2 * PI / INR N * INR p)).
  rewrite !int_ok by lia. apply (rel_mono A 4); [lia|].
  apply rel_rnd; [lia|apply big_nat, big_quot; auto; apply pi_abs, abs_m2|]. apply rel_mul_r, rel_theta; auto.
Qed.
Lemma mixed_ap N p : (0 < N)%nat -> (Z.of_nat N <= 2 ^ 31)%Z -> (p <= N)%nat -> tap 0 1 (@mixed_T F N p) (W false N p).
Proof.
  intros HN H1 Hk.
  assert (E : @mixed_T F N p = (f_cos A (rd (INR p * rd (rd (2 * c_pi A) / INR N))), -1 * f_sin A (rd (INR p * rd (rd (2 * c_pi A) / INR N))))).
  { change (@mixed_T F N p) with (let t := rd (rd (IZR (Z.of_nat p)) * rd (rd (rd (IZR 2) * c_pi A) / rd (IZR (Z.of_nat N)))) in (f_cos A t, - f_sin A t)).
    cbv zeta. rewrite two_ok, !int_ok by lia. f_equal. ring. }
  rewrite E. rewrite <- cis_W by auto. replace (- 2 * PI / INR N * INR p) with (-1 * (2 * PI / INR N * INR p)) by (unfold Rdiv; ring).
  apply ta_root; [auto| |].
  - apply (rel_mono A 4); [lia|]. rewrite (Rmult_comm (2 * PI / INR N)). apply rel_rnd; [lia|apply big_natl, big_quot; auto; apply pi_abs, abs_2|].
    apply rel_mul_l. apply rel_rnd; [lia|apply big_quot; auto; apply pi_abs, abs_2|]. unfold Rdiv. apply rel_mul_r. apply rel_rnd; [lia|apply big_1, pi_abs, abs_2|]. apply rel_mul_l, rel_pi.
  - rewrite <- Rabs_Ropp. replace (- (2 * PI / INR N * INR p)) with (- 2 * PI / INR N * INR p) by (unfold Rdiv; ring). apply ang; auto.
Qed.

(** ** scaling *)
Lemma sc_pos N mode : (0 < N)%nat -> 0 < sc N mode.
Proof.
  intros HN. apply lt_INR in HN. cbn [INR] in HN.
  destruct mode; cbn; unfold s1; cbn [sofZ ROps sdiv ssqrt smysqrt]; [lra| |].
  - apply Rdiv_lt_0_compat; [lra|]. apply sqrt_lt_R0. rewrite <- INR_IZR_INZ. auto.
  - apply Rdiv_lt_0_compat; [lra|]. rewrite <- INR_IZR_INZ. auto.
Qed.
(** the lengths of the power-of-two transforms *)
Definition plen (N : nat) : Prop := exists n, (n <= 24)%nat /\ N = (2 ^ n)%nat.
Lemma plen_pos N : plen N -> (0 < N)%nat.
Proof. intros (n & _ & ->). induction n; cbn [Nat.pow]; lia. Qed.
Lemma plen_31 N : plen N -> (Z.of_nat N <= 2 ^ 31)%Z.
Proof. intros (n & Hn & ->). rewrite Nat2Z.inj_pow. apply Z.pow_le_mono_r; lia. Qed.
Lemma rel_scale N mode : plen N -> rel A 3 (@scale_of F N mode) (sc N mode).
Proof.
  intros HP. pose proof (plen_pos N HP) as HN. pose proof (plen_31 N HP) as H. pose proof HN as HN'. apply lt_INR in HN'. cbn [INR] in HN'. destruct mode.
  - change (rel A 3 (rd (IZR 1)) (IZR 1)). rewrite one_ok. apply (rel_mono A 0); [lia|apply rel_0].
  - change (rel A 3 (rd (rd (IZR 1) / f_mysqrt A (Z.of_nat N))) (IZR 1 / sqrt (IZR (Z.of_nat N)))).
    rewrite one_ok. rewrite <- INR_IZR_INZ. apply rel_rnd; [lia|unfold Rdiv; rewrite Rmult_1_l; apply big_rsqrt; auto|]. unfold Rdiv. apply rel_mul_l. apply rel_inv15; [apply sqrt_lt_R0; auto|].
    destruct HP as (n & Hn & ->). rewrite pow_INR, Nat2Z.inj_pow. exact (mysqrt_err A n Hn).
  - change (rel A 3 (rd (rd (IZR 1) / rd (IZR (Z.of_nat N)))) (IZR 1 / IZR (Z.of_nat N))).
    rewrite one_ok, int_ok by auto. rewrite <- INR_IZR_INZ. apply (rel_mono A 1); [lia|]. apply rel_1, big_quot; auto. apply abs_1.
Qed.
(** 1/sqrt(N) and 1/N computed at run time *)
Lemma rel_rsqrt N : (0 < N)%nat -> (Z.of_nat N <= 2 ^ 31)%Z -> rel A 3 (rd (rd (IZR 1) / rd (sqrt (rd (IZR (Z.of_nat N)))))) (/ sqrt (INR N)).
Proof.
  intros HN H. rewrite one_ok, int_ok by auto. apply rel_rnd; [lia|apply big_rsqrt; auto|]. unfold Rdiv. rewrite Rmult_1_l.
  apply rel_inv; [apply sqrt_lt_R0, lt_0_INR; auto|]. apply rel_1, big_sqrt; auto.
Qed.
Lemma rel_rlen N : (0 < N)%nat -> (Z.of_nat N <= 2 ^ 31)%Z -> rel A 3 (rd (rd (IZR 1) / rd (IZR (Z.of_nat N)))) (/ INR N).
Proof.
  intros HN H. rewrite one_ok, int_ok by auto. unfold Rdiv. rewrite Rmult_1_l. apply (rel_mono A 1); [lia|]. apply rel_1, big_inv; auto.
Qed.
Lemma sc_le1 N mode : (0 < N)%nat -> sc N mode <= 1.
Proof.
  intros HN. assert (H1 : 1 <= INR N) by (change 1 with (INR 1); apply le_INR; lia).
  destruct mode; cbn; unfold s1; cbn [sofZ ROps sdiv ssqrt smysqrt]; [lra| |]; rewrite <- INR_IZR_INZ; unfold Rdiv; rewrite Rmult_1_l.
  - assert (S1 : 1 <= sqrt (INR N)) by (rewrite <- sqrt_1 at 1; apply sqrt_le_1_alt; auto). rewrite <- Rinv_1. apply Rinv_le_contravar; lra.
  - rewrite <- Rinv_1. apply Rinv_le_contravar; lra.
Qed.
Lemma scalepz_ap N mode a b z' z B : plen N -> ap a b z' z B ->
  ap (4 + a) b (@scalepz F N mode z') (scalepz N mode z) (sc N mode * B + (1 - sc N mode) * psi A).
Proof.
  intros HP Hz. rewrite scalepz_sc. pose proof (sc_pos N mode (plen_pos N HP)) as Hp. pose proof (sc_le1 N mode (plen_pos N HP)) as H1. pose proof (psi0 A) as Ps.
  assert (G : ap (4 + a) b (@cscal F (@scale_of F N mode) z') (cscal (sc N mode) z) (sc N mode * B + (1 - sc N mode) * psi A)).
  { eapply ap_scal; [apply rel_scale; auto|exact Hz| |]; rewrite Rabs_right by lra; [|lra]. nra. }
  destruct mode; auto. cbn [scalepz]. change (sc N scale_1) with 1. rewrite Rmult_1_l.
  replace (cscal (Op := ROps) 1 z) with z by (csimp; ring). eapply ap_mono; eauto; lia || lra.
Qed.
End Tab.
