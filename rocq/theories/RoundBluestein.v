(** * Rounding errors of Bluestein's transform *)

From Coq Require Import Reals ZArith List Arith Bool Lia Lra Psatz.
From Verif Require Import Scalar RealOps Spec DftFacts Norm Simd Round RoundTab RoundStage RoundSix RoundMixed RoundApi.
From Verif Require Import Mem Lanes Engine ApiSpec FactorFacts ModelApi ApiFacts ModelReal RealExact ModelBluestein BluesteinRun BluesteinExact RoundReal.
From Verif Require PropAccuracy ComplexThms ApiExact SixExact RoundDct.
Import ListNotations.
Local Open Scope R_scope.

(** ** norms *)
Lemma nrm_sub_len n m X : (n <= m)%nat -> nrm n X <= nrm m X.
Proof.
  intros H. unfold nrm. apply sqrt_le_1_alt. replace m with (n + (m - n))%nat by lia. rewrite rsum_app.
  pose proof (rsum_pos (m - n) (fun i => cnorm2 (X (n + i)%nat)) ltac:(intros; apply cnorm2_pos)). lra.
Qed.
Lemma rsum_ge_term n f i : (forall j, (j < n)%nat -> 0 <= f j) -> (i < n)%nat -> f i <= rsum n f.
Proof.
  intros H Hi. induction n as [|n IH]; [lia|]. cbn [rsum]. destruct (Nat.eq_dec i n) as [->|Hne].
  - pose proof (rsum_pos n f ltac:(auto)). lra.
  - pose proof (IH ltac:(auto) ltac:(lia)). pose proof (H n ltac:(lia)). lra.
Qed.
Lemma cabs_nrm n X i : (i < n)%nat -> cabs (X i) <= nrm n X.
Proof. intros Hi. unfold cabs, nrm. apply sqrt_le_1_alt. apply (rsum_ge_term n (fun j => cnorm2 (X j))); auto. intros; apply cnorm2_pos. Qed.
(** as point_err, factors of modulus at most c2 *)
Lemma point_err_le f N (c2 E2 : R) (w R0 R' Y' Y : nat -> CC) e b : 0 <= f -> 0 <= c2 -> 1 <= E2 -> 1 <= e ->
  (forall i, (i < N)%nat -> cabs (w i) <= c2) ->
  (forall i, (i < N)%nat -> cabs (csub (Y' i) (cmul (w i) (R' i))) <= (E2 - 1) * (c2 * cabs (R' i) + f)) ->
  (forall i, (i < N)%nat -> Y i = cmul (w i) (R0 i)) ->
  nrm N R0 <= b -> nrm N (vsub R' R0) <= (e - 1) * b ->
  nrm N (vsub Y' Y) <= (E2 * e - 1) * (c2 * b + f * sqrt (INR N)).
Proof.
  intros Hf Hc HE He1 Hw HY' HY Hb He.
  set (M := fun i => cmul (w i) (R' i)).
  eapply Rle_trans; [apply (nrm_tri3 _ _ M)|].
  assert (G1 : nrm N (vsub Y' M) <= (E2 - 1) * (c2 * nrm N R' + f * sqrt (INR N))).
  { apply Rle_trans with ((E2 - 1) * nrm N (hat f c2 R')).
    - apply nrm_rel; [lra|]. intros i Hi. unfold vsub, M. rewrite (cabs_hat _ Hf) by auto. apply HY'. auto.
    - apply Rmult_le_compat_l; [lra|]. apply (nrm_hat _ Hf); auto. }
  assert (G2 : nrm N (vsub M Y) <= c2 * nrm N (vsub R' R0)).
  { apply nrm_rel; [auto|]. intros i Hi. unfold vsub, M. rewrite HY by auto. replace (csub (cmul (w i) (R' i)) (cmul (w i) (R0 i))) with (cmul (w i) (csub (R' i) (R0 i))) by ring.
    rewrite cabs_mul. apply Rmult_le_compat_r; [apply cabs_pos|auto]. }
  pose proof (nrm_near N R' R0) as G3. assert (G4 : nrm N R' <= e * b) by lra. pose proof (sqrt_pos (INR N)) as Hs.
  set (q := f * sqrt (INR N)) in *. assert (Hq : 0 <= q) by (apply Rmult_le_pos; auto).
  assert (G5 : c2 * nrm N R' <= c2 * (e * b)) by (apply Rmult_le_compat_l; auto).
  assert ((E2 - 1) * (c2 * nrm N R' + q) <= (E2 - 1) * (c2 * (e * b) + q)) by (apply Rmult_le_compat_l; lra).
  assert (c2 * nrm N (vsub R' R0) <= c2 * ((e - 1) * b)) by (apply Rmult_le_compat_l; auto).
  assert (0 <= E2 * (e - 1) * q) by (apply Rmult_le_pos; [apply Rmult_le_pos; lra|auto]). lra.
Qed.
(** a transform with relative error E on data with error e *)
Lemma fft_chain A L k E e b (X' X Z' : nat -> CC) : (0 < L)%nat -> 1 <= E -> 1 <= e ->
  nrm L X <= b -> nrm L (vsub X' X) <= (e - 1) * b -> res_err A L k E X' Z' ->
  nrm L (vsub Z' (transform k L X)) <= (E * e - 1) * (factor (meth_scaling k) L * sqrt (INR L) * b + psi A * INR L).
Proof.
  intros HL HE He1 Hb He HZ. unfold res_err in HZ. rewrite PropAccuracy.nrm_transform in HZ by auto.
  eapply Rle_trans; [apply (nrm_tri3 _ _ (transform k L X'))|].
  assert (E1 : nrm L (vsub (transform k L X') (transform k L X)) = nrm L (transform k L (vsub X' X))) by (apply nrm_ext; intros i Hi; unfold vsub; apply PropAccuracy.transform_sub).
  rewrite E1, PropAccuracy.nrm_transform by auto. pose proof (nrm_near L X' X) as Hn.
  pose proof (factor_pos (meth_scaling k) L HL) as Hf. pose proof (sqrt_pos (INR L)) as Hs. set (g := factor (meth_scaling k) L * sqrt (INR L)) in *.
  assert (Hg : 0 <= g) by (apply Rmult_le_pos; lra). pose proof (psi0 A) as Ps. pose proof (pos_INR L) as PL.
  set (q := psi A * INR L) in *. assert (Hq : 0 <= q) by (apply Rmult_le_pos; auto).
  assert (G0 : g * nrm L X' <= g * (e * b)) by (apply Rmult_le_compat_l; lra).
  assert (G1 : (E - 1) * (g * nrm L X' + q) <= (E - 1) * (g * (e * b) + q)) by (apply Rmult_le_compat_l; lra).
  assert (G2 : g * nrm L (vsub X' X) <= g * ((e - 1) * b)) by (apply Rmult_le_compat_l; auto).
  assert (0 <= E * (e - 1) * q) by (apply Rmult_le_pos; [apply Rmult_le_pos; lra|auto]). lra.
Qed.

(** ** the padded sequences, exact arithmetic *)
Lemma bl_A_norm iv N L (X : nat -> CC) : (0 < N)%nat -> (N <= L)%nat -> nrm L (bl_A iv N (@bl_T ROps N) X) = nrm N X.
Proof.
  intros HN HL. unfold nrm. f_equal. replace L with (N + (L - N))%nat by lia. rewrite rsum_app.
  rewrite (rsum_ext (L - N) _ (fun _ => 0)).
  - rewrite rsum_0, Rplus_0_r. apply rsum_ext. intros i Hi. unfold bl_A. destruct (Nat.eqb_spec i 0) as [->|H0]; auto.
    destruct (Nat.ltb_spec i N); [|lia]. rewrite bl_T_e1 by auto.
    change (@cmulT ROps (X i) (W iv (2 * N) (i * i))) with (@cmul ROps (X i) (W iv (2 * N) (i * i))). rewrite cnorm2_mul, cnorm2_W. ring.
  - intros i Hi. unfold bl_A. destruct (Nat.eqb_spec (N + i) 0); [lia|]. destruct (Nat.ltb_spec (N + i) N); [lia|]. unfold cnorm2. creduce. ring.
Qed.
Lemma bl_x_abs iv N p : (0 < N)%nat -> cabs (bl_x iv N (@bl_T ROps N) p) = 1.
Proof. intros HN. rewrite bl_x_exact by auto. apply cabs_W. Qed.
Lemma rsum_const n c : rsum n (fun _ => c) = INR n * c.
Proof. induction n as [|n IH]; [cbn; ring|]. cbn [rsum]. rewrite IH, S_INR. ring. Qed.
Lemma bl_B_norm iv N L : (0 < N)%nat -> (2 * N - 1 <= L)%nat -> nrm L (bl_B iv N L (@bl_T ROps N)) = sqrt (INR (2 * N - 1)).
Proof.
  intros HN HL. unfold nrm. f_equal.
  assert (Hx : forall p, cnorm2 (bl_x iv N (@bl_T ROps N) p) = 1) by (intros p; rewrite bl_x_exact by auto; apply cnorm2_W).
  replace L with (N + ((L - (2 * N - 1)) + (N - 1)))%nat at 1 by lia. rewrite !rsum_app.
  rewrite (rsum_ext N _ (fun _ => 1)), (rsum_ext (L - (2 * N - 1)) _ (fun _ => 0)), (rsum_ext (N - 1) _ (fun _ => 1)).
  - rewrite !rsum_const. replace (2 * N - 1)%nat with (N + (N - 1))%nat by lia. rewrite plus_INR. ring.
  - intros i Hi. unfold bl_B. destruct (Nat.ltb_spec (N + (L - (2 * N - 1) + i)) N); [lia|].
    destruct (Nat.ltb_spec (L - (N + (L - (2 * N - 1) + i))) N); [|lia]. apply Hx.
  - intros i Hi. unfold bl_B. destruct (Nat.ltb_spec (N + i) N); [lia|]. destruct (Nat.ltb_spec (L - (N + i)) N); [lia|]. unfold cnorm2. creduce. ring.
  - intros i Hi. unfold bl_B. destruct (Nat.ltb_spec i N); [|lia]. apply Hx.
Qed.

Lemma cmulC (x y : CC) : @cmul ROps x y = @cmul ROps y x.
Proof. destruct x, y. csimp; ring. Qed.
Section Err.
Variables (A : rounding) (bd : build).
Notation F := (fl A bd).
Notation ap := (approx A).
Notation tap := (tapx A).
Notation rd := (rnd A).

Lemma c1_F : @c1 F = ((1, 0) : CC).
Proof. change (@c1 F) with ((rd (IZR 1), rd (IZR 0)) : CC). rewrite one_ok, rd0. reflexivity. Qed.
Lemma c0_F : @c0 F = ((0, 0) : CC).
Proof. change (@c0 F) with ((rd (IZR 0), rd (IZR 0)) : CC). rewrite rd0. reflexivity. Qed.
Lemma ta_self z : cabs z <= 1 -> tap 0 1 z z.
Proof. intros H. split; [exact H|]. replace (csub z z) with ((0, 0) : CC) by (csimp; ring). rewrite cabs_0. pose proof (EE_ge1 A 0 1). lra. Qed.
Lemma W_le1 iv N p : cabs (W iv N p) <= 1.
Proof. rewrite cabs_W. lra. Qed.

(** table entries *)
Lemma bl_T_ap N e : (0 < N)%nat -> (Z.of_nat (2 * N) <= 2 ^ 31)%Z -> (e <= 2 * N)%nat -> tap 0 1 (@bl_T F N e) (W false (2 * N) e).
Proof.
  intros HN H31 He. assert (HN0 : 0 < INR N) by (apply lt_0_INR; lia). unfold bl_T.
  destruct (Nat.eqb_spec e 0) as [->|H0]; [rewrite c1_F, W_0; apply ta_self; rewrite <- (W_0 false 1); apply W_le1|].
  destruct (Nat.eqb_spec e (2 * N)) as [->|H2]; [rewrite c1_F, W_N by lia; apply ta_self; rewrite <- (W_0 false 1); apply W_le1|].
  destruct (Nat.eqb_spec e N) as [->|H1].
  { change (@mkC F (@sofZ F (-1)) (@s0 F)) with ((rd (IZR (-1)), rd (IZR 0)) : CC). rewrite rdm1, rd0. rewrite W_half by auto.
    replace (cneg c1 : CC) with ((-1, 0) : CC) by (csimp; ring). apply ta_self. apply cabs_le; [lra|]. unfold cnorm2. cbn [fst snd]. lra. }
  assert (G : forall p, (p <= N)%nat -> rel A 5 (@bl_ang F N p) (PI * INR p / INR N) /\ Rabs (PI * INR p / INR N) <= 2 * PI).
  { intros p Hp. split.
    - change (@bl_ang F N p) with (rd (rd (IZR (Z.of_nat p)) * rd (c_pi A / rd (IZR (Z.of_nat N))))). rewrite !int_ok by lia.
      apply (rel_mono A 3); [lia|]. replace (PI * INR p / INR N) with (INR p * (PI * / INR N)) by (field; lra).
      assert (HB : big (PI * / INR N)).
      { change (big (PI / INR N)). apply big_quot; auto; [|lia]. rewrite <- (Rmult_1_l PI). apply pi_abs, abs_1. }
      apply rel_rnd; [lia|apply big_natl; exact HB|]. apply rel_mul_l. apply rel_rnd; [lia|exact HB|]. unfold Rdiv. apply rel_mul_r, rel_pi.
    - assert (INR p <= INR N) by (apply le_INR; auto). pose proof (pos_INR p). pose proof PI_RGT_0. rewrite Rabs_right.
      + apply (Rmult_le_reg_r (INR N)); [lra|]. unfold Rdiv. rewrite Rmult_assoc, Rinv_l by lra. nra.
      + apply Rle_ge. apply Rmult_le_pos; [nra|]. apply Rlt_le, Rinv_0_lt_compat. lra. }
  assert (EW : forall p, W false (2 * N) p = cis (-1 * (PI * INR p / INR N))).
  { intros p. unfold W. f_equal. rewrite mult_INR. cbn [INR]. field. lra. }
  destruct (Nat.ltb_spec e N).
  - destruct (G e ltac:(lia)) as [G1 G2]. rewrite EW. pose proof (ta_root A _ _ (-1) (or_intror eq_refl) G1 G2) as G3.
    change (@mkC F (@scos F (@bl_ang F N e)) (@sneg F (@ssin F (@bl_ang F N e)))) with ((f_cos A (@bl_ang F N e), - f_sin A (@bl_ang F N e)) : CC).
    replace (- f_sin A (@bl_ang F N e)) with (-1 * f_sin A (@bl_ang F N e)) by ring. exact G3.
  - destruct (G (2 * N - e)%nat ltac:(lia)) as [G1 G2].
    assert (Er : W false (2 * N) e = cis (1 * (PI * INR (2 * N - e) / INR N))).
    { assert (E2 : W true (2 * N) (2 * N - e) = W false (2 * N) e) by (rewrite (W_rev true) by lia; reflexivity).
      rewrite <- E2, <- (W_conj false), EW, <- cis_neg. f_equal. ring. }
    rewrite Er. pose proof (ta_root A _ _ 1 (or_introl eq_refl) G1 G2) as G3. set (t := @bl_ang F N (2 * N - e)) in *.
    change (@mkC F (@scos F t) (@sneg F (@sneg F (@ssin F t)))) with ((f_cos A t, - - f_sin A t) : CC).
    replace (- - f_sin A t) with (1 * f_sin A t) by ring. exact G3.
Qed.
Lemma bl_T_ap1 iv N p : (0 < N)%nat -> (Z.of_nat (2 * N) <= 2 ^ 31)%Z -> tap 0 1 (@bl_T F N (bl_e1 iv N p)) (W iv (2 * N) (p * p)).
Proof.
  intros HN H31. destruct (bl_e_lt iv N p HN) as [H1 _]. rewrite <- bl_T_e1 by auto. rewrite bl_T_exact by (auto; lia). apply bl_T_ap; auto; lia.
Qed.
Lemma bl_T_ap2 iv N p : (0 < N)%nat -> (Z.of_nat (2 * N) <= 2 ^ 31)%Z -> tap 0 1 (@bl_T F N (bl_e2 iv N p)) (W (negb iv) (2 * N) (p * p)).
Proof.
  intros HN H31. destruct (bl_e_lt iv N p HN) as [_ H1]. rewrite <- bl_T_e2 by auto. rewrite bl_T_exact by (auto; lia). apply bl_T_ap; auto; lia.
Qed.
Lemma bl_x_ap iv N p : (0 < N)%nat -> (Z.of_nat (2 * N) <= 2 ^ 31)%Z -> tap 0 1 (bl_x iv N (@bl_T F N) p) (bl_x iv N (@bl_T ROps N) p).
Proof.
  intros HN H31. rewrite bl_x_exact by auto. unfold bl_x. destruct (Nat.eqb_spec p 0) as [->|H0]; [|apply bl_T_ap2; auto].
  cbn [Nat.mul]. rewrite c1_F, W_0. apply ta_self. rewrite <- (W_0 false 1). apply W_le1.
Qed.
Lemma bl_B_ap iv N L p : (0 < N)%nat -> (Z.of_nat (2 * N) <= 2 ^ 31)%Z -> 
  cabs (@csub ROps (bl_B iv N L (@bl_T F N) p) (bl_B iv N L (@bl_T ROps N) p)) <= (EE A 0 1 - 1) * cabs (bl_B iv N L (@bl_T ROps N) p).
Proof.
  intros HN H31. unfold bl_B. destruct (p <? N)%nat; [|destruct (L - p <? N)%nat].
  - rewrite bl_x_abs, Rmult_1_r by auto. apply bl_x_ap; auto.
  - rewrite bl_x_abs, Rmult_1_r by auto. apply bl_x_ap; auto.
  - rewrite c0_F. change (@c0 ROps) with ((0, 0) : CC). replace (@csub ROps ((0, 0) : CC) ((0, 0) : CC)) with ((0, 0) : CC) by (csimp; ring). rewrite cabs_0, Rmult_0_r. apply Rle_refl.
Qed.
Lemma bl_A_ap iv N (X : nat -> CC) p : (0 < N)%nat -> (Z.of_nat (2 * N) <= 2 ^ 31)%Z -> 
  cabs (@csub ROps (@bl_A F iv N (@bl_T F N) X p) (@bl_A ROps iv N (@bl_T ROps N) X p)) <= (EE A 3 1 - 1) * (cabs (@bl_A ROps iv N (@bl_T ROps N) X p) + psi A).
Proof.
  intros HN H31.
  assert (G : forall z, cabs (@csub ROps z z) <= (EE A 3 1 - 1) * (cabs z + psi A)).
  { intros z. assert (H : ap 3 1 z z (cabs z + psi A)) by (eapply ap_mono; [apply ap_id|lia|lia|apply Rle_refl]). apply H. }
  unfold bl_A. destruct (p =? 0)%nat; [apply G|]. destruct (p <? N)%nat; [|rewrite c0_F; apply G].
  rewrite bl_T_e1 by auto. change (@cmulT ROps (X p) (W iv (2 * N) (p * p))) with (@cmul ROps (X p) (W iv (2 * N) (p * p))).
  rewrite cabs_mul, cabs_W, Rmult_1_r. change (@cmulT F (X p) (@bl_T F N (bl_e1 iv N p))) with (@cmul (fl A Plain) (X p) (@bl_T F N (bl_e1 iv N p))).
  exact (proj2 (ap_mulr A Plain 0 0 0 1 _ _ _ _ _ (ap_id A (X p)) (bl_T_ap1 iv N p HN H31))).
Qed.

(** the scaling of the result *)
Lemma bl_scale_ap N k a b z' z B : (0 < N)%nat -> (Z.of_nat N <= 2 ^ 31)%Z -> ap a b z' z B ->
  ap (3 + a) b (@bl_scale F N k z') (@cscal ROps (factor (meth_scaling k) N) z) (factor (meth_scaling k) N * B + psi A).
Proof.
  intros HN H31 H. pose proof (factor_pos (meth_scaling k) N HN) as Hf. assert (HN0 : 0 < INR N) by (apply lt_0_INR; lia).
  pose proof (psi0 A) as Ps. pose proof (PropAccuracy.factor_range k N HN) as Hf1.
  assert (R1 : rel A 1 (rd (rd (IZR 1) / rd (IZR (Z.of_nat N)))) (/ INR N)).
  { rewrite one_ok, int_ok by auto. unfold Rdiv. rewrite Rmult_1_l. apply rel_1, big_inv; auto. }
  assert (R2 : rel A 2 (rd (sqrt (rd (rd (IZR 1) / rd (IZR (Z.of_nat N)))))) (/ sqrt (INR N))).
  { apply rel_rnd; [lia|apply big_rsqrt; auto|]. rewrite <- sqrt_inv. apply rel_sqrt; [apply Rinv_0_lt_compat; auto|]. exact R1. }
  assert (G2 : forall c, factor (meth_scaling k) N = c -> forall c', rel A 2 c' c -> ap (3 + a) b (@cscal F c' z') (@cscal ROps (factor (meth_scaling k) N) z) (factor (meth_scaling k) N * B + psi A)).
  { intros c Ec c' Hc. subst c. apply (ap_scal A bd 2 a b _ _ _ _ B); auto; rewrite Rabs_right by lra; [lra|]. assert (0 <= factor (meth_scaling k) N * psi A) by (apply Rmult_le_pos; lra). lra. }
  assert (G0 : factor (meth_scaling k) N = 1 -> ap (3 + a) b z' (@cscal ROps (factor (meth_scaling k) N) z) (factor (meth_scaling k) N * B + psi A)).
  { intros ->. rewrite SixExact.cscal_1, Rmult_1_l. eapply ap_mono; [exact H|lia|lia|lra]. }
  destruct k; cbn [bl_scale]; first [apply G0; reflexivity | apply (G2 _ eq_refl); first [exact R2 | apply (rel_mono A 1); [lia|exact R1]]].
Qed.

Section Main.
Variables (N l : nat).
Let L := (2 ^ l)%nat.
Hypothesis HN : (2 <= N)%nat.
Hypothesis HL : (2 * N - 1 <= L)%nat.
Hypothesis HV : valid_length L.
Hypothesis H31 : (Z.of_nat (2 * N) <= 2 ^ 31)%Z.
Lemma fft_L k (X : nat -> CC) : res_err A L k (EE A (3 + l * 60) (l * 15)) X (@fft0_F F L k X).
Proof.
  assert (Hp : Forall prime (repeat 2%nat l)) by (apply Forall_forall; intros p Hp; apply repeat_spec in Hp; subst p; apply prime_2).
  assert (Hq : prodl (repeat 2%nat l) = (2 ^ l)%nat) by (clear; induction l as [|n IH]; [reflexivity|]; cbn [repeat prodl Nat.pow]; rewrite IH; lia).
  destruct (pow_cost l _ Hp Hq) as [E1 E2]. rewrite <- E1, <- E2. apply fft0_F_err; auto.
Qed.
Lemma L0 : (0 < L)%nat. Proof. lia. Qed.
Let M := sqrt (2 * INR L) * sqrt (INR N).
Lemma M0 : 0 <= M. Proof. apply Rmult_le_pos; apply sqrt_pos. Qed.
Lemma M_room : sqrt (INR L) * sqrt (INR (2 * N - 1)) + psi A * INR L <= M.
Proof.
  destruct HV as (_ & H30 & _). pose proof (psi0 A) as Ps. pose proof (psi_small A) as Pl.
  assert (HLR : INR L <= 1073741824) by (rewrite INR_IZR_INZ; apply IZR_le; exact H30).
  assert (HL1 : 1 <= INR L) by (change 1 with (INR 1); apply le_INR; lia).
  assert (Ht : 0 <= psi A * INR L <= / 8).
  { split; [apply Rmult_le_pos; lra|]. apply Rle_trans with (/ 4398046511104 * 1073741824); [apply Rmult_le_compat; lra|lra]. }
  set (t := psi A * INR L) in *. assert (HN2 : INR (2 * N - 1) = 2 * INR N - 1) by (rewrite minus_INR, mult_INR by lia; reflexivity).
  assert (HNL : INR (2 * N - 1) <= INR L) by (apply le_INR; auto). pose proof (pos_INR (2 * N - 1)) as P0.
  rewrite <- sqrt_mult by lra. unfold M. rewrite <- sqrt_mult by (try apply pos_INR; lra).
  set (m := sqrt (INR L * INR (2 * N - 1))). pose proof (sqrt_pos (INR L * INR (2 * N - 1))) as Pm. fold m in Pm.
  assert (Em : m * m = INR L * INR (2 * N - 1)) by (apply sqrt_sqrt; nra).
  assert (Hm : m <= INR L) by (apply sq_le; [lra|]; rewrite Em; apply Rmult_le_compat_l; lra).
  rewrite <- (sqrt_square (m + t)) by lra. apply sqrt_le_1_alt. replace ((m + t) * (m + t)) with (m * m + 2 * (m * t) + t * t) by ring. rewrite Em, HN2.
  assert (m * t <= INR L * / 8) by (apply Rmult_le_compat; lra). assert (t * t <= / 8 * / 8) by (apply Rmult_le_compat; lra). nra.
Qed.

Definition bA (X : nat -> CC) : R := sqrt (INR L) * nrm N X + 2 * psi A * INR L.
Lemma A_err iv (X : nat -> CC) :
  nrm L (vsub (@fft0_F F L fwd0 (@bl_A F iv N (@bl_T F N) X)) (transform fwd0 L (@bl_A ROps iv N (@bl_T ROps N) X)))
  <= (EE A (6 + l * 60) (1 + l * 15) - 1) * bA X.
Proof.
  pose proof (fft_chain A L fwd0 (EE A (3 + l * 60) (l * 15)) (EE A 3 1) (nrm N X + psi A * sqrt (INR L)) (@bl_A F iv N (@bl_T F N) X) (@bl_A ROps iv N (@bl_T ROps N) X) (@fft0_F F L fwd0 (@bl_A F iv N (@bl_T F N) X)) L0 (EE_ge1 A _ _) (EE_ge1 A _ _)) as G.
  cbn [meth_scaling factor] in G. rewrite Rmult_1_l, EE_mul in G. replace (l * 15 + 1)%nat with (1 + l * 15)%nat in G by lia. replace (3 + l * 60 + 3)%nat with (6 + l * 60)%nat in G by lia.
  pose proof (psi0 A) as Ps. pose proof (sqrt_pos (INR L)) as Hs. pose proof (sqrt_sqrt (INR L) (pos_INR L)) as Es.
  replace (bA X) with (sqrt (INR L) * (nrm N X + psi A * sqrt (INR L)) + psi A * INR L).
  2:{ unfold bA. replace (sqrt (INR L) * (nrm N X + psi A * sqrt (INR L))) with (sqrt (INR L) * nrm N X + psi A * (sqrt (INR L) * sqrt (INR L))) by ring. rewrite Es. ring. }
  apply G.
  - rewrite bl_A_norm by lia. assert (0 <= psi A * sqrt (INR L)) by (apply Rmult_le_pos; auto). lra.
  - rewrite <- (bl_A_norm iv N L X) by lia. pose proof (EE_ge1 A 3 1). apply Rle_trans with ((EE A 3 1 - 1) * nrm L (hat (psi A) 1 (@bl_A ROps iv N (@bl_T ROps N) X))).
    + apply nrm_rel; [lra|]. intros i Hi. rewrite (cabs_hat _ Ps) by lra. rewrite Rmult_1_l. apply bl_A_ap; auto; lia.
    + apply Rmult_le_compat_l; [lra|]. eapply Rle_trans; [apply (nrm_hat _ Ps); lra|]. rewrite Rmult_1_l. apply Rle_refl.
  - apply fft_L.
Qed.
Lemma B_err iv k : (k < L)%nat ->
  cabs (transform fwd0 L (@bl_B ROps iv N L (@bl_T ROps N)) k) <= M /\
  cabs (@csub ROps (@fft0_F F L fwd0 (@bl_B F iv N L (@bl_T F N)) k) (transform fwd0 L (@bl_B ROps iv N L (@bl_T ROps N)) k)) <= (EE A (3 + l * 60) (1 + l * 15) - 1) * M.
Proof.
  intros Hk. pose proof M_room as MR. pose proof (psi0 A) as Ps. pose proof (pos_INR L) as PL. assert (0 <= psi A * INR L) by (apply Rmult_le_pos; auto).
  pose proof (bl_B_norm iv N L ltac:(lia) HL) as EB. pose proof (EE_ge1 A (3 + l * 60) (1 + l * 15)) as HE.
  assert (G : nrm L (vsub (@fft0_F F L fwd0 (@bl_B F iv N L (@bl_T F N))) (transform fwd0 L (@bl_B ROps iv N L (@bl_T ROps N)))) <= (EE A (3 + l * 60) (1 + l * 15) - 1) * M).
  { pose proof (fft_chain A L fwd0 (EE A (3 + l * 60) (l * 15)) (EE A 0 1) (sqrt (INR (2 * N - 1))) (@bl_B F iv N L (@bl_T F N)) (@bl_B ROps iv N L (@bl_T ROps N)) (@fft0_F F L fwd0 (@bl_B F iv N L (@bl_T F N))) L0 (EE_ge1 A _ _) (EE_ge1 A _ _)) as G.
    cbn [meth_scaling factor] in G. rewrite Rmult_1_l, EE_mul in G. replace (l * 15 + 1)%nat with (1 + l * 15)%nat in G by lia. rewrite Nat.add_0_r in G.
    eapply Rle_trans; [apply G|].
    - rewrite EB. apply Rle_refl.
    - rewrite <- EB. apply nrm_rel; [pose proof (EE_ge1 A 0 1); lra|]. intros i Hi. apply bl_B_ap; auto; lia.
    - apply fft_L.
    - apply Rmult_le_compat_l; [lra|exact MR]. }
  split.
  - eapply Rle_trans; [apply (cabs_nrm L); exact Hk|]. rewrite PropAccuracy.nrm_transform by apply L0. cbn [meth_scaling factor]. rewrite EB, Rmult_1_l. eapply Rle_trans; [|exact MR]. rewrite <- Rplus_0_r at 1. apply Rplus_le_compat_l. assumption.
  - eapply Rle_trans; [|exact G]. apply (cabs_nrm L (vsub _ _)). exact Hk.
Qed.

Definition bl_c (iv : bool) (X : nat -> CC) (j : nat) : CC :=
  cmul (transform fwd0 L (@bl_A ROps iv N (@bl_T ROps N) X) j) (transform fwd0 L (@bl_B ROps iv N L (@bl_T ROps N)) j).
Definition bl_c' (iv : bool) (X : nat -> CC) (j : nat) : CC :=
  @cmul F (@fft0_F F L fwd0 (@bl_A F iv N (@bl_T F N) X) j) (@fft0_F F L fwd0 (@bl_B F iv N L (@bl_T F N)) j).
Lemma A_nrm iv X : nrm L (transform fwd0 L (@bl_A ROps iv N (@bl_T ROps N) X)) = sqrt (INR L) * nrm N X.
Proof. rewrite PropAccuracy.nrm_transform by apply L0. cbn [meth_scaling factor]. rewrite bl_A_norm by lia. ring. Qed.
Lemma A_bA X : sqrt (INR L) * nrm N X <= bA X.
Proof. unfold bA. pose proof (psi0 A). pose proof (pos_INR L). assert (0 <= psi A * INR L) by (apply Rmult_le_pos; auto). lra. Qed.
Definition bC (X : nat -> CC) : R := M * bA X + psi A * sqrt (INR L).
Lemma mul_err a c (x y' y : CC) B : 0 <= B -> cabs y <= B -> cabs (@csub ROps y' y) <= (EE A a c - 1) * B ->
  cabs (@csub ROps (@cmul F x y') (@cmul ROps y x)) <= (EE A (3 + a) c - 1) * (B * cabs x + psi A).
Proof.
  intros HB Hy Hd. pose proof (fl_mul A bd x y') as H1. pose proof (cabs_near y' y) as Hn. pose proof (EE_ge1 A a c) as HE. pose proof (psi0 A) as Ps. pose proof (cabs_pos x) as Px. pose proof (cabs_pos y') as Py.
  rewrite (cmulC y x). eapply Rle_trans; [apply (cabs_tri _ (@cmul ROps x y'))|].
  replace (@csub ROps (@cmul ROps x y') (@cmul ROps x y)) with (@cmul ROps x (@csub ROps y' y)) by ring. rewrite cabs_mul.
  assert (E : EE A (3 + a) c = (1 + uu A) ^ 3 * EE A a c) by (unfold EE; rewrite pow_add; ring). rewrite E. pose proof (pow_ge1 (1 + uu A) 3 (U1 A)) as HU. set (U3 := (1 + uu A) ^ 3) in *.
  assert (G1 : cabs x * cabs y' <= cabs x * (EE A a c * B)) by (apply Rmult_le_compat_l; lra).
  assert (G2 : (U3 - 1) * (cabs x * cabs y' + psi A) <= (U3 - 1) * (cabs x * (EE A a c * B) + psi A)) by (apply Rmult_le_compat_l; lra).
  assert (G3 : cabs x * cabs (@csub ROps y' y) <= cabs x * ((EE A a c - 1) * B)) by (apply Rmult_le_compat_l; auto).
  assert (0 <= U3 * (EE A a c - 1) * psi A) by (apply Rmult_le_pos; [apply Rmult_le_pos; lra|auto]).
  eapply Rle_trans; [apply Rplus_le_compat; [eapply Rle_trans; [exact H1|exact G2]|exact G3]|]. lra.
Qed.
Lemma c_err iv X : nrm L (vsub (bl_c' iv X) (bl_c iv X)) <= (EE A (12 + l * 120) (2 + l * 30) - 1) * bC X.
Proof.
  replace (EE A (12 + l * 120) (2 + l * 30)) with (EE A (6 + l * 60) (1 + l * 15) * EE A (6 + l * 60) (1 + l * 15)) by (rewrite EE_mul; f_equal; lia).
  apply (point_err_le (psi A) L M _ (transform fwd0 L (@bl_B ROps iv N L (@bl_T ROps N))) (transform fwd0 L (@bl_A ROps iv N (@bl_T ROps N) X))
    (@fft0_F F L fwd0 (@bl_A F iv N (@bl_T F N) X))).
  - apply psi0.
  - apply M0.
  - apply EE_ge1.
  - apply EE_ge1.
  - intros i Hi. apply (B_err iv i Hi).
  - intros i Hi. unfold bl_c'. destruct (B_err iv i Hi) as [H1 H2].
    exact (mul_err (3 + l * 60) (1 + l * 15) _ _ _ M M0 H1 H2).
  - intros i Hi. unfold bl_c. apply cmulC.
  - rewrite A_nrm. apply A_bA.
  - apply A_err.
Qed.
Lemma c_nrm iv X : nrm L (bl_c iv X) <= M * (sqrt (INR L) * nrm N X).
Proof.
  rewrite <- (A_nrm iv X). apply nrm_rel; [apply M0|]. intros i Hi. unfold bl_c. rewrite cabs_mul, Rmult_comm. apply Rmult_le_compat_r; [apply cabs_pos|]. apply (B_err iv i Hi).
Qed.
Lemma c_bC iv X : nrm L (bl_c iv X) <= bC X.
Proof.
  eapply Rle_trans; [apply c_nrm|]. unfold bC. pose proof (Rmult_le_compat_l M _ _ M0 (A_bA X)). pose proof (psi0 A). pose proof (sqrt_pos (INR L)). assert (0 <= psi A * sqrt (INR L)) by (apply Rmult_le_pos; auto). lra.
Qed.
Definition bD (X : nat -> CC) : R := M * nrm N X + 2 * psi A * (M * sqrt (INR L)) + psi A * (1 + INR L).
Lemma bD_eq X : / INR L * sqrt (INR L) * bC X + psi A * INR L = bD X.
Proof.
  assert (P : 0 < INR L) by (apply lt_0_INR, L0). pose proof (sqrt_sqrt (INR L) ltac:(lra)) as E. pose proof (sqrt_lt_R0 (INR L) P) as Ps. unfold bC, bA, bD.
  set (t := sqrt (INR L)) in *. rewrite <- E. field. lra.
Qed.
Lemma d_err iv X : nrm L (vsub (@fft0_F F L invn (bl_c' iv X)) (transform invn L (bl_c iv X))) <= (EE A (15 + l * 180) (2 + l * 45) - 1) * bD X.
Proof.
  pose proof (fft_chain A L invn (EE A (3 + l * 60) (l * 15)) (EE A (12 + l * 120) (2 + l * 30)) _ _ _ _ L0 (EE_ge1 A _ _) (EE_ge1 A _ _) (c_bC iv X) (c_err iv X) (fft_L _ _)) as G.
  cbn [meth_scaling factor] in G. rewrite EE_mul in G. replace (3 + l * 60 + (12 + l * 120))%nat with (15 + l * 180)%nat in G by lia. replace (l * 15 + (2 + l * 30))%nat with (2 + l * 45)%nat in G by lia.
  rewrite bD_eq in G. exact G.
Qed.
Lemma bD_ge X : M * nrm N X <= bD X.
Proof.
  unfold bD. pose proof (psi0 A). pose proof (sqrt_pos (INR L)). pose proof (pos_INR L). pose proof M0. assert (0 <= psi A * (M * sqrt (INR L))) by (apply Rmult_le_pos; [auto|apply Rmult_le_pos; auto]).
  assert (0 <= psi A * (1 + INR L)) by (apply Rmult_le_pos; lra). lra.
Qed.
Lemma d_nrm iv X : nrm L (transform invn L (bl_c iv X)) <= bD X.
Proof.
  eapply Rle_trans; [|apply bD_ge].
  rewrite PropAccuracy.nrm_transform by apply L0. cbn [meth_scaling factor]. assert (0 < INR L) by (apply lt_0_INR, L0). pose proof (sqrt_def (INR L) ltac:(lra)) as E.
  replace (M * nrm N X) with (/ INR L * sqrt (INR L) * (M * (sqrt (INR L) * nrm N X))).
  - apply Rmult_le_compat_l; [|apply c_nrm]. apply Rmult_le_pos; [apply Rlt_le, Rinv_0_lt_compat; auto|apply sqrt_pos].
  - replace (/ INR L * sqrt (INR L) * (M * (sqrt (INR L) * nrm N X))) with (/ INR L * (sqrt (INR L) * sqrt (INR L)) * (M * nrm N X)) by ring. rewrite E. field. lra.
Qed.

Lemma final_room k X : (0 < N)%nat -> 0 < factor (meth_scaling k) N ->
  factor (meth_scaling k) N * bD X + 2 * psi A * sqrt (INR N) <= sqrt (2 * INR L) * (factor (meth_scaling k) N * sqrt (INR N) * nrm N X + 4 * (psi A * INR L)).
Proof.
  intros HN0 Hf0. pose proof (PropAccuracy.factor_range k N HN0) as Hf. set (f := factor (meth_scaling k) N) in *.
  pose proof (psi0 A) as Ps. pose proof (nrm_pos N X) as Px. unfold bD, M.
  assert (HNL : INR N <= INR L) by (apply le_INR; lia). assert (HL1 : 2 <= INR L) by (change 2 with (INR 2); apply le_INR; lia). pose proof (pos_INR N) as PN.
  set (q := sqrt (INR N)). set (t := sqrt (INR L)). assert (Hq : 0 <= q) by apply sqrt_pos. assert (Ht : 0 <= t) by apply sqrt_pos.
  assert (Eq : q <= t) by (apply sqrt_le_1_alt; auto). assert (Et : t * t = INR L) by (apply sqrt_sqrt; lra).
  set (r := sqrt (2 * INR L)). assert (Hr : 2 <= r) by (rewrite <- (sqrt_square 2) by lra; apply sqrt_le_1_alt; lra).
  assert (Hrt : t <= r) by (apply sqrt_le_1_alt; lra).
  assert (A1 : q * t <= INR L) by (rewrite <- Et; apply Rmult_le_compat_r; auto).
  assert (A2 : 2 * psi A * (r * q * t) <= 2 * psi A * (r * INR L)) by (apply Rmult_le_compat_l; [lra|]; rewrite Rmult_assoc; apply Rmult_le_compat_l; lra).
  assert (A3 : psi A * (1 + INR L) <= psi A * (r * INR L)) by (apply Rmult_le_compat_l; [auto|nra]).
  assert (A4 : psi A * q <= psi A * (r * (INR L * / 2))) by (apply Rmult_le_compat_l; [auto|]; apply Rle_trans with (r * 1); [lra|]; apply Rmult_le_compat_l; lra).
  assert (B0 : 0 <= psi A * (r * INR L)) by (apply Rmult_le_pos; [auto|]; apply Rmult_le_pos; lra).
  set (z := 2 * psi A * (r * q * t) + psi A * (1 + INR L)) in *. assert (Hz : 0 <= z). { unfold z. apply Rplus_le_le_0_compat; apply Rmult_le_pos; try lra. apply Rmult_le_pos; [apply Rmult_le_pos; lra|auto]. }
  assert (Fz : f * z <= 1 * z) by (apply Rmult_le_compat_r; lra).
  replace (f * (r * q * nrm N X + 2 * psi A * (r * q * t) + psi A * (1 + INR L))) with (r * (f * q * nrm N X) + f * z) by (unfold z; ring).
  unfold z in *. lra.
Qed.
Theorem bl_FL_err k X :
  nrm N (vsub (@bl_FL F N L k X) (transform k N X)) <= (EE A (21 + l * 180) (3 + l * 45) - 1) * (sqrt (2 * INR L) * (nrm N (transform k N X) + 4 * (psi A * INR L))).
Proof.
  pose proof (factor_pos (meth_scaling k) N ltac:(lia)) as Hf. set (iv := meth_inv k).
  assert (EY : forall p, (p < N)%nat -> transform k N X p = cmul (@cscal ROps (factor (meth_scaling k) N) (cconj (bl_x iv N (@bl_T ROps N) p))) (transform invn L (bl_c iv X) p)).
  { intros p Hp. rewrite <- (bl_FL_exact N L k X p) by (auto; lia). unfold bl_FL. cbv zeta. fold iv.
    rewrite bl_scale_factor by lia. rewrite ApiExact.fft0_F_exact by (auto; lia).
    rewrite (ComplexThms.transform_ext invn L _ (bl_c iv X)) by (intros j Hj; unfold bl_c; rewrite !ApiExact.fft0_F_exact by auto; reflexivity).
    set (u := transform invn L (bl_c iv X) p). set (w := cconj _). clearbody u w. destruct u, w. csimp; ring. }
  replace (EE A (21 + l * 180) (3 + l * 45)) with (EE A 6 1 * EE A (15 + l * 180) (2 + l * 45)) by (rewrite EE_mul; f_equal; lia).
  eapply Rle_trans.
  - apply (point_err_le (2 * psi A) N (factor (meth_scaling k) N) (EE A 6 1) (fun p => @cscal ROps (factor (meth_scaling k) N) (cconj (bl_x iv N (@bl_T ROps N) p)))
      (transform invn L (bl_c iv X)) (@fft0_F F L invn (bl_c' iv X)) _ _ (EE A (15 + l * 180) (2 + l * 45)) (bD X)).
    + pose proof (psi0 A). lra.
    + lra.
    + apply EE_ge1.
    + apply EE_ge1.
    + intros p Hp. rewrite cabs_scal, cabs_conj, bl_x_abs, Rabs_right by (auto; lra || lia). lra.
    + intros p Hp. unfold bl_FL. cbv zeta. fold iv. set (u := @fft0_F F L invn _ p).
      change (@fft0_F F L invn (bl_c' iv X) p) with u. clearbody u.
      pose proof (ap_mulr A bd 0 0 0 1 _ _ _ _ _ (ap_id A u) (ta_conj A bd _ _ _ _ (bl_x_ap iv N p ltac:(lia) H31))) as G.
      apply (bl_scale_ap N k) in G; [|lia|lia]. destruct G as [_ G].
      match goal with |- cabs (csub _ ?w) <= _ => replace w with (@cscal ROps (factor (meth_scaling k) N) (@cmul ROps u (@cconj ROps (bl_x iv N (@bl_T ROps N) p)))) end.
      { eapply Rle_trans; [exact G|]. pose proof (EE_ge1 A 6 1). apply Rmult_le_compat_l; [change (EE A (3 + (3 + (0 + 0))) (0 + 1)) with (EE A 6 1); lra|].
        pose proof (PropAccuracy.factor_range k N ltac:(lia)). pose proof (psi0 A). assert (factor (meth_scaling k) N * psi A <= 1 * psi A) by (apply Rmult_le_compat_r; lra). lra. }
      set (w := @cconj ROps _). clearbody w. destruct u as [u1 u2], w as [w1 w2]. csimp; ring.
    + exact EY.
    + eapply Rle_trans; [apply (nrm_sub_len N L); lia|apply d_nrm].
    + eapply Rle_trans; [apply (nrm_sub_len N L); lia|apply d_err].
  - apply Rmult_le_compat_l; [rewrite EE_mul; match goal with |- context [EE A ?a ?b] => pose proof (EE_ge1 A a b); lra end|].
    rewrite PropAccuracy.nrm_transform by lia. apply final_room; [lia|exact Hf].
Qed.
End Main.
End Err.
