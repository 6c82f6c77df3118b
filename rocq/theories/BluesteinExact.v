(** * Bluestein in exact arithmetic *)

From Coq Require Import Reals List Arith ZArith Bool Lia Lra.
From Verif Require Import Scalar RealOps Spec DftFacts Mem Lanes Engine ApiSpec ModelApi ApiFacts ApiExact ComplexThms
  ModelReal RealExact ModelBluestein BluesteinRun SixExact.
Import ListNotations.
Local Open Scope R_scope.

(** ** the table *)
Lemma bl_T_exact N e : (0 < N)%nat -> (e <= 2 * N)%nat -> @bl_T ROps N e = W false (2 * N) e.
Proof.
  intros HN He. assert (HN0 : INR N <> 0) by (apply not_0_INR; lia).
  assert (Eang : forall p, @bl_ang ROps N p = INR p * (PI / INR N)) by (intros p; unfold bl_ang; rewrite !sn_INR; reflexivity).
  assert (EW : forall p, W false (2 * N) p = cis (- (INR p * (PI / INR N)))).
  { intros p. unfold W. f_equal. rewrite mult_INR. cbn [INR]. field. auto. }
  unfold bl_T.
  destruct (Nat.eqb_spec e 0) as [->|H0]; [rewrite W_0; reflexivity|].
  destruct (Nat.eqb_spec e (2 * N)) as [->|H2]; [rewrite W_N by lia; reflexivity|].
  destruct (Nat.eqb_spec e N) as [->|H1].
  { rewrite W_half by auto. csimp; ring. }
  destruct (Nat.ltb_spec e N).
  - rewrite Eang, EW. unfold cis. rewrite cos_neg, sin_neg. reflexivity.
  - rewrite <- (Nat.sub_add e (2 * N)) at 3 by lia.
    assert (Er : W false (2 * N) e = W true (2 * N) (2 * N - e)).
    { rewrite (W_rev true) by lia. reflexivity. }
    replace (2 * N - e + e)%nat with (2 * N)%nat by lia. rewrite Er, <- (W_conj false), EW. rewrite Eang, cis_neg, conj_conj.
    unfold cis. csimp; [reflexivity|]. ring.
Qed.
Lemma bl_T_e1 iv N p : (0 < N)%nat -> @bl_T ROps N (bl_e1 iv N p) = W iv (2 * N) (p * p).
Proof.
  intros HN. pose proof (bl_e_lt iv N p HN) as (H1 & _). rewrite bl_T_exact by lia. unfold bl_e1. cbv zeta.
  pose proof (Nat.mod_upper_bound (p * p) (2 * N) ltac:(lia)).
  destruct iv; [rewrite W_rev by lia; cbn [negb]|]; apply W_mod; lia.
Qed.
Lemma bl_T_e2 iv N p : (0 < N)%nat -> @bl_T ROps N (bl_e2 iv N p) = W (negb iv) (2 * N) (p * p).
Proof.
  intros HN. pose proof (bl_e_lt iv N p HN) as (_ & H1). rewrite bl_T_exact by lia. unfold bl_e2. cbv zeta.
  pose proof (Nat.mod_upper_bound (p * p) (2 * N) ltac:(lia)).
  destruct iv; [|rewrite W_rev by lia]; cbn [negb]; apply W_mod; lia.
Qed.
Lemma bl_x_exact iv N p : (0 < N)%nat -> bl_x iv N (@bl_T ROps N) p = W (negb iv) (2 * N) (p * p).
Proof.
  intros HN. unfold bl_x. destruct (Nat.eqb_spec p 0) as [->|H]; [cbn [Nat.mul]; rewrite W_0; reflexivity|]. apply bl_T_e2. auto.
Qed.

(** ** circular convolution *)
Lemma csum_rot L s f : (s <= L)%nat -> csum L (fun p => f ((p + s) mod L)%nat) = csum L f.
Proof.
  intros Hs. destruct (Nat.eq_dec L 0) as [->|HL]; [reflexivity|].
  transitivity (csum ((L - s) + s) (fun p => f ((p + s) mod L)%nat)); [f_equal; lia|]. rewrite csum_app.
  transitivity (csum (s + (L - s)) f); [|f_equal; lia]. rewrite csum_app.
  rewrite (csum_ext (L - s) _ (fun i => f (s + i)%nat)).
  2:{ intros i Hi. f_equal. rewrite Nat.mod_small by lia. lia. }
  rewrite (csum_ext s _ f).
  2:{ intros i Hi. f_equal. replace (L - s + i + s)%nat with (i + 1 * L)%nat by lia. rewrite Nat.mod_add by lia. apply Nat.mod_small. lia. }
  ring.
Qed.
Definition circ (L : nat) (A B : nat -> CC) (p : nat) : CC := csum L (fun j => cmul (A j) (B ((p + (L - j)) mod L)%nat)).
Lemma DFT_circ f L A B k : (0 < L)%nat -> DFT f L (circ L A B) k = cmul (DFT f L A k) (DFT f L B k).
Proof.
  intros HL. unfold DFT, circ.
  rewrite (csum_ext L _ (fun p => csum L (fun j => cmul (cmul (A j) (W f L (j * k))) (cmul (B ((p + (L - j)) mod L)%nat) (W f L ((p + (L - j)) mod L * k)))))).
  - rewrite csum_swap. rewrite <- csum_mul_r. apply csum_ext. intros j Hj. rewrite csum_mul_l. f_equal.
    rewrite (csum_rot L (L - j) (fun q => cmul (B q) (W f L (q * k)))) by lia. reflexivity.
  - intros p Hp. rewrite <- csum_mul_r. apply csum_ext. intros j Hj.
    assert (E : W f L (p * k) = cmul (W f L (j * k)) (W f L ((p + (L - j)) mod L * k))).
    { rewrite <- W_add. rewrite <- Nat.mul_add_distr_r. rewrite <- (W_mod f L (p * k)), <- (W_mod f L ((j + _) * k)) by auto. f_equal.
      rewrite (Nat.mul_mod (j + _)), Nat.add_mod_idemp_r, <- Nat.mul_mod by lia.
      replace (j + (p + (L - j)))%nat with (p + 1 * L)%nat by lia.
      rewrite (Nat.mul_mod (p + 1 * L)), Nat.mod_add, <- Nat.mul_mod by lia. reflexivity. }
    rewrite E. ring.
Qed.

(** the convolution computed, at the points used *)
Lemma csum_tail n m f : (n <= m)%nat -> (forall i, (n <= i < m)%nat -> f i = (0, 0)) -> csum m f = csum n f.
Proof.
  intros Hn H. replace m with (n + (m - n))%nat by lia. rewrite csum_app.
  rewrite (csum_ext (m - n) _ (fun _ => (0, 0))) by (intros i Hi; apply H; lia). rewrite csum_0. csimp; ring.
Qed.
Definition adiff (p j : nat) : nat := if (j <=? p)%nat then (p - j)%nat else (j - p)%nat.
Lemma bl_conv iv N L X p : (0 < N)%nat -> (2 * N - 1 <= L)%nat -> (p < N)%nat ->
  circ L (bl_A iv N (bl_T N) X) (bl_B iv N L (bl_T N)) p =
  csum N (fun j => cmul (cmul (X j) (W iv (2 * N) (j * j))) (W (negb iv) (2 * N) (adiff p j * adiff p j))).
Proof.
  intros HN HL Hp. unfold circ. rewrite (csum_tail N L); [|lia|].
  2:{ intros i Hi. unfold bl_A. destruct (Nat.eqb_spec i 0); [lia|]. destruct (Nat.ltb_spec i N); [lia|]. csimp; ring. }
  apply csum_ext. intros j Hj. f_equal.
  - unfold bl_A. destruct (Nat.eqb_spec j 0) as [->|H0]; [cbn [Nat.mul]; rewrite W_0; ring|].
    destruct (Nat.ltb_spec j N); [|lia]. rewrite bl_T_e1 by auto. reflexivity.
  - unfold bl_B, adiff. destruct (Nat.leb_spec j p) as [Hle|Hgt].
    + replace (p + (L - j))%nat with ((p - j) + 1 * L)%nat by lia. rewrite Nat.mod_add, Nat.mod_small by lia.
      destruct (Nat.ltb_spec (p - j) N); [|lia]. apply bl_x_exact. auto.
    + rewrite Nat.mod_small by lia. destruct (Nat.ltb_spec (p + (L - j)) N); [lia|].
      replace (L - (p + (L - j)))%nat with (j - p)%nat by lia. destruct (Nat.ltb_spec (j - p) N); [|lia]. apply bl_x_exact. auto.
Qed.
Lemma adiff_sq p j : (j * j + p * p = adiff p j * adiff p j + 2 * (j * p))%nat.
Proof.
  unfold adiff. destruct (Nat.leb_spec j p) as [H|H].
  - replace p with (j + (p - j))%nat at 1 2 5 by lia. generalize (p - j)%nat. intros d. lia.
  - replace j with (p + (j - p))%nat at 1 2 5 by lia. generalize (j - p)%nat. intros d. lia.
Qed.

Lemma bl_scale_factor N k (z : CC) : (0 < N)%nat -> bl_scale N k z = cscal (factor (meth_scaling k) N) z.
Proof.
  intros HN. assert (HN0 : 0 < INR N) by (apply lt_0_INR; auto).
  destruct k; cbn [bl_scale meth_scaling factor]; rewrite ?sn_INR, ?cscal_1; auto; cbn [sdiv ssqrt ROps s1 sofZ]; f_equal; unfold s1; cbn [sofZ ROps].
  all: try (unfold Rdiv; ring).
  all: unfold Rdiv; rewrite Rmult_1_l; apply sqrt_inv.
Qed.

Lemma bl_FL_exact N L k X p : (2 <= N)%nat -> (2 * N - 1 <= L)%nat -> valid_length L -> (p < N)%nat ->
  bl_FL N L k X p = transform k N X p.
Proof.
  intros HN HL Hv Hp. unfold bl_FL. cbv zeta. set (iv := meth_inv k).
  rewrite fft0_F_exact by (auto; lia).
  rewrite (transform_ext invn L _ (transform fwd0 L (circ L (bl_A iv N (bl_T N) X) (bl_B iv N L (bl_T N))))).
  2:{ intros j Hj. rewrite !fft0_F_exact by auto. unfold transform. cbn [meth_scaling meth_inv factor]. rewrite !cscal_1. symmetry. apply DFT_circ. lia. }
  rewrite (transform_inverse fwd0 invn) by (auto; lia). rewrite bl_conv by lia.
  rewrite bl_scale_factor by lia. unfold transform. f_equal. fold iv.
  rewrite bl_x_exact by lia. rewrite W_conj, negb_involutive, <- csum_mul_r. unfold DFT. apply csum_ext. intros j Hj.
  assert (E : cmul (cmul (W iv (2 * N) (j * j)) (W (negb iv) (2 * N) (adiff p j * adiff p j))) (W iv (2 * N) (p * p)) = W iv N (j * p)).
  { transitivity (cmul (W iv (2 * N) (j * j + p * p)) (W (negb iv) (2 * N) (adiff p j * adiff p j))); [rewrite W_add; ring|].
    rewrite adiff_sq, W_add.
    transitivity (cmul (cmul (W iv (2 * N) (adiff p j * adiff p j)) (W (negb iv) (2 * N) (adiff p j * adiff p j))) (W iv (2 * N) (2 * (j * p)))); [ring|].
    rewrite W_mul_conj, W_scale by lia. ring. }
  rewrite <- E. ring.
Qed.

Lemma transform_1 k X : transform k 1 X 0 = X 0%nat.
Proof.
  unfold transform, DFT. cbn [csum Nat.mul]. rewrite W_0.
  assert (E : factor (meth_scaling k) 1 = 1).
  { destruct k; cbn [meth_scaling factor INR]; rewrite ?sqrt_1; field. }
  rewrite E, cscal_1. csimp; ring.
Qed.

Lemma bl_F_exact N k X p : bl_length N -> (p < N)%nat -> bl_F N k X p = transform k N X p.
Proof.
  intros HN Hp. unfold bl_F. destruct (Nat.ltb_spec N 2) as [H|H].
  - assert (E : N = 1%nat) by lia. subst N. assert (p = 0)%nat by lia. subst p. symmetry. apply transform_1.
  - destruct (bl_pad N HN) as (n & E & _). destruct (bl_pad_valid N (2 ^ n) HN E) as (HL & Hv).
    rewrite E. apply bl_FL_exact; auto.
Qed.
