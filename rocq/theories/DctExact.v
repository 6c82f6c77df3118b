(** * RealDCT in exact arithmetic *)

From Coq Require Import Reals List Arith ZArith Bool Lia Lra.
From Verif Require Import Scalar RealOps Spec DftFacts Mem MemFacts Lanes Stage Object Engine Blocks ApiSpec
  ModelApi ApiFacts ApiExact ComplexThms ModelReal RealFacts RealRun RealExact DctRun RealSpec.
Import ListNotations.
Local Open Scope R_scope.

(** ** the table *)
Definition phi (N e : nat) : R := PI * INR e / (2 * INR N).
Lemma V_exact N e : (0 < N)%nat -> (e < N + 1)%nat -> V_T N e = cis (phi N e).
Proof.
  intros HN He. revert e He. unfold V_T.
  apply (tval_prop (V_es N) (V_us N) (V_it N) (@c0 ROps) (N / 2 + 1) (N + 1) (fun e v => v = cis (phi N e))).
  - reflexivity.
  - intros e He. apply V_cov; auto.
  - intros i Hi. pose proof (Nat.div_mod N 2 ltac:(lia)).
    assert (HN0 : INR N <> 0) by (apply not_0_INR; lia).
    assert (E1 : @smul ROps (sn i) (@sdiv ROps (@spi ROps) (sn (2 * N))) = phi N i).
    { rewrite !sn_INR. unfold phi. cbn [smul sdiv spi ROps Sc]. rewrite mult_INR. cbn [INR].
      match goal with |- ?a = ?b => change (@eq R a b) end. field. auto. }
    assert (E2 : phi N (N - i) = PI / 2 - phi N i).
    { unfold phi. rewrite minus_INR by lia. field. auto. }
    unfold V_us, V_es. cbv zeta. rewrite E1. repeat constructor; cbn [fst snd]; unfold cis.
    rewrite E2. cbn [scos ssin ROps]. rewrite cos_shift, sin_shift. reflexivity.
Qed.
Lemma V_mirror N k : (0 < N)%nat -> (k <= N)%nat -> cis (phi N (N - k)) = cmul ci (cconj (cis (phi N k))).
Proof.
  intros HN Hk. assert (HN0 : INR N <> 0) by (apply not_0_INR; lia).
  assert (E2 : phi N (N - k) = PI / 2 - phi N k) by (unfold phi; rewrite minus_INR by lia; field; auto).
  unfold cis. rewrite E2, cos_shift, sin_shift. csimp; ring.
Qed.
Lemma cis_unit t : cmul (cis t) (cconj (cis t)) = @c1 ROps.
Proof. unfold cis. csimp; [|ring]. pose proof (sin2_cos2 t) as H. unfold Rsqr in H. lra. Qed.

(** ** real sums *)
Lemma Re_csum n f : fst (csum n f) = rsum n (fun i => fst (f i)).
Proof. induction n as [|n IH]; [reflexivity|]. cbn [csum rsum]. rewrite <- IH. reflexivity. Qed.
Lemma rsum_csum n f : rsum n f = fst (csum n (fun i => rc (f i))).
Proof. rewrite csum_rc. reflexivity. Qed.
Lemma rsum_split2 h f : rsum (2 * h) f = rsum h (fun p => f (2 * p)%nat) + rsum h (fun p => f (2 * p + 1)%nat).
Proof.
  rewrite <- rsum_add. rewrite !rsum_csum. replace (2 * h)%nat with (h * 2)%nat by lia. rewrite csum_split_lo. f_equal. apply csum_ext. intros p _.
  cbn [csum]. replace (0 + 2 * p)%nat with (2 * p)%nat by lia. replace (1 + 2 * p)%nat with (2 * p + 1)%nat by lia. csimp; ring.
Qed.
Lemma rsum_app n m f : rsum (n + m) f = rsum n f + rsum m (fun i => f (n + i)%nat).
Proof. rewrite !rsum_csum, csum_app. reflexivity. Qed.
Lemma rsum_rev n f : rsum n f = rsum n (fun i => f (n - 1 - i)%nat).
Proof. rewrite !rsum_csum, (csum_rev n (fun i => rc (f i))). reflexivity. Qed.

(** the permutation applied by the DCT sums over the same terms *)
Lemma perm_sum N h (f : nat -> R) : N = (2 * h)%nat ->
  rsum N f = rsum N (fun e => f (if (e <? h)%nat then 2 * e else 2 * (N - 1 - e) + 1)%nat).
Proof.
  intros EN. rewrite EN at 1. rewrite rsum_split2. replace N with (h + h)%nat at 1 by lia. rewrite rsum_app. f_equal.
  - apply rsum_ext. intros i Hi. destruct (Nat.ltb_spec i h); [reflexivity|lia].
  - rewrite rsum_rev. apply rsum_ext. intros i Hi. destruct (Nat.ltb_spec (h + i) h); [lia|]. f_equal. lia.
Qed.

Lemma cos_2kPI x k : cos (2 * PI * INR k - x) = cos x.
Proof.
  replace (2 * PI * INR k - x) with (- x + 2 * INR k * PI) by ring. rewrite cos_period. apply cos_neg.
Qed.

(** the cosine seen at position e of the permuted sequence *)
Lemma perm_cos N h e k : N = (2 * h)%nat -> (0 < h)%nat -> (e < N)%nat ->
  cos (PI * INR k * (2 * INR (if (e <? h)%nat then 2 * e else 2 * (N - 1 - e) + 1)%nat + 1) / (2 * INR N)) =
  cos (phi N k + 2 * PI * INR (e * k) / INR N).
Proof.
  intros EN Hh He. assert (HN0 : INR N <> 0) by (apply not_0_INR; lia). unfold phi. rewrite mult_INR.
  destruct (Nat.ltb_spec e h).
  - f_equal. rewrite mult_INR. cbn [INR]. field. auto.
  - rewrite <- (cos_2kPI _ k). f_equal.
    replace (INR (2 * (N - 1 - e) + 1)) with (2 * (INR N - 1 - INR e) + 1).
    2:{ rewrite plus_INR, mult_INR, !minus_INR by lia. cbn [INR]. ring. }
    field. auto.
Qed.

Section Dct.
Variable N : nat.
Hypothesis HL : dct_length N.
Let h := (N / 2)%nat.
Lemma dN : N = (2 * h)%nat. Proof. apply HL. Qed.
Lemma dh : (2 <= h)%nat. Proof. apply HL. Qed.
Lemma dpos : (0 < N)%nat. Proof. pose proof dN. pose proof dh. lia. Qed.

Definition rv (X : nat -> CC) (j : nat) : R := fst (X j).

(** forward: x[e] = Re (conj V_e Z_e) *)
Lemma dct_F_Re kind X e : meth_inv kind = false -> (e < N)%nat ->
  dct_F N kind X e = rc (fst (cmul (cconj (cis (phi N e))) (transform kind N (re_of (df_in N X)) e))).
Proof.
  intros Hk He. unfold dct_F, df_out. rewrite V_exact by (pose proof dpos; lia).
  rewrite rfft_F_exact by (auto; apply HL). generalize (transform kind N (re_of (df_in N X)) e). intros z. unfold rval. csimp; ring.
Qed.
Lemma dct_F_exact kind X e : meth_inv kind = false -> (e < N)%nat ->
  dct_F N kind X e = rc (factor (meth_scaling kind) N * DCT2 N (rv X) e).
Proof.
  intros Hk He. rewrite dct_F_Re by auto. unfold transform. rewrite Hk.
  assert (E : fst (cmul (cconj (cis (phi N e))) (DFT false N (re_of (df_in N X)) e)) = DCT2 N (rv X) e).
  { unfold DFT. rewrite <- csum_mul_l, Re_csum. unfold DCT2. rewrite (perm_sum N h (fun j => rv X j * cos (PI * INR e * (2 * INR j + 1) / (2 * INR N))) dN). apply rsum_ext. intros j Hj.
    rewrite (perm_cos N h j e dN) by (pose proof dh; lia).
    assert (EX : re_of (df_in N X) j = rc (rv X (if (j <? h)%nat then 2 * j else 2 * (N - 1 - j) + 1)%nat)).
    { unfold re_of, df_in, rv. fold h. destruct (j <? h)%nat; reflexivity. }
    rewrite EX. unfold W, cis.
    replace (-1 * (2 * PI * INR (j * e) / INR N)) with (- (2 * PI * INR (j * e) / INR N)) by ring.
    rewrite cos_neg, sin_neg. rewrite cos_plus. creduce. ring. }
  rewrite <- E, cscal_rc. generalize (DFT false N (re_of (df_in N X)) e). intros z. csimp; ring.
Qed.

(** inverse *)
Definition dsp (X : nat -> CC) (k : nat) : CC :=
  if (k =? 0)%nat then rc (rv X 0) else cmul (cis (phi N k)) (rv X k, - rv X (N - k)%nat).
Lemma di_in_dsp X k : (k < N)%nat -> di_in N (V_T N) X k = dsp X k.
Proof.
  intros Hk. unfold di_in, dsp. destruct (Nat.eqb_spec k 0); [reflexivity|]. rewrite V_exact by (pose proof dpos; lia). reflexivity.
Qed.
Lemma dsp_0 X : Im (dsp X 0) = 0. Proof. reflexivity. Qed.
Lemma dsp_h X : Im (dsp X h) = 0.
Proof.
  unfold dsp. pose proof dh. destruct (Nat.eqb_spec h 0); [lia|]. replace (N - h)%nat with h by (pose proof dN; lia).
  assert (E : phi N h = PI / 4). { unfold phi. rewrite dN, mult_INR. cbn [INR]. field. apply not_0_INR. lia. }
  rewrite E. unfold cis. rewrite cos_PI4, sin_PI4. creduce. ring.
Qed.
Lemma dsp_hermit X k : (0 < k < N)%nat -> cconj (dsp X (N - k)) = dsp X k.
Proof.
  intros Hk. unfold dsp. destruct (Nat.eqb_spec (N - k) 0); [lia|]. destruct (Nat.eqb_spec k 0); [lia|].
  rewrite V_mirror by lia. replace (N - (N - k))%nat with k by lia. generalize (cis (phi N k)). intros v. csimp; ring.
Qed.
Lemma hermit_dsp X k : (k < N)%nat -> hermit N (di_in N (V_T N) X) k = dsp X k.
Proof.
  intros Hk. unfold hermit. fold h. destruct (Nat.leb_spec k h) as [H|H].
  - apply di_in_dsp. auto.
  - rewrite di_in_dsp by (pose proof dN; lia). apply dsp_hermit. pose proof dN. lia.
Qed.
Lemma rfft_G_dsp kind X q : meth_inv kind = true -> (q < N)%nat ->
  rfft_G N kind (di_in N (V_T N) X) q = transform kind N (dsp X) q.
Proof.
  intros Hk Hq. pose proof dN. pose proof dh. rewrite rfft_G_exact; auto.
  - unfold transform. rewrite Hk. f_equal. apply DFT_ext. intros j Hj. apply hermit_dsp. auto.
  - apply HL.
  - fold h. rewrite di_in_dsp by lia. apply dsp_h.
Qed.

Definition pos (i : nat) : nat := if Nat.even i then (i / 2)%nat else (N - 1 - i / 2)%nat.
Lemma pos_lt i : (i < N)%nat -> (pos i < N)%nat.
Proof. intros Hi. unfold pos. pose proof (Nat.div_mod i 2 ltac:(lia)). destruct (Nat.even i); lia. Qed.
Lemma pos_inv i : (i < N)%nat -> (if (pos i <? h)%nat then 2 * pos i else 2 * (N - 1 - pos i) + 1)%nat = i.
Proof.
  intros Hi. unfold pos. pose proof dN as EN. pose proof (Nat.div_mod i 2 ltac:(lia)). pose proof (Nat.mod_upper_bound i 2 ltac:(lia)).
  destruct (Nat.even i) eqn:Ee.
  - apply Nat.even_spec in Ee as (q & Eq). replace (i / 2)%nat with q by (symmetry; apply div_2_eq; auto).
    destruct (Nat.ltb_spec q h); lia.
  - assert (Eo : Nat.odd i = true) by (rewrite <- Nat.negb_even, Ee; auto). apply Nat.odd_spec in Eo as (q & Eq).
    replace (i / 2)%nat with q by lia. destruct (Nat.ltb_spec (N - 1 - q) h); lia.
Qed.
Lemma dct_G_pos kind X i : dct_G N kind X i = rfft_G N kind (di_in N (V_T N) X) (pos i).
Proof. unfold dct_G, di_out, pos. destruct (Nat.even i); reflexivity. Qed.

Lemma DFT_dsp X q : (q < N)%nat -> DFT true N (dsp X) q =
  rc (rv X 0 + 2 * rsum (N - 1) (fun k => rv X (S k) * cos (phi N (S k) + 2 * PI * INR (q * S k) / INR N))).
Proof.
  intros Hq. pose proof dpos as HN. assert (HN0 : INR N <> 0) by (apply not_0_INR; lia).
  set (al := fun k => phi N k + 2 * PI * INR (q * k) / INR N).
  assert (Hal : forall k, (k <= N)%nat -> cis (al (N - k)%nat) = cmul ci (cconj (cis (al k)))).
  { intros k Hk. assert (E : al (N - k)%nat = (2 * PI * INR q + PI / 2) - al k).
    { unfold al, phi. rewrite !mult_INR, !minus_INR by lia. field. auto. }
    rewrite E. unfold Rminus. rewrite cis_add, cis_neg, cis_add, cis_2PI_k. unfold cis at 1. rewrite cos_PI2, sin_PI2. csimp; ring. }
  assert (E1 : DFT true N (dsp X) q = cadd (rc (rv X 0)) (csum (N - 1) (fun k => cmul (cis (al (S k))) (rv X (S k), - rv X (N - S k)%nat)))).
  { unfold DFT. replace N with (S (N - 1)) at 1 by lia. rewrite csum_S_l. f_equal.
    - cbn [Nat.mul]. rewrite W_0. unfold dsp. cbn [Nat.eqb]. csimp; ring.
    - apply csum_ext. intros k Hk. unfold dsp. cbn [Nat.eqb]. unfold al. rewrite cis_add. unfold W.
      replace (1 * (2 * PI * INR (S k * q) / INR N)) with (2 * PI * INR (q * S k) / INR N) by (rewrite (Nat.mul_comm q); ring).
      generalize (cis (phi N (S k))) (cis (2 * PI * INR (q * S k) / INR N)). intros u v. csimp; ring. }
  assert (E2 : csum (N - 1) (fun k => cmul (cis (al (S k))) (rv X (S k), - rv X (N - S k)%nat)) =
    csum (N - 1) (fun k => cmul (rc (rv X (S k))) (cadd (cis (al (S k))) (cconj (cis (al (S k))))))).
  { rewrite (csum_ext _ _ (fun k => cadd (cmul (rc (rv X (S k))) (cis (al (S k)))) (cmul (rc (rv X (N - S k)%nat)) (cmul (cneg ci) (cis (al (S k))))))).
    2:{ intros k _. generalize (cis (al (S k))). intros u. csimp; ring. }
    rewrite csum_add. rewrite (csum_rev (N - 1) (fun k => cmul (rc (rv X (N - S k)%nat)) (cmul (cneg ci) (cis (al (S k)))))).
    rewrite <- csum_add. apply csum_ext. intros k Hk.
    replace (N - S (N - 1 - 1 - k))%nat with (S k) by lia. replace (S (N - 1 - 1 - k))%nat with (N - S k)%nat by lia.
    rewrite Hal by lia. generalize (cis (al (S k))). intros u. csimp; ring. }
  rewrite E1, E2. rewrite (csum_ext _ _ (fun k => rc (2 * (rv X (S k) * cos (al (S k)))))).
  2:{ intros k _. unfold cis. csimp; ring. }
  rewrite csum_rc, rsum_mul. unfold al. csimp; ring.
Qed.

Lemma dct_G_exact kind X i : meth_inv kind = true -> (i < N)%nat ->
  dct_G N kind X i = rc (factor (meth_scaling kind) N * DCT3 N (rv X) i).
Proof.
  intros Hk Hi. rewrite dct_G_pos, rfft_G_dsp by (auto using pos_lt). unfold transform. rewrite Hk, DFT_dsp by (apply pos_lt; auto).
  assert (E : rsum (N - 1) (fun k => rv X (S k) * cos (phi N (S k) + 2 * PI * INR (pos i * S k) / INR N)) =
              rsum (N - 1) (fun k => rv X (S k) * cos (PI * INR (S k) * (2 * INR i + 1) / (2 * INR N)))).
  { apply rsum_ext. intros k Hk'. rewrite <- (perm_cos N h (pos i) (S k) dN) by (pose proof dh; auto using pos_lt; lia). rewrite pos_inv by auto. reflexivity. }
  rewrite E. unfold DCT3. csimp; ring.
Qed.

(** ** round trips *)
Lemma transform_real_mirror kind x k : meth_inv kind = false -> isreal x -> (k <= N)%nat ->
  transform kind N x (N - k) = cconj (transform kind N x k).
Proof.
  intros Hk Hx Hle. unfold transform. rewrite Hk. rewrite <- (DFT_real_mirror false N x k) by (auto; apply dpos).
  generalize (DFT false N x k). intros z. csimp; ring.
Qed.
(** the spectrum behind a DCT *)
Lemma dsp_dct_F k1 X k : meth_inv k1 = false -> (k < N)%nat -> dsp (dct_F N k1 X) k = transform k1 N (re_of (df_in N X)) k.
Proof.
  intros Hk1 Hk. set (P := re_of (df_in N X)).
  pose proof dpos as HN. unfold dsp. destruct (Nat.eqb_spec k 0) as [->|H0].
    + unfold rv. rewrite dct_F_Re by auto. fold P.
      assert (E : cis (phi N 0) = @c1 ROps). { rewrite <- cis_0. f_equal. unfold phi. cbn [INR]. unfold Rdiv. ring. }
      rewrite E. pose proof (transform_real_mirror k1 P 0 Hk1 (re_of_real _) ltac:(lia)) as Hm.
      assert (Ep : transform k1 N P (N - 0) = transform k1 N P 0).
      { unfold transform. f_equal. rewrite Nat.sub_0_r. rewrite <- (DFT_period _ N P 0) by auto. f_equal. lia. }
      rewrite Ep in Hm. apply (f_equal snd) in Hm. revert Hm. generalize (transform k1 N P 0). intros [a c]. cbn. intros Hm.
      assert (c = 0) by lra. subst. csimp; ring.
    + unfold rv. rewrite !dct_F_Re by (auto; lia). fold P. rewrite V_mirror, transform_real_mirror by (auto; try lia; apply re_of_real).
      pose proof (cis_unit (phi N k)) as Hc. generalize dependent (cis (phi N k)). generalize (transform k1 N P k). intros [a c] [u v] Hc.
      assert (H1 : u * u + v * v = 1) by (apply (f_equal fst) in Hc; cbn in Hc; lra).
      csimp.
      * transitivity ((u * u + v * v) * a); [ring|]. rewrite H1. ring.
      * transitivity ((u * u + v * v) * c); [ring|]. rewrite H1. ring.
Qed.
Lemma dct_inv_fwd k1 k2 X i : undoes k1 k2 = true -> meth_inv k1 = false -> (i < N)%nat ->
  dct_G N k2 (dct_F N k1 X) i = rc (rv X i).
Proof.
  intros Hu Hk1 Hi.
  assert (Hk2 : meth_inv k2 = true) by (unfold undoes in Hu; rewrite Hk1 in Hu; destruct (meth_inv k2); auto; discriminate).
  rewrite dct_G_pos, rfft_G_dsp by (auto using pos_lt).
  set (P := re_of (df_in N X)).
  rewrite (transform_ext k2 N _ (transform k1 N P)).
  - rewrite (transform_inverse k1 k2) by (auto using pos_lt, dpos). unfold P, re_of, df_in. fold h.
    unfold rv. transitivity (rc (fst (X (if (pos i <? h)%nat then 2 * pos i else 2 * (N - 1 - pos i) + 1)%nat))).
    + destruct (pos i <? h)%nat; reflexivity.
    + rewrite pos_inv by auto. reflexivity.
  - intros k Hk. apply dsp_dct_F; auto.
Qed.
Lemma dct_fwd_inv k1 k2 X i : undoes k2 k1 = true -> meth_inv k1 = false -> (i < N)%nat ->
  dct_F N k1 (dct_G N k2 X) i = rc (rv X i).
Proof.
  intros Hu Hk1 Hi. pose proof dpos as HN. pose proof dN as EN. pose proof dh as Hh.
  assert (Hk2 : meth_inv k2 = true) by (unfold undoes in Hu; rewrite Hk1 in Hu; destruct (meth_inv k2); auto; discriminate).
  rewrite dct_F_Re by auto.
  rewrite (transform_ext k1 N _ (transform k2 N (dsp X))).
  - rewrite (transform_inverse k2 k1) by auto. unfold dsp. destruct (Nat.eqb_spec i 0) as [->|H0].
    + assert (E : cis (phi N 0) = @c1 ROps). { rewrite <- cis_0. f_equal. unfold phi. cbn [INR]. unfold Rdiv. ring. }
      rewrite E. csimp; ring.
    + pose proof (cis_unit (phi N i)) as Hc. generalize dependent (cis (phi N i)). intros [u v] Hc.
      assert (H1 : u * u + v * v = 1) by (apply (f_equal fst) in Hc; cbn in Hc; lra).
      csimp; [|reflexivity]. transitivity ((u * u + v * v) * rv X i); [ring|]. rewrite H1. ring.
  - intros j Hj. unfold re_of, df_in. fold h.
    assert (EG : forall q, (q < N)%nat -> rc (Re (transform k2 N (dsp X) q)) = transform k2 N (dsp X) q).
    { intros q Hq. unfold transform. rewrite Hk2, DFT_dsp by auto. csimp; ring. }
    destruct (Nat.ltb_spec j h).
    + rewrite dct_G_pos. unfold pos. replace (Nat.even (2 * j)) with true by (symmetry; apply Nat.even_spec; exists j; lia).
      rewrite (div_2_eq (2 * j) j eq_refl), rfft_G_dsp by auto. apply EG. auto.
    + rewrite dct_G_pos. unfold pos. replace (Nat.even (2 * (N - 1 - j) + 1)) with false.
      2:{ symmetry. rewrite <- Nat.negb_odd. replace (Nat.odd (2 * (N - 1 - j) + 1)) with true; auto. symmetry. apply Nat.odd_spec. exists (N - 1 - j)%nat. lia. }
      replace ((2 * (N - 1 - j) + 1) / 2)%nat with (N - 1 - j)%nat.
      2:{ replace (2 * (N - 1 - j) + 1)%nat with (1 + (N - 1 - j) * 2)%nat by lia. rewrite Nat.div_add by lia. reflexivity. }
      replace (N - 1 - (N - 1 - j))%nat with j by lia. rewrite rfft_G_dsp by auto. apply EG. auto.
Qed.

Lemma dct_res_exact k X i : (i < N)%nat -> dct_res N k X i = rc (dct_spec k N (rv X) i).
Proof.
  intros Hi. unfold dct_res.
  destruct k; cbn [dmeth_inv dct_kind dct_spec]; rewrite ?dct_F_exact, ?dct_G_exact by auto; cbn [meth_scaling factor]; f_equal; unfold Rdiv; ring.
Qed.
End Dct.
