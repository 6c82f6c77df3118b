(** * Rounding errors of the cosine transform *)

From Coq Require Import Reals ZArith List Arith Bool Lia Lra Psatz Permutation.
From Verif Require Import Scalar RealOps Spec DftFacts Norm Simd Round RoundTab RoundStage RoundPow RoundSix RoundMixed RoundApi.
From Verif Require Import Mem Lanes Stage Object Engine ApiSpec FactorFacts Blocks ModelApi ApiFacts ModelReal RealFacts RealRun RealExact DctRun RealSpec RoundReal.
From Verif Require DctExact PropAccuracy ComplexThms.
Import ListNotations.
Local Open Scope R_scope.
Notation dphi := DctExact.phi.
Notation dsp := DctExact.dsp.

Section Table.
Variables (A : rounding) (bd : build).
Notation F := (fl A bd).
Notation ap := (approx A).
Notation tap := (tapx A).
Notation rd := (rnd A).

Lemma ta_swap a b (x y : R) (z : CC) : tap a b (x, y) z -> tap a b (y, x) (snd z, fst z).
Proof.
  intros [H1 H2]. assert (S : forall p q : R, cabs (q, p) = cabs (p, q)) by (intros p q; unfold cabs; f_equal; unfold cnorm2; cbn [Re Im fst snd]; ring).
  destruct z as [p q]. cbn [fst snd] in *. split; [rewrite S; auto|].
  replace (@csub ROps ((y, x) : CC) ((q, p) : CC)) with ((y - q, x - p) : CC) by (csimp; reflexivity). rewrite S. exact H2.
Qed.
Lemma V_ap N e : (0 < N)%nat -> (Z.of_nat (2 * N) <= 2 ^ 31)%Z -> (e < N + 1)%nat -> tap 0 1 (@V_T F N e) (cis (dphi N e)).
Proof.
  intros HN H31 He. revert e He. unfold V_T.
  apply (tval_prop (@V_es N) (@V_us F N) (V_it N) (@c0 F) (N / 2 + 1) (N + 1) (fun e v => tap 0 1 v (cis (dphi N e)))).
  - reflexivity.
  - intros e He. apply V_cov; auto.
  - intros i Hi. pose proof (Nat.div_mod N 2 ltac:(lia)). assert (HN0 : 0 < INR N) by (apply lt_0_INR; lia).
    unfold V_us, V_es. cbv zeta. set (th := @smul F (@sn F i) (@sdiv F (@spi F) (@sn F (2 * N)))).
    assert (Hr : rel A 5 th (dphi N i)).
    { change th with (rd (rd (IZR (Z.of_nat i)) * rd (c_pi A / rd (IZR (Z.of_nat (2 * N)))))). rewrite !int_ok by lia.
      apply (rel_mono A 3); [lia|]. unfold DctExact.phi. replace (PI * INR i / (2 * INR N)) with (INR i * (PI * / INR (2 * N))) by (rewrite mult_INR; cbn [INR]; field; lra).
      assert (HB : big (PI * / INR (2 * N))).
      { change (big (PI / INR (2 * N))). apply big_quot; auto; [|lia]. rewrite <- (Rmult_1_l PI). apply pi_abs, abs_1. }
      apply rel_rnd; [lia|apply big_natl; exact HB|]. apply rel_mul_l. apply rel_rnd; [lia|exact HB|]. unfold Rdiv. apply rel_mul_r, rel_pi. }
    assert (Hi' : INR i <= INR N) by (apply le_INR; lia). pose proof (pos_INR i). pose proof PI_RGT_0.
    assert (Hb : Rabs (dphi N i) <= 2 * PI).
    { unfold DctExact.phi. rewrite Rabs_right.
      - apply (Rmult_le_reg_r (2 * INR N)); [lra|]. unfold Rdiv. rewrite Rmult_assoc, Rinv_l by lra. nra.
      - apply Rle_ge. apply Rmult_le_pos; [nra|]. apply Rlt_le, Rinv_0_lt_compat. lra. }
    pose proof (ta_root A th (dphi N i) 1 (or_introl eq_refl) Hr Hb) as G. rewrite !Rmult_1_l in G.
    assert (E2 : dphi N (N - i) = PI / 2 - dphi N i) by (unfold DctExact.phi; rewrite minus_INR by lia; field; lra).
    repeat first [apply Forall_cons|apply Forall_nil]; cbn [fst snd].
    + exact G.
    + rewrite E2. unfold cis. rewrite cos_shift, sin_shift. apply (ta_swap 0 1 _ _ (cis (dphi N i))) in G. exact G.
Qed.
End Table.

(** ** norms, exact arithmetic *)
Section Norms.
Variable N : nat.
Hypothesis HL : dct_length N.
Let h := (N / 2)%nat.
Lemma DN : N = (2 * h)%nat. Proof. apply HL. Qed.
Lemma Dh : (2 <= h)%nat. Proof. apply HL. Qed.
Lemma Dpos : (0 < N)%nat. Proof. pose proof DN. pose proof Dh. lia. Qed.

Definition rv2 (X : nat -> CC) (k : nat) : R := DctExact.rv X k * DctExact.rv X k.
Lemma dsp_sq X : rsum N (fun k => cnorm2 (dsp N X k)) = rv2 X 0 + 2 * rsum (N - 1) (fun i => rv2 X (i + 1)).
Proof.
  pose proof Dpos as HN. rewrite (rsum_first N) by auto. f_equal.
  - unfold rv2, DctExact.dsp. cbn [Nat.eqb]. unfold cnorm2. creduce. ring.
  - replace (2 * rsum (N - 1) (fun i => rv2 X (i + 1))) with (rsum (N - 1) (fun i => rv2 X (i + 1)) + rsum (N - 1) (fun i => rv2 X (N - (i + 1)))) by (rewrite (rsum_mirror N (rv2 X)) by auto; ring).
    rewrite <- rsum_add. apply rsum_ext. intros i Hi. unfold DctExact.dsp. destruct (Nat.eqb_spec (i + 1) 0); [lia|].
    rewrite cnorm2_mul, cis_norm. unfold rv2, cnorm2. cbn [Re Im fst snd]. ring.
Qed.
Lemma re_sq X : rsum N (fun k => cnorm2 (re_of X k)) = rv2 X 0 + rsum (N - 1) (fun i => rv2 X (i + 1)).
Proof.
  rewrite (rsum_first N) by apply Dpos. f_equal; [|apply rsum_ext; intros i Hi]; unfold re_of, rv2, cnorm2, DctExact.rv; creduce; ring.
Qed.
Lemma rv2_pos X n : 0 <= rsum n (fun i => rv2 X (i + 1)).
Proof. apply rsum_pos. intros i _. unfold rv2. apply Rle_0_sqr. Qed.
Lemma dsp_le X : nrm N (dsp N X) <= sqrt 2 * nrm N (re_of X).
Proof.
  apply nrm_le; [apply Rmult_le_pos; [apply sqrt_pos|apply nrm_pos]|].
  replace (sqrt 2 * nrm N (re_of X) * (sqrt 2 * nrm N (re_of X))) with ((sqrt 2 * sqrt 2) * (nrm N (re_of X) * nrm N (re_of X))) by ring.
  rewrite sqrt_def, nrm_sq, dsp_sq, re_sq by lra. assert (0 <= rv2 X 0) by apply Rle_0_sqr. lra.
Qed.
Lemma dsp_ge X : nrm N (re_of X) <= nrm N (dsp N X).
Proof.
  apply nrm_le; [apply nrm_pos|]. rewrite nrm_sq, dsp_sq, re_sq. pose proof (rv2_pos X (N - 1)). lra.
Qed.
(** the reordering *)
Lemma df_norm (X : nat -> CC) : nrm N (re_of (df_in N X)) = nrm N (re_of X).
Proof.
  unfold nrm. f_equal. rewrite (DctExact.perm_sum N h (fun j => cnorm2 (re_of X j)) DN). apply rsum_ext. intros e He. unfold re_of, df_in. fold h. destruct (e <? h)%nat; reflexivity.
Qed.
Lemma pos_sigma e : (e < N)%nat -> DctExact.pos N (if (e <? h)%nat then 2 * e else 2 * (N - 1 - e) + 1)%nat = e.
Proof.
  intros He. pose proof DN. unfold DctExact.pos. destruct (Nat.ltb_spec e h).
  - replace (Nat.even (2 * e)) with true by (symmetry; apply Nat.even_spec; exists e; lia). apply div_2_eq. auto.
  - replace (Nat.even (2 * (N - 1 - e) + 1)) with false.
    2:{ symmetry. rewrite <- Nat.negb_odd. replace (Nat.odd (2 * (N - 1 - e) + 1)) with true; auto. symmetry. apply Nat.odd_spec. exists (N - 1 - e)%nat. lia. }
    replace ((2 * (N - 1 - e) + 1) / 2)%nat with (N - 1 - e)%nat; [lia|].
    replace (2 * (N - 1 - e) + 1)%nat with (1 + (N - 1 - e) * 2)%nat by lia. rewrite Nat.div_add by lia. reflexivity.
Qed.
Lemma pos_norm (T : nat -> CC) : nrm N (fun i => T (DctExact.pos N i)) = nrm N T.
Proof.
  unfold nrm. f_equal. rewrite (DctExact.perm_sum N h (fun j => cnorm2 (T (DctExact.pos N j))) DN). apply rsum_ext. intros e He. rewrite pos_sigma by auto. reflexivity.
Qed.
Lemma dct_G_norm kind (X : nat -> CC) : meth_inv kind = true -> nrm N (@dct_G ROps N kind X) = factor (meth_scaling kind) N * sqrt (INR N) * nrm N (dsp N X).
Proof.
  intros Hk. rewrite <- PropAccuracy.nrm_transform by apply Dpos. rewrite <- (pos_norm (transform kind N (dsp N X))). apply nrm_ext. intros i Hi.
  rewrite DctExact.dct_G_pos. apply DctExact.rfft_G_dsp; auto. apply DctExact.pos_lt; auto.
Qed.
Lemma dct_F_norm kind (X : nat -> CC) : meth_inv kind = false -> nrm N (dsp N (@dct_F ROps N kind X)) = factor (meth_scaling kind) N * sqrt (INR N) * nrm N (re_of X).
Proof.
  intros Hk. rewrite <- df_norm, <- PropAccuracy.nrm_transform by apply Dpos. apply nrm_ext. intros i Hi. apply DctExact.dsp_dct_F; auto.
Qed.
End Norms.

(** ** rounded arithmetic *)
Lemma dct_31 N : dct_length N -> (Z.of_nat (2 * N) <= 2 ^ 31)%Z.
Proof.
  intros [_ Hm]. unfold mul_ok in Hm. apply Z.leb_le in Hm. rewrite Nat2Z.inj_mul.
  eapply Z.le_trans; [exact Hm|]. apply Z.leb_le. reflexivity.
Qed.
Section Err.
Variables (A : rounding) (bd : build).
Notation F := (fl A bd).
Notation ap := (approx A).
Notation tap := (tapx A).
Notation rd := (rnd A).

Lemma cs2 a b c d : Rabs (a * c) + Rabs (b * d) <= cabs (a, b) * cabs (c, d).
Proof.
  rewrite !Rabs_mult. pose proof (cabs_sq (a, b)) as H1. pose proof (cabs_sq (c, d)) as H2. unfold cnorm2 in *. cbn [Re Im fst snd] in *.
  apply (tri_sq (Rabs a) (Rabs b)); try apply cabs_pos; rewrite ?H1, ?H2; rewrite <- !Rabs_mult, !(Rabs_right (_ * _)) by (apply Rle_ge, Rle_0_sqr); reflexivity.
Qed.
Lemma rabs_tri x y z : Rabs (x - z) <= Rabs (x - y) + Rabs (y - z).
Proof. replace (x - z) with ((x - y) + (y - z)) by ring. apply Rabs_triang. Qed.
Lemma df_out_ap (v' v z : CC) : tap 0 1 v' v -> 
  Rabs (rd (rd (Re v' * Re z) + rd (Im v' * Im z)) - Re (cmul (cconj v) z)) <= (EE A 2 1 - 1) * (cabs z + psi A).
Proof.
  intros Hv. pose proof (ta_mag _ _ _ _ _ Hv) as HM. destruct Hv as [_ Hd]. destruct v' as [a b], v as [p q], z as [c d]. cbn [Re Im fst snd] in *.
  pose proof (two_prod A (a * c) (b * d)) as H1. pose proof (cs2 a b c d) as H2.
  assert (H3 : Rabs (a * c + b * d - Re (cmul (cconj ((p, q) : CC)) (c, d))) <= cabs (csub ((a, b) : CC) (p, q)) * cabs (c, d)).
  { eapply Rle_trans; [|apply (cs2 (a - p) (b - q) c d)]. eapply Rle_trans; [|apply Rabs_triang]. apply Req_le. f_equal. creduce. ring. }
  pose proof (cabs_pos (c, d)) as Hz. pose proof (psi0 A) as Ps. pose proof (EE_ge1 A 0 1) as HE. pose proof (pow_ge1 (1 + uu A) 2 (U1 A)) as HU.
  assert (E : EE A 2 1 - 1 = ((1 + uu A) ^ 2 - 1) * EE A 0 1 + (EE A 0 1 - 1)) by (unfold EE; cbn [pow]; ring).
  eapply Rle_trans; [apply (rabs_tri _ (a * c + b * d))|]. rewrite E, Rmult_plus_distr_r. apply Rplus_le_compat.
  - eapply Rle_trans; [exact H1|]. rewrite Rmult_assoc. apply Rmult_le_compat_l; [lra|]. change (2 * phi A) with (psi A).
    assert (cabs (a, b) * cabs (c, d) <= EE A 0 1 * cabs (c, d)) by (apply Rmult_le_compat_r; auto). assert (1 * psi A <= EE A 0 1 * psi A) by (apply Rmult_le_compat_r; auto).
    rewrite Rmult_plus_distr_l. apply Rplus_le_compat; [eapply Rle_trans; [exact H2|eassumption]|lra].
  - eapply Rle_trans; [exact H3|]. apply Rmult_le_compat; auto; [apply cabs_pos|lra].
Qed.

Lemma cabs_rc (x : R) : cabs (rc x) = Rabs x.
Proof. unfold cabs, cnorm2. creduce. replace (x * x + 0 * 0) with (Rsqr x) by (unfold Rsqr; ring). apply sqrt_Rsqr_abs. Qed.
Lemma cabs_cis t : cabs (cis t) = 1.
Proof. unfold cabs. rewrite cis_norm. apply sqrt_1. Qed.
Lemma df_out_eq (V' Z : nat -> CC) (t : CC) e : cabs (csub (@df_out F V' Z e : CC) (rc (Re (@cmul ROps (cconj t) (Z e))))) =
  Rabs (rd (rd (Re (V' e) * Re (Z e)) + rd (Im (V' e) * Im (Z e))) - Re (@cmul ROps (cconj t) (Z e))).
Proof.
  unfold df_out. destruct (V' e) as [a b], (Z e) as [c d]. generalize (Re (@cmul ROps (cconj t) (c, d))). intros r.
  unfold rval. change (@s0 F) with (rd (IZR 0)). rewrite rd0. rewrite <- cabs_rc. f_equal.
  cbn [Re Im fst snd]. change (@smul F) with (fun x y => rd (x * y)). change (@sadd F) with (fun x y => rd (x + y)). cbv beta.
  set (w := rd (rd (a * c) + rd (b * d))). clearbody w. unfold mkC. csimp; ring.
Qed.
Lemma df_out_dist (v b c : CC) : cabs v = 1 ->
  cabs (csub (rc (Re (@cmul ROps (cconj v) b))) (rc (Re (@cmul ROps (cconj v) c)))) <= 1 * cabs (csub b c).
Proof.
  intros Hv. rewrite Rmult_1_l. apply Rle_trans with (cabs (@cmul ROps (cconj v) (csub b c))).
  - eapply Rle_trans; [|apply re_abs]. rewrite <- cabs_rc. apply Req_le. f_equal. csimp; ring.
  - rewrite cabs_mul, cabs_conj, Hv. lra.
Qed.
Lemma dct_F_err_gen N (Z' T0 Y' Y : nat -> CC) (V' V : nat -> CC) a b :
  (forall e, (e < N)%nat -> Y' e = @df_out F V' Z' e) ->
  (forall e, (e < N)%nat -> Y e = rc (Re (@cmul ROps (cconj (V e)) (T0 e)))) ->
  (forall e, (e < N)%nat -> tap 0 1 (V' e) (V e)) -> (forall e, cabs (V e) = 1) ->
  (0 < N)%nat -> nrm N (vsub Z' T0) <= (EE A a b - 1) * (nrm N T0 + psi A * INR N) ->
  nrm N (vsub Y' Y) <= (EE A (2 + a) (1 + b) - 1) * (nrm N T0 + psi A * INR N).
Proof.
  intros HY' HY HV HV1 HN H1. pose proof (psi0 A) as Ps.
  set (M := fun e : nat => rc (Re (@cmul ROps (cconj (V e)) (Z' e)))).
  assert (G1 : nrm N (vsub Y' M) <= (EE A 2 1 - 1) * (nrm N Z' + psi A * sqrt (INR N))).
  { pose proof (EE_ge1 A 2 1). apply Rle_trans with ((EE A 2 1 - 1) * nrm N (hat (psi A) 1 Z')).
    - apply nrm_rel; [lra|]. intros e He. unfold vsub, M. rewrite HY' by auto.
      rewrite df_out_eq. rewrite (cabs_hat _ Ps) by lra. rewrite Rmult_1_l. apply df_out_ap. auto.
    - apply Rmult_le_compat_l; [lra|]. eapply Rle_trans; [apply (nrm_hat _ Ps); lra|]. unfold flo. lra. }
  assert (G2 : nrm N (vsub M Y) <= nrm N (vsub Z' T0)).
  { rewrite <- (Rmult_1_l (nrm N (vsub Z' T0))). apply nrm_rel; [lra|]. intros e He. unfold vsub, M. rewrite HY by auto. apply df_out_dist; auto. }
  eapply Rle_trans; [apply (nrm_tri3 _ _ M)|].
  eapply Rle_trans; [apply Rplus_le_compat; [exact G1|exact G2]|].
  pose proof (sqrt_ge1 N HN) as Hs1. assert (Hs2 : sqrt (INR N) <= INR N) by (pose proof (sqrt_sqrt (INR N) (pos_INR N)); nra).
  assert (Hq : 0 <= psi A * sqrt (INR N)) by (apply Rmult_le_pos; lra). assert (HqP : psi A * sqrt (INR N) <= psi A * INR N) by (apply Rmult_le_compat_l; auto).
  pose proof (two_steps (EE A a b) (EE A 2 1) 1 1 (nrm N (vsub Z' T0)) (nrm N T0) (psi A * INR N) (psi A * sqrt (INR N)) (psi A * INR N)
    (EE_ge1 A _ _) (EE_ge1 A _ _) ltac:(lra) (nrm_pos _ _) (nrm_pos _ _) Hq H1 ltac:(lra) HqP) as H2.
  rewrite pow_1, EE_mul in H2.
  change (INR 1) with 1 in H2. rewrite !Rmult_1_l in H2. eapply Rle_trans; [|exact H2]. apply Rplus_le_compat_r. apply Rmult_le_compat_l; [pose proof (EE_ge1 A 2 1); lra|]. pose proof (nrm_near N Z' T0). lra.
Qed.
Lemma dct_F_err N kind qs (X : nat -> CC) : dct_length N -> meth_inv kind = false -> Forall prime qs -> prodl qs = (N / 2)%nat ->
  nrm N (vsub (@dct_F F N kind X) (@dct_F ROps N kind X)) <= (EE A (38 + suml ca qs) (4 + suml cb qs) - 1) * (nrm N (dsp N (@dct_F ROps N kind X)) + psi A * INR N).
Proof.
  intros HL Hk Hq1 Hq2. pose proof (Dpos N HL) as HN. pose proof (dct_31 N HL) as H31.
  pose proof (rfft_F_err1 A bd N kind qs (df_in N X) (proj1 HL) Hk Hq1 Hq2) as H1.
  rewrite (nrm_ext N (dsp N (@dct_F ROps N kind X)) (transform kind N (re_of (df_in N X)))) by (intros i Hi; apply DctExact.dsp_dct_F; auto).
  refine (dct_F_err_gen N _ _ _ _ (@V_T F N) (fun e => cis (dphi N e)) _ _ _ _ _ _ HN H1); cbv beta.
  - intros e He. reflexivity.
  - intros e He. apply DctExact.dct_F_Re; auto.
  - intros e He. apply V_ap; auto; lia.
  - intros e. apply cabs_cis.
Qed.

Lemma cmulT_F (x y : CC) : @cmulT F x y = @cmul (fl A Plain) x y.
Proof. reflexivity. Qed.
Lemma di_in_ap N (X : nat -> CC) k : dct_length N -> (k < N)%nat -> ap 3 1 (@di_in F N (@V_T F N) X k) (dsp N X k) (cabs (dsp N X k) + psi A).
Proof.
  intros HL Hk. pose proof (Dpos N HL) as HN. pose proof (dct_31 N HL) as H31.
  unfold di_in, DctExact.dsp. destruct (Nat.eqb_spec k 0).
  - unfold rval. change (@s0 F) with (rd (IZR 0)). rewrite rd0. change (mkC (Re (X 0%nat)) 0) with (rc (DctExact.rv X 0)).
    eapply ap_mono; [apply ap_id| | |]; first [lia | apply Rle_refl].
  - rewrite cmulT_F. rewrite cabs_mul, cabs_cis. 
    rewrite Rmult_1_l. exact (ap_mul A Plain 0 1 0 0 _ _ _ _ _ (V_ap A bd N k HN H31 ltac:(lia)) (ap_id A (DctExact.rv X k, - DctExact.rv X (N - k)%nat))).
Qed.
Lemma dct_G_err N kind qs (X : nat -> CC) : dct_length N -> meth_inv kind = true -> Forall prime qs -> prodl qs = (N / 2)%nat ->
  nrm N (vsub (@dct_G F N kind X) (@dct_G ROps N kind X)) <= (EE A (59 + suml ca qs) (8 + suml cb qs) - 1) * (nrm N (@dct_G ROps N kind X) + psi A * INR N).
Proof.
  intros HL Hk Hq1 Hq2. pose proof (DN N HL) as EN. pose proof (Dh N HL) as Hh.
  assert (HH : forall k, (k < N)%nat -> hermit N (dsp N X) k = dsp N X k).
  { intros k Hk'. unfold hermit. destruct (Nat.leb_spec k (N / 2)); auto. apply DctExact.dsp_hermit; auto. lia. }
  pose proof (rfft_G_err1 A bd N kind qs 3 1 (@di_in F N (@V_T F N) X) (dsp N X) (proj1 HL) Hk (DctExact.dsp_0 N X) (DctExact.dsp_h N HL X) Hq1 Hq2) as G.
  specialize (G ltac:(intros j Hj; apply di_in_ap; auto; lia)).
  assert (ET : forall q, transform kind N (hermit N (dsp N X)) q = transform kind N (dsp N X) q) by (intros q; apply ComplexThms.transform_ext; auto).
  set (T0 := transform kind N (dsp N X)) in *. set (Y' := @rfft_G F N kind (@di_in F N (@V_T F N) X) : nat -> CC) in *.
  rewrite (nrm_ext N (transform kind N (hermit N (dsp N X))) T0) in G by auto.
  rewrite (nrm_ext N (vsub Y' (transform kind N (hermit N (dsp N X)))) (vsub Y' T0)) in G by (intros i Hi; unfold vsub; rewrite ET; reflexivity).
  assert (ER : forall i, (i < N)%nat -> @dct_G ROps N kind X i = T0 (DctExact.pos N i)).
  { intros i Hi. rewrite DctExact.dct_G_pos. apply DctExact.rfft_G_dsp; auto. apply DctExact.pos_lt; auto. }
  assert (EF : forall i, @dct_G F N kind X i = Y' (DctExact.pos N i)).
  { intros i. unfold dct_G, di_out, DctExact.pos. destruct (Nat.even i); reflexivity. }
  rewrite (nrm_ext N (@dct_G ROps N kind X) (fun i => T0 (DctExact.pos N i))) by auto.
  rewrite (nrm_ext N (vsub (@dct_G F N kind X) (@dct_G ROps N kind X)) (fun i => vsub Y' T0 (DctExact.pos N i))) by (intros i Hi; unfold vsub; rewrite EF, ER; auto).
  rewrite (pos_norm N HL T0), (pos_norm N HL (vsub Y' T0)). eapply Rle_trans; [exact G|]. apply Rmult_le_compat_r; [apply nrm_psi|]. apply Rplus_le_compat_r, EE_mono; lia.
Qed.
End Err.
