(** * Infinities and NaNs in the input of a transform reach its output

    Reading guide: see PropIeee.v.  The hypothesis on bound64 says that the relative error bound is small: for length 1024
    it is below 10^-12 (bound64_1024 below). *)

From Coq Require Import Reals ZArith List Arith Bool Lia Lra Psatz.
From Flocq Require Import Core.Core IEEE754.BinarySingleNaN.
From Verif Require Import PropMysqrt.
From Verif Require Import Scalar RealOps Spec DftFacts Norm Simd Round Mem MemFacts Omp Lanes Stage Object Engine ApiSpec FactorFacts
  ModelApi History ApiFacts ApiExact Footprint ComplexThms ModelReal RealFacts RealRun RealExact GObj RealObj RealSpec RealThms DctRun DctThms
  ModelBluestein BluesteinRun RoundMixed RoundApi PropAccuracy PropRealAccuracy RoundDct PropDctAccuracy PropBluesteinAccuracy Param ParamKern ParamFft Ieee64 PropIeee.
From Verif Require DctExact PropComplex RoundReal.
Import ListNotations.
Local Open Scope R_scope.

(** ** C50: infinities and NaNs are never swallowed *)
Lemma escape a B : 0 < a -> (forall t, 0 <= t -> t * a <= B) -> False.
Proof.
  intros Ha H. pose proof (H 0 ltac:(lra)) as H0. rewrite Rmult_0_l in H0.
  assert (P : 0 <= B / a) by (apply Rmult_le_pos; [exact H0|apply Rlt_le, Rinv_0_lt_compat, Ha]). specialize (H (B / a + 1) ltac:(lra)).
  replace ((B / a + 1) * a) with (B + a) in H by (field; lra). lra.
Qed.
Definition unit_at (j : nat) (c : CC) (i : nat) : CC := if (i =? j)%nat then c else (0, 0).
(** X with t * D added *)
Definition shift (X D : nat -> CC) (t : R) (i : nat) : CC := cadd (X i) (cscal t (D i)).
Lemma transform_shift k N X D t i : transform k N (shift X D t) i = cadd (transform k N X i) (cscal t (transform k N D i)).
Proof.
  transitivity (transform k N (fun j => cadd (cmul c1 (X j)) (cmul (rc t) (D j))) i).
  - apply transform_ext. intros j _. unfold shift. rewrite cscal_rc. csimp; ring.
  - rewrite transform_lin, cscal_rc. generalize (transform k N X i) (transform k N D i). intros a b. csimp; ring.
Qed.
Lemma nrm_shift N X D t : 0 <= t -> nrm N (shift X D t) <= nrm N X + t * nrm N D.
Proof. intros Ht. eapply Rle_trans; [apply nrm_tri|]. rewrite nrm_scal, (Rabs_right t) by lra. apply Rle_refl. Qed.
Lemma nrm_shift_ge N X D t : 0 <= t -> t * nrm N D <= nrm N X + nrm N (shift X D t).
Proof.
  intros Ht. rewrite <- (Rabs_right t) at 1 by lra. rewrite <- nrm_scal.
  rewrite (nrm_ext N (fun i => @cscal ROps t (D i)) (fun i => @cadd ROps (@cneg ROps (X i)) (shift X D t i))).
  - eapply Rle_trans; [apply nrm_tri|]. apply Rplus_le_compat_r. rewrite (nrm_ext N (fun i => @cneg ROps (X i)) (fun i => @cscal ROps (-1) (X i))).
    + rewrite nrm_scal. replace (Rabs (-1)) with 1 by (rewrite Rabs_left; lra). rewrite Rmult_1_l. apply Rle_refl.
    + intros i _. generalize (X i). intros z. csimp; ring.
  - intros i _. unfold shift. generalize (X i) (D i). intros a z. csimp; ring.
Qed.
Lemma transform_unit k N j c i : (j < N)%nat -> cabs (transform k N (unit_at j c) i) = factor (meth_scaling k) N * cabs c.
Proof.
  intros Hj. unfold transform, DFT. rewrite (csum_single N j); auto.
  - unfold unit_at. rewrite Nat.eqb_refl, cabs_scal, cabs_mul, cabs_W. rewrite Rabs_right, Rmult_1_r; [reflexivity|].
    apply Rle_ge, factor_range; lia.
  - intros i' _ Hn. unfold unit_at. destruct (Nat.eqb_spec i' j); [congruence|]. generalize (W (meth_inv k) N (i' * i)). intros w. csimp; ring.
Qed.
Lemma nrm_unit N j c : (j < N)%nat -> nrm N (unit_at j c) = cabs c.
Proof.
  intros Hj. unfold nrm, cabs. f_equal. rewrite (rsum_ext _ _ (fun i => if (i =? j)%nat then cnorm2 c else 0)).
  - assert (G : forall n, rsum n (fun i => if (i =? j)%nat then cnorm2 c else 0) = if (j <? n)%nat then cnorm2 c else 0).
    { induction n as [|n IH]; [reflexivity|]. cbn [rsum]. rewrite IH. destruct (Nat.ltb_spec j n), (Nat.eqb_spec n j), (Nat.ltb_spec j (S n)); try lia; lra. }
    rewrite G. destruct (Nat.ltb_spec j N); [reflexivity|lia].
  - intros i _. unfold unit_at. destruct (i =? j)%nat; [reflexivity|]. change (0 * 0 + 0 * 0 = 0). ring.
Qed.
Lemma factor_pos' k N : (0 < N)%nat -> 0 < factor (meth_scaling k) N.
Proof. intros HN. apply RoundReal.factor_pos; exact HN. Qed.

(** one finite bin is impossible *)
Lemma bin_escape N k e P (F : R -> nat -> CC) X j c i y : 0 <= e -> 0 <= P -> e * sqrt (INR N) < 1 -> (j < N)%nat -> (i < N)%nat -> cabs c = 1 ->
  (forall t, within N e P (F t) (transform k N (shift X (unit_at j c) t))) -> (forall t, F t i = y) -> False.
Proof.
  intros He HP Hs Hj Hi Hc HW HF. assert (HN : (0 < N)%nat) by lia. pose proof (factor_pos' k N HN) as Hf. set (f := factor (meth_scaling k) N) in *.
  apply (escape (f * (1 - e * sqrt (INR N))) (cabs y + cabs (transform k N X i) + e * (f * sqrt (INR N) * nrm N X + P))); [apply Rmult_lt_0_compat; lra|].
  intros t Ht. pose proof (within_i _ _ _ _ _ i (HW t) Hi) as H. rewrite HF in H. rewrite nrm_transform in H by auto. fold f in H.
  rewrite transform_shift in H. set (a := transform k N X i) in *. set (d := transform k N (unit_at j c) i) in *.
  assert (Hd : cabs d = f) by (unfold d; rewrite transform_unit, Hc by auto; fold f; lra).
  assert (H1 : t * f <= cabs y + cabs a + cabs (@csub ROps y (cadd a (@cscal ROps t d)))).
  { rewrite <- Hd. rewrite <- (Rabs_right t) at 1 by lra. rewrite <- cabs_scal. replace (@cscal ROps t d) with (@csub ROps (csub y a) (csub y (cadd a (@cscal ROps t d)))) at 1 by (csimp; ring).
    eapply Rle_trans; [apply cabs_sub|]. apply Rplus_le_compat_r. apply cabs_sub. }
  pose proof (nrm_shift N X (unit_at j c) t Ht) as H2. rewrite nrm_unit, Hc in H2 by auto. pose proof (sqrt_pos (INR N)) as HsP.
  assert (H3 : f * sqrt (INR N) * nrm N (shift X (unit_at j c) t) <= f * sqrt (INR N) * (nrm N X + t * 1)) by (apply Rmult_le_compat_l; [apply Rmult_le_pos; lra|exact H2]).
  assert (H4 : e * (f * sqrt (INR N) * nrm N (shift X (unit_at j c) t) + P) <= e * (f * sqrt (INR N) * (nrm N X + t * 1) + P)) by (apply Rmult_le_compat_l; lra).
  nra.
Qed.
(** all outputs finite is impossible *)
Lemma all_escape N e P (F T : R -> nat -> CC) (X D : nat -> CC) a b Y : 0 <= e -> 0 <= P -> e < 1 -> 0 < a -> 0 < nrm N D ->
  (forall t, 0 <= t -> a * nrm N (shift X D t) <= nrm N (T t) + b) ->
  (forall t, within N e P (F t) (T t)) -> (forall t i, (i < N)%nat -> F t i = Y i) -> False.
Proof.
  intros He HP Hs Ha HD HT HW HF. apply (escape (nrm N D) (nrm N X + ((nrm N Y + e * P) / (1 - e) + b) / a)); [exact HD|].
  intros t Ht. eapply Rle_trans; [apply (nrm_shift_ge N X D t Ht)|]. apply Rplus_le_compat_l. apply (Rmult_le_reg_l a); [exact Ha|].
  eapply Rle_trans; [apply (HT t Ht)|]. replace (a * (((nrm N Y + e * P) / (1 - e) + b) / a)) with ((nrm N Y + e * P) / (1 - e) + b) by (field; lra).
  apply Rplus_le_compat_r. specialize (HW t). unfold within in HW.
  assert (H1 : nrm N (T t) <= nrm N Y + nrm N (vsub (F t) (T t))).
  { rewrite (nrm_vsub_sym N (F t)). rewrite <- (nrm_ext N (F t) Y) by (intros; apply HF; auto). apply nrm_near. }
  change (nrm N (vsub (F t) (T t)) <= e * (nrm N (T t) + P)) in HW.
  apply (Rmult_le_reg_r (1 - e)); [lra|]. unfold Rdiv. rewrite (Rmult_assoc (nrm N Y + e * P)), Rinv_l by lra.
  set (d := nrm N (vsub (F t) (T t))) in *. set (nt := nrm N (T t)) in *. clearbody d nt. lra.
Qed.

Section Swallow.
Variables (dc ds : double -> double) (la : R) (L : libm dc ds la) (bd : build).
Notation A := (real64 dc ds la L).
Notation VRf := (@VR (ieee dc ds bd) (fl A bd) Rf).
(** the direction in which a part that is not finite can be anything *)
Definition dirc (z : dcomplex) : CC := if is_finite (fst z) then (0, 1) else (1, 0).
Lemma dirc_1 z : cabs (dirc z) = 1.
Proof. unfold cabs, cnorm2, dirc. destruct (is_finite (fst z)); [change (sqrt (0 * 0 + 1 * 1) = 1)|change (sqrt (1 * 1 + 0 * 0) = 1)]; (transitivity (sqrt 1); [f_equal; ring|apply sqrt_1]). Qed.
Lemma dirc_real (z : dcomplex) : ~ finite_c z -> is_finite (snd z) = true -> snd (dirc z) = 0.
Proof. unfold dirc, finite_c. intros Hn Hs. destruct (is_finite (fst z)); [tauto|reflexivity]. Qed.
Lemma VR_shift (X : nat -> dcomplex) j t : ~ finite_c (X j) -> VRf X (shift (fun i => val (X i)) (unit_at j (dirc (X j))) t).
Proof.
  intros Hn i. unfold shift, unit_at. destruct (Nat.eqb_spec i j) as [->|].
  - unfold finite_c in Hn. unfold dirc. split.
    + intros F. change (is_finite (fst (X j)) = true) in F. rewrite F. change (B2R (fst (X j)) = B2R (fst (X j)) + t * 0). ring.
    + intros F. change (is_finite (snd (X j)) = true) in F. destruct (is_finite (fst (X j))); [tauto|]. change (B2R (snd (X j)) = B2R (snd (X j)) + t * 0). ring.
  - split; intros F; [change (B2R (fst (X i)) = B2R (fst (X i)) + t * 0)|change (B2R (snd (X i)) = B2R (snd (X i)) + t * 0)]; ring.
Qed.
Lemma VR_fix N (Y : nat -> dcomplex) (F : R -> nat -> CC) : (forall t, VRf Y (F t)) -> (forall i, (i < N)%nat -> finite_c (Y i)) -> forall t i, (i < N)%nat -> F t i = val (Y i).
Proof. intros H Hf t i Hi. symmetry. apply (CR_fin dc ds la L bd). apply H. apply Hf, Hi. Qed.
End Swallow.

(** ComplexFFT: if the input has an infinity or a NaN anywhere, then every output bin has one *)
Theorem C50_complex_nonfinite : forall dc ds lam, libm dc ds lam -> forall bd b N k x (m : mem (@C (ieee dc ds bd))) X ps j,
  valid_length N -> fft_history b (Some N) m -> ~ fft_own b (fst x) -> holds m x N X -> factorisation ps N ->
  bound64 lam ps * sqrt (INR N) < 1 -> (j < N)%nat -> ~ finite_c (X j) ->
  exists m' Y, Outcome (@fft_run (ieee dc ds bd) b N k x) m m' /\ holds m' x N Y /\ forall i, (i < N)%nat -> ~ finite_c (Y i).
Proof.
  intros dc ds lam L bd b N k x m X ps j HN Hh Hx HX Hp He Hj Hn. destruct (fft_call_any b N k x m X HN Hh Hx HX) as (m' & H1 & H2 & _).
  exists m', (@fft0_F (ieee dc ds bd) N k X). split; [exact H1|]. split; [exact H2|]. intros i Hi Hf.
  eapply (bin_escape N k (bound64 lam ps) (floor64 N) (fun t => @fft0_F (fl (real64 dc ds lam L) bd) N k (shift (fun i => val (X i)) (unit_at j (dirc (X j))) t))).
  - apply (bound_pos (real64 dc ds lam L)).
  - apply (floor_pos (real64 dc ds lam L)).
  - exact He.
  - exact Hj.
  - exact Hi.
  - apply dirc_1.
  - intros t. apply (fft_within (real64 dc ds lam L)); auto.
  - intros t. symmetry. apply (CR_fin dc ds lam L bd (@fft0_F (ieee dc ds bd) N k X i)); [|exact Hf].
    apply (fft0_F_p (ieee_sim dc ds lam L bd)); auto. apply VR_shift. exact Hn.
Qed.
Print Assumptions C50_complex_nonfinite.

Lemma forallb_exists_false {T} (f : T -> bool) l : forallb f l = false -> exists x, In x l /\ f x = false.
Proof.
  induction l as [|a l IH]; cbn; [discriminate|]. destruct (f a) eqn:E; [|exists a; auto]. cbn. intros H. destruct (IH H) as (x & Hx & Hf). exists x. auto.
Qed.
(** RealFFT, forward methods: the same *)
Definition put (w : nat -> R) (j : nat) (t : R) (i : nat) : R := if (i =? j)%nat then w i + t else w i.
Lemma put_shift w j t : (fun i => rc (put w j t i)) = shift (fun i => rc (w i)) (unit_at j (1, 0)) t.
Proof.
  apply FunctionalExtensionality.functional_extensionality. intros i. unfold put, shift, unit_at. destruct (i =? j)%nat; csimp; ring.
Qed.
Lemma cabs_10 : cabs (1, 0) = 1.
Proof. change (sqrt (1 * 1 + 0 * 0) = 1). transitivity (sqrt 1); [f_equal; ring|apply sqrt_1]. Qed.
Lemma VR_put dc ds la L bd (v : nat -> double) j t : is_finite (v j) = false ->
  @VR (ieee dc ds bd) (fl (real64 dc ds la L) bd) Rf (fun i => @rval (ieee dc ds bd) (v i)) (fun i => rc (put (fun i => B2R (v i)) j t i)).
Proof.
  intros Hn i. split; intros F; [|reflexivity]. change (is_finite (v i) = true) in F. change (B2R (v i) = put (fun i => B2R (v i)) j t i).
  unfold put. destruct (Nat.eqb_spec i j) as [->|]; [congruence|reflexivity].
Qed.
Theorem C50_real_nonfinite : forall dc ds lam, libm dc ds lam -> forall bd b N k x y (m : mem (@C (ieee dc ds bd))) (v : nat -> double) ps j,
  real_length N -> meth_inv k = false -> rfft_history b (Some N) m ->
  ~ fft_own b (fst x) -> ~ fft_own b (fst y) -> disjR x N y N -> allocd m (inR y N) ->
  holds m x N (fun j => @rval (ieee dc ds bd) (v j)) -> factorisation ps N ->
  bound64 lam ps * sqrt (INR N) < 1 -> (j < N)%nat -> is_finite (v j) = false ->
  exists m' Y, Outcome (@rfft_run (ieee dc ds bd) b N k x y) m m' /\ holds m' y N Y /\ forall i, (i < N)%nat -> ~ finite_c (Y i).
Proof.
  intros dc ds lam L bd b N k x y m v ps j HN Hk Hh Hx Hy Hd Ha HX Hp He Hj Hn.
  destruct (rfft_call_ok b N k x y m _ HN Hh Hx Hy Hd Ha HX) as (m' & H1 & H2 & _). unfold rfft_res in H2. rewrite Hk in H2.
  eexists m', _. split; [exact H1|]. split; [exact H2|]. intros i Hi Hf.
  eapply (bin_escape N k (bound64 lam ps) (floor64 N) (fun t => @rfft_F (fl (real64 dc ds lam L) bd) N k (fun i => rc (put (fun i => B2R (v i)) j t i))) (fun i => rc (B2R (v i))) j (1, 0)).
  - apply (bound_pos (real64 dc ds lam L)).
  - apply (floor_pos (real64 dc ds lam L)).
  - exact He.
  - exact Hj.
  - exact Hi.
  - apply cabs_10.
  - intros t. rewrite <- (put_shift (fun i => B2R (v i))). apply (rfft_F_within (real64 dc ds lam L)); auto.
  - intros t. symmetry. eapply (CR_fin dc ds lam L bd); [|exact Hf]. apply (rfft_F_p (ieee_sim dc ds lam L bd)); auto. apply VR_put. exact Hn.
Qed.
Print Assumptions C50_real_nonfinite.

(** RealFFT, inverse methods: some output is not finite.  The input is the spectrum of real data: X (N - i) is the conjugate
    of X i (sign of the imaginary part flipped), and the imaginary parts of X 0 and X (N/2) are zeros. *)
Definition real_spectrum (N : nat) (X : nat -> dcomplex) : Prop :=
  (is_finite (snd (X 0%nat)) = true /\ B2R (snd (X 0%nat)) = 0) /\
  (is_finite (snd (X (N / 2)%nat)) = true /\ B2R (snd (X (N / 2)%nat)) = 0) /\
  forall i, (0 < i < N)%nat -> i <> (N / 2)%nat -> X (N - i)%nat = (fst (X i), Bopp (snd (X i))).
Definition both (N j : nat) (c : CC) (i : nat) : CC := if (i =? j)%nat then c else if (i =? N - j)%nat && negb (j =? 0)%nat then cconj c else (0, 0).
Lemma both_herm N j c (X : nat -> CC) t : N = (2 * (N / 2))%nat -> (j < N)%nat -> (j = 0%nat \/ j = (N / 2)%nat -> snd c = 0) ->
  hermitian N X -> hermitian N (shift X (both N j c) t).
Proof.
  intros EN Hj Hc [H0 H]. split.
  - unfold shift, both. destruct (Nat.eqb_spec 0 j) as [<-|].
    + change (snd (X 0%nat) + t * snd c = 0). rewrite Hc by auto. change (snd (X 0%nat) = 0) in H0. rewrite H0. ring.
    + destruct (Nat.eqb_spec 0 (N - j)); [lia|]. cbn [andb]. change (snd (X 0%nat) + t * 0 = 0). change (snd (X 0%nat) = 0) in H0. rewrite H0. ring.
  - intros i Hi. unfold shift, both. rewrite (H i Hi). generalize (X i). intros z.
    destruct (Nat.eqb_spec (N - i) j); destruct (Nat.eqb_spec i j); destruct (Nat.eqb_spec (N - i) (N - j)); destruct (Nat.eqb_spec i (N - j)); destruct (Nat.eqb_spec j 0); cbn [andb negb]; try lia; try (csimp; ring).
    assert (E : snd c = 0) by (apply Hc; right; lia). destruct c as [a c]. cbn [snd] in E. subst c. csimp; ring.
Qed.
Lemma nf_neg (f : double) : is_finite (Bopp f) = true -> is_finite f = true.
Proof. rewrite is_finite_Bopp. auto. Qed.
Lemma VR_both dc ds la L bd N (X : nat -> dcomplex) j t : N = (2 * (N / 2))%nat -> (j < N)%nat -> real_spectrum N X -> ~ finite_c (X j) ->
  @VR (ieee dc ds bd) (fl (real64 dc ds la L) bd) Rf X (shift (fun i => val (X i)) (both N j (dirc (X j))) t).
Proof.
  intros EN Hj (H0 & Hh & HH) Hn i. unfold shift, both. destruct (Nat.eqb_spec i j) as [->|Hij]; [|destruct (Nat.eqb_spec i (N - j)) as [->|]; [destruct (Nat.eqb_spec j 0) as [->|Hj0]|]]; cbn [andb negb].
  - unfold finite_c in Hn. unfold dirc. split.
    + intros F. change (is_finite (fst (X j)) = true) in F. rewrite F. change (B2R (fst (X j)) = B2R (fst (X j)) + t * 0). ring.
    + intros F. change (is_finite (snd (X j)) = true) in F. destruct (is_finite (fst (X j))); [tauto|]. change (B2R (snd (X j)) = B2R (snd (X j)) + t * 0). ring.
  - set (z := X (N - 0)%nat). split; intros F; [change (B2R (fst z) = B2R (fst z) + t * 0)|change (B2R (snd z) = B2R (snd z) + t * 0)]; ring.
  - assert (E : X (N - j)%nat = (fst (X j), Bopp (snd (X j)))) by (apply HH; lia). rewrite E. unfold finite_c in Hn. unfold dirc. split.
    + intros F. change (is_finite (fst (X j)) = true) in F. rewrite F. change (B2R (fst (X j)) = B2R (fst (X j)) + t * 0). ring.
    + intros F. change (is_finite (Bopp (snd (X j))) = true) in F. apply nf_neg in F. destruct (is_finite (fst (X j))); [tauto|]. change (B2R (Bopp (snd (X j))) = B2R (Bopp (snd (X j))) + t * - 0). ring.
  - split; intros F; [change (B2R (fst (X i)) = B2R (fst (X i)) + t * 0)|change (B2R (snd (X i)) = B2R (snd (X i)) + t * 0)]; ring.
Qed.
Lemma spectrum_hermitian N X : N = (2 * (N / 2))%nat -> (2 <= N)%nat -> real_spectrum N X -> hermitian N (fun i => val (X i)).
Proof.
  intros EN HN ((_ & H0) & (_ & Hh) & HH). split; [exact H0|]. intros i Hi. destruct (Nat.eq_dec i (N / 2)) as [->|Hn].
  - replace (N - N / 2)%nat with (N / 2)%nat by lia. change ((B2R (fst (X (N / 2)%nat)), B2R (snd (X (N / 2)%nat))) = (B2R (fst (X (N / 2)%nat)), - B2R (snd (X (N / 2)%nat)))).
    rewrite Hh, Ropp_0. reflexivity.
  - rewrite (HH i Hi Hn). change ((B2R (fst (X i)), B2R (Bopp (snd (X i)))) = (B2R (fst (X i)), - B2R (snd (X i)))). rewrite B2R_Bopp. reflexivity.
Qed.
Theorem C50_real_inverse_nonfinite : forall dc ds lam, libm dc ds lam -> forall bd b N k x y (m : mem (@C (ieee dc ds bd))) X ps j,
  real_length N -> meth_inv k = true -> rfft_history b (Some N) m ->
  ~ fft_own b (fst x) -> ~ fft_own b (fst y) -> disjR x N y N -> allocd m (inR y N) ->
  holds m x N X -> real_spectrum N X -> factorisation ps N ->
  bound64 lam ps < 1 -> (j < N)%nat -> ~ finite_c (X j) ->
  exists m' r, Outcome (@rfft_run (ieee dc ds bd) b N k x y) m m' /\ holds m' y N (fun j => @rval (ieee dc ds bd) (r j)) /\
    exists i, (i < N)%nat /\ is_finite (r i) = false.
Proof.
  intros dc ds lam L bd b N k x y m X ps j HN Hk Hh Hx Hy Hd Ha HX HS Hp He Hj Hn.
  destruct (rfft_call_ok b N k x y m _ HN Hh Hx Hy Hd Ha HX) as (m' & H1 & H2 & _). unfold rfft_res in H2. rewrite Hk in H2.
  exists m', (fun j => Re (@rfft_G (ieee dc ds bd) N k X j)). split; [exact H1|]. split; [exact H2|].
  assert (EN : N = (2 * (N / 2))%nat) by apply HN. assert (HN2 : (2 <= N)%nat) by (destruct HN as (_ & _ & HV); destruct HV; lia).
  destruct (forallb (fun i => is_finite (Re (@rfft_G (ieee dc ds bd) N k X i))) (seq 0 N)) eqn:EF.
  2:{ apply forallb_exists_false in EF. destruct EF as (i & Hi & HF). apply in_seq in Hi. exists i. split; [lia|exact HF]. }
  exfalso. rewrite forallb_forall in EF.
  assert (Hc : j = 0%nat \/ j = (N / 2)%nat -> snd (dirc (X j)) = 0).
  { intros HJ. apply (dirc_real _ Hn). destruct HJ as [-> | ->]; apply HS. }
  set (Xt := shift (fun i => val (X i)) (both N j (dirc (X j)))).
  apply (all_escape N (bound64 lam ps) (floor64 N) (fun t => @rfft_G (fl (real64 dc ds lam L) bd) N k (Xt t)) (fun t => transform k N (Xt t))
    (fun i => val (X i)) (both N j (dirc (X j))) (factor (meth_scaling k) N * sqrt (INR N)) 0 (fun i => val (@rfft_G (ieee dc ds bd) N k X i))).
  - apply (bound_pos (real64 dc ds lam L)).
  - apply (floor_pos (real64 dc ds lam L)).
  - exact He.
  - apply Rmult_lt_0_compat; [apply factor_pos'; lia|]. apply sqrt_lt_R0. apply lt_0_INR. lia.
  - apply Rlt_le_trans with (cabs (both N j (dirc (X j)) j)); [|apply nrm_i; auto]. unfold both. rewrite Nat.eqb_refl, dirc_1. lra.
  - intros t Ht. rewrite nrm_transform by lia. unfold Xt. apply Req_le. ring.
  - intros t. apply (rfft_G_within (real64 dc ds lam L)); auto. apply both_herm; auto. apply spectrum_hermitian; auto.
  - intros t i Hi. symmetry. apply (CR_fin dc ds lam L bd).
    + apply (rfft_G_p (ieee_sim dc ds lam L bd)); auto. apply VR_both; auto.
    + split; [apply EF, in_seq; lia|reflexivity].
Qed.
Print Assumptions C50_real_inverse_nonfinite.

(** RealDCT: some output is not finite *)
Theorem C50_dct_nonfinite : forall dc ds lam, libm dc ds lam -> forall bd b N k x (m : mem (@C (ieee dc ds bd))) (v : nat -> double) ps j,
  dct_length N -> dct_history b (Some N) m -> ~ dct_own b (fst x) -> holds m x N (fun j => @rval (ieee dc ds bd) (v j)) -> factorisation ps N ->
  dct_bound64 lam ps k < 1 -> (j < N)%nat -> is_finite (v j) = false ->
  exists m' r, Outcome (@dct_run (ieee dc ds bd) b N k x) m m' /\ holds m' x N (fun j => @rval (ieee dc ds bd) (r j)) /\
    exists i, (i < N)%nat /\ is_finite (r i) = false.
Proof.
  intros dc ds lam L bd b N k x m v ps j HN Hh Hx HX Hp He Hj Hn. destruct (dct_call_ok b N k x m _ HN Hh Hx HX) as (m' & H1 & H2 & _).
  set (Y := @dct_res (ieee dc ds bd) N k (fun j => @rval (ieee dc ds bd) (v j))) in *.
  exists m', (fun j => Re (Y j)). split; [exact H1|]. split.
  { intros i Hi. unfold Y. rewrite <- dct_rval. apply H2, Hi. }
  destruct (forallb (fun i => is_finite (Re (Y i))) (seq 0 N)) eqn:EF.
  2:{ apply forallb_exists_false in EF. destruct EF as (i & Hi & HF). apply in_seq in Hi. exists i. split; [lia|exact HF]. }
  exfalso. rewrite forallb_forall in EF. assert (HN0 : (0 < N)%nat) by lia.
  assert (HfN : 0 < factor (meth_scaling (dct_kind k)) N * sqrt (INR N)) by (apply Rmult_lt_0_compat; [apply factor_pos'; lia|apply sqrt_lt_R0, lt_0_INR; lia]).
  assert (S2 : 1 <= sqrt 2) by (rewrite <- sqrt_1 at 1; apply sqrt_le_1_alt; lra).
  set (w := fun t => put (fun i => B2R (v i)) j t).
  apply (all_escape N (dct_bound64 lam ps k) (floor64 N) (fun t => @dct_res (fl (real64 dc ds lam L) bd) N k (fun i => rc (w t i))) (fun t i => rc (dct_spec k N (w t) i))
    (fun i => rc (B2R (v i))) (unit_at j (1, 0)) (factor (meth_scaling (dct_kind k)) N * sqrt (INR N) / sqrt 2) 0 (fun i => val (Y i))).
  - pose proof (bound_pos (real64 dc ds lam L) ps) as HB. rewrite bound_eq in HB. unfold dct_bound64. destruct k; try exact HB; apply Rmult_le_pos; lra.
  - apply (floor_pos (real64 dc ds lam L)).
  - exact He.
  - apply Rmult_lt_0_compat; [exact HfN|]. apply Rinv_0_lt_compat. lra.
  - rewrite nrm_unit, cabs_10 by auto. lra.
  - intros t Ht. rewrite <- (put_shift (fun i => B2R (v i))). fold (w t). rewrite Rplus_0_r.
    rewrite (nrm_ext N (fun i => rc (dct_spec k N (w t) i)) (@dct_res ROps N k (fun i => rc (w t i)))) by (intros; symmetry; apply spec_res; auto).
    set (g := factor (meth_scaling (dct_kind k)) N * sqrt (INR N)) in *. apply (Rmult_le_reg_l (sqrt 2)); [lra|].
    replace (sqrt 2 * (g / sqrt 2 * nrm N (fun i => rc (w t i)))) with (g * nrm N (fun i => rc (w t i))) by (field; lra).
    unfold dct_res. destruct (dmeth_inv k) eqn:Ek.
    + assert (Ek' : meth_inv (dct_kind k) = true) by (destruct k; auto; discriminate). rewrite dct_G_norm by auto. fold g.
      pose proof (dsp_ge N HN (fun i => rc (w t i))) as G. rewrite re_of_vec in G by apply vec_rc. pose proof (nrm_pos N (dsp N (fun i => rc (w t i)))) as G0.
      assert (g * nrm N (fun i => rc (w t i)) <= g * nrm N (dsp N (fun i => rc (w t i)))) by (apply Rmult_le_compat_l; lra).
      assert (1 * (g * nrm N (dsp N (fun i => rc (w t i)))) <= sqrt 2 * (g * nrm N (dsp N (fun i => rc (w t i))))) by (apply Rmult_le_compat_r; [apply Rmult_le_pos; lra|lra]). lra.
    + assert (Ek' : meth_inv (dct_kind k) = false) by (destruct k; auto; discriminate).
      pose proof (dct_F_norm N HN (dct_kind k) (fun i => rc (w t i)) Ek') as G. rewrite re_of_vec in G by apply vec_rc. fold g in G.
      pose proof (dsp_le N HN (@dct_F ROps N (dct_kind k) (fun i => rc (w t i)))) as G2. rewrite re_of_vec in G2 by apply vec_F0. rewrite G in G2. exact G2.
  - intros t. rewrite <- (dct_bound_eq dc ds lam L). apply (dct_within (real64 dc ds lam L)); auto.
  - intros t i Hi. symmetry. apply (CR_fin dc ds lam L bd).
    + apply (dct_res_p (ieee_sim dc ds lam L bd)); auto. apply VR_put. exact Hn.
    + split; [apply EF, in_seq; lia|]. unfold Y. rewrite dct_rval. reflexivity.
Qed.
Print Assumptions C50_dct_nonfinite.

(** Bluestein: every output bin *)
Theorem C50_bluestein_nonfinite : forall dc ds lam, libm dc ds lam -> forall bd b N k x (m : mem (@C (ieee dc ds bd))) X l j,
  bl_length N -> bl_history b (Some N) m -> ~ bl_own b (fst x) -> holds m x N X -> padded N l ->
  bl_bound64 lam l * sqrt (INR N) < 1 -> (j < N)%nat -> ~ finite_c (X j) ->
  exists m' Y, Outcome (@bl_run (ieee dc ds bd) b N k x) m m' /\ holds m' x N Y /\ forall i, (i < N)%nat -> ~ finite_c (Y i).
Proof.
  intros dc ds lam L bd b N k x m X l j HN Hh Hx HX Hl He Hj Hn. destruct (bl_call_ok b N k x m X HN Hh Hx HX) as (m' & H1 & H2 & _).
  exists m', (@bl_F (ieee dc ds bd) N k X). split; [exact H1|]. split; [exact H2|]. intros i Hi Hf.
  eapply (bin_escape N k (bl_bound64 lam l) (bl_floor64 l) (fun t => @bl_F (fl (real64 dc ds lam L) bd) N k (shift (fun i => val (X i)) (unit_at j (dirc (X j))) t))).
  - apply (bb_pos (real64 dc ds lam L)).
  - apply (blf_pos (real64 dc ds lam L)).
  - exact He.
  - exact Hj.
  - exact Hi.
  - apply dirc_1.
  - intros t. apply (bl_within (real64 dc ds lam L)); auto.
  - intros t. symmetry. apply (CR_fin dc ds lam L bd (@bl_F (ieee dc ds bd) N k X i)); [|exact Hf].
    apply (bl_F_p (ieee_sim dc ds lam L bd)); auto. apply VR_shift. exact Hn.
Qed.
Print Assumptions C50_bluestein_nonfinite.

(** the hypotheses are met: length 1024, correctly rounded cos and sin, any build, any object history *)
Example C50_example : forall bd b k x, ~ fft_own b (fst x) -> exists (m : mem (@C (ieee (ideal cos) (ideal sin) bd))) X m' Y,
  fft_history b (Some 1024%nat) m /\ holds m x 1024 X /\ X 7%nat = (B754_nan, B754_zero false) /\
  Outcome (@fft_run (ieee (ideal cos) (ideal sin) bd) b 1024 k x) m m' /\ holds m' x 1024 Y /\ forall i, (i < 1024)%nat -> ~ finite_c (Y i).
Proof.
  intros bd b k x Hx. set (X := fun i : nat => if (i =? 7)%nat then (B754_nan, B754_zero false) else (B754_zero false, B754_zero false) : dcomplex).
  destruct (PropComplex.complex_hypotheses_met (ieee (ideal cos) (ideal sin) bd) b 1024 x X Hx) as (m & H1 & H2).
  destruct (C50_complex_nonfinite _ _ _ libm_ideal bd b 1024 k x m X (repeat 2%nat 10) 7) as (m' & Y & H3 & H4 & H5); auto.
  - apply (proj1 PropComplex.valid_lengths 10%nat). lia.
  - apply factorisation_1024.
  - pose proof bound64_1024 as HB. assert (HS : sqrt (INR 1024) <= 1024).
    { apply sq_le; [lra|]. rewrite sqrt_def by apply pos_INR. rewrite INR_IZR_INZ. change (Z.of_nat 1024) with 1024%Z. lra. }
    pose proof (bound_pos (real64 _ _ _ libm_ideal) (repeat 2%nat 10)) as HP. rewrite bound_eq in HP. pose proof (sqrt_pos (INR 1024)).
    apply Rle_lt_trans with (/ 10 ^ 12 * 1024); [apply Rmult_le_compat; auto|]. rewrite (pow_IZR 10 12). change (10 ^ Z.of_nat 12)%Z with 1000000000000%Z. lra.
  - lia.
  - unfold X, finite_c. cbn. intros [H _]. discriminate.
  - exists m, X, m', Y. split; [exact H1|]. split; [exact H2|]. split; [reflexivity|]. auto.
Qed.
