(** * C57, further symmetries: modulation, reversal, Hermitian and real data *)

From Coq Require Import Reals List Arith ZArith Bool Lia Lra.
From Verif Require Import Scalar RealOps Spec DftFacts Mem MemFacts Omp Lanes Stage Object Engine ApiSpec FactorFacts
  ModelApi History ApiFacts ApiExact Footprint ComplexThms PropComplex PropConvolution RealExact.
Import ListNotations.

Lemma DFT_mod inv N X i : 0 < N -> DFT inv N X (i mod N) = DFT inv N X i.
Proof.
  intros HN. unfold DFT. apply csum_ext. intros n _. f_equal. apply W_cong; [exact HN|]. rewrite Nat.mul_mod_idemp_r by lia. reflexivity.
Qed.
Lemma DFT_modulate inv N X s i : 0 < N -> s <= N ->
  DFT inv N (fun n => cmul (X n) (W (negb inv) N (n * s))) i = DFT inv N X ((i + (N - s)) mod N).
Proof.
  intros HN Hs. rewrite DFT_mod by exact HN. unfold DFT. apply csum_ext. intros n Hn. rewrite W_negb_mul by auto.
  transitivity (cmul (X n) (cmul (W inv N (n * i)) (W inv N (n * (N - s))))); [ring|]. rewrite <- W_add. do 2 f_equal. lia.
Qed.
Lemma DFT_reverse inv N X i : 0 < N -> i < N -> DFT inv N (fun n => X ((N - n) mod N)) i = DFT inv N X ((N - i) mod N).
Proof.
  intros HN Hi. assert (HNr : (0 < INR N)%R) by (apply lt_0_INR; auto).
  rewrite (DFT_ext inv N _ (fun n => cmul (rc (/ INR N)%R) (DFT inv N (DFT inv N X) n))).
  - rewrite DFT_scal, DFT_twice by auto. generalize (DFT inv N X ((N - i) mod N)). intros z. csimp; field; lra.
  - intros n Hn. rewrite DFT_twice by auto. generalize (X ((N - n) mod N)). intros z. csimp; field; lra.
Qed.

(** multiplying element n by exp(+- 2 pi i s n / N) (+ for the forward methods) moves the spectrum up by s places, cyclically *)
Theorem C57_modulation : forall k b N s x (mX mY : mem CC) X,
  valid_length N -> s <= N -> fft_history b (Some N) mX -> fft_history b (Some N) mY -> ~ fft_own b (fst x) ->
  holds mX x N X -> holds mY x N (fun n => cmul (X n) (cis ((if meth_inv k then -1 else 1) * (2 * PI * INR (n * s) / INR N)))) ->
  exists mX' mY' X', Outcome (fft_run b N k x) mX mX' /\ Outcome (fft_run b N k x) mY mY' /\ holds mX' x N X' /\
    holds mY' x N (fun i => X' ((i + (N - s)) mod N)).
Proof.
  intros k b N s x mX mY X HN Hs H1 H2 Hx A1 A2. assert (HNp : 0 < N) by (unfold valid_length in HN; lia).
  destruct (fft_call b N k x mX X HN H1 Hx A1) as (m1 & O1 & R1 & _).
  destruct (fft_call b N k x mY _ HN H2 Hx A2) as (m2 & O2 & R2 & _).
  exists m1, m2, (transform k N X). split; [exact O1|]. split; [exact O2|]. split; [exact R1|]. intros i Hi. rewrite (R2 i Hi). f_equal.
  unfold transform. rewrite <- DFT_modulate by auto. f_equal. apply DFT_ext. intros n Hn. unfold W. destruct (meth_inv k); reflexivity.
Qed.
Print Assumptions C57_modulation.

(** reading the array backwards reads the result backwards (index 0 stays) *)
Theorem C57_reversal : forall k b N x (mX mY : mem CC) X,
  valid_length N -> fft_history b (Some N) mX -> fft_history b (Some N) mY -> ~ fft_own b (fst x) ->
  holds mX x N X -> holds mY x N (fun n => X ((N - n) mod N)) ->
  exists mX' mY' X', Outcome (fft_run b N k x) mX mX' /\ Outcome (fft_run b N k x) mY mY' /\ holds mX' x N X' /\
    holds mY' x N (fun i => X' ((N - i) mod N)).
Proof.
  intros k b N x mX mY X HN H1 H2 Hx A1 A2. assert (HNp : 0 < N) by (unfold valid_length in HN; lia).
  destruct (fft_call b N k x mX X HN H1 Hx A1) as (m1 & O1 & R1 & _).
  destruct (fft_call b N k x mY _ HN H2 Hx A2) as (m2 & O2 & R2 & _).
  exists m1, m2, (transform k N X). split; [exact O1|]. split; [exact O2|]. split; [exact R1|]. intros i Hi. rewrite (R2 i Hi). f_equal.
  unfold transform. rewrite DFT_reverse by auto. reflexivity.
Qed.
Print Assumptions C57_reversal.

(** real data have a Hermitian transform, Hermitian data a real one, in every method of ComplexFFT *)
Theorem C57_real_to_hermitian : forall k b N x (m : mem CC) X,
  valid_length N -> fft_history b (Some N) m -> ~ fft_own b (fst x) -> holds m x N X -> (forall n, n < N -> Im (X n) = 0%R) ->
  exists m' Y, Outcome (fft_run b N k x) m m' /\ holds m' x N Y /\ forall i, i < N -> Y ((N - i) mod N) = cconj (Y i).
Proof.
  intros k b N x m X HN Hh Hx HX HR. assert (HNp : 0 < N) by (unfold valid_length in HN; lia).
  destruct (fft_call b N k x m X HN Hh Hx HX) as (m1 & O1 & R1 & _).
  exists m1, (transform k N X). split; [exact O1|]. split; [exact R1|]. intros i Hi. unfold transform.
  assert (E : cconj (DFT (meth_inv k) N X i) = DFT (meth_inv k) N X ((N - i) mod N)).
  { rewrite DFT_mod by exact HNp. rewrite DFT_conj. unfold DFT. apply csum_ext. intros n Hn. rewrite W_negb_mul by lia. f_equal.
    specialize (HR n Hn). destruct (X n) as [a c]. cbn in HR. subst c. csimp; ring. }
  rewrite <- E. generalize (DFT (meth_inv k) N X i), (factor (meth_scaling k) N). intros z f. csimp; ring.
Qed.
Print Assumptions C57_real_to_hermitian.
Theorem C57_hermitian_to_real : forall k b N x (m : mem CC) X,
  valid_length N -> fft_history b (Some N) m -> ~ fft_own b (fst x) -> holds m x N X -> (forall n, n < N -> X ((N - n) mod N) = cconj (X n)) ->
  exists m' Y, Outcome (fft_run b N k x) m m' /\ holds m' x N Y /\ forall i, i < N -> Im (Y i) = 0%R.
Proof.
  intros k b N x m X HN Hh Hx HX HR. assert (HNp : 0 < N) by (unfold valid_length in HN; lia).
  destruct (fft_call b N k x m X HN Hh Hx HX) as (m1 & O1 & R1 & _).
  exists m1, (transform k N X). split; [exact O1|]. split; [exact R1|]. intros i Hi. unfold transform.
  assert (E : cconj (DFT (meth_inv k) N X i) = DFT (meth_inv k) N X i).
  { rewrite DFT_conj. rewrite (DFT_ext (negb (meth_inv k)) N (fun j => cconj (X j)) (fun n => X ((N - n) mod N))) by (intros n Hn; symmetry; auto).
    rewrite DFT_reverse, DFT_mod by auto. unfold DFT. apply csum_ext. intros n _. f_equal. rewrite <- (W_negb_mul (negb (meth_inv k))), negb_involutive by lia. reflexivity. }
  revert E. generalize (DFT (meth_inv k) N X i), (factor (meth_scaling k) N). intros [p q] f E. apply (f_equal snd) in E. creduce. cbn in E. nra.
Qed.
Print Assumptions C57_hermitian_to_real.

(** the hypotheses are met: any length, any data and their mirror image *)
Example C57_reversal_hypotheses_met : forall b N X, exists mX mY : mem CC,
  fft_history b (Some N) mX /\ fft_history b (Some N) mY /\ ~ fft_own b (fst (b + 4, 0)) /\
  holds mX (b + 4, 0) N X /\ holds mY (b + 4, 0) N (fun n => X ((N - n) mod N)).
Proof.
  intros b N X. assert (Hx : ~ fft_own b (fst (b + 4, 0))) by (unfold fft_own; cbn [fst]; lia).
  destruct (PropComplex.complex_hypotheses_met ROps b N (b + 4, 0) X Hx) as (m & H1 & H2).
  destruct (PropComplex.complex_hypotheses_met ROps b N (b + 4, 0) (fun n => X ((N - n) mod N)) Hx) as (m' & H3 & H4).
  exists m, m'. auto.
Qed.
