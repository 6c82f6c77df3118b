(** * C67: two real arrays in one complex transform, and the cosine transform by mirroring

    Two classical ways of computing one transform through another; both relate different classes of the library to each other on the
    same data (exact arithmetic, every number of threads and interleaving: [Outcome], see PropComplex.v). *)

From Coq Require Import Reals List Arith ZArith Bool Lia Lra.
From Verif Require Import Scalar RealOps Spec DftFacts Mem MemFacts Omp Lanes Stage Object Engine ApiSpec FactorFacts
  ModelApi History ApiFacts ApiExact Footprint ComplexThms PropComplex ModelReal RealFacts RealRun RealExact GObj RealObj RealSpec RealThms DctExact DctRun DctThms.
From Verif Require PropReal PropDct.
Import ListNotations.

Lemma transform_wrap k N X i : 0 < N -> i < N -> transform k N X ((N - i) mod N) = transform k N X (N - i).
Proof.
  intros HN Hi. destruct (Nat.eq_dec i 0) as [->|H0]; [|rewrite Nat.mod_small by lia; reflexivity].
  rewrite Nat.sub_0_r, Nat.mod_same by lia. unfold transform. f_equal. rewrite <- (DFT_period _ N X 0) by auto. f_equal. lia.
Qed.
Lemma transform_pair k N v w i : meth_inv k = false -> 0 < N -> i < N ->
  let Z := transform k N (fun j => (v j, w j)) in let Z' := cconj (Z ((N - i) mod N)) in
  @cscal ROps (/ 2)%R (cadd (Z i) Z') = transform k N (fun j => rc (v j)) i /\
  @cscal ROps (/ 2)%R (cmul (cneg ci) (csub (Z i) Z')) = transform k N (fun j => rc (w j)) i.
Proof.
  intros Hk HN Hi. cbv zeta.
  assert (E : forall n, transform k N (fun j => (v j, w j)) n = cadd (cmul c1 (transform k N (fun j => rc (v j)) n)) (cmul ci (transform k N (fun j => rc (w j)) n))).
  { intros n. rewrite <- transform_lin. apply transform_ext. intros j _. csimp; ring. }
  rewrite !E, !transform_wrap, !transform_mirror by (auto using isreal_rc; lia).
  generalize (transform k N (fun j => rc (v j)) i), (transform k N (fun j => rc (w j)) i). intros a c. split; csimp; field.
Qed.

(** ** v in the real parts, w in the imaginary parts: the spectra a RealFFT object computes of v and of w are
    (Z_i + conj Z_(N-i)) / 2 and (Z_i - conj Z_(N-i)) / 2i *)
Theorem C67_two_real_arrays : forall k b b' N x xv yv xw yw (m mv mw : mem CC) v w,
  meth_inv k = false -> valid_length N -> real_length N ->
  fft_history b (Some N) m -> ~ fft_own b (fst x) -> holds m x N (fun j => (v j, w j)) ->
  rfft_history b' (Some N) mv -> ~ fft_own b' (fst xv) -> ~ fft_own b' (fst yv) -> disjR xv N yv N -> allocd mv (inR yv N) -> holds mv xv N (fun j => rc (v j)) ->
  rfft_history b' (Some N) mw -> ~ fft_own b' (fst xw) -> ~ fft_own b' (fst yw) -> disjR xw N yw N -> allocd mw (inR yw N) -> holds mw xw N (fun j => rc (w j)) ->
  exists m1 mv1 mw1 Z V U, Outcome (fft_run b N k x) m m1 /\ holds m1 x N Z /\
    Outcome (rfft_run b' N k xv yv) mv mv1 /\ holds mv1 yv N V /\ Outcome (rfft_run b' N k xw yw) mw mw1 /\ holds mw1 yw N U /\
    forall i, i < N -> let Z' := cconj (Z ((N - i) mod N)) in
      V i = ((Re (Z i) + Re Z') / 2, (Im (Z i) + Im Z') / 2)%R /\ U i = ((Im (Z i) - Im Z') / 2, (Re Z' - Re (Z i)) / 2)%R.
Proof.
  intros k b b' N x xv yv xw yw m mv mw v w Hk HN HR Hh Hx HX Hv V1 V2 V3 V4 V5 Hw W1 W2 W3 W4 W5.
  assert (HNp : 0 < N) by (unfold valid_length in HN; lia).
  destruct (fft_call b N k x m _ HN Hh Hx HX) as (m1 & O1 & R1 & _).
  destruct (real_fwd_gen b' N k xv yv mv v HR Hk Hv V1 V2 V3 V4 V5) as (mv1 & O2 & R2 & _).
  destruct (real_fwd_gen b' N k xw yw mw w HR Hk Hw W1 W2 W3 W4 W5) as (mw1 & O3 & R3 & _).
  exists m1, mv1, mw1, (transform k N (fun j => (v j, w j))), (transform k N (fun j => rc (v j))), (transform k N (fun j => rc (w j))).
  split; [exact O1|]. split; [exact R1|]. split; [exact O2|]. split; [exact R2|]. split; [exact O3|]. split; [exact R3|].
  intros i Hi. cbv zeta. destruct (transform_pair k N v w i Hk HNp Hi) as [E1 E2]. cbv zeta in E1, E2. rewrite <- E1, <- E2.
  generalize (transform k N (fun j => (v j, w j)) i), (cconj (transform k N (fun j => (v j, w j)) ((N - i) mod N))).
  intros [a c] [a' c']. split; creduce; f_equal; field.
Qed.
Print Assumptions C67_two_real_arrays.

(** ** mirroring *)
Lemma W_back' inv N j k : 0 < N -> j <= N -> W inv N ((N - j) * k) = cconj (W inv N (j * k)).
Proof. intros HN Hj. rewrite W_conj, (Nat.mul_comm j), W_negb_mul by auto. f_equal. lia. Qed.
Lemma mirror_roots N i j : 0 < N -> j < N ->
  cadd (W false (2 * N) (j * i)) (W false (2 * N) ((2 * N - 1 - j) * i)) =
  @cscal ROps (2 * cos (PI * INR i * (2 * INR j + 1) / (2 * INR N)))%R (cis (PI * INR i / (2 * INR N))).
Proof.
  intros HN Hj. assert (HNr : (0 < INR N)%R) by (apply lt_0_INR; lia).
  replace (2 * N - 1 - j) with (2 * N - (j + 1)) by lia. rewrite W_back', W_conj by lia. cbn [negb].
  set (t := (PI * INR i / (2 * INR N))%R). set (s := (PI * INR i * (2 * INR j + 1) / (2 * INR N))%R).
  assert (E1 : W false (2 * N) (j * i) = cis (t - s)).
  { unfold W. f_equal. rewrite !mult_INR. change (INR 2) with 2%R. unfold t, s. field. lra. }
  assert (E2 : W true (2 * N) ((j + 1) * i) = cis (t + s)).
  { unfold W. f_equal. rewrite !mult_INR, plus_INR. change (INR 2) with 2%R. change (INR 1) with 1%R. unfold t, s. field. lra. }
  rewrite E1, E2. unfold cis. rewrite cos_plus, cos_minus, sin_plus, sin_minus. csimp; ring.
Qed.
Lemma DFT_mirror N (v : nat -> R) i : 0 < N ->
  DFT false (2 * N) (fun j => rc (if j <? N then v j else v (2 * N - 1 - j))) i = @cscal ROps (2 * DCT2 N v i)%R (cis (PI * INR i / (2 * INR N))).
Proof.
  intros HN. unfold DFT. change (2 * N) with (N + (N + 0)) at 1. rewrite Nat.add_0_r, csum_app.
  rewrite (csum_rev N (fun j => cmul (rc (if N + j <? N then _ else _)) _)), <- csum_add.
  rewrite (csum_ext N _ (fun j => cmul (rc (2 * (v j * cos (PI * INR i * (2 * INR j + 1) / (2 * INR N))))%R) (cis (PI * INR i / (2 * INR N))))).
  - rewrite csum_mul_r, csum_rc, rsum_mul. unfold DCT2. generalize (cis (PI * INR i / (2 * INR N))). intros z. csimp; ring.
  - intros j Hj. rewrite (proj2 (Nat.ltb_lt j N)) by lia. rewrite (proj2 (Nat.ltb_ge (N + (N - 1 - j)) N)) by lia.
    replace (2 * N - 1 - (N + (N - 1 - j))) with j by lia. replace (N + (N - 1 - j)) with (2 * N - 1 - j) by lia.
    transitivity (cmul (rc (v j)) (cadd (W false (2 * N) (j * i)) (W false (2 * N) ((2 * N - 1 - j) * i)))); [ring|]. rewrite mirror_roots by lia.
    generalize (cis (PI * INR i / (2 * INR N))). intros z. csimp; ring.
Qed.

(** the array followed by itself in reverse, transformed by a ComplexFFT object of twice the length: coefficient i is
    2 exp(pi i' i / 2N) times coefficient i of the DCT *)
Theorem C67_dct_by_mirroring : forall b b' N x x' (m m' : mem CC) v,
  dct_length N -> valid_length (2 * N) ->
  dct_history b (Some N) m -> ~ dct_own b (fst x) -> holds m x N (fun j => rc (v j)) ->
  fft_history b' (Some (2 * N)) m' -> ~ fft_own b' (fst x') -> holds m' x' (2 * N) (fun j => rc (if j <? N then v j else v (2 * N - 1 - j))) ->
  exists m1 m1' D Y, Outcome (dct_run b N Dfwd0 x) m m1 /\ holds m1 x N (fun i => rc (D i)) /\
    Outcome (fft_run b' (2 * N) fwd0 x') m' m1' /\ holds m1' x' (2 * N) Y /\
    forall i, i < N -> Y i = (2 * D i * cos (PI * INR i / (2 * INR N)), 2 * D i * sin (PI * INR i / (2 * INR N)))%R.
Proof.
  intros b b' N x x' m m' v HN HL Hh Hx HX Hh' Hx' HX'. assert (HNp : 0 < N) by (unfold valid_length in HL; lia).
  destruct (dct_exact b N Dfwd0 x m v HN Hh Hx HX) as (m1 & O1 & R1 & _).
  destruct (fft_call b' (2 * N) fwd0 x' m' _ HL Hh' Hx' HX') as (m1' & O2 & R2 & _).
  exists m1, m1', (dct_spec Dfwd0 N v), (transform fwd0 (2 * N) (fun j => rc (if j <? N then v j else v (2 * N - 1 - j)))).
  split; [exact O1|]. split; [exact R1|]. split; [exact O2|]. split; [exact R2|].
  intros i Hi. unfold transform. cbn [meth_scaling meth_inv factor dct_spec]. rewrite SixExact.cscal_1, DFT_mirror by exact HNp.
  unfold cscal, cis. cbn [fst snd smul ROps]. reflexivity.
Qed.
Print Assumptions C67_dct_by_mirroring.

(** ** The hypotheses are met: length 12 (DCT) and 24 (mirrored); length 24 for the two real arrays *)
Example C67_hypotheses_met : forall b (v w : nat -> R), exists m m' mv mw : mem CC,
  dct_length 12 /\ valid_length 24 /\ real_length 24 /\
  dct_history b (Some 12) m /\ ~ dct_own b (fst (b + 10, 0)) /\ holds m (b + 10, 0) 12 (fun j => rc (v j)) /\
  fft_history b (Some 24) m' /\ ~ fft_own b (fst (b + 10, 0)) /\ holds m' (b + 10, 0) 24 (fun j => (v j, w j)) /\
  ~ fft_own b (fst (b + 11, 0)) /\ disjR (b + 10, 0) 24 (b + 11, 0) 24 /\
  rfft_history b (Some 24) mv /\ allocd mv (inR (b + 11, 0) 24) /\ holds mv (b + 10, 0) 24 (fun j => rc (v j)) /\
  rfft_history b (Some 24) mw /\ allocd mw (inR (b + 11, 0) 24) /\ holds mw (b + 10, 0) 24 (fun j => rc (w j)).
Proof.
  intros b v w. assert (Hx : ~ dct_own b (fst (b + 10, 0))) by (unfold dct_own; cbn [fst]; lia).
  assert (Hf : ~ fft_own b (fst (b + 10, 0))) by (unfold fft_own; cbn [fst]; lia). assert (Hg : ~ fft_own b (fst (b + 11, 0))) by (unfold fft_own; cbn [fst]; lia).
  assert (Hd : disjR (b + 10, 0) 24 (b + 11, 0) 24) by (intros i j _ _ E; apply (f_equal fst) in E; cbn in E; lia).
  assert (L12 : dct_length 12) by (apply PropDct.dct_lengths; [apply (proj2 PropReal.real_lengths 6); lia|lia]).
  assert (L24 : real_length 24) by (apply (proj2 PropReal.real_lengths 12); lia).
  destruct (PropDct.dct_hypotheses_met ROps b 12 (b + 10, 0) (fun j => rc (v j)) L12 Hx) as (m & H1 & H2).
  destruct (PropComplex.complex_hypotheses_met ROps b 24 (b + 10, 0) (fun j => (v j, w j)) Hf) as (m' & H3 & H4).
  destruct (PropReal.real_hypotheses_met ROps b 24 (b + 10, 0) (b + 11, 0) (fun j => rc (v j)) L24 Hf Hg Hd) as (mv & H5 & H6 & H7).
  destruct (PropReal.real_hypotheses_met ROps b 24 (b + 10, 0) (b + 11, 0) (fun j => rc (w j)) L24 Hf Hg Hd) as (mw & H8 & H9 & H10).
  exists m, m', mv, mw. split; [exact L12|]. split; [apply (proj1 (proj2 PropComplex.valid_lengths)); lia|]. split; [exact L24|]. auto 20.
Qed.
