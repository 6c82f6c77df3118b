(** * C64: correlation

    Cross-correlation of two arrays, autocorrelation from the power spectrum (Wiener-Khinchin), and the delay between two arrays as
    the place of the largest correlation; with ComplexFFT and with RealFFT, in exact arithmetic, for every number of threads and every
    interleaving inside each call ([Outcome], see PropComplex.v). *)

From Coq Require Import Reals List Arith ZArith Bool Lia Lra.
From Verif Require Import Scalar RealOps Spec DftFacts Mem MemFacts Omp Lanes Stage Object Engine ApiSpec FactorFacts
  ModelApi History ApiFacts ApiExact Footprint ComplexThms PropComplex ModelReal RealFacts RealRun RealExact GObj RealObj RealSpec RealThms PropConvolution Norm.
Import ListNotations.

(** ** Specification *)
(** circular cross-correlation at lag k: sum over j of conj(X j) * Y (j + k), indices modulo N *)
Definition corr (N : nat) (X Y : nat -> CC) (k : nat) : CC := csum N (fun j => cmul (cconj (X j)) (Y ((j + k) mod N))).
Definition rcorr (N : nat) (v w : nat -> R) (k : nat) : R := rsum N (fun j => v j * w ((j + k) mod N))%R.
(** sum of the squared magnitudes *)
Definition energy (N : nat) (X : nat -> CC) : R := rsum N (fun j => cnorm2 (X j)).

Lemma W_back inv N j k : 0 < N -> j <= N -> W inv N ((N - j) * k) = cconj (W inv N (j * k)).
Proof. intros HN Hj. rewrite W_conj, (Nat.mul_comm j), W_negb_mul by auto. f_equal. lia. Qed.

Lemma DFT_corr inv N X Y k : 0 < N -> DFT inv N (corr N X Y) k = cmul (cconj (DFT inv N X k)) (DFT inv N Y k).
Proof.
  intros HN. unfold DFT at 1, corr.
  rewrite (csum_ext N _ (fun n => csum N (fun j => cmul (cconj (X j)) (cmul (Y ((n + (N - (N - j))) mod N)) (W inv N (n * k)))))).
  2:{ intros n _. rewrite <- csum_mul_r. apply csum_ext. intros j Hj. replace (n + (N - (N - j))) with (j + n) by lia. ring. }
  rewrite csum_swap. unfold DFT at 1. rewrite csum_conj, <- csum_mul_r. apply csum_ext. intros j Hj.
  rewrite csum_mul_l, DFT_shift, W_back, conj_mul by lia. ring.
Qed.

Lemma transform_corr k1 k2 k3 N X Y i : meth_scaling k1 = Unscaled -> meth_inv k1 = meth_inv k2 -> undoes k2 k3 = true ->
  0 < N -> i < N -> transform k3 N (fun j => cmul (cconj (transform k1 N X j)) (transform k2 N Y j)) i = corr N X Y i.
Proof.
  intros Hs He Hu HN Hi. rewrite <- (transform_inverse k2 k3 N (corr N X Y) i Hu HN Hi). apply transform_ext. intros j _.
  unfold transform. rewrite DFT_corr, Hs, He by exact HN. cbn [factor]. rewrite SixExact.cscal_1, !cscal_rc. ring.
Qed.

(** ** ComplexFFT: k1 on x, k2 on y, conj(U) * V stored in x, k3 on x *)
Theorem C64_cross_correlation : forall k1 k2 k3 b N x y (m : mem CC) X Y,
  In (k1, k2, k3) [(fwd0, fwd0, invn); (fwd0, fwd, inv); (fwd0, fwd, inv0); (fwd0, fwdn, inv); (fwd0, fwdn, inv0); (fwd0, fwdu, invu)] ->
  valid_length N -> fft_history b (Some N) m -> ~ fft_own b (fst x) -> ~ fft_own b (fst y) -> disjR x N y N ->
  holds m x N X -> holds m y N Y ->
  exists m1 m2 U V, Outcome (fft_run b N k1 x) m m1 /\ Outcome (fft_run b N k2 y) m1 m2 /\ holds m2 x N U /\ holds m2 y N V /\
    forall m3, (forall l, fft_own b (fst l) -> m3 l = m2 l) -> holds m3 x N (fun i => cmul (cconj (U i)) (V i)) ->
    exists m4, Outcome (fft_run b N k3 x) m3 m4 /\ holds m4 x N (corr N X Y).
Proof.
  intros k1 k2 k3 b N x y m X Y Hk HN Hh Hx Hy Hd HX HY.
  assert (Hs : meth_scaling k1 = Unscaled /\ meth_inv k1 = meth_inv k2 /\ undoes k2 k3 = true).
  { repeat (destruct Hk as [[= <- <- <-]|Hk]; [auto|]). destruct Hk. }
  destruct Hs as (Hs & He & Hu).
  assert (HNp : 0 < N) by (unfold valid_length in HN; lia).
  assert (Hb : forall z : ptr, ~ fft_own b (fst z) -> forall i, ~ inR ((b + 3)%nat, 0) N (z +! i)).
  { intros z Hz i (j & _ & E). apply Hz. apply (f_equal fst) in E. cbn in E. rewrite E. unfold fft_own. lia. }
  destruct (fft_call b N k1 x m X HN Hh Hx HX) as (m1 & O1 & R1 & F1 & H1).
  assert (HY1 : holds m1 y N Y).
  { intros i Hi. rewrite F1; [apply HY, Hi| |apply Hb, Hy]. intros C. eapply disjR_inR; [exact Hd|exact C|]. apply inR_i. exact Hi. }
  destruct (fft_call b N k2 y m1 Y HN H1 Hy HY1) as (m2 & O2 & R2 & F2 & H2).
  exists m1, m2, (transform k1 N X), (transform k2 N Y). split; [exact O1|]. split; [exact O2|]. split; [|split; [exact R2|]].
  { intros i Hi. rewrite F2; [apply R1, Hi| |apply Hb, Hx]. intros C. eapply disjR_inR; [exact Hd| |exact C]. apply inR_i. exact Hi. }
  intros m3 Hf HP. assert (H3 : fft_history b (Some N) m3) by (eapply h_other; [exact H2|auto]).
  destruct (fft_call b N k3 x m3 _ HN H3 Hx HP) as (m4 & O4 & R4 & _).
  exists m4. split; [exact O4|]. intros i Hi. rewrite (R4 i Hi). f_equal. apply transform_corr; auto.
Qed.
Print Assumptions C64_cross_correlation.

(** ** Wiener-Khinchin: fwd0, the squared magnitudes (real numbers) stored in x, invn *)
Theorem C64_autocorrelation : forall b N x (m : mem CC) X,
  valid_length N -> fft_history b (Some N) m -> ~ fft_own b (fst x) -> holds m x N X ->
  exists m1 U, Outcome (fft_run b N fwd0 x) m m1 /\ holds m1 x N U /\
    forall m2, (forall l, fft_own b (fst l) -> m2 l = m1 l) -> holds m2 x N (fun i => rc (Re (U i) * Re (U i) + Im (U i) * Im (U i))) ->
    exists m3, Outcome (fft_run b N invn x) m2 m3 /\ holds m3 x N (corr N X X).
Proof.
  intros b N x m X HN Hh Hx HX. assert (HNp : 0 < N) by (unfold valid_length in HN; lia).
  destruct (fft_call b N fwd0 x m X HN Hh Hx HX) as (m1 & O1 & R1 & F1 & H1).
  exists m1, (transform fwd0 N X). split; [exact O1|]. split; [exact R1|]. intros m2 Hf HP.
  assert (H2 : fft_history b (Some N) m2) by (eapply h_other; [exact H1|auto]).
  destruct (fft_call b N invn x m2 _ HN H2 Hx HP) as (m3 & O3 & R3 & _).
  exists m3. split; [exact O3|]. intros i Hi. rewrite (R3 i Hi). f_equal. rewrite <- (transform_corr fwd0 fwd0 invn) by auto.
  apply transform_ext. intros j _. generalize (transform fwd0 N X j). intros z. csimp; ring.
Qed.
Print Assumptions C64_autocorrelation.

(** ** Delay *)
Lemma rsum_rot N s f : s <= N -> rsum N (fun n => f ((n + s) mod N)) = rsum N f.
Proof.
  intros Hs. pose proof (csum_rot N s (fun n => rc (f n)) Hs) as E. rewrite !csum_rc in E. apply (f_equal fst) in E. exact E.
Qed.
Lemma rsum_zero N (f : nat -> R) : (forall j, j < N -> (0 <= f j)%R) -> rsum N f = 0%R -> forall j, j < N -> f j = 0%R.
Proof.
  induction N as [|N IH]; intros Hf E j Hj; [lia|]. cbn [rsum] in E.
  assert (H0 : (0 <= rsum N f)%R) by (apply rsum_pos; intros i Hi; apply Hf; lia).
  pose proof (Hf N ltac:(lia)). destruct (Nat.eq_dec j N) as [->|]; [lra|]. apply IH; [intros i Hi; apply Hf; lia|lra|lia].
Qed.
Lemma csum_Re N (f : nat -> CC) : Re (csum N f) = rsum N (fun j => Re (f j)).
Proof. induction N as [|N IH]; [reflexivity|]. cbn [csum rsum]. rewrite <- IH. reflexivity. Qed.
(** the correlation falls short of the energy by half the squared distance between one array and the other moved back by k *)
Lemma corr_distance N X Y k : k < N ->
  (2 * Re (corr N X Y k) = energy N X + energy N Y - energy N (fun j => csub (X j) (Y ((j + k) mod N))))%R.
Proof.
  intros Hk. unfold corr, energy. rewrite csum_Re, <- (rsum_rot N k (fun j => cnorm2 (Y j))) by lia.
  set (Z := fun n => Y ((n + k) mod N)). change (fun n => cnorm2 (Y ((n + k) mod N))) with (fun n => cnorm2 (Z n)).
  change (fun j => Re (cmul (cconj (X j)) (Y ((j + k) mod N)))) with (fun j => Re (cmul (cconj (X j)) (Z j))).
  change (fun j => cnorm2 (csub (X j) (Y ((j + k) mod N)))) with (fun j => cnorm2 (csub (X j) (Z j))). clearbody Z.
  clear Hk. induction N as [|N IH]; cbn [rsum]; [ring|]. destruct (X N) as [a c], (Z N) as [a' c'].
  rewrite Rmult_plus_distr_l, IH. unfold cnorm2. creduce. ring.
Qed.
Lemma energy_zero N X : energy N X = 0%R -> forall j, j < N -> X j = (0, 0)%R.
Proof.
  intros E j Hj. assert (P : forall i, i < N -> (0 <= cnorm2 (X i))%R) by (intros i _; unfold cnorm2; nra).
  pose proof (rsum_zero N _ P E j Hj) as Z. cbn beta in Z. revert Z. destruct (X j) as [a c]. unfold cnorm2. cbn [fst snd]. intros Z. f_equal; nra.
Qed.

(** y is x delayed by s places (cyclically): the correlation computed by the library is the energy at lag s, its real part is nowhere
    larger, and it is as large at another lag k only if x moved by k - s places equals x *)
Theorem C64_delay : forall b N s x y (m : mem CC) X,
  valid_length N -> s < N -> fft_history b (Some N) m -> ~ fft_own b (fst x) -> ~ fft_own b (fst y) -> disjR x N y N ->
  holds m x N X -> holds m y N (fun i => X ((i + (N - s)) mod N)) ->
  exists m1 m2 U V, Outcome (fft_run b N fwd0 x) m m1 /\ Outcome (fft_run b N fwd0 y) m1 m2 /\ holds m2 x N U /\ holds m2 y N V /\
    forall m3, (forall l, fft_own b (fst l) -> m3 l = m2 l) -> holds m3 x N (fun i => cmul (cconj (U i)) (V i)) ->
    exists m4 C, Outcome (fft_run b N invn x) m3 m4 /\ holds m4 x N C /\ C s = rc (energy N X) /\
      forall k, k < N -> (Re (C k) <= energy N X)%R /\
        (Re (C k) = energy N X -> forall j, j < N -> X ((j + k + (N - s)) mod N) = X j).
Proof.
  intros b N s x y m X HN Hs Hh Hx Hy Hd HX HY. set (Y := fun i => X ((i + (N - s)) mod N)) in *.
  destruct (C64_cross_correlation fwd0 fwd0 invn b N x y m X Y (or_introl eq_refl) HN Hh Hx Hy Hd HX HY) as (m1 & m2 & U & V & O1 & O2 & A & B & K).
  exists m1, m2, U, V. split; [exact O1|]. split; [exact O2|]. split; [exact A|]. split; [exact B|]. intros m3 Hf HP.
  destruct (K m3 Hf HP) as (m4 & O4 & R). exists m4, (corr N X Y). split; [exact O4|]. split; [exact R|].
  assert (M : forall j k, Y ((j + k) mod N) = X ((j + k + (N - s)) mod N)) by (intros j k; unfold Y; rewrite Nat.add_mod_idemp_l by lia; reflexivity).
  assert (EY : energy N Y = energy N X) by (apply (rsum_rot N (N - s) (fun j => cnorm2 (X j))); lia).
  split.
  - unfold corr, energy. rewrite <- csum_rc. apply csum_ext. intros j Hj. rewrite M.
    replace (j + s + (N - s)) with (j + 1 * N) by lia. rewrite Nat.mod_add, Nat.mod_small by lia. rewrite <- cnorm2_conj. generalize (X j). intros z. csimp; ring.
  - intros k Hk. pose proof (corr_distance N X Y k Hk) as D. rewrite EY in D.
    assert (P : (0 <= energy N (fun j => csub (X j) (Y ((j + k) mod N))))%R) by (apply rsum_pos; intros i _; unfold cnorm2; nra).
    split; [lra|]. intros E j Hj. assert (Z : energy N (fun j => csub (X j) (Y ((j + k) mod N))) = 0%R) by lra.
    pose proof (energy_zero N _ Z j Hj) as Q. cbn beta in Q. rewrite M in Q. revert Q. destruct (X j), (X ((j + k + (N - s)) mod N)). unfold csub. cbn [fst snd ssub ROps]. intros [= Q1 Q2]. f_equal; lra.
Qed.
Print Assumptions C64_delay.

(** ** RealFFT: fwd0 from x to u and from y to t, conj(U) * V stored in u, invn from u to z *)
Lemma corr_rc N v w k : corr N (fun j => rc (v j)) (fun j => rc (w j)) k = rc (rcorr N v w k).
Proof. unfold corr, rcorr. rewrite <- csum_rc. apply csum_ext. intros j _. csimp; ring. Qed.
Theorem C64_real_correlation : forall b N x y u t z (m : mem CC) v w,
  real_length N -> rfft_history b (Some N) m ->
  ~ fft_own b (fst x) -> ~ fft_own b (fst y) -> ~ fft_own b (fst u) -> ~ fft_own b (fst t) -> ~ fft_own b (fst z) ->
  disjR x N u N -> disjR y N t N -> disjR u N y N -> disjR u N t N -> disjR u N z N ->
  allocd m (inR u N) -> allocd m (inR t N) ->
  holds m x N (fun j => rc (v j)) -> holds m y N (fun j => rc (w j)) ->
  exists m1 m2 U V, Outcome (rfft_run b N fwd0 x u) m m1 /\ Outcome (rfft_run b N fwd0 y t) m1 m2 /\ holds m2 u N U /\ holds m2 t N V /\
    forall m3, (forall l, fft_own b (fst l) -> m3 l = m2 l) -> allocd m3 (inR z N) -> holds m3 u N (fun i => cmul (cconj (U i)) (V i)) ->
    exists m4, Outcome (rfft_run b N invn u z) m3 m4 /\ holds m4 z N (fun k => rc (rcorr N v w k)).
Proof.
  intros b N x y u t z m v w HN Hh Hx Hy Hu Ht Hz Dxu Dyt Duy Dut Duz Au At HX HY. pose proof (real_length_pos N HN) as HNp.
  destruct (real_fwd_gen b N fwd0 x u m v HN eq_refl Hh Hx Hu Dxu Au HX) as (m1 & O1 & R1 & F1 & H1).
  assert (HY1 : holds m1 y N (fun j => rc (w j))).
  { intros i Hi. rewrite F1; [apply HY, Hi|]. intros C. eapply disjR_inR; [exact Duy|exact C|]. apply inR_i. exact Hi. }
  assert (At1 : allocd m1 (inR t N)).
  { intros l Hl. rewrite F1; [apply At, Hl|]. intros C. eapply disjR_inR; [exact Dut|exact C|exact Hl]. }
  destruct (real_fwd_gen b N fwd0 y t m1 w HN eq_refl H1 Hy Ht Dyt At1 HY1) as (m2 & O2 & R2 & F2 & H2).
  exists m1, m2, (transform fwd0 N (fun j => rc (v j))), (transform fwd0 N (fun j => rc (w j))).
  split; [exact O1|]. split; [exact O2|]. split; [|split; [exact R2|]].
  { intros i Hi. rewrite F2; [apply R1, Hi|]. intros C. eapply disjR_inR; [exact Dut| |exact C]. apply inR_i. exact Hi. }
  intros m3 Hf Az HP. assert (H3 : rfft_history b (Some N) m3) by (eapply h_other; [exact H2|auto]).
  destruct (real_inverse b N invn u z m3 _ HN eq_refl H3 Hu Hz Duz Az HP) as (m4 & r & O4 & R4 & _).
  - pose proof (transform_Im0 fwd0 N _ eq_refl HNp (isreal_rc v)) as E1. pose proof (transform_Im0 fwd0 N _ eq_refl HNp (isreal_rc w)) as E2.
    revert E1 E2. generalize (transform fwd0 N (fun j => rc (v j)) 0), (transform fwd0 N (fun j => rc (w j)) 0). intros [a c] [a' c'] E1 E2.
    creduce. rewrite E1, E2. ring.
  - intros i Hi. rewrite !transform_mirror by (auto using isreal_rc; lia). symmetry. apply conj_mul.
  - exists m4. split; [exact O4|]. intros i Hi. destruct (R4 i Hi) as [E4 Er]. rewrite E4, Er. f_equal.
    rewrite <- corr_rc, <- (transform_corr fwd0 fwd0 invn) by auto. symmetry. apply transform_cis_inv. reflexivity.
Qed.
Print Assumptions C64_real_correlation.

(** ** The hypotheses are those of [PropConvolution.C56_hypotheses_met]; a pulse of two samples delayed by 3 places, length 8 *)
Example C64_example : let X := fun i => nth i [rc 1; rc 2] (rc 0) in let Y := fun i => X ((i + (8 - 3)) mod 8) in
  corr 8 X Y 2 = rc 2 /\ corr 8 X Y 3 = rc 5 /\ corr 8 X Y 4 = rc 2 /\ corr 8 X Y 5 = rc 0 /\ energy 8 X = 5%R.
Proof. cbv zeta. unfold corr, energy. cbn [csum rsum nth Nat.add Nat.modulo Nat.divmod Nat.sub snd fst]. unfold cnorm2. split; [|split; [|split; [|split]]]; [csimp; ring..|]. creduce. ring. Qed.
Example C64_delay_hypotheses_met : forall b X, exists m : mem CC,
  valid_length 8 /\ fft_history b (Some 8) m /\ ~ fft_own b (fst (b + 4, 0)) /\ ~ fft_own b (fst (b + 5, 0)) /\ disjR (b + 4, 0) 8 (b + 5, 0) 8 /\
  holds m (b + 4, 0) 8 X /\ holds m (b + 5, 0) 8 (fun i => X ((i + (8 - 3)) mod 8)).
Proof.
  intros b X. destruct (C56_hypotheses_met b 8 X (fun i => X ((i + (8 - 3)) mod 8))) as (m & H). exists m.
  split; [apply PropComplex.valid_lengths; lia|]. exact H.
Qed.
