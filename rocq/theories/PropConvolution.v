(** * C56, C57: what clients build from the transforms

    C56: circular and linear convolution (the product of two polynomials) by two forward transforms, a product of the
    spectra and one inverse transform, with ComplexFFT and with RealFFT.
    C57: the symmetries of the transforms (shift, conjugation, applying a transform twice or four times).
    All results are for exact arithmetic, as those of C01 to C05 and C16 to C18, and for every number of threads and
    every interleaving inside each call ([Outcome], see PropComplex.v). *)

From Coq Require Import Reals List Arith ZArith Bool Lia Lra.
From Verif Require Import Scalar RealOps Spec DftFacts Mem MemFacts Omp Lanes Stage Object Engine ApiSpec FactorFacts
  ModelApi History ApiFacts ApiExact Footprint ComplexThms PropComplex ModelReal RealFacts RealRun RealExact GObj RealObj RealSpec RealThms.
Import ListNotations.

(** ** Specification *)
(** circular convolution of two vectors of length N *)
Definition circ (N : nat) (X Y : nat -> CC) (k : nat) : CC := csum N (fun j => cmul (X j) (Y ((k + (N - j)) mod N))).
(** coefficient k of the product of the polynomials with coefficients X and Y *)
Definition poly (X Y : nat -> CC) (k : nat) : CC := csum (S k) (fun j => cmul (X j) (Y (k - j))).
(** the same for real vectors *)
Definition rcirc (N : nat) (v w : nat -> R) (k : nat) : R := rsum N (fun j => v j * w ((k + (N - j)) mod N))%R.
Definition rpoly (v w : nat -> R) (k : nat) : R := rsum (S k) (fun j => v j * w (k - j)%nat)%R.

(** ** Sums *)
Lemma csum_rot N s f : s <= N -> csum N (fun n => f ((n + s) mod N)) = csum N f.
Proof.
  intros Hs. destruct (Nat.eq_dec N 0) as [->|H0]; [reflexivity|].
  replace N with ((N - s) + s) at 1 by lia. rewrite csum_app.
  replace (csum N f) with (csum (s + (N - s)) f) by (f_equal; lia). rewrite csum_app.
  transitivity (cadd (csum (N - s) (fun i => f (s + i))) (csum s f)); [|ring].
  f_equal; apply csum_ext; intros i Hi.
  - rewrite Nat.mod_small by lia. f_equal. lia.
  - replace (N - s + i + s) with (i + 1 * N) by lia. rewrite Nat.mod_add, Nat.mod_small by lia. reflexivity.
Qed.

Lemma W_cong inv N a b : 0 < N -> a mod N = b mod N -> W inv N a = W inv N b.
Proof. intros HN E. rewrite <- (W_mod inv N a), <- (W_mod inv N b), E by auto. reflexivity. Qed.

(** the transform of an array whose elements moved up by s places, cyclically *)
Lemma DFT_shift inv N Y s k : 0 < N -> s <= N ->
  csum N (fun n => cmul (Y ((n + (N - s)) mod N)) (W inv N (n * k))) = cmul (DFT inv N Y k) (W inv N (s * k)).
Proof.
  intros HN Hs. unfold DFT. rewrite <- csum_mul_r, <- (csum_rot N (N - s) (fun j => cmul (cmul (Y j) (W inv N (j * k))) (W inv N (s * k)))) by lia.
  apply csum_ext. intros n Hn. transitivity (cmul (Y ((n + (N - s)) mod N)) (cmul (W inv N ((n + (N - s)) mod N * k)) (W inv N (s * k)))); [|ring].
  f_equal. rewrite <- W_add, <- Nat.mul_add_distr_r. apply W_cong; [exact HN|].
  rewrite <- (Nat.mul_mod_idemp_l (_ + s)), Nat.add_mod_idemp_l by lia.
  replace (n + (N - s) + s) with (n + 1 * N) by lia. rewrite Nat.mod_add, Nat.mul_mod_idemp_l by lia. reflexivity.
Qed.

Lemma DFT_circ inv N X Y k : 0 < N -> DFT inv N (circ N X Y) k = cmul (DFT inv N X k) (DFT inv N Y k).
Proof.
  intros HN. unfold DFT at 1, circ.
  rewrite (csum_ext N _ (fun n => csum N (fun j => cmul (X j) (cmul (Y ((n + (N - j)) mod N)) (W inv N (n * k)))))).
  2:{ intros n _. rewrite <- csum_mul_r. apply csum_ext. intros j _. ring. }
  rewrite csum_swap. unfold DFT at 1. rewrite <- csum_mul_r. apply csum_ext. intros j Hj.
  rewrite csum_mul_l, DFT_shift by lia. ring.
Qed.

Lemma transform_circ k1 k2 k3 N X Y i : meth_scaling k1 = Unscaled -> meth_inv k1 = meth_inv k2 -> undoes k2 k3 = true ->
  0 < N -> i < N -> transform k3 N (fun j => cmul (transform k1 N X j) (transform k2 N Y j)) i = circ N X Y i.
Proof.
  intros Hs He Hu HN Hi. rewrite <- (transform_inverse k2 k3 N (circ N X Y) i Hu HN Hi). apply transform_ext. intros j _.
  unfold transform. rewrite DFT_circ, Hs, He by exact HN. cbn [factor]. rewrite SixExact.cscal_1, !cscal_rc. ring.
Qed.

(** ** C56: circular convolution with a ComplexFFT object: k1 on x, k2 on y, the product of the two spectra stored in x
    (whatever else happens between the calls), k3 on x *)
Theorem C56_circular_convolution : forall k1 k2 k3 b N x y (m : mem CC) X Y,
  In (k1, k2, k3) [(fwd0, fwd0, invn); (fwd0, fwd, inv); (fwd0, fwd, inv0); (fwd0, fwdn, inv); (fwd0, fwdn, inv0); (fwd0, fwdu, invu)] ->
  valid_length N -> fft_history b (Some N) m -> ~ fft_own b (fst x) -> ~ fft_own b (fst y) -> disjR x N y N ->
  holds m x N X -> holds m y N Y ->
  exists m1 m2 U V, Outcome (fft_run b N k1 x) m m1 /\ Outcome (fft_run b N k2 y) m1 m2 /\ holds m2 x N U /\ holds m2 y N V /\
    forall m3, (forall l, fft_own b (fst l) -> m3 l = m2 l) -> holds m3 x N (fun i => cmul (U i) (V i)) ->
    exists m4, Outcome (fft_run b N k3 x) m3 m4 /\ holds m4 x N (circ N X Y).
Proof.
  intros k1 k2 k3 b N x y m X Y Hk HN Hh Hx Hy Hd HX HY.
  assert (Hs : meth_scaling k1 = Unscaled /\ meth_inv k1 = meth_inv k2 /\ undoes k2 k3 = true).
  { repeat (destruct Hk as [[= <- <- <-]|Hk]; [auto|]). destruct Hk. }
  destruct Hs as (Hs & He & Hu).
  assert (HNp : 0 < N) by (unfold valid_length in HN; lia).
  assert (Hb : forall z : ptr, ~ fft_own b (fst z) -> forall i, ~ inR ((b + 3)%nat, 0) N (z +! i)).
  { intros z Hz i (j & _ & E). apply Hz. apply (f_equal fst) in E. cbn in E. rewrite E. unfold fft_own. lia. }
  destruct (fft_call b N k1 x m X HN Hh Hx HX) as (m1 & O1 & R1 & F1 & H1).
  assert (HY1 : holds m1 y N Y).
  { intros i Hi. rewrite F1; [apply HY, Hi| |apply Hb, Hy]. intros C. eapply disjR_inR; [exact Hd|exact C|]. apply inR_i. exact Hi. }
  destruct (fft_call b N k2 y m1 Y HN H1 Hy HY1) as (m2 & O2 & R2 & F2 & H2).
  exists m1, m2, (transform k1 N X), (transform k2 N Y). split; [exact O1|]. split; [exact O2|]. split; [|split; [exact R2|]].
  { intros i Hi. rewrite F2; [apply R1, Hi| |apply Hb, Hx]. intros C. eapply disjR_inR; [exact Hd| |exact C]. apply inR_i. exact Hi. }
  intros m3 Hf HP. assert (H3 : fft_history b (Some N) m3) by (eapply h_other; [exact H2|auto]).
  destruct (fft_call b N k3 x m3 _ HN H3 Hx HP) as (m4 & O4 & R4 & _).
  exists m4. split; [exact O4|]. intros i Hi. rewrite (R4 i Hi). f_equal. apply transform_circ; auto.
Qed.
Print Assumptions C56_circular_convolution.

(** zero padding: when X has n coefficients, Y has p and n + p - 1 <= N, the circular convolution is the polynomial product *)
Lemma circ_poly N X Y n p k : 0 < n -> 0 < p -> n + p - 1 <= N ->
  (forall j, n <= j < N -> X j = (0, 0)%R) -> (forall j, p <= j < N -> Y j = (0, 0)%R) -> k < N -> circ N X Y k = poly X Y k.
Proof.
  intros Hn Hp HN HX HY Hk. unfold circ, poly. replace N with (S k + (N - S k)) at 1 by lia. rewrite csum_app.
  rewrite (csum_ext (N - S k) _ (fun _ => (0, 0)%R)).
  - rewrite csum_0. transitivity (csum (S k) (fun i => cmul (X i) (Y ((k + (N - i)) mod N)))).
    + generalize (csum (S k) (fun i => cmul (X i) (Y ((k + (N - i)) mod N)))). intros z. csimp; ring.
    + apply csum_ext. intros j Hj. do 2 f_equal. replace (k + (N - j)) with (k - j + 1 * N) by lia. rewrite Nat.mod_add, Nat.mod_small by lia. reflexivity.
  - intros i Hi. destruct (Nat.le_gt_cases n (S k + i)) as [H|H]; [rewrite (HX (S k + i)) by lia; csimp; ring|].
    rewrite Nat.mod_small by lia. rewrite (HY (k + (N - (S k + i)))) by lia. csimp; ring.
Qed.
Theorem C56_polynomial_product : forall b N n p x y (m : mem CC) X Y,
  valid_length N -> fft_history b (Some N) m -> ~ fft_own b (fst x) -> ~ fft_own b (fst y) -> disjR x N y N ->
  0 < n -> 0 < p -> n + p - 1 <= N -> (forall j, n <= j < N -> X j = (0, 0)%R) -> (forall j, p <= j < N -> Y j = (0, 0)%R) ->
  holds m x N X -> holds m y N Y ->
  exists m1 m2 U V, Outcome (fft_run b N fwd0 x) m m1 /\ Outcome (fft_run b N fwd0 y) m1 m2 /\ holds m2 x N U /\ holds m2 y N V /\
    forall m3, (forall l, fft_own b (fst l) -> m3 l = m2 l) -> holds m3 x N (fun i => cmul (U i) (V i)) ->
    exists m4, Outcome (fft_run b N invn x) m3 m4 /\ holds m4 x N (poly X Y).
Proof.
  intros b N n p x y m X Y HN Hh Hx Hy Hd Hn Hp HNp ZX ZY HX HY.
  destruct (C56_circular_convolution fwd0 fwd0 invn b N x y m X Y (or_introl eq_refl) HN Hh Hx Hy Hd HX HY) as (m1 & m2 & U & V & O1 & O2 & A & B & K).
  exists m1, m2, U, V. split; [exact O1|]. split; [exact O2|]. split; [exact A|]. split; [exact B|]. intros m3 Hf HP.
  destruct (K m3 Hf HP) as (m4 & O4 & R). exists m4. split; [exact O4|]. intros i Hi. rewrite (R i Hi). f_equal.
  apply (circ_poly N X Y n p); auto.
Qed.
Print Assumptions C56_polynomial_product.

(** ** C56 with RealFFT: fwd0 from x to u and from y to w, the product of the two spectra stored in u, invn from u to z *)
Lemma circ_rc N v w k : circ N (fun j => rc (v j)) (fun j => rc (w j)) k = rc (rcirc N v w k).
Proof. unfold circ, rcirc. rewrite <- csum_rc. apply csum_ext. intros j _. csimp; ring. Qed.
Lemma rcirc_rpoly N v w n p k : 0 < n -> 0 < p -> n + p - 1 <= N ->
  (forall j, n <= j < N -> v j = 0%R) -> (forall j, p <= j < N -> w j = 0%R) -> k < N -> rcirc N v w k = rpoly v w k.
Proof.
  intros Hn Hp HN Hv Hw Hk. assert (E : circ N (fun j => rc (v j)) (fun j => rc (w j)) k = poly (fun j => rc (v j)) (fun j => rc (w j)) k).
  { apply (circ_poly N _ _ n p); auto; intros j Hj; [rewrite Hv by exact Hj|rewrite Hw by exact Hj]; reflexivity. }
  rewrite circ_rc in E. unfold poly in E. rewrite (csum_ext (S k) _ (fun j => rc (v j * w (k - j)%nat)%R)) in E by (intros j _; csimp; ring).
  rewrite csum_rc in E. apply (f_equal fst) in E. exact E.
Qed.

Theorem C56_real_convolution : forall b N x y u t z (m : mem CC) v w,
  real_length N -> rfft_history b (Some N) m ->
  ~ fft_own b (fst x) -> ~ fft_own b (fst y) -> ~ fft_own b (fst u) -> ~ fft_own b (fst t) -> ~ fft_own b (fst z) ->
  disjR x N u N -> disjR y N t N -> disjR u N y N -> disjR u N t N -> disjR u N z N ->
  allocd m (inR u N) -> allocd m (inR t N) ->
  holds m x N (fun j => rc (v j)) -> holds m y N (fun j => rc (w j)) ->
  exists m1 m2 U V, Outcome (rfft_run b N fwd0 x u) m m1 /\ Outcome (rfft_run b N fwd0 y t) m1 m2 /\ holds m2 u N U /\ holds m2 t N V /\
    forall m3, (forall l, fft_own b (fst l) -> m3 l = m2 l) -> allocd m3 (inR z N) -> holds m3 u N (fun i => cmul (U i) (V i)) ->
    exists m4, Outcome (rfft_run b N invn u z) m3 m4 /\ holds m4 z N (fun k => rc (rcirc N v w k)).
Proof.
  intros b N x y u t z m v w HN Hh Hx Hy Hu Ht Hz Dxu Dyt Duy Dut Duz Au At HX HY. pose proof (real_length_pos N HN) as HNp.
  destruct (real_fwd_gen b N fwd0 x u m v HN eq_refl Hh Hx Hu Dxu Au HX) as (m1 & O1 & R1 & F1 & H1).
  assert (HY1 : holds m1 y N (fun j => rc (w j))).
  { intros i Hi. rewrite F1; [apply HY, Hi|]. intros C. eapply disjR_inR; [exact Duy|exact C|]. apply inR_i. exact Hi. }
  assert (At1 : allocd m1 (inR t N)).
  { intros l Hl. rewrite F1; [apply At, Hl|]. intros C. eapply disjR_inR; [exact Dut|exact C|exact Hl]. }
  destruct (real_fwd_gen b N fwd0 y t m1 w HN eq_refl H1 Hy Ht Dyt At1 HY1) as (m2 & O2 & R2 & F2 & H2).
  exists m1, m2, (transform fwd0 N (fun j => rc (v j))), (transform fwd0 N (fun j => rc (w j))).
  split; [exact O1|]. split; [exact O2|]. split; [|split; [exact R2|]].
  { intros i Hi. rewrite F2; [apply R1, Hi|]. intros C. eapply disjR_inR; [exact Dut| |exact C]. apply inR_i. exact Hi. }
  intros m3 Hf Az HP. assert (H3 : rfft_history b (Some N) m3) by (eapply h_other; [exact H2|auto]).
  destruct (real_inverse b N invn u z m3 _ HN eq_refl H3 Hu Hz Duz Az HP) as (m4 & r & O4 & R4 & _).
  - pose proof (transform_Im0 fwd0 N _ eq_refl HNp (isreal_rc v)) as E1. pose proof (transform_Im0 fwd0 N _ eq_refl HNp (isreal_rc w)) as E2.
    revert E1 E2. generalize (transform fwd0 N (fun j => rc (v j)) 0), (transform fwd0 N (fun j => rc (w j)) 0). intros [a c] [a' c'] E1 E2.
    creduce. rewrite E1, E2. ring.
  - intros i Hi. rewrite !transform_mirror by (auto using isreal_rc; lia). symmetry. apply conj_mul.
  - exists m4. split; [exact O4|]. intros i Hi. destruct (R4 i Hi) as [E4 Er]. rewrite E4, Er. f_equal.
    rewrite <- circ_rc, <- (transform_circ fwd0 fwd0 invn) by auto. symmetry. apply transform_cis_inv. reflexivity.
Qed.
Print Assumptions C56_real_convolution.

(** ** C57: symmetries of the complex transforms *)
(** cyclic shift by s places: coefficient i is multiplied by exp(-+ 2 pi i s / N) *)
Theorem C57_shift : forall k b N s x (mX mY : mem CC) X,
  valid_length N -> s <= N -> fft_history b (Some N) mX -> fft_history b (Some N) mY -> ~ fft_own b (fst x) ->
  holds mX x N X -> holds mY x N (fun i => X ((i + (N - s)) mod N)) ->
  exists mX' mY' X', Outcome (fft_run b N k x) mX mX' /\ Outcome (fft_run b N k x) mY mY' /\ holds mX' x N X' /\
    holds mY' x N (fun i => cmul (X' i) (cis ((if meth_inv k then 1 else -1) * (2 * PI * INR (s * i) / INR N)))).
Proof.
  intros k b N s x mX mY X HN Hs H1 H2 Hx A1 A2. assert (HNp : 0 < N) by (unfold valid_length in HN; lia).
  destruct (fft_call b N k x mX X HN H1 Hx A1) as (m1 & O1 & R1 & _).
  destruct (fft_call b N k x mY _ HN H2 Hx A2) as (m2 & O2 & R2 & _).
  exists m1, m2, (transform k N X). split; [exact O1|]. split; [exact O2|]. split; [exact R1|]. intros i Hi. rewrite (R2 i Hi). f_equal.
  unfold transform. unfold DFT at 1. rewrite DFT_shift, !cscal_rc by auto. fold (W (meth_inv k) N (s * i)). ring.
Qed.
Print Assumptions C57_shift.

(** the forward transform of the conjugate data is the conjugate of the inverse transform of the data *)
Theorem C57_conjugate : forall k k' b N x (mX mY : mem CC) X,
  In (k, k') [(fwd, invn); (fwdn, invn); (fwd0, inv); (fwd0, inv0); (fwdu, invu)] ->
  valid_length N -> fft_history b (Some N) mX -> fft_history b (Some N) mY -> ~ fft_own b (fst x) ->
  holds mX x N X -> holds mY x N (fun i => cconj (X i)) ->
  exists mX' mY' X', Outcome (fft_run b N k' x) mX mX' /\ Outcome (fft_run b N k x) mY mY' /\ holds mX' x N X' /\
    holds mY' x N (fun i => cconj (X' i)).
Proof.
  intros k k' b N x mX mY X Hk HN H1 H2 Hx A1 A2.
  assert (E : meth_scaling k = meth_scaling k' /\ meth_inv k = negb (meth_inv k')).
  { repeat (destruct Hk as [[= <- <-]|Hk]; [auto|]). destruct Hk. }
  destruct E as [Es Ei].
  destruct (fft_call b N k' x mX X HN H1 Hx A1) as (m1 & O1 & R1 & _).
  destruct (fft_call b N k x mY _ HN H2 Hx A2) as (m2 & O2 & R2 & _).
  exists m1, m2, (transform k' N X). split; [exact O1|]. split; [exact O2|]. split; [exact R1|]. intros i Hi. rewrite (R2 i Hi). f_equal.
  unfold transform. rewrite Es, Ei, <- DFT_conj. generalize (DFT (meth_inv k') N X i). intros z. csimp; ring.
Qed.
Print Assumptions C57_conjugate.

(** the same direction twice reverses the array (index 0 stays) *)
Lemma DFT_twice inv N X i : 0 < N -> i < N -> DFT inv N (DFT inv N X) i = cmul (rc (INR N)) (X ((N - i) mod N)).
Proof.
  intros HN Hi. rewrite <- (DFT_inverse inv N X) by (auto; apply Nat.mod_upper_bound; lia). apply csum_ext. intros j _. f_equal.
  rewrite W_negb_mul by (pose proof (Nat.mod_upper_bound (N - i) N); lia). apply W_cong; [exact HN|].
  destruct (Nat.eq_dec i 0) as [->|H0].
  - rewrite Nat.sub_0_r, Nat.mod_same, Nat.sub_0_r, Nat.mod_mul by lia. rewrite Nat.mul_0_r. apply Nat.mod_0_l. lia.
  - rewrite (Nat.mod_small (N - i)) by lia. do 2 f_equal. lia.
Qed.
Theorem C57_twice : forall k1 k2 b N x (m : mem CC) X,
  In (k1, k2) [(fwdu, fwdu); (invu, invu); (fwd0, fwd); (fwd, fwd0); (fwd0, fwdn); (fwdn, fwd0); (inv0, invn); (invn, inv0); (inv, invn); (invn, inv)] ->
  valid_length N -> fft_history b (Some N) m -> ~ fft_own b (fst x) -> holds m x N X ->
  exists m1, Outcome (fft_run b N k1 x) m m1 /\
    forall m2, (forall l, fft_own b (fst l) \/ inR x N l -> m2 l = m1 l) ->
    exists m3, Outcome (fft_run b N k2 x) m2 m3 /\ holds m3 x N (fun i => X ((N - i) mod N)).
Proof.
  intros k1 k2 b N x m X Hk HN Hh Hx HX. assert (HNp : 0 < N) by (unfold valid_length in HN; lia).
  destruct (fft_call b N k1 x m X HN Hh Hx HX) as (m1 & H1 & H2 & _ & H4).
  exists m1. split; [exact H1|]. intros m2 Hf.
  destruct (fft_call b N k2 x m2 (transform k1 N X) HN) as (m3 & H5 & H6 & _); [|exact Hx| |].
  - eapply h_other; [exact H4|]. auto.
  - intros i Hi. rewrite Hf by (right; apply inR_i; auto). apply H2. auto.
  - exists m3. split; [exact H5|]. intros i Hi. rewrite (H6 i Hi). f_equal.
    assert (HN' : (0 < INR N)%R) by (apply lt_0_INR; auto). pose proof (sqrt_lt_R0 _ HN') as Hq.
    assert (E : meth_inv k2 = meth_inv k1 /\ (factor (meth_scaling k2) N * factor (meth_scaling k1) N * INR N = 1)%R).
    { assert (Hu : (/ sqrt (INR N) * / sqrt (INR N) * INR N = 1)%R) by (rewrite <- (sqrt_sqrt (INR N)) at 3 by lra; field; lra).
      repeat (destruct Hk as [[= <- <-]|Hk]; [split; [reflexivity|cbn [meth_scaling factor]; first [exact Hu|field; lra]]|]). destruct Hk. }
    destruct E as [Ei Ef]. unfold transform. rewrite Ei.
    rewrite (DFT_ext _ _ _ (fun j => cmul (rc (factor (meth_scaling k1) N)) (DFT (meth_inv k1) N X j))) by (intros; apply cscal_rc).
    rewrite DFT_scal, DFT_twice, cscal_rc by auto.
    transitivity (cmul (rc (factor (meth_scaling k2) N * factor (meth_scaling k1) N * INR N)%R) (X ((N - i) mod N))); [csimp; ring|].
    rewrite Ef. csimp; ring.
Qed.
Print Assumptions C57_twice.

(** ** The hypotheses are met *)
Theorem C56_hypotheses_met : forall b N X Y, exists m : mem CC,
  fft_history b (Some N) m /\ ~ fft_own b (fst (b + 4, 0)) /\ ~ fft_own b (fst (b + 5, 0)) /\ disjR (b + 4, 0) N (b + 5, 0) N /\
  holds m (b + 4, 0) N X /\ holds m (b + 5, 0) N Y.
Proof.
  intros b N X Y. assert (H4 : ~ fft_own b (fst (b + 4, 0))) by (unfold fft_own; cbn [fst]; lia).
  destruct (PropComplex.complex_hypotheses_met ROps b N (b + 4, 0) X H4) as (m0 & Hh & HX).
  exists (fun l => if Nat.eqb (fst l) (b + 5) then Val (Y (snd l)) else m0 l). split; [|split; [exact H4|split; [|split; [|split]]]].
  - eapply h_other; [exact Hh|]. intros l Hl. unfold fft_own in Hl. destruct (Nat.eqb_spec (fst l) (b + 5)); [lia|reflexivity].
  - unfold fft_own; cbn [fst]; lia.
  - intros i j _ _ E. apply (f_equal fst) in E. cbn in E. lia.
  - intros i Hi. change (fst ((b + 4, 0) +! i)) with (b + 4). destruct (Nat.eqb_spec (b + 4) (b + 5)); [lia|]. apply HX, Hi.
  - intros i Hi. change (fst ((b + 5, 0) +! i)) with (b + 5). rewrite Nat.eqb_refl. reflexivity.
Qed.
(** (1 + 2t)(3 + t) = 3 + 7t + 2t^2 *)
Example C56_example : let X := fun i => nth i [rc 1; rc 2] (rc 0) in let Y := fun i => nth i [rc 3; rc 1] (rc 0) in
  poly X Y 0 = rc 3 /\ poly X Y 1 = rc 7 /\ poly X Y 2 = rc 2 /\ poly X Y 3 = rc 0.
Proof. repeat split; unfold poly; cbn [csum nth Nat.sub]; csimp; ring. Qed.
