(** * Energy and inner products (C61)

    Sum of |y_i|^2 against sum of |x_j|^2, and inner products, for every scaling and every transform object; C05 is the
    special case of the unitary methods.  [rsum], [csum], [cnorm2]: Spec.v. *)

From Coq Require Import Reals List Arith ZArith Bool Lia Lra.
From Flocq Require Import IEEE754.Binary.
From Verif Require Import Scalar RealOps Spec DftFacts Mem MemFacts Omp Lanes Stage Object Engine ApiSpec FactorFacts FftSpec
  ModelApi History ApiFacts ApiExact ComplexThms ModelReal RealFacts RealRun RealExact GObj RealObj RealSpec RealThms
  DctRun DctExact DctThms ModelBluestein BluesteinRun PropBluestein Norm Round PropAccuracy Ieee Ieee64 PropIeee.
Import ListNotations.
Local Open Scope R_scope.

(** what a method multiplies energies by *)
Definition gain (k : meth) (N : nat) : R :=
  match k with fwdu | invu => 1 | fwd | fwdn | invn => / INR N | fwd0 | inv | inv0 => INR N end.

Lemma gain_factor k N : (0 < N)%nat -> gain k N = factor (meth_scaling k) N * factor (meth_scaling k) N * INR N.
Proof.
  intros HN. assert (HN' : 0 < INR N) by (apply lt_0_INR; auto). pose proof (sqrt_lt_R0 _ HN').
  destruct k; cbn [gain meth_scaling factor]; try (field; lra); rewrite <- (sqrt_sqrt (INR N)) at 3 by lra; field; lra.
Qed.
Lemma DFT_inner inv N x y : (0 < N)%nat ->
  csum N (fun k => cmul (DFT inv N x k) (cconj (DFT inv N y k))) = cmul (rc (INR N)) (csum N (fun j => cmul (x j) (cconj (y j)))).
Proof.
  intros HN. rewrite (csum_ext N _ (fun k => csum N (fun j => cmul (x j) (cmul (cconj (DFT inv N y k)) (W inv N (k * j)))))).
  2:{ intros k _. unfold DFT at 1. rewrite <- csum_mul_r. apply csum_ext. intros j _. rewrite (Nat.mul_comm k j). ring. }
  rewrite csum_swap, <- csum_mul_l. apply csum_ext. intros j Hj. rewrite csum_mul_l.
  replace (csum N (fun k => cmul (cconj (DFT inv N y k)) (W inv N (k * j)))) with (cmul (rc (INR N)) (cconj (y j))); [ring|].
  rewrite <- (DFT_inverse (negb inv) N (fun i => cconj (y i)) j HN Hj).
  unfold DFT at 1. rewrite Bool.negb_involutive. apply csum_ext. intros k _. rewrite DFT_conj. reflexivity.
Qed.
Lemma transform_inner k N x y : (0 < N)%nat ->
  csum N (fun i => cmul (transform k N x i) (cconj (transform k N y i))) = cscal (gain k N) (csum N (fun j => cmul (x j) (cconj (y j)))).
Proof.
  intros HN. rewrite gain_factor by auto. unfold transform. set (c := factor (meth_scaling k) N).
  rewrite (csum_ext N _ (fun i => cmul (rc (c * c)) (cmul (DFT (meth_inv k) N x i) (cconj (DFT (meth_inv k) N y i))))).
  - rewrite csum_mul_l, DFT_inner by auto. csimp; ring.
  - intros i _. generalize (DFT (meth_inv k) N x i) (DFT (meth_inv k) N y i). intros [p q] [r s]. csimp; ring.
Qed.
Lemma transform_power k N x : (0 < N)%nat ->
  rsum N (fun i => cnorm2 (transform k N x i)) = gain k N * rsum N (fun j => cnorm2 (x j)).
Proof.
  intros HN. pose proof (transform_inner k N x x HN) as E.
  rewrite (csum_ext N _ (fun i => rc (cnorm2 (transform k N x i)))) in E by (intros; apply cnorm2_conj).
  rewrite (csum_ext N (fun j => cmul (x j) (cconj (x j))) (fun i => rc (cnorm2 (x i)))) in E by (intros; apply cnorm2_conj).
  rewrite !csum_rc in E. apply (f_equal fst) in E. exact E.
Qed.

(** C61, ComplexFFT: inner products (hence also orthogonality) and energies *)
Theorem C61_complex_inner_product : forall k b N x b' x' (m m' : mem CC) X X',
  valid_length N -> fft_history b (Some N) m -> ~ fft_own b (fst x) -> holds m x N X ->
  fft_history b' (Some N) m' -> ~ fft_own b' (fst x') -> holds m' x' N X' ->
  exists m1 m1' Y Y', Outcome (fft_run b N k x) m m1 /\ holds m1 x N Y /\ Outcome (fft_run b' N k x') m' m1' /\ holds m1' x' N Y' /\
    csum N (fun i => cmul (Y i) (cconj (Y' i))) = cscal (gain k N) (csum N (fun j => cmul (X j) (cconj (X' j)))) /\
    rsum N (fun i => cnorm2 (Y i)) = gain k N * rsum N (fun j => cnorm2 (X j)).
Proof.
  intros k b N x b' x' m m' X X' HN Hh Hx HX Hh' Hx' HX'.
  destruct (fft_call b N k x m X HN Hh Hx HX) as (m1 & A1 & A2 & _). destruct (fft_call b' N k x' m' X' HN Hh' Hx' HX') as (m2 & B1 & B2 & _).
  assert (HN0 : (0 < N)%nat) by (unfold valid_length in HN; lia).
  exists m1, m2, (transform k N X), (transform k N X'). repeat (split; [assumption|]). split; [apply transform_inner; auto|apply transform_power; auto].
Qed.
Print Assumptions C61_complex_inner_product.

(** C61, BluesteinFFT, every length *)
Theorem C61_bluestein_energy : forall k b N x (m : mem CC) X,
  bl_length N -> bl_history b (Some N) m -> ~ bl_own b (fst x) -> holds m x N X ->
  exists m' Y, Outcome (bl_run b N k x) m m' /\ holds m' x N Y /\
    rsum N (fun i => cnorm2 (Y i)) = gain k N * rsum N (fun j => cnorm2 (X j)).
Proof.
  intros k b N x m X HN Hh Hx HX. destruct (bl_exact b N k x m X HN Hh Hx HX) as (m' & H1 & H2 & _).
  exists m', (transform k N X). split; [exact H1|]. split; [exact H2|]. apply transform_power. unfold bl_length in HN. lia.
Qed.
Print Assumptions C61_bluestein_energy.

(** C61, RealFFT: the energy of the signal from the one-sided spectrum, elements 0 .. N/2 *)
Lemma one_sided N (h : nat) (f : nat -> R) : N = (2 * h)%nat -> (1 <= h)%nat -> (forall i, (0 < i < h)%nat -> f (N - i)%nat = f i) ->
  rsum N f = f 0%nat + f h + 2 * rsum (h - 1) (fun i => f (S i)).
Proof.
  intros EN Hh Hf. replace N with (1 + (h - 1) + (1 + (h - 1)))%nat by lia. rewrite !rsum_app. cbn [rsum].
  rewrite (rsum_rev (h - 1) (fun i => f (1 + (h - 1) + (1 + i))%nat)).
  rewrite (rsum_ext (h - 1) (fun i => f (1 + (h - 1) + (1 + (h - 1 - 1 - i)))%nat) (fun i => f (S i))).
  2:{ intros i Hi. rewrite <- (Hf (S i)) by lia. f_equal. lia. }
  rewrite (rsum_ext (h - 1) (fun i => f (1 + i)%nat) (fun i => f (S i))) by reflexivity.
  replace (1 + (h - 1) + 0)%nat with h by lia. ring.
Qed.
Theorem C61_real_one_sided : forall k b N x y (m : mem CC) v,
  real_length N -> meth_inv k = false -> rfft_history b (Some N) m ->
  ~ fft_own b (fst x) -> ~ fft_own b (fst y) -> disjR x N y N -> allocd m (inR y N) ->
  holds m x N (fun j => rc (v j)) ->
  exists m' Y, Outcome (rfft_run b N k x y) m m' /\ holds m' y N Y /\
    cnorm2 (Y 0%nat) + cnorm2 (Y (N / 2)%nat) + 2 * rsum (N / 2 - 1) (fun i => cnorm2 (Y (S i))) = gain k N * rsum N (fun j => v j * v j).
Proof.
  intros k b N x y m v HN Hk Hh Hx Hy Hd Ha HX.
  destruct (real_fwd_gen b N k x y m v HN Hk Hh Hx Hy Hd Ha HX) as (m' & H1 & H2 & _).
  pose proof (real_length_pos N HN) as HN0. assert (EN : N = (2 * (N / 2))%nat) by apply HN. assert (Hh2 : (2 <= N / 2)%nat) by apply HN.
  exists m', (transform k N (fun j => rc (v j))). split; [exact H1|]. split; [exact H2|].
  rewrite <- (one_sided N (N / 2) (fun i => cnorm2 (transform k N (fun j => rc (v j)) i)) EN ltac:(lia)).
  - rewrite transform_power by auto. f_equal. apply rsum_ext. intros j _. unfold cnorm2, rc. cbn [fst snd]. ring.
  - intros i Hi. rewrite transform_mirror by (auto; try apply isreal_rc; lia). match goal with |- cnorm2 (cconj ?z) = _ => destruct z as [p q] end. unfold cnorm2, cconj, mkC, Re, Im. cbn. ring.
Qed.
Print Assumptions C61_real_one_sided.

(** C61, RealDCT *)
Lemma rsum_swap n m f : rsum n (fun i => rsum m (fun j => f i j)) = rsum m (fun j => rsum n (fun i => f i j)).
Proof.
  induction n as [|n IH]; cbn [rsum].
  - induction m as [|m IHm]; cbn [rsum]; [reflexivity|]. rewrite <- IHm. ring.
  - rewrite IH, <- rsum_add. reflexivity.
Qed.
Lemma dct2_energy N v : dct_length N ->
  let S := DCT2 N v in S 0%nat * S 0%nat + 2 * rsum (N - 1) (fun i => S (i + 1)%nat * S (i + 1)%nat) = INR N * rsum N (fun j => v j * v j).
Proof.
  intros HN S. assert (HN0 : (0 < N)%nat) by (destruct HN as (H & _); apply real_length_pos in H; auto).
  assert (HNR : 0 < INR N) by (apply lt_0_INR; auto).
  assert (E : forall j, (j < N)%nat -> DCT3 N S j = INR N * v j).
  { intros j Hj. pose proof (dct_spec_inv_fwd Dfwd0 Dinvn N v j ltac:(cbn; tauto) HN Hj) as K. cbn [dct_spec] in K. fold S in K.
    change (dct_spec Dfwd0 N v) with S in K. rewrite <- K. unfold Rdiv. field. lra. }
  rewrite <- (rsum_mul N (INR N)). rewrite (rsum_ext N _ (fun j => v j * DCT3 N S j)) by (intros j Hj; rewrite E by auto; ring).
  unfold DCT3.
  rewrite (rsum_ext N _ (fun j => S 0%nat * (v j * 1) + 2 * rsum (N - 1) (fun k => S (Datatypes.S k) * (v j * cos (PI * INR (Datatypes.S k) * (2 * INR j + 1) / (2 * INR N)))))).
  2:{ intros j _. rewrite Rmult_plus_distr_l. f_equal; [ring|]. rewrite <- Rmult_assoc, (Rmult_comm (v j) 2), Rmult_assoc. f_equal.
      rewrite <- rsum_mul. apply rsum_ext. intros k _. ring. }
  rewrite rsum_add, !rsum_mul, rsum_swap. f_equal.
  - f_equal. unfold S, DCT2. apply rsum_ext. intros j _. f_equal.
    replace (PI * INR 0 * (2 * INR j + 1) / (2 * INR N)) with 0 by (cbn [INR]; field; lra). rewrite cos_0. reflexivity.
  - f_equal. apply rsum_ext. intros k _. rewrite rsum_mul. replace (k + 1)%nat with (Datatypes.S k) by lia. reflexivity.
Qed.
Theorem C61_dct_energy : forall k b N x (m : mem CC) v, In k [Dfwd; Dfwd0; Dfwdn] ->
  dct_length N -> dct_history b (Some N) m -> ~ dct_own b (fst x) -> holds m x N (fun j => rc (v j)) ->
  exists m' s, Outcome (dct_run b N k x) m m' /\ holds m' x N (fun i => rc (s i)) /\
    s 0%nat * s 0%nat + 2 * rsum (N - 1) (fun i => s (i + 1)%nat * s (i + 1)%nat) =
      match k with Dfwd0 => INR N | _ => / INR N end * rsum N (fun j => v j * v j).
Proof.
  intros k b N x m v Hk HN Hh Hx HX. destruct (dct_exact b N k x m v HN Hh Hx HX) as (m' & H1 & H2 & _).
  exists m', (dct_spec k N v). split; [exact H1|]. split; [exact H2|].
  assert (HN0 : (0 < N)%nat) by (destruct HN as (H & _); apply real_length_pos in H; auto).
  assert (HNR : 0 < INR N) by (apply lt_0_INR; auto). pose proof (dct2_energy N v HN) as E. cbv zeta in E.
  assert (E' : DCT2 N v 0 / INR N * (DCT2 N v 0 / INR N) + 2 * rsum (N - 1) (fun i => DCT2 N v (i + 1) / INR N * (DCT2 N v (i + 1) / INR N)) =
    / INR N * rsum N (fun j => v j * v j)).
  { rewrite (rsum_ext (N - 1) _ (fun i => / (INR N * INR N) * (DCT2 N v (i + 1) * DCT2 N v (i + 1)))) by (intros; field; lra).
    rewrite rsum_mul. transitivity (/ (INR N * INR N) * (INR N * rsum N (fun j => v j * v j))); [rewrite <- E|]; field; lra. }
  destruct Hk as [<-|[<-|[<-|[]]]]; cbn [dct_spec]; [exact E'|exact E|exact E'].
Qed.
Print Assumptions C61_dct_energy.

(** C61 on IEEE doubles: if no element of the result is infinite or NaN, its norm is that of the input times sqrt(gain), up to
    the error bound of C49 *)
Theorem C61_ieee_energy : forall dc ds lam, libm dc ds lam -> forall bd b N k x (m : mem (@C (ieee dc ds bd))) X ps,
  valid_length N -> fft_history b (Some N) m -> ~ fft_own b (fst x) -> holds m x N X -> factorisation ps N ->
  exists m' Y, Outcome (@fft_run (ieee dc ds bd) b N k x) m m' /\ holds m' x N Y /\
    ((forall i, (i < N)%nat -> finite_c (Y i)) ->
     Rabs (nrm N (fun i => val (Y i)) - sqrt (gain k N) * nrm N (fun j => val (X j))) <=
       bound64 lam ps * (sqrt (gain k N) * nrm N (fun j => val (X j)) + floor64 N)).
Proof.
  intros dc ds lam L bd b N k x m X ps HN Hh Hx HX Hp.
  destruct (C49_ieee_accuracy dc ds lam L bd b N k x m X ps HN Hh Hx HX Hp) as (m' & Y & H1 & H2 & _ & H3).
  exists m', Y. split; [exact H1|]. split; [exact H2|]. intros Hf. specialize (H3 Hf).
  assert (HN0 : (0 < N)%nat) by (unfold valid_length in HN; lia). assert (HNR : 0 < INR N) by (apply lt_0_INR; auto).
  assert (E : nrm N (transform k N (fun i => val (X i))) = sqrt (gain k N) * nrm N (fun j => val (X j))).
  { unfold nrm. rewrite transform_power by auto. rewrite sqrt_mult_alt; [reflexivity|].
    destruct k; cbn [gain]; try lra; apply Rlt_le, Rinv_0_lt_compat; auto. }
  rewrite <- E. unfold within in H3. set (T := transform k N (fun i => val (X i))) in *.
  pose proof (nrm_near N (fun i => val (Y i)) T) as A. pose proof (nrm_near N T (fun i => val (Y i))) as B.
  assert (Esym : nrm N (vsub T (fun i => val (Y i))) = nrm N (vsub (fun i => val (Y i)) T)).
  { unfold nrm. f_equal. apply rsum_ext. intros i _. unfold vsub. generalize (T i) (val (Y i)). intros [p q] [r s]. unfold cnorm2, csub, mkC, Re, Im. cbn. ring. }
  rewrite Esym in B. change (nrm N (fun i => csub (val (Y i)) (T i))) with (nrm N (vsub (fun i => val (Y i)) T)) in H3.
  apply Rabs_le. lra.
Qed.
Print Assumptions C61_ieee_energy.
