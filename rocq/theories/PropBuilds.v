(** * C33: the results do not depend on the instruction set the library was built for

    [build] (Simd.v) lists the variants of the SIMD helpers of src/otfft_misc.h; [build_ops sfma sfms b] is the
    arithmetic the kernels use in build b on top of the scalar arithmetic [Op]. *)

From Coq Require Import Reals ZArith List Bool Arith.
From Flocq Require Import Core.FLX IEEE754.BinarySingleNaN.
From Verif Require Import Scalar RealOps Spec Mem MemFacts Omp Lanes Stage Object Engine ApiSpec ModelApi History ApiFacts
  ModelReal RealObj DctRun ModelBluestein BluesteinRun Simd SimdFacts Ieee PropComplex.
Import ListNotations.

(** In every build and for every scalar arithmetic each helper on one (xmm), two (ymm) and four (emm) complex
    numbers computes, in every lane, the operation the model of the kernels uses for it (Scalar.v). *)
Theorem C33_helpers_are_lanewise : forall (Op : Ops) (sfma sfms : Sc -> Sc -> Sc -> Sc) b,
  let O := build_ops sfma sfms b in
  @lanewise2 Op b (@cadd O) (addpz b) (addpz2 b) (addez4 b) /\
  @lanewise2 Op b (@csub O) (subpz b) (subpz2 b) (subez4 b) /\
  @lanewise2 Op b (@cmul O) (mulpz sfma sfms b) (mulpz2 sfma sfms b) (mulez4 sfma sfms b) /\
  @lanewise1 Op b (@cconj O) (cnjpz b) (cnjpz2 b) (cnjez4 b) /\
  @lanewise1 Op b (@jx O) (jxpz b) (jxpz2 b) (jxez4 b) /\
  @lanewise1 Op b (@v8x O) (v8xpz b) (v8xpz2 b) (v8xez4 b) /\
  @lanewise1 Op b (@w8x O) (w8xpz b) (w8xpz2 b) (w8xez4 b) /\
  @lanewise1 Op b (@h1x O) (h1xpz sfma sfms b) (h1xpz2 sfma sfms b) (h1xez4 sfma sfms b) /\
  @lanewise1 Op b (@h3x O) (h3xpz sfma sfms b) (h3xpz2 sfma sfms b) (h3xez4 sfma sfms b) /\
  @lanewise1 Op b (@hfx O) (hfxpz sfma sfms b) (hfxpz2 sfma sfms b) (hfxez4 sfma sfms b) /\
  @lanewise1 Op b (@hdx O) (hdxpz sfma sfms b) (hdxpz2 sfma sfms b) (hdxez4 sfma sfms b) /\
  (forall N mode, @lanewise1 Op b (@scalepz O N mode) (scalepz_ b N mode) (scalepz2 b N mode) (scaleez4 b N mode)) /\
  (forall z, negpz b z = @cneg O z) /\ (forall z, mjxpz b z = @mjx O z).
Proof.
  intros Op sfma sfms b O. split; [apply add_lanes|]. split; [apply sub_lanes|]. split; [apply mul_lanes|].
  split; [apply cnj_lanes|]. split; [apply jx_lanes|]. split; [apply v8_lanes|]. split; [apply w8_lanes|].
  split; [apply h1_lanes|]. split; [apply h3_lanes|]. split; [apply hf_lanes|]. split; [apply hd_lanes|].
  split; [intros; apply scale_lanes|]. split; [apply neg_lane | apply mjx_lane].
Qed.
Print Assumptions C33_helpers_are_lanewise.

(** Loads, stores and the helpers that move complex numbers between lanes *)
Theorem C33_moves : forall (Op : Ops) b,
  (forall z0 z1, setpz2 b (getpz2 b z0 z1) = (z0, z1)) /\
  (forall z0 z1 z2 z3, setez4 b (getez4 b z0 z1 z2 z3) = ((z0, z1), (z2, z3))) /\
  (forall z0 z1, getlo b (getpz2 b z0 z1) = z0 /\ gethi b (getpz2 b z0 z1) = z1) /\
  (forall z, setpz2 b (duppz2 b z) = (z, z)) /\
  (forall z, setez4 b (dupez4 b z) = ((z, z), (z, z))) /\
  (forall u z0 z1, setpz2 b (cat b u z0 z1) = (z0, z1)) /\
  (forall v w, setpz2 b (catlo b v w) = (getlo b v, getlo b w)) /\
  (forall v w, setpz2 b (cathi b v w) = (gethi b v, gethi b w)) /\
  (forall v, setpz2 b (swaplohi b v) = (gethi b v, getlo b v)).
Proof.
  intros Op b. split; [exact (set2_get2 b)|].
  split; [intros; rewrite set4_lanes, !get4_lane; reflexivity|].
  split; [intros; rewrite getlo_lane, gethi_lane, !get2_lane; auto|].
  split; [intros; rewrite set2_lanes, !dup2_lane; reflexivity|].
  split; [intros; rewrite set4_lanes, !dup4_lane; reflexivity|].
  split; [intros; rewrite set2_lanes, !cat_lane; reflexivity|].
  split; [intros; rewrite set2_lanes, !catlo_lane, !getlo_lane; reflexivity|].
  split; [intros; rewrite set2_lanes, !cathi_lane, !gethi_lane; reflexivity|].
  intros; rewrite set2_lanes, !swap_lane, getlo_lane, gethi_lane; reflexivity.
Qed.
Print Assumptions C33_moves.

(** ** Exact arithmetic: every build runs the same programs *)
Theorem C33_same_programs : forall b,
  @fft_setup (build_R b) = @fft_setup ROps /\ @fft_run (build_R b) = @fft_run ROps /\
  @rfft_setup (build_R b) = @rfft_setup ROps /\ @rfft_run (build_R b) = @rfft_run ROps /\
  @dct_setup (build_R b) = @dct_setup ROps /\ @dct_run (build_R b) = @dct_run ROps /\
  @bl_setup (build_R b) = @bl_setup ROps /\ @bl_run (build_R b) = @bl_run ROps.
Proof. intros b. unfold build_R, build_ops. rewrite build_six_R. repeat (split; [reflexivity|]). reflexivity. Qed.
Print Assumptions C33_same_programs.

(** hence, for instance, the forward transform of every build is the DFT (the object having been set up and used by
    the code of that build) *)
Theorem C33_forward_every_build : forall bd b N x (m : mem CC) X,
  valid_length N -> @fft_history (build_R bd) b (Some N) m -> ~ fft_own b (fst x) -> holds m x N X ->
  exists m', Outcome (@fft_run (build_R bd) b N fwd0 x) m m' /\
    (forall k, k < N -> m' (x +! k) = Val (csum N (fun j => cmul (X j) (cis (- (2 * PI * INR (j * k) / INR N)))))) /\
    (forall l, ~ inR x N l -> ~ inR (b + 3, 0) N l -> m' l = m l).
Proof. intros bd. unfold build_R, build_ops. rewrite build_six_R. exact C01_forward_is_DFT. Qed.
Print Assumptions C33_forward_every_build.

(** ** IEEE doubles: builds without FMA run the same programs bit for bit
    (f_cos, f_sin: the C library's functions; the four constants: the doubles the literals denote) *)
#[local] Instance prec53 : FLX.Prec_gt_0 53 := eq_refl.
#[local] Instance prec1024 : Prec_lt_emax 53 1024 := eq_refl.
Notation double := (binary_float 53 1024).
Theorem C33_bit_for_bit : forall (f_cos f_sin : double -> double) (pi sqrt1_2 h1x_ h1y_ : double) b b',
  has_fma b = false -> has_fma b' = false ->
  let O := F_ops 53 1024 _ _ f_cos f_sin pi sqrt1_2 h1x_ h1y_ b in
  let O' := F_ops 53 1024 _ _ f_cos f_sin pi sqrt1_2 h1x_ h1y_ b' in
  @fft_setup O = @fft_setup O' /\ @fft_run O = @fft_run O' /\
  @rfft_setup O = @rfft_setup O' /\ @rfft_run O = @rfft_run O' /\
  @dct_setup O = @dct_setup O' /\ @dct_run O = @dct_run O' /\
  @bl_setup O = @bl_setup O' /\ @bl_run O = @bl_run O'.
Proof.
  intros f_cos f_sin pi q hx hy b b' H1 H2. unfold F_ops, build_ops.
  apply (F_ops_nofma 53 1024 _ _ f_cos f_sin pi q hx hy (fun k =>
    let O := @set_ops (F_ops0 53 1024 _ _ f_cos f_sin pi q hx hy) k in
    let O' := @set_ops (F_ops0 53 1024 _ _ f_cos f_sin pi q hx hy) (@build_six (F_ops0 53 1024 _ _ f_cos f_sin pi q hx hy) (f_fma 53 1024 _ _) (f_fms 53 1024 _ _) b') in
    @fft_setup O = @fft_setup O' /\ @fft_run O = @fft_run O' /\
    @rfft_setup O = @rfft_setup O' /\ @rfft_run O = @rfft_run O' /\
    @dct_setup O = @dct_setup O' /\ @dct_run O = @dct_run O' /\
    @bl_setup O = @bl_setup O' /\ @bl_run O = @bl_run O') b b' H1 H2).
  cbv zeta. repeat (split; [reflexivity|]). reflexivity.
Qed.
Print Assumptions C33_bit_for_bit.

(** The restriction to builds without FMA is necessary: with z = (1 + 2^-30)(1 + i) the real part of z*z is 0 without
    FMA and 2^-60 with it. *)
Definition dbl (m e : Z) : double := binary_normalize 53 1024 _ _ mode_NE m e false.
Theorem C33_fma_differs : forall (f_cos f_sin : double -> double) (pi sqrt1_2 h1x_ h1y_ : double),
  let O := F_ops 53 1024 _ _ f_cos f_sin pi sqrt1_2 h1x_ h1y_ in
  let z := (dbl (2 ^ 30 + 1) (-30), dbl (2 ^ 30 + 1) (-30)) in
  B2SF (fst (@cmul (O AVX) z z)) = B2SF (dbl 0 0) /\
  B2SF (fst (@cmul (O AVX_FMA) z z)) = B2SF (dbl 1 (-60)) /\
  B2SF (dbl 0 0) <> B2SF (dbl 1 (-60)).
Proof.
  intros. split; [|split].
  - vm_compute. reflexivity.
  - vm_compute. reflexivity.
  - vm_compute. discriminate.
Qed.
Print Assumptions C33_fma_differs.
