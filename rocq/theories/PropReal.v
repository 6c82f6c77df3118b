(** * Properties of the real transform (RealFFT, class RFFT)

    Reading guide: see PropComplex.v.  An RFFT object occupies the buffers b..b+3.
    [rfft_history b (Some N) m]: m can arise after any sequence of setups, legal method calls and arbitrary
    changes to memory not owned by the object, the last setup being setup(N) (History.v, RealObj.v).
    An array of double holding v is an array with cells [rc (v j)] = (v j, 0).
    [real_length N]: N even, N <= 2^30 and N/2 an admissible length of the complex transform (so N >= 4). *)

From Coq Require Import Reals List Arith ZArith Bool Lia Lra.
From Verif Require Import Scalar RealOps Spec DftFacts Mem MemFacts Omp Lanes Stage Object Engine ApiSpec FactorFacts
  ModelApi History ApiFacts ApiExact Footprint ComplexThms ModelReal RealFacts RealRun RealExact GObj RealObj RealSpec RealThms.
Import ListNotations.

(** C16: all forward methods; the input is unchanged (it is outside y); only y is written *)
Theorem C16_real_forward : forall b N k x y (m : mem CC) v,
  real_length N -> meth_inv k = false -> rfft_history b (Some N) m ->
  ~ fft_own b (fst x) -> ~ fft_own b (fst y) -> disjR x N y N -> allocd m (inR y N) ->
  holds m x N (fun j => rc (v j)) ->
  exists m', Outcome (rfft_run b N k x y) m m' /\
    (forall i, i < N -> m' (y +! i) = Val (cscal (factor (meth_scaling k) N)
       (csum N (fun j => cmul (rc (v j)) (cis (- (2 * PI * INR (j * i) / INR N))))))) /\
    (forall l, ~ inR y N l -> m' l = m l) /\ holds m' x N (fun j => rc (v j)).
Proof. exact real_forward. Qed.
Print Assumptions C16_real_forward.

(** C17 *)
Theorem C17_hermitian : forall b N k x y (m : mem CC) v,
  real_length N -> meth_inv k = false -> rfft_history b (Some N) m ->
  ~ fft_own b (fst x) -> ~ fft_own b (fst y) -> disjR x N y N -> allocd m (inR y N) ->
  holds m x N (fun j => rc (v j)) ->
  exists m' Y, Outcome (rfft_run b N k x y) m m' /\ holds m' y N Y /\
    (forall i, 0 < i < N -> Y (N - i) = cconj (Y i)) /\ Im (Y 0) = 0%R /\ Im (Y (N / 2)) = 0%R.
Proof. exact real_hermitian. Qed.
Print Assumptions C17_hermitian.

(** C18, first part: on any Hermitian spectrum the inverse methods compute the conjugate DFT with their
    scalings; the result is real.  The spectrum array x is used as work area: only x and y are written. *)
Theorem C18_real_inverse : forall b N k x y (m : mem CC) X,
  real_length N -> meth_inv k = true -> rfft_history b (Some N) m ->
  ~ fft_own b (fst x) -> ~ fft_own b (fst y) -> disjR x N y N -> allocd m (inR y N) -> holds m x N X ->
  Im (X 0) = 0%R -> (forall i, 0 < i < N -> X (N - i) = cconj (X i)) ->
  exists m' r, Outcome (rfft_run b N k x y) m m' /\
    (forall i, i < N -> m' (y +! i) = Val (rc (r i)) /\
       rc (r i) = cscal (factor (meth_scaling k) N) (csum N (fun j => cmul (X j) (cis (2 * PI * INR (j * i) / INR N))))) /\
    (forall l, ~ inR y N l -> ~ inR x N l -> m' l = m l).
Proof. exact real_inverse. Qed.
Print Assumptions C18_real_inverse.

(** C18, second part: forward from x to y, anything that leaves y and the object alone, then the matching
    inverse from y to any array z (x, for instance) *)
Theorem C18_round_trip : forall k1 k2 b N x y z (m : mem CC) v,
  In (k1, k2) [(fwd, inv); (fwd, inv0); (fwdn, inv); (fwdn, inv0); (fwd0, invn); (fwdu, invu)] ->
  real_length N -> rfft_history b (Some N) m ->
  ~ fft_own b (fst x) -> ~ fft_own b (fst y) -> ~ fft_own b (fst z) ->
  disjR x N y N -> disjR y N z N -> allocd m (inR y N) ->
  holds m x N (fun j => rc (v j)) ->
  exists m1, Outcome (rfft_run b N k1 x y) m m1 /\
    forall m2, (forall l, fft_own b (fst l) \/ inR y N l -> m2 l = m1 l) -> allocd m2 (inR z N) ->
    exists m3, Outcome (rfft_run b N k2 y z) m2 m3 /\ holds m3 z N (fun j => rc (v j)).
Proof. exact real_round_trip. Qed.
Print Assumptions C18_round_trip.

(** C29 for the real transform: linear over the reals (forward: real data; inverse: any spectra) *)
Theorem C29_real_linear : forall k b N x y (mX mY mZ : mem CC) X Y (a c : R),
  real_length N -> rfft_history b (Some N) mX -> rfft_history b (Some N) mY -> rfft_history b (Some N) mZ ->
  ~ fft_own b (fst x) -> ~ fft_own b (fst y) -> disjR x N y N ->
  allocd mX (inR y N) -> allocd mY (inR y N) -> allocd mZ (inR y N) ->
  holds mX x N X -> holds mY x N Y -> holds mZ x N (fun i => cadd (cmul (rc a) (X i)) (cmul (rc c) (Y i))) ->
  exists mX' mY' mZ' X' Y', Outcome (rfft_run b N k x y) mX mX' /\ Outcome (rfft_run b N k x y) mY mY' /\ Outcome (rfft_run b N k x y) mZ mZ' /\
    holds mX' y N X' /\ holds mY' y N Y' /\ holds mZ' y N (fun i => cadd (cmul (rc a) (X' i)) (cmul (rc c) (Y' i))).
Proof. exact real_linear. Qed.
Print Assumptions C29_real_linear.

(** C31, real part: RealFFT equals ComplexFFT on the same vector embedded in the complex numbers *)
Theorem C31_real_is_complex : forall k b N x y b' x' (m m' : mem CC) v,
  meth_inv k = false -> real_length N -> valid_length N ->
  rfft_history b (Some N) m -> ~ fft_own b (fst x) -> ~ fft_own b (fst y) -> disjR x N y N -> allocd m (inR y N) ->
  holds m x N (fun j => rc (v j)) ->
  fft_history b' (Some N) m' -> ~ fft_own b' (fst x') -> holds m' x' N (fun j => rc (v j)) ->
  exists m1 m1' Y, Outcome (rfft_run b N k x y) m m1 /\ holds m1 y N Y /\
    Outcome (fft_run b' N k x') m' m1' /\ holds m1' x' N Y.
Proof. exact real_is_complex. Qed.
Print Assumptions C31_real_is_complex.

(** C07, C09, C10, C08 for the real transform, in any arithmetic: defined behaviour in every schedule, writes
    only y (and, for inverse methods, x), accesses only x, y and the object, the result is a function of
    N, the method and the input *)
Theorem C07_real_safety : forall (Op : Ops) b N k x y (m : mem C) X,
  real_length N -> rfft_history b (Some N) m -> ~ fft_own b (fst x) -> ~ fft_own b (fst y) -> disjR x N y N ->
  allocd m (inR y N) -> holds m x N X ->
  (exists m', Outcome (rfft_run b N k x y) m m' /\ (forall l, ~ inR y N l -> (meth_inv k = true -> ~ inR x N l) -> m' l = m l)) /\
  accesses_only (rfft_run b N k x y) m (fun l => inR x N l \/ inR y N l \/ fft_own b (fst l)).
Proof. exact @real_safety. Qed.
Print Assumptions C07_real_safety.
Theorem C07_real_setup_safety : forall (Op : Ops) b N o (m : mem C), rfft_history b o m ->
  (exists m', Outcome (rfft_setup b N) m m' /\ (forall l, ~ fft_own b (fst l) -> m' l = m l)) /\
  accesses_only (rfft_setup b N) m (fun l => fft_own b (fst l)).
Proof. exact @real_setup_safety. Qed.
Print Assumptions C07_real_setup_safety.
Theorem C09_real_deterministic : forall (Op : Ops) N k, real_length N ->
  exists F : (nat -> C) -> nat -> C, forall b x y (m : mem C) X,
    rfft_history b (Some N) m -> ~ fft_own b (fst x) -> ~ fft_own b (fst y) -> disjR x N y N -> allocd m (inR y N) -> holds m x N X ->
    exists m', Outcome (rfft_run b N k x y) m m' /\ holds m' y N (F X).
Proof. exact @real_deterministic. Qed.
Print Assumptions C09_real_deterministic.
Theorem C10_real_no_data_race : forall (Op : Ops) b N k x y (m : mem C) X,
  real_length N -> rfft_history b (Some N) m -> ~ fft_own b (fst x) -> ~ fft_own b (fst y) -> disjR x N y N ->
  allocd m (inR y N) -> holds m x N X ->
  forall n T m1, call_reach (rfft_run b N k x y) m n T m1 -> forall i j, i < n -> j < n -> i <> j -> ~ racing (T i) (T j).
Proof. exact @real_no_race. Qed.
Print Assumptions C10_real_no_data_race.

(** C25 for the real transform: forward methods leave every byte of the object unchanged; inverse too *)
Theorem C25_real_object_unchanged : forall (Op : Ops) b N k x y (m : mem C) X,
  real_length N -> rfft_history b (Some N) m -> ~ fft_own b (fst x) -> ~ fft_own b (fst y) -> disjR x N y N ->
  allocd m (inR y N) -> holds m x N X ->
  exists m', Outcome (rfft_run b N k x y) m m' /\ (forall l, fft_own b (fst l) -> m' l = m l).
Proof. exact @real_object_unchanged. Qed.
Print Assumptions C25_real_object_unchanged.

(** the hypotheses are met: every admissible length, data, position *)
Theorem real_hypotheses_met : forall (Op : Ops) b N x y X, real_length N -> ~ fft_own b (fst x) -> ~ fft_own b (fst y) -> disjR x N y N ->
  exists m : mem C, rfft_history b (Some N) m /\ allocd m (inR y N) /\ holds m x N X.
Proof. exact @real_inhabited. Qed.
Theorem real_lengths : (forall n, 2 <= n <= 30 -> real_length (2 ^ n)) /\
  (forall h, 2 <= h -> (Z.of_nat h <= 46340)%Z -> real_length (2 * h)).
Proof. exact real_lengths_ok. Qed.
