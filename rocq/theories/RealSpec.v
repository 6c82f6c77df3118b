(** * Specification of RealFFT and RealDCT (inc/otfft.h, README) *)

From Coq Require Import Reals List Arith.
From Verif Require Import Scalar RealOps Spec Engine ApiSpec ModelReal.
Local Open Scope R_scope.

(** a real number as a complex number is [rc]; a double in memory is [rval] (ModelReal.v); over R they coincide *)
Lemma rval_rc (d : R) : @rval ROps d = rc d. Proof. reflexivity. Qed.

(** DCT-III: x[0] + 2 sum_{k=1}^{N-1} x[k] cos(pi k (2i+1) / (2N)) *)
Definition DCT3 (N : nat) (x : nat -> R) (i : nat) : R :=
  x 0%nat + 2 * rsum (N - 1) (fun k => x (S k) * cos (PI * INR (S k) * (2 * INR i + 1) / (2 * INR N))).

(** the mathematical result of a RealDCT method: fwd, fwdn: DCT-II / N; fwd0: DCT-II; inv, inv0: DCT-III; invn: DCT-III / N *)
Definition dct_spec (k : dmeth) (N : nat) (x : nat -> R) (i : nat) : R :=
  match k with
  | Dfwd | Dfwdn => DCT2 N x i / INR N
  | Dfwd0 => DCT2 N x i
  | Dinv | Dinv0 => DCT3 N x i
  | Dinvn => DCT3 N x i / INR N
  end.
