(** * Specification of the methods of the complex transform (inc/otfft.h, README) *)

From Coq Require Import Reals List Arith.
From Verif Require Import Scalar RealOps Spec Engine.
Local Open Scope R_scope.

(** fwd, fwdn: DFT divided by N; fwdu: divided by sqrt N; fwd0: DFT;
    inv, inv0: conjugate DFT; invu: divided by sqrt N; invn: divided by N *)
Definition meth_scaling (k : meth) : scaling :=
  match k with
  | fwd | fwdn | invn => ByLength
  | fwdu | invu => Unitary
  | fwd0 | inv | inv0 => Unscaled
  end.

(** the mathematical result of method k on the array X of length N *)
Definition transform (k : meth) (N : nat) (X : nat -> CC) (i : nat) : CC :=
  cscal (factor (meth_scaling k) N) (DFT (meth_inv k) N X i).
