(** * Specification: the mathematical transforms (independent of the model of the code) *)

From Coq Require Import Reals List.
From Verif Require Import Scalar RealOps.
Local Open Scope R_scope.

(** finite sums of complex and of real numbers *)
Fixpoint csum (n : nat) (f : nat -> CC) : CC :=
  match n with O => (0, 0) | S n' => cadd (csum n' f) (f n') end.

Fixpoint rsum (n : nat) (f : nat -> R) : R :=
  match n with O => 0 | S n' => rsum n' f + f n' end.

(** exp(-2 pi i k / N) (forward, [inv = false]) or exp(+2 pi i k / N) (inverse, [inv = true]) *)
Definition W (inv : bool) (N k : nat) : CC :=
  cis ((if inv then 1 else -1) * (2 * PI * INR k / INR N)).

(** the (unscaled) discrete Fourier transform of length N and its conjugate *)
Definition DFT (inv : bool) (N : nat) (x : nat -> CC) (k : nat) : CC :=
  csum N (fun j => cmul (x j) (W inv N (j * k))).

(** scaling factors *)
Inductive scaling := Unscaled | Unitary | ByLength.

Definition factor (s : scaling) (N : nat) : R :=
  match s with
  | Unscaled => 1
  | Unitary => / sqrt (INR N)
  | ByLength => / INR N
  end.

(** DCT-II *)
Definition DCT2 (N : nat) (x : nat -> R) (k : nat) : R :=
  rsum N (fun j => x j * cos (PI * INR k * (2 * INR j + 1) / (2 * INR N))).

(** squared norm of a complex number *)
Definition cnorm2 (z : CC) : R := fst z * fst z + snd z * snd z.
