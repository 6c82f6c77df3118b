(** * The dispatching transform objects FFT0 and FFT: src/otfft_algo.cpp:44-198 *)

From Coq Require Import List Arith ZArith Bool.
From Verif Require Import Scalar Mem Omp Lanes Object Engine ModelMixed ModelMixedClass ModelPow ModelSix.
Import ListNotations.

(** the algorithm object `obj` points to *)
Inductive engine :=
| EPow (a : alg) (log_N : nat)     (* FFT1 .. FFT6 *)
| ESix (log_N : nat)               (* FFT7 *)
| EMixed (N : nat).                (* FFT8 *)

(** for (N = n, log_N = 0; n > 1; n >>= 1) log_N++;  : src/otfft_algo.cpp:64.
    The loop is given n steps, which it never exhausts. *)
Fixpoint log_loop (fuel n log_N : nat) : nat :=
  match fuel with
  | 0 => log_N
  | S fuel' => if 1 <? n then log_loop fuel' (n / 2) (S log_N) else log_N
  end.

(** namespaces FFT1..FFT8 : src/otfft_algo.cpp:34-42 *)
Definition FFT1 := EPow DIF4.
Definition FFT2 := EPow DIT4.
Definition FFT3 := EPow DIF8.
Definition FFT4 := EPow DIT8.
Definition FFT5 := EPow DIF16.
Definition FFT6 := EPow DIT16.
Definition FFT7 := ESix.
Definition FFT8 := EMixed.

(** src/otfft_algo.cpp:64-96; None: obj stays null.  Lengths are natural numbers here. *)
Definition select (N : nat) : option engine :=
  let log_N := log_loop N N 0 in
  if negb (N =? 2 ^ log_N) then Some (FFT8 N)
  else match log_N with
  | 0 => None
  | 1 => Some (FFT2 1)
  | 2 => Some (FFT1 2)
  | 3 => Some (FFT4 3)
  | 4 => Some (FFT1 4)
  | 5 => Some (FFT4 5)
  | 6 => Some (FFT3 6)
  | 7 => Some (FFT5 7)
  | 8 => Some (FFT3 8)
  | 9 => Some (FFT3 9)
  | 10 => Some (FFT1 10)
  | 11 => Some (FFT5 11)
  | 12 => Some (FFT4 12)
  | 13 => Some (FFT3 13)
  | 14 => Some (FFT4 14)
  | 15 => Some (FFT4 15)
  | 16 => Some (FFT7 16)
  | 17 => Some (FFT4 17)
  | 18 => Some (FFT7 18)
  | 19 => Some (FFT7 19)
  | 20 => Some (FFT7 20)
  | 21 => Some (FFT7 21)
  | 22 => Some (FFT7 22)
  | 23 => Some (FFT7 23)
  | 24 => Some (FFT7 24)
  | _ => Some (FFT8 N)
  end.

Section Api.
Context {Op : Ops}.
Notation act := (act C).

Definition engine_setup (b : nat) (e : engine) : list act :=
  match e with
  | EPow a n => pow_setup2 a b n
  | ESix n => six_setup2 b n
  | EMixed N => mixed_setup b N
  end.
Definition engine_run (b : nat) (e : engine) (k : meth) (x y : ptr) : list act :=
  match e with
  | EPow a n => pow_run a b n k x y
  | ESix n => six_run b n k x y
  | EMixed N => mixed_run b N k x y
  end.

(** obj.reset() releases the tables of the previous algorithm object, src/otfft_algo.cpp:63.
    An algorithm object has up to three tables, in buffers b, b+1, b+2. *)
Definition obj_reset (b : nat) : list act := [New b 0; New (S b) 0; New (S (S b)) 0].

(** FFT0::setup : src/otfft_algo.cpp:61-103 (without failing allocations) *)
Definition fft0_setup (b N : nat) : list act :=
  obj_reset b ++ match select N with Some e => engine_setup b e | None => [] end.

(** FFT0::fwd .. FFT0::invn : src/otfft_algo.cpp:105-143; a call through the null pointer is UB.
    (FFT0::fwdn is fwd and FFT0::inv0 is inv, as in the algorithm objects.) *)
Definition fft0_meth (k : meth) : meth := match k with fwdn => fwd | inv0 => inv | _ => k end.
Definition fft0_run (b N : nat) (k : meth) (x y : ptr) : list act :=
  match select N with
  | Some e => engine_run b e (fft0_meth k) x y
  | None => [Par [single UB]]
  end.

(** FFT::setup : src/otfft_algo.cpp:154-159; `work` is buffer b+3 *)
Definition fft_setup (b N : nat) : list act := fft0_setup b N ++ [New (b + 3) N].
(** FFT::fwd .. FFT::invn : src/otfft_algo.cpp:161-198 *)
Definition fft_run (b N : nat) (k : meth) (x : ptr) : list act := fft0_run b N k x (b + 3, 0).

End Api.
