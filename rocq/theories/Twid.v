(** * Twiddle tables of the power-of-two kernels: src/otfft_misc.h:161-215 *)

From Coq Require Import List Arith ZArith Bool.
From Verif Require Import Scalar Mem Omp Lanes Object.
Import ListNotations.

Section Twid.
Context {Op : Ops}.
Notation prog := (prog C).

(** twid<r,N,k>(W,p) : src/otfft_misc.h:202-208 *)
Definition twid (r N k : nat) (W : ptr) (p : nat) : ptr := W +! (p + (k - 1) * (N / r)).
(** twidT<r,N,k>(W,p) : src/otfft_misc.h:210-215 *)
Definition twidT (r N k : nat) (W : ptr) (p : nat) : ptr := W +! (r * p + (N + k)).

(** OMP_THRESHOLD_W : src/otfft_misc.h:106-111 *)
Definition omp_w : nat := 2 ^ 15.

(** theta = -2*M_PI/N : src/otfft_misc.h:165, 183.  In C++ -2*M_PI/N is ((-2)*M_PI)/N *)
Definition theta_of (N : nat) : Sc := sdiv (smul (sneg s2) spi) (sofZ (Z.of_nat N)).

(** a loop run serially below the threshold and as `omp parallel for` from it on *)
Definition loop_w (N cnt : nat) (body : nat -> prog unit) : list (act C) :=
  if N <? omp_w then [Par [single (for_ cnt body)]] else [Par [(cnt, body)]].

(** init_Wr1 : src/otfft_misc.h:161-177 *)
Definition init_Wr1 (r N : nat) (W : ptr) : list (act C) :=
  if N <? r then [] else
  let Nr := N / r in
  loop_w N Nr (fun p => store (W +! p) (expj (smul (theta_of N) (sofZ (Z.of_nat p))))).

(** init_Wt : src/otfft_misc.h:179-200; the loop over k = 1, ..., r-1 is written with k = 1 + j *)
Definition init_Wt (r N : nat) (W : ptr) : list (act C) :=
  if N <? r then [] else
  let Nr := N / r in
  loop_w N Nr (fun p => for_ (r - 1) (fun j =>
    let k := 1 + j in
    let v := expj (smul (smul (theta_of N) (sofZ (Z.of_nat k))) (sofZ (Z.of_nat p))) in
    store (W +! (N + r * p + k)) v ;;;
    store (W +! (p + (k - 1) * Nr)) v)).

End Twid.
