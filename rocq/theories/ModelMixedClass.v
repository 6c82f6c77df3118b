(** * The mixed-radix transform object: src/otfft_algo_mixed.cpp *)

From Coq Require Import List Arith ZArith Bool.
From Verif Require Import Scalar Mem Omp Lanes Object ModelMixed Engine.
Import ListNotations.

Section MixedClass.
Context {Op : Ops}.
Notation prog := (prog C).
Notation act := (act C).

(** OMP_THRESHOLD : src/otfft_mixedradix.h:21-25 *)
Definition mixed_omp : nat := 2 ^ 15.

(** the loop `for (int p = 0; p <= n; p++) W[p] = ...`, serial or `omp parallel for` *)
Definition sloop (n : nat) (body : nat -> prog unit) : act := Par [single (for_ n body)].
Definition ploop (n : nat) (body : nat -> prog unit) : act := Par [(n, body)].

(** setup : src/otfft_algo_mixed.cpp:38-54 *)
Definition mixed_setup_body (b n p : nat) : prog unit :=
  let theta0 := sdiv (smul s2 spi) (sofZ (Z.of_nat n)) in
  let W : ptr := (b, 0) in
  store (W +! p) (mkC (scos (smul (sofZ (Z.of_nat p)) theta0)) (sneg (ssin (smul (sofZ (Z.of_nat p)) theta0)))).
Definition mixed_setup_serial (b n : nat) : list act := [New b (n + 1); sloop (n + 1) (mixed_setup_body b n)].    (* lines 40-47 *)
Definition mixed_setup_parallel (b n : nat) : list act := [New b (n + 1); ploop (n + 1) (mixed_setup_body b n)].  (* lines 40-42, 48-53 *)
Definition mixed_setup (b n : nat) : list act :=
  if n <? mixed_omp then mixed_setup_serial b n else mixed_setup_parallel b n.

(** x[k] = mulpd(c, x[k]) *)
Definition scale_body (c : Sc) (x : ptr) (k : nat) : prog unit :=
  v <- load (x +! k) ;; store (x +! k) (cscal c v).

(** `c` : rN (1.0/N) or srN (sqrt(1.0/N)); no scaling loop in fwd0, inv, inv0 *)
Definition mixed_coef (N : nat) (k : meth) : option Sc :=
  match k with
  | fwd | fwdn | invn => Some (sdiv s1 (sofZ (Z.of_nat N)))          (* lines 61, 150, 110 (fwdn = fwd) *)
  | fwdu | invu => Some (ssqrt (sdiv s1 (sofZ (Z.of_nat N))))        (* lines 90, 133 *)
  | fwd0 | inv | inv0 => None
  end.

(** fwd, fwd0, fwdu, fwdn : src/otfft_algo_mixed.cpp:59-111; inv, inv0, invu, invn : 115-164.
    The recursion of fwdfft on n is given N+1 steps, which it never exhausts. *)
Definition mixed_serial (b N : nat) (k : meth) (x y : ptr) : list act :=
  let W : ptr := (b, 0) in
  [Par [single (
    (if meth_inv k then invfft (S N) N 1 false x y W else fwdfft (S N) N 1 false x y W) ;;;
    match mixed_coef N k with Some c => for_ N (scale_body c x) | None => skip end)]].
Definition mixed_parallel (b N : nat) (k : meth) (x y : ptr) : list act :=
  let W : ptr := (b, 0) in
  Par (if meth_inv k then invfftp (S N) N 1 false x y W else fwdfftp (S N) N 1 false x y W) ::
  match mixed_coef N k with Some c => [ploop N (scale_body c x)] | None => [] end.
Definition mixed_run (b N : nat) (k : meth) (x y : ptr) : list act :=
  if N <? mixed_omp then mixed_serial b N k x y else mixed_parallel b N k x y.

End MixedClass.
