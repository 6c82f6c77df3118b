(** * Bluestein's transform: src/otfft_algo.cpp:729-1066, src/otfft_base.h:145-183

    Buffers: FFT member b..b+3, work1 (`a`) b+4, work2 (`b`) b+5, weight (`W`) b+6. *)

From Coq Require Import List Arith ZArith Bool.
From Verif Require Import Scalar Mem Omp Lanes Object Engine ModelApi ModelReal.
Import ListNotations.

(** for (L = 1; L < N2 - 1; L *= 2);  : src/otfft_algo.cpp:752.  None: L*2 overflows int (or, impossibly since
    L doubles, [fuel] = 32 steps do not suffice) *)
Fixpoint pad_loop (fuel L bound : nat) : option nat :=
  if L <? bound then
    match fuel with
    | 0 => None
    | S fuel' => if mul_ok L 2 then pad_loop fuel' (L * 2) bound else None
    end
  else Some L.

Section Bluestein.
Context {Op : Ops}.
Notation prog := (prog C).
Notation act := (act C).

(** src/otfft_algo.cpp:759-764, 768-773; p = i + 1 *)
Definition bl_W_body (N : nat) (W : ptr) (i : nat) : prog unit :=
  let p := i + 1 in
  let theta0 := sdiv spi (sn N) in
  let theta := smul (sn p) theta0 in
  let c := scos theta in let s := sneg (ssin theta) in
  block [] [W +! p; W +! (2 * N - p)] (fun _ => [mkC c s; mkC c (sneg s)]).

(** Bluestein::setup : src/otfft_algo.cpp:747-775.  setup(n) with n < 1 returns at once and keeps the
    previous configuration.  The int products 2*N and L*2 are checked for overflow. *)
Definition bl_setup (b N : nat) : list act :=
  let W : ptr := (b + 6, 0) in
  if N <? 1 then []
  else if negb (mul_ok 2 N) then [Par [single UB]]
  else match pad_loop 32 1 (2 * N - 1) with
  | None => [Par [single UB]]
  | Some L =>
      fft_setup b L ++
      [New (b + 4) L; New (b + 5) L] ++
      New (b + 6) (2 * N + 1) ::
      [Par [single (block [] [W +! (2 * N); W +! 0; W +! N] (fun _ => [c1; c1; mkC (sofZ (-1)) s0]))]] ++
      (if N <? base_omp_w then [Par [single (for_ (N - 1) (bl_W_body N W))]] else [Par [(N - 1, bl_W_body N W)]])
  end.

(** a[0] = x[0]; b[0] = x[0] = 1; *)
Definition bl_first (a b x : ptr) : prog unit :=
  block [x +! 0] [a +! 0; x +! 0; b +! 0] (fun v => match v with [x0] => [x0; c1; c1] | _ => [] end).
(** a[p] = b[p] = 0;  p = i + 1.  (The value just assigned is reread by the C++ code; here it is forwarded.) *)
Definition bl_zero (a b : ptr) (i : nat) : prog unit :=
  let p := i + 1 in block [] [b +! p; a +! p] (fun _ => [c0; c0]).
(** forward: a[p] = x[p]*W[pp]; b[p] = x[p] = W[N2-pp]; b[L-p] = b[p]; inverse: W[pp] and W[N2-pp] swapped *)
Definition bl_chirp (inverse : bool) (N L : nat) (W a b x : ptr) (i : nat) : prog unit :=
  let p := i + 1 in
  let pp := (p * p) mod (2 * N) in
  block [x +! p; W +! (if inverse then 2 * N - pp else pp); W +! (if inverse then pp else 2 * N - pp)]
    [a +! p; x +! p; b +! p; b +! (L - p)]
    (fun v => match v with [xp; w; w'] => [cmulT xp w; w'; w'; w'] | _ => [] end).
(** setpz(a[k], mulpz(getpz(a[k]), getpz(b[k]))) *)
Definition bl_mul (a b : ptr) (k : nat) : prog unit :=
  block [a +! k; b +! k] [a +! k] (fun v => match v with [u; w] => [cmul u w] | _ => [] end).
(** scaling of the result *)
Definition bl_scale (N : nat) (k : meth) (v : C) : C :=
  match k with
  | fwd | fwdn | invn => cscal (sdiv s1 (sn N)) v
  | fwdu | invu => cscal (ssqrt (sdiv s1 (sn N))) v
  | fwd0 | inv | inv0 => v
  end.
(** setpz(x[p], mulpd(rN, mulpz(getpz(a[p]), cnjpz(getpz(x[p]))))) *)
Definition bl_out (N : nat) (k : meth) (a x : ptr) (p : nat) : prog unit :=
  block [a +! p; x +! p] [x +! p] (fun v => match v with [u; w] => [bl_scale N k (cmul u (cconj w))] | _ => [] end).

(** Bluestein::fwd .. invn : src/otfft_algo.cpp:777-1066, on an object whose N and L are as given *)
Definition bl_run_L (b N L : nat) (k : meth) (x : ptr) : list act :=
  let a : ptr := (b + 4, 0) in let bb : ptr := (b + 5, 0) in let W : ptr := (b + 6, 0) in
  if N <? 2 then []
  else
    [Par [single (bl_first a bb x)]] ++
    (if N <? base_omp
     then [Par [single (for_ (L - 1) (bl_zero a bb) ;;; for_ (N - 1) (bl_chirp (meth_inv k) N L W a bb x))]]
     else [Par [(L - 1, bl_zero a bb); (N - 1, bl_chirp (meth_inv k) N L W a bb x)]]) ++
    fft_run b L fwd0 a ++ fft_run b L fwd0 bb ++
    omp_loop N L (bl_mul a bb) ++
    fft_run b L invn a ++
    omp_loop N N (bl_out N k a x).
(** L is the value setup(N) computed *)
Definition bl_run (b N : nat) (k : meth) (x : ptr) : list act :=
  match pad_loop 32 1 (2 * N - 1) with Some L => bl_run_L b N L k x | None => [] end.

(** configuration after setup(n) *)
Definition bl_conf (o : option nat) (n : nat) : option nat := if n <? 1 then o else Some n.

End Bluestein.
