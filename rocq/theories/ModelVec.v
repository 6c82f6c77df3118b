(** * The 32-byte memory accesses of the power-of-two kernels in the AVX builds, transcribed by tools/kernels.py

    getpz2/setpz2 are _mm256_load_pd/_mm256_store_pd (src/otfft_misc.h:727-745, USE_UNALIGNED_MEMORY is not defined),
    getez4/setez4 two of them at &a[0] and &a[2] (src/otfft_misc.h:1458-1470); every other access is by single
    complex numbers.  Each kernel's accesses are given as pairs of cells, made of the operands of its lanes in
    Model{Dif,Dit}{4,8,16}.v: [Across] the same operand of two neighbouring lanes, [Within] two consecutive operands
    of one lane, [Scalar] no 32-byte access.  The tool checks that these are exactly the calls of getpz2, setpz2,
    getez4 and setez4 in the source. *)

From Coq Require Import List Arith Bool.
From Verif Require Import Scalar Mem Omp Lanes Twid Vec.
From Verif Require Import ModelDif4 ModelDif8 ModelDif16 ModelDit4 ModelDit8 ModelDit16.
Import ListNotations.

Section ModelVec.
Context {Op : Ops}.

(** src/otfft_avxdif4.h:33-80 *)
Definition dif4_fwdcore_va (n s : nat) (x y W : ptr) : list (ptr * ptr) :=
  let m := n / 4 in
    vfor m (fun p => vstep s 4 (fun q => vec 3 Scalar Across Across 4 (fun l => dif4_fwdcore_lane n s x y W p (q +
    l)))).
(** src/otfft_avxdif4.h:82-138 *)
Definition dif4_fwdcore1_va (N : nat) (x y W : ptr) : list (ptr * ptr) :=
  let N1 := N / 4 in
  vstep N1 2 (fun p => vec 3 Across Across Within 2 (fun l => dif4_fwdcore1_lane N x y W (p + l))).
(** src/otfft_avxdif4.h:146-170 *)
Definition dif4_fwdend4_va (mode : smode) (s : nat) (eo : bool) (x y : ptr) : list (ptr * ptr) :=
  vstep s 2 (fun q => vec 0 Scalar Across Across 2 (fun l => dif4_fwdend4_lane mode s eo x y (q + l))).
(** src/otfft_avxdif4.h:172-191 *)
Definition dif4_fwdend4_1_va (mode : smode) (eo : bool) (x y : ptr) : list (ptr * ptr) :=
  vec 0 Scalar Scalar Scalar 1 (fun l => dif4_fwdend4_1_lane mode eo x y).
(** src/otfft_avxdif4.h:195-211 *)
Definition dif4_fwdend2_va (mode : smode) (s : nat) (eo : bool) (x y : ptr) : list (ptr * ptr) :=
  vstep s 2 (fun q => vec 0 Scalar Across Across 2 (fun l => dif4_fwdend2_lane mode s eo x y (q + l))).
(** src/otfft_avxdif4.h:213-224 *)
Definition dif4_fwdend2_1_va (mode : smode) (eo : bool) (x y : ptr) : list (ptr * ptr) :=
  vec 0 Scalar Scalar Scalar 1 (fun l => dif4_fwdend2_1_lane mode eo x y).
(** src/otfft_avxdif4.h:262-315 *)
Definition dif4_invcore_va (n s : nat) (x y W : ptr) : list (ptr * ptr) :=
  let m := n / 4 in
    vfor m (fun p => vstep s 4 (fun q => vec 3 Scalar Across Across 4 (fun l => dif4_invcore_lane n s x y W p (q +
    l)))).
(** src/otfft_avxdif4.h:317-373 *)
Definition dif4_invcore1_va (N : nat) (x y W : ptr) : list (ptr * ptr) :=
  let N1 := N / 4 in
  vstep N1 2 (fun p => vec 3 Across Across Within 2 (fun l => dif4_invcore1_lane N x y W (p + l))).
(** src/otfft_avxdif4.h:381-405 *)
Definition dif4_invend4_va (mode : smode) (s : nat) (eo : bool) (x y : ptr) : list (ptr * ptr) :=
  vstep s 2 (fun q => vec 0 Scalar Across Across 2 (fun l => dif4_invend4_lane mode s eo x y (q + l))).
(** src/otfft_avxdif4.h:407-426 *)
Definition dif4_invend4_1_va (mode : smode) (eo : bool) (x y : ptr) : list (ptr * ptr) :=
  vec 0 Scalar Scalar Scalar 1 (fun l => dif4_invend4_1_lane mode eo x y).
(** src/otfft_avxdif4.h:430-446 *)
Definition dif4_invend2_va (mode : smode) (s : nat) (eo : bool) (x y : ptr) : list (ptr * ptr) :=
  vstep s 2 (fun q => vec 0 Scalar Across Across 2 (fun l => dif4_invend2_lane mode s eo x y (q + l))).
(** src/otfft_avxdif4.h:448-459 *)
Definition dif4_invend2_1_va (mode : smode) (eo : bool) (x y : ptr) : list (ptr * ptr) :=
  vec 0 Scalar Scalar Scalar 1 (fun l => dif4_invend2_1_lane mode eo x y).
(** src/otfft_avxdif4omp.h:23-72 *)
Definition dif4o_fwdcore_va (n s : nat) (x y W : ptr) : list (ptr * ptr) :=
  let N := n * s in
  let N1 := N / 4 in
  let Ni := N1 / 4 in
  let h := s / 4 in
  vfor Ni (fun i => vec 1 Scalar Across Across 4 (fun l => dif4o_fwdcore_lane n s x y W (i / h) ((i mod h) * 4 + l))).
(** src/otfft_avxdif4omp.h:74-132 *)
Definition dif4o_fwdcore1_va (N : nat) (x y W : ptr) : list (ptr * ptr) :=
  let N1 := N / 4 in
  vstep N1 2 (fun p => vec 1 Across Across Within 2 (fun l => dif4o_fwdcore1_lane N x y W (p + l))).
(** src/otfft_avxdif4omp.h:140-165 *)
Definition dif4o_fwdend4_va (mode : smode) (s : nat) (eo : bool) (x y : ptr) : list (ptr * ptr) :=
  vstep s 2 (fun q => vec 0 Scalar Across Across 2 (fun l => dif4o_fwdend4_lane mode s eo x y (q + l))).
(** src/otfft_avxdif4omp.h:167-189 *)
Definition dif4o_fwdend4_1_va (mode : smode) (eo : bool) (x y : ptr) : list (ptr * ptr) :=
  vec 0 Scalar Scalar Scalar 1 (fun l => dif4o_fwdend4_1_lane mode eo x y).
(** src/otfft_avxdif4omp.h:193-210 *)
Definition dif4o_fwdend2_va (mode : smode) (s : nat) (eo : bool) (x y : ptr) : list (ptr * ptr) :=
  vstep s 2 (fun q => vec 0 Scalar Across Across 2 (fun l => dif4o_fwdend2_lane mode s eo x y (q + l))).
(** src/otfft_avxdif4omp.h:212-226 *)
Definition dif4o_fwdend2_1_va (mode : smode) (eo : bool) (x y : ptr) : list (ptr * ptr) :=
  vec 0 Scalar Scalar Scalar 1 (fun l => dif4o_fwdend2_1_lane mode eo x y).
(** src/otfft_avxdif4omp.h:264-314 *)
Definition dif4o_invcore_va (n s : nat) (x y W : ptr) : list (ptr * ptr) :=
  let N := n * s in
  let N1 := N / 4 in
  let Ni := N1 / 4 in
  let h := s / 4 in
  vfor Ni (fun i => vec 1 Scalar Across Across 4 (fun l => dif4o_invcore_lane n s x y W (i / h) ((i mod h) * 4 + l))).
(** src/otfft_avxdif4omp.h:316-373 *)
Definition dif4o_invcore1_va (N : nat) (x y W : ptr) : list (ptr * ptr) :=
  let N1 := N / 4 in
  vstep N1 2 (fun p => vec 1 Across Across Within 2 (fun l => dif4o_invcore1_lane N x y W (p + l))).
(** src/otfft_avxdif4omp.h:381-406 *)
Definition dif4o_invend4_va (mode : smode) (s : nat) (eo : bool) (x y : ptr) : list (ptr * ptr) :=
  vstep s 2 (fun q => vec 0 Scalar Across Across 2 (fun l => dif4o_invend4_lane mode s eo x y (q + l))).
(** src/otfft_avxdif4omp.h:408-430 *)
Definition dif4o_invend4_1_va (mode : smode) (eo : bool) (x y : ptr) : list (ptr * ptr) :=
  vec 0 Scalar Scalar Scalar 1 (fun l => dif4o_invend4_1_lane mode eo x y).
(** src/otfft_avxdif4omp.h:434-451 *)
Definition dif4o_invend2_va (mode : smode) (s : nat) (eo : bool) (x y : ptr) : list (ptr * ptr) :=
  vstep s 2 (fun q => vec 0 Scalar Across Across 2 (fun l => dif4o_invend2_lane mode s eo x y (q + l))).
(** src/otfft_avxdif4omp.h:453-467 *)
Definition dif4o_invend2_1_va (mode : smode) (eo : bool) (x y : ptr) : list (ptr * ptr) :=
  vec 0 Scalar Scalar Scalar 1 (fun l => dif4o_invend2_1_lane mode eo x y).
(** src/otfft_avxdif8.h:32-101 *)
Definition dif8_fwdcore_va (n s : nat) (x y W : ptr) : list (ptr * ptr) :=
  let m := n / 8 in
    vfor m (fun p => vstep s 4 (fun q => vec 7 Scalar Across Across 4 (fun l => dif8_fwdcore_lane n s x y W p (q +
    l)))).
(** src/otfft_avxdif8.h:103-192 *)
Definition dif8_fwdcore1_va (N : nat) (x y W : ptr) : list (ptr * ptr) :=
  let N1 := N / 8 in
  vstep N1 2 (fun p => vec 7 Across Across Within 2 (fun l => dif8_fwdcore1_lane N x y W (p + l))).
(** src/otfft_avxdif8.h:200-244 *)
Definition dif8_fwdend8_va (mode : smode) (s : nat) (eo : bool) (x y : ptr) : list (ptr * ptr) :=
  vstep s 2 (fun q => vec 0 Scalar Across Across 2 (fun l => dif8_fwdend8_lane mode s eo x y (q + l))).
(** src/otfft_avxdif8.h:246-285 *)
Definition dif8_fwdend8_1_va (mode : smode) (eo : bool) (x y : ptr) : list (ptr * ptr) :=
  vec 0 Scalar Scalar Scalar 1 (fun l => dif8_fwdend8_1_lane mode eo x y).
(** src/otfft_avxdif8.h:332-409 *)
Definition dif8_invcore_va (n s : nat) (x y W : ptr) : list (ptr * ptr) :=
  let m := n / 8 in
    vfor m (fun p => vstep s 4 (fun q => vec 7 Scalar Across Across 4 (fun l => dif8_invcore_lane n s x y W p (q +
    l)))).
(** src/otfft_avxdif8.h:411-500 *)
Definition dif8_invcore1_va (N : nat) (x y W : ptr) : list (ptr * ptr) :=
  let N1 := N / 8 in
  vstep N1 2 (fun p => vec 7 Across Across Within 2 (fun l => dif8_invcore1_lane N x y W (p + l))).
(** src/otfft_avxdif8.h:508-552 *)
Definition dif8_invend8_va (mode : smode) (s : nat) (eo : bool) (x y : ptr) : list (ptr * ptr) :=
  vstep s 2 (fun q => vec 0 Scalar Across Across 2 (fun l => dif8_invend8_lane mode s eo x y (q + l))).
(** src/otfft_avxdif8.h:554-593 *)
Definition dif8_invend8_1_va (mode : smode) (eo : bool) (x y : ptr) : list (ptr * ptr) :=
  vec 0 Scalar Scalar Scalar 1 (fun l => dif8_invend8_1_lane mode eo x y).
(** src/otfft_avxdif8omp.h:23-101 *)
Definition dif8o_fwdcore_va (n s : nat) (x y W : ptr) : list (ptr * ptr) :=
  let N := n * s in
  let N1 := N / 8 in
  let Ni := N1 / 4 in
  let h := s / 4 in
  vfor Ni (fun i => vec 1 Scalar Across Across 4 (fun l => dif8o_fwdcore_lane n s x y W (i / h) ((i mod h) * 4 + l))).
(** src/otfft_avxdif8omp.h:103-194 *)
Definition dif8o_fwdcore1_va (N : nat) (x y W : ptr) : list (ptr * ptr) :=
  let N1 := N / 8 in
  vstep N1 2 (fun p => vec 1 Across Across Within 2 (fun l => dif8o_fwdcore1_lane N x y W (p + l))).
(** src/otfft_avxdif8omp.h:202-247 *)
Definition dif8o_fwdend8_va (mode : smode) (s : nat) (eo : bool) (x y : ptr) : list (ptr * ptr) :=
  vstep s 2 (fun q => vec 0 Scalar Across Across 2 (fun l => dif8o_fwdend8_lane mode s eo x y (q + l))).
(** src/otfft_avxdif8omp.h:249-291 *)
Definition dif8o_fwdend8_1_va (mode : smode) (eo : bool) (x y : ptr) : list (ptr * ptr) :=
  vec 0 Scalar Scalar Scalar 1 (fun l => dif8o_fwdend8_1_lane mode eo x y).
(** src/otfft_avxdif8omp.h:338-417 *)
Definition dif8o_invcore_va (n s : nat) (x y W : ptr) : list (ptr * ptr) :=
  let N := n * s in
  let N1 := N / 8 in
  let Ni := N1 / 4 in
  let h := s / 4 in
  vfor Ni (fun i => vec 1 Scalar Across Across 4 (fun l => dif8o_invcore_lane n s x y W (i / h) ((i mod h) * 4 + l))).
(** src/otfft_avxdif8omp.h:419-510 *)
Definition dif8o_invcore1_va (N : nat) (x y W : ptr) : list (ptr * ptr) :=
  let N1 := N / 8 in
  vstep N1 2 (fun p => vec 1 Across Across Within 2 (fun l => dif8o_invcore1_lane N x y W (p + l))).
(** src/otfft_avxdif8omp.h:518-563 *)
Definition dif8o_invend8_va (mode : smode) (s : nat) (eo : bool) (x y : ptr) : list (ptr * ptr) :=
  vstep s 2 (fun q => vec 0 Scalar Across Across 2 (fun l => dif8o_invend8_lane mode s eo x y (q + l))).
(** src/otfft_avxdif8omp.h:565-607 *)
Definition dif8o_invend8_1_va (mode : smode) (eo : bool) (x y : ptr) : list (ptr * ptr) :=
  vec 0 Scalar Scalar Scalar 1 (fun l => dif8o_invend8_1_lane mode eo x y).
(** src/otfft_avxdif16.h:32-174 *)
Definition dif16_fwdcore_va (n s : nat) (x y W : ptr) : list (ptr * ptr) :=
  let m := n / 16 in
    vfor m (fun p => vstep s 2 (fun q => vec 15 Scalar Across Across 2 (fun l => dif16_fwdcore_lane n s x y W p (q +
    l)))).
(** src/otfft_avxdif16.h:176-363 *)
Definition dif16_fwdcore1_va (N : nat) (x y W : ptr) : list (ptr * ptr) :=
  let N1 := N / 16 in
  vstep N1 2 (fun p => vec 15 Across Across Within 2 (fun l => dif16_fwdcore1_lane N x y W (p + l))).
(** src/otfft_avxdif16.h:371-475 *)
Definition dif16_fwdend16_va (mode : smode) (s : nat) (eo : bool) (x y : ptr) : list (ptr * ptr) :=
  vstep s 2 (fun q => vec 0 Scalar Across Across 2 (fun l => dif16_fwdend16_lane mode s eo x y (q + l))).
(** src/otfft_avxdif16.h:477-575 *)
Definition dif16_fwdend16_1_va (mode : smode) (eo : bool) (x y : ptr) : list (ptr * ptr) :=
  vec 0 Scalar Scalar Scalar 1 (fun l => dif16_fwdend16_1_lane mode eo x y).
(** src/otfft_avxdif16.h:631-773 *)
Definition dif16_invcore_va (n s : nat) (x y W : ptr) : list (ptr * ptr) :=
  let m := n / 16 in
    vfor m (fun p => vstep s 2 (fun q => vec 15 Scalar Across Across 2 (fun l => dif16_invcore_lane n s x y W p (q +
    l)))).
(** src/otfft_avxdif16.h:775-962 *)
Definition dif16_invcore1_va (N : nat) (x y W : ptr) : list (ptr * ptr) :=
  let N1 := N / 16 in
  vstep N1 2 (fun p => vec 15 Across Across Within 2 (fun l => dif16_invcore1_lane N x y W (p + l))).
(** src/otfft_avxdif16.h:970-1074 *)
Definition dif16_invend16_va (mode : smode) (s : nat) (eo : bool) (x y : ptr) : list (ptr * ptr) :=
  vstep s 2 (fun q => vec 0 Scalar Across Across 2 (fun l => dif16_invend16_lane mode s eo x y (q + l))).
(** src/otfft_avxdif16.h:1076-1174 *)
Definition dif16_invend16_1_va (mode : smode) (eo : bool) (x y : ptr) : list (ptr * ptr) :=
  vec 0 Scalar Scalar Scalar 1 (fun l => dif16_invend16_1_lane mode eo x y).
(** src/otfft_avxdif16omp.h:23-167 *)
Definition dif16o_fwdcore_va (n s : nat) (x y W : ptr) : list (ptr * ptr) :=
  let N := n * s in
  let N1 := N / 16 in
  let Ni := N1 / 4 in
  let h := s / 4 in
    vfor Ni (fun i => vec 1 Scalar Across Across 4 (fun l => dif16o_fwdcore_lane n s x y W (i / h) ((i mod h) * 4 +
    l))).
(** src/otfft_avxdif16omp.h:169-358 *)
Definition dif16o_fwdcore1_va (N : nat) (x y W : ptr) : list (ptr * ptr) :=
  let N1 := N / 16 in
  vstep N1 2 (fun p => vec 1 Across Across Within 2 (fun l => dif16o_fwdcore1_lane N x y W (p + l))).
(** src/otfft_avxdif16omp.h:366-471 *)
Definition dif16o_fwdend16_va (mode : smode) (s : nat) (eo : bool) (x y : ptr) : list (ptr * ptr) :=
  vstep s 2 (fun q => vec 0 Scalar Across Across 2 (fun l => dif16o_fwdend16_lane mode s eo x y (q + l))).
(** src/otfft_avxdif16omp.h:473-574 *)
Definition dif16o_fwdend16_1_va (mode : smode) (eo : bool) (x y : ptr) : list (ptr * ptr) :=
  vec 0 Scalar Scalar Scalar 1 (fun l => dif16o_fwdend16_1_lane mode eo x y).
(** src/otfft_avxdif16omp.h:630-774 *)
Definition dif16o_invcore_va (n s : nat) (x y W : ptr) : list (ptr * ptr) :=
  let N := n * s in
  let N1 := N / 16 in
  let Ni := N1 / 4 in
  let h := s / 4 in
    vfor Ni (fun i => vec 1 Scalar Across Across 4 (fun l => dif16o_invcore_lane n s x y W (i / h) ((i mod h) * 4 +
    l))).
(** src/otfft_avxdif16omp.h:776-965 *)
Definition dif16o_invcore1_va (N : nat) (x y W : ptr) : list (ptr * ptr) :=
  let N1 := N / 16 in
  vstep N1 2 (fun p => vec 1 Across Across Within 2 (fun l => dif16o_invcore1_lane N x y W (p + l))).
(** src/otfft_avxdif16omp.h:973-1078 *)
Definition dif16o_invend16_va (mode : smode) (s : nat) (eo : bool) (x y : ptr) : list (ptr * ptr) :=
  vstep s 2 (fun q => vec 0 Scalar Across Across 2 (fun l => dif16o_invend16_lane mode s eo x y (q + l))).
(** src/otfft_avxdif16omp.h:1080-1181 *)
Definition dif16o_invend16_1_va (mode : smode) (eo : bool) (x y : ptr) : list (ptr * ptr) :=
  vec 0 Scalar Scalar Scalar 1 (fun l => dif16o_invend16_1_lane mode eo x y).
(** src/otfft_avxdit4.h:32-68 *)
Definition dit4_fwdcore_va (n s : nat) (x y W : ptr) : list (ptr * ptr) :=
  let m := n / 4 in
    vfor m (fun p => vstep s 4 (fun q => vec 3 Scalar Across Across 4 (fun l => dit4_fwdcore_lane n s x y W p (q +
    l)))).
(** src/otfft_avxdit4.h:70-114 *)
Definition dit4_fwdcore1_va (N : nat) (x y W : ptr) : list (ptr * ptr) :=
  let N1 := N / 4 in
  vstep N1 2 (fun p => vec 3 Across Within Across 2 (fun l => dit4_fwdcore1_lane N x y W (p + l))).
(** src/otfft_avxdit4.h:122-146 *)
Definition dit4_fwdend4_va (mode : smode) (s : nat) (eo : bool) (x y : ptr) : list (ptr * ptr) :=
  vstep s 2 (fun q => vec 0 Scalar Across Across 2 (fun l => dit4_fwdend4_lane mode s eo x y (q + l))).
(** src/otfft_avxdit4.h:148-167 *)
Definition dit4_fwdend4_1_va (mode : smode) (eo : bool) (x y : ptr) : list (ptr * ptr) :=
  vec 0 Scalar Scalar Scalar 1 (fun l => dit4_fwdend4_1_lane mode eo x y).
(** src/otfft_avxdit4.h:171-187 *)
Definition dit4_fwdend2_va (mode : smode) (s : nat) (eo : bool) (x y : ptr) : list (ptr * ptr) :=
  vstep s 2 (fun q => vec 0 Scalar Across Across 2 (fun l => dit4_fwdend2_lane mode s eo x y (q + l))).
(** src/otfft_avxdit4.h:189-200 *)
Definition dit4_fwdend2_1_va (mode : smode) (eo : bool) (x y : ptr) : list (ptr * ptr) :=
  vec 0 Scalar Scalar Scalar 1 (fun l => dit4_fwdend2_1_lane mode eo x y).
(** src/otfft_avxdit4.h:238-280 *)
Definition dit4_invcore_va (n s : nat) (x y W : ptr) : list (ptr * ptr) :=
  let m := n / 4 in
    vfor m (fun p => vstep s 4 (fun q => vec 3 Scalar Across Across 4 (fun l => dit4_invcore_lane n s x y W p (q +
    l)))).
(** src/otfft_avxdit4.h:282-326 *)
Definition dit4_invcore1_va (N : nat) (x y W : ptr) : list (ptr * ptr) :=
  let N1 := N / 4 in
  vstep N1 2 (fun p => vec 3 Across Within Across 2 (fun l => dit4_invcore1_lane N x y W (p + l))).
(** src/otfft_avxdit4.h:334-358 *)
Definition dit4_invend4_va (mode : smode) (s : nat) (eo : bool) (x y : ptr) : list (ptr * ptr) :=
  vstep s 2 (fun q => vec 0 Scalar Across Across 2 (fun l => dit4_invend4_lane mode s eo x y (q + l))).
(** src/otfft_avxdit4.h:360-379 *)
Definition dit4_invend4_1_va (mode : smode) (eo : bool) (x y : ptr) : list (ptr * ptr) :=
  vec 0 Scalar Scalar Scalar 1 (fun l => dit4_invend4_1_lane mode eo x y).
(** src/otfft_avxdit4.h:383-399 *)
Definition dit4_invend2_va (mode : smode) (s : nat) (eo : bool) (x y : ptr) : list (ptr * ptr) :=
  vstep s 2 (fun q => vec 0 Scalar Across Across 2 (fun l => dit4_invend2_lane mode s eo x y (q + l))).
(** src/otfft_avxdit4.h:401-412 *)
Definition dit4_invend2_1_va (mode : smode) (eo : bool) (x y : ptr) : list (ptr * ptr) :=
  vec 0 Scalar Scalar Scalar 1 (fun l => dit4_invend2_1_lane mode eo x y).
(** src/otfft_avxdit4omp.h:23-61 *)
Definition dit4o_fwdcore_va (n s : nat) (x y W : ptr) : list (ptr * ptr) :=
  let N := n * s in
  let N1 := N / 4 in
  let Ni := N1 / 4 in
  let h := s / 4 in
  vfor Ni (fun i => vec 1 Scalar Across Across 4 (fun l => dit4o_fwdcore_lane n s x y W (i / h) ((i mod h) * 4 + l))).
(** src/otfft_avxdit4omp.h:63-108 *)
Definition dit4o_fwdcore1_va (N : nat) (x y W : ptr) : list (ptr * ptr) :=
  let N1 := N / 4 in
  vstep N1 2 (fun p => vec 1 Across Within Across 2 (fun l => dit4o_fwdcore1_lane N x y W (p + l))).
(** src/otfft_avxdit4omp.h:116-141 *)
Definition dit4o_fwdend4_va (mode : smode) (s : nat) (eo : bool) (x y : ptr) : list (ptr * ptr) :=
  vstep s 2 (fun q => vec 0 Scalar Across Across 2 (fun l => dit4o_fwdend4_lane mode s eo x y (q + l))).
(** src/otfft_avxdit4omp.h:143-165 *)
Definition dit4o_fwdend4_1_va (mode : smode) (eo : bool) (x y : ptr) : list (ptr * ptr) :=
  vec 0 Scalar Scalar Scalar 1 (fun l => dit4o_fwdend4_1_lane mode eo x y).
(** src/otfft_avxdit4omp.h:169-186 *)
Definition dit4o_fwdend2_va (mode : smode) (s : nat) (eo : bool) (x y : ptr) : list (ptr * ptr) :=
  vstep s 2 (fun q => vec 0 Scalar Across Across 2 (fun l => dit4o_fwdend2_lane mode s eo x y (q + l))).
(** src/otfft_avxdit4omp.h:188-202 *)
Definition dit4o_fwdend2_1_va (mode : smode) (eo : bool) (x y : ptr) : list (ptr * ptr) :=
  vec 0 Scalar Scalar Scalar 1 (fun l => dit4o_fwdend2_1_lane mode eo x y).
(** src/otfft_avxdit4omp.h:240-279 *)
Definition dit4o_invcore_va (n s : nat) (x y W : ptr) : list (ptr * ptr) :=
  let N := n * s in
  let N1 := N / 4 in
  let Ni := N1 / 4 in
  let h := s / 4 in
  vfor Ni (fun i => vec 1 Scalar Across Across 4 (fun l => dit4o_invcore_lane n s x y W (i / h) ((i mod h) * 4 + l))).
(** src/otfft_avxdit4omp.h:281-326 *)
Definition dit4o_invcore1_va (N : nat) (x y W : ptr) : list (ptr * ptr) :=
  let N1 := N / 4 in
  vstep N1 2 (fun p => vec 1 Across Within Across 2 (fun l => dit4o_invcore1_lane N x y W (p + l))).
(** src/otfft_avxdit4omp.h:334-359 *)
Definition dit4o_invend4_va (mode : smode) (s : nat) (eo : bool) (x y : ptr) : list (ptr * ptr) :=
  vstep s 2 (fun q => vec 0 Scalar Across Across 2 (fun l => dit4o_invend4_lane mode s eo x y (q + l))).
(** src/otfft_avxdit4omp.h:361-383 *)
Definition dit4o_invend4_1_va (mode : smode) (eo : bool) (x y : ptr) : list (ptr * ptr) :=
  vec 0 Scalar Scalar Scalar 1 (fun l => dit4o_invend4_1_lane mode eo x y).
(** src/otfft_avxdit4omp.h:387-404 *)
Definition dit4o_invend2_va (mode : smode) (s : nat) (eo : bool) (x y : ptr) : list (ptr * ptr) :=
  vstep s 2 (fun q => vec 0 Scalar Across Across 2 (fun l => dit4o_invend2_lane mode s eo x y (q + l))).
(** src/otfft_avxdit4omp.h:406-420 *)
Definition dit4o_invend2_1_va (mode : smode) (eo : bool) (x y : ptr) : list (ptr * ptr) :=
  vec 0 Scalar Scalar Scalar 1 (fun l => dit4o_invend2_1_lane mode eo x y).
(** src/otfft_avxdit8.h:33-119 *)
Definition dit8_fwdcore_va (n s : nat) (x y W : ptr) : list (ptr * ptr) :=
  let m := n / 8 in
    vfor m (fun p => vstep s 4 (fun q => vec 7 Scalar Across Across 4 (fun l => dit8_fwdcore_lane n s x y W p (q +
    l)))).
(** src/otfft_avxdit8.h:121-227 *)
Definition dit8_fwdcore1_va (N : nat) (x y W : ptr) : list (ptr * ptr) :=
  let N1 := N / 8 in
  vstep N1 2 (fun p => vec 7 Across Within Across 2 (fun l => dit8_fwdcore1_lane N x y W (p + l))).
(** src/otfft_avxdit8.h:235-279 *)
Definition dit8_fwdend8_va (mode : smode) (s : nat) (eo : bool) (x y : ptr) : list (ptr * ptr) :=
  vstep s 2 (fun q => vec 0 Scalar Across Across 2 (fun l => dit8_fwdend8_lane mode s eo x y (q + l))).
(** src/otfft_avxdit8.h:281-320 *)
Definition dit8_fwdend8_1_va (mode : smode) (eo : bool) (x y : ptr) : list (ptr * ptr) :=
  vec 0 Scalar Scalar Scalar 1 (fun l => dit8_fwdend8_1_lane mode eo x y).
(** src/otfft_avxdit8.h:367-463 *)
Definition dit8_invcore_va (n s : nat) (x y W : ptr) : list (ptr * ptr) :=
  let m := n / 8 in
    vfor m (fun p => vstep s 4 (fun q => vec 7 Scalar Across Across 4 (fun l => dit8_invcore_lane n s x y W p (q +
    l)))).
(** src/otfft_avxdit8.h:465-571 *)
Definition dit8_invcore1_va (N : nat) (x y W : ptr) : list (ptr * ptr) :=
  vstep ((N / 8)) 2 (fun p => vec 7 Across Within Across 2 (fun l => dit8_invcore1_lane N x y W (p + l))).
(** src/otfft_avxdit8.h:579-623 *)
Definition dit8_invend8_va (mode : smode) (s : nat) (eo : bool) (x y : ptr) : list (ptr * ptr) :=
  vstep s 2 (fun q => vec 0 Scalar Across Across 2 (fun l => dit8_invend8_lane mode s eo x y (q + l))).
(** src/otfft_avxdit8.h:625-664 *)
Definition dit8_invend8_1_va (mode : smode) (eo : bool) (x y : ptr) : list (ptr * ptr) :=
  vec 0 Scalar Scalar Scalar 1 (fun l => dit8_invend8_1_lane mode eo x y).
(** src/otfft_avxdit8omp.h:23-122 *)
Definition dit8o_fwdcore_va (n s : nat) (x y W : ptr) : list (ptr * ptr) :=
  let N := n * s in
  let N1 := N / 8 in
  let Ni := N1 / 4 in
  let h := s / 4 in
  vfor Ni (fun i => vec 1 Scalar Across Across 4 (fun l => dit8o_fwdcore_lane n s x y W (i / h) ((i mod h) * 4 + l))).
(** src/otfft_avxdit8omp.h:124-231 *)
Definition dit8o_fwdcore1_va (N : nat) (x y W : ptr) : list (ptr * ptr) :=
  let N1 := N / 8 in
  vstep N1 2 (fun p => vec 1 Across Within Across 2 (fun l => dit8o_fwdcore1_lane N x y W (p + l))).
(** src/otfft_avxdit8omp.h:239-284 *)
Definition dit8o_fwdend8_va (mode : smode) (s : nat) (eo : bool) (x y : ptr) : list (ptr * ptr) :=
  vstep s 2 (fun q => vec 0 Scalar Across Across 2 (fun l => dit8o_fwdend8_lane mode s eo x y (q + l))).
(** src/otfft_avxdit8omp.h:286-328 *)
Definition dit8o_fwdend8_1_va (mode : smode) (eo : bool) (x y : ptr) : list (ptr * ptr) :=
  vec 0 Scalar Scalar Scalar 1 (fun l => dit8o_fwdend8_1_lane mode eo x y).
(** src/otfft_avxdit8omp.h:375-475 *)
Definition dit8o_invcore_va (n s : nat) (x y W : ptr) : list (ptr * ptr) :=
  let N := n * s in
  let N1 := N / 8 in
  let Ni := N1 / 4 in
  let h := s / 4 in
  vfor Ni (fun i => vec 1 Scalar Across Across 4 (fun l => dit8o_invcore_lane n s x y W (i / h) ((i mod h) * 4 + l))).
(** src/otfft_avxdit8omp.h:477-584 *)
Definition dit8o_invcore1_va (N : nat) (x y W : ptr) : list (ptr * ptr) :=
  let N1 := N / 8 in
  vstep N1 2 (fun p => vec 1 Across Within Across 2 (fun l => dit8o_invcore1_lane N x y W (p + l))).
(** src/otfft_avxdit8omp.h:592-637 *)
Definition dit8o_invend8_va (mode : smode) (s : nat) (eo : bool) (x y : ptr) : list (ptr * ptr) :=
  vstep s 2 (fun q => vec 0 Scalar Across Across 2 (fun l => dit8o_invend8_lane mode s eo x y (q + l))).
(** src/otfft_avxdit8omp.h:639-681 *)
Definition dit8o_invend8_1_va (mode : smode) (eo : bool) (x y : ptr) : list (ptr * ptr) :=
  vec 0 Scalar Scalar Scalar 1 (fun l => dit8o_invend8_1_lane mode eo x y).
(** src/otfft_avxdit16.h:32-206 *)
Definition dit16_fwdcore_va (n s : nat) (x y W : ptr) : list (ptr * ptr) :=
  let m := n / 16 in
    vfor m (fun p => vstep s 2 (fun q => vec 15 Scalar Across Across 2 (fun l => dit16_fwdcore_lane n s x y W p (q +
    l)))).
(** src/otfft_avxdit16.h:208-426 *)
Definition dit16_fwdcore1_va (N : nat) (x y W : ptr) : list (ptr * ptr) :=
  let N1 := N / 16 in
  vstep N1 2 (fun p => vec 15 Across Within Across 2 (fun l => dit16_fwdcore1_lane N x y W (p + l))).
(** src/otfft_avxdit16.h:434-538 *)
Definition dit16_fwdend16_va (mode : smode) (s : nat) (eo : bool) (x y : ptr) : list (ptr * ptr) :=
  vstep s 2 (fun q => vec 0 Scalar Across Across 2 (fun l => dit16_fwdend16_lane mode s eo x y (q + l))).
(** src/otfft_avxdit16.h:540-638 *)
Definition dit16_fwdend16_1_va (mode : smode) (eo : bool) (x y : ptr) : list (ptr * ptr) :=
  vec 0 Scalar Scalar Scalar 1 (fun l => dit16_fwdend16_1_lane mode eo x y).
(** src/otfft_avxdit16.h:694-868 *)
Definition dit16_invcore_va (n s : nat) (x y W : ptr) : list (ptr * ptr) :=
  let m := n / 16 in
    vfor m (fun p => vstep s 2 (fun q => vec 15 Scalar Across Across 2 (fun l => dit16_invcore_lane n s x y W p (q +
    l)))).
(** src/otfft_avxdit16.h:870-1088 *)
Definition dit16_invcore1_va (N : nat) (x y W : ptr) : list (ptr * ptr) :=
  let N1 := N / 16 in
  vstep N1 2 (fun p => vec 15 Across Within Across 2 (fun l => dit16_invcore1_lane N x y W (p + l))).
(** src/otfft_avxdit16.h:1096-1200 *)
Definition dit16_invend16_va (mode : smode) (s : nat) (eo : bool) (x y : ptr) : list (ptr * ptr) :=
  vstep s 2 (fun q => vec 0 Scalar Across Across 2 (fun l => dit16_invend16_lane mode s eo x y (q + l))).
(** src/otfft_avxdit16.h:1202-1300 *)
Definition dit16_invend16_1_va (mode : smode) (eo : bool) (x y : ptr) : list (ptr * ptr) :=
  vec 0 Scalar Scalar Scalar 1 (fun l => dit16_invend16_1_lane mode eo x y).
(** src/otfft_avxdit16omp.h:23-198 *)
Definition dit16o_fwdcore_va (n s : nat) (x y W : ptr) : list (ptr * ptr) :=
  let N := n * s in
  let N1 := N / 16 in
  let Ni := N1 / 4 in
  let h := s / 4 in
    vfor Ni (fun i => vec 1 Scalar Across Across 4 (fun l => dit16o_fwdcore_lane n s x y W (i / h) ((i mod h) * 4 +
    l))).
(** src/otfft_avxdit16omp.h:200-418 *)
Definition dit16o_fwdcore1_va (N : nat) (x y W : ptr) : list (ptr * ptr) :=
  let N1 := N / 16 in
  vstep N1 2 (fun p => vec 1 Across Within Across 2 (fun l => dit16o_fwdcore1_lane N x y W (p + l))).
(** src/otfft_avxdit16omp.h:426-531 *)
Definition dit16o_fwdend16_va (mode : smode) (s : nat) (eo : bool) (x y : ptr) : list (ptr * ptr) :=
  vstep s 2 (fun q => vec 0 Scalar Across Across 2 (fun l => dit16o_fwdend16_lane mode s eo x y (q + l))).
(** src/otfft_avxdit16omp.h:533-634 *)
Definition dit16o_fwdend16_1_va (mode : smode) (eo : bool) (x y : ptr) : list (ptr * ptr) :=
  vec 0 Scalar Scalar Scalar 1 (fun l => dit16o_fwdend16_1_lane mode eo x y).
(** src/otfft_avxdit16omp.h:690-865 *)
Definition dit16o_invcore_va (n s : nat) (x y W : ptr) : list (ptr * ptr) :=
  let N := n * s in
  let N1 := N / 16 in
  let Ni := N1 / 4 in
  let h := s / 4 in
    vfor Ni (fun i => vec 1 Scalar Across Across 4 (fun l => dit16o_invcore_lane n s x y W (i / h) ((i mod h) * 4 +
    l))).
(** src/otfft_avxdit16omp.h:867-1085 *)
Definition dit16o_invcore1_va (N : nat) (x y W : ptr) : list (ptr * ptr) :=
  let N1 := N / 16 in
  vstep N1 2 (fun p => vec 1 Across Within Across 2 (fun l => dit16o_invcore1_lane N x y W (p + l))).
(** src/otfft_avxdit16omp.h:1093-1198 *)
Definition dit16o_invend16_va (mode : smode) (s : nat) (eo : bool) (x y : ptr) : list (ptr * ptr) :=
  vstep s 2 (fun q => vec 0 Scalar Across Across 2 (fun l => dit16o_invend16_lane mode s eo x y (q + l))).
(** src/otfft_avxdit16omp.h:1200-1301 *)
Definition dit16o_invend16_1_va (mode : smode) (eo : bool) (x y : ptr) : list (ptr * ptr) :=
  vec 0 Scalar Scalar Scalar 1 (fun l => dit16o_invend16_1_lane mode eo x y).

(** selection of the template specialisation, as in ModelPow.v *)
Definition dif4_core_va (inv : bool) (W : ptr) (n s : nat) (x y : ptr) : list (ptr * ptr) :=
  if s =? 1 then (if inv then dif4_invcore1_va n x y W else dif4_fwdcore1_va n x y W)
  else (if inv then dif4_invcore_va n s x y W else dif4_fwdcore_va n s x y W).
Definition dif4_end_va (inv : bool) (mode : smode) (n s : nat) (eo : bool) (x y : ptr) : list (ptr * ptr) :=
  if n =? 4 then
    if s =? 1 then (if inv then dif4_invend4_1_va mode eo x y else dif4_fwdend4_1_va mode eo x y)
    else (if inv then dif4_invend4_va mode s eo x y else dif4_fwdend4_va mode s eo x y) else
  if n =? 2 then
    if s =? 1 then (if inv then dif4_invend2_1_va mode eo x y else dif4_fwdend2_1_va mode eo x y)
    else (if inv then dif4_invend2_va mode s eo x y else dif4_fwdend2_va mode s eo x y) else
  [].
Definition dif8_core_va (inv : bool) (W : ptr) (n s : nat) (x y : ptr) : list (ptr * ptr) :=
  if s =? 1 then (if inv then dif8_invcore1_va n x y W else dif8_fwdcore1_va n x y W)
  else (if inv then dif8_invcore_va n s x y W else dif8_fwdcore_va n s x y W).
Definition dif8_end_va (inv : bool) (mode : smode) (n s : nat) (eo : bool) (x y : ptr) : list (ptr * ptr) :=
  if n =? 8 then
    if s =? 1 then (if inv then dif8_invend8_1_va mode eo x y else dif8_fwdend8_1_va mode eo x y)
    else (if inv then dif8_invend8_va mode s eo x y else dif8_fwdend8_va mode s eo x y) else
  dif4_end_va inv mode n s eo x y.
Definition dif16_core_va (inv : bool) (W : ptr) (n s : nat) (x y : ptr) : list (ptr * ptr) :=
  if s =? 1 then (if inv then dif16_invcore1_va n x y W else dif16_fwdcore1_va n x y W)
  else (if inv then dif16_invcore_va n s x y W else dif16_fwdcore_va n s x y W).
Definition dif16_end_va (inv : bool) (mode : smode) (n s : nat) (eo : bool) (x y : ptr) : list (ptr * ptr) :=
  if n =? 16 then
    if s =? 1 then (if inv then dif16_invend16_1_va mode eo x y else dif16_fwdend16_1_va mode eo x y)
    else (if inv then dif16_invend16_va mode s eo x y else dif16_fwdend16_va mode s eo x y) else
  dif8_end_va inv mode n s eo x y.
Definition dif4o_core_va (inv : bool) (W : ptr) (n s : nat) (x y : ptr) : list (ptr * ptr) :=
  if s =? 1 then (if inv then dif4o_invcore1_va n x y W else dif4o_fwdcore1_va n x y W)
  else (if inv then dif4o_invcore_va n s x y W else dif4o_fwdcore_va n s x y W).
Definition dif4o_end_va (inv : bool) (mode : smode) (n s : nat) (eo : bool) (x y : ptr) : list (ptr * ptr) :=
  if n =? 4 then
    if s =? 1 then (if inv then dif4o_invend4_1_va mode eo x y else dif4o_fwdend4_1_va mode eo x y)
    else (if inv then dif4o_invend4_va mode s eo x y else dif4o_fwdend4_va mode s eo x y) else
  if n =? 2 then
    if s =? 1 then (if inv then dif4o_invend2_1_va mode eo x y else dif4o_fwdend2_1_va mode eo x y)
    else (if inv then dif4o_invend2_va mode s eo x y else dif4o_fwdend2_va mode s eo x y) else
  [].
Definition dif8o_core_va (inv : bool) (W : ptr) (n s : nat) (x y : ptr) : list (ptr * ptr) :=
  if s =? 1 then (if inv then dif8o_invcore1_va n x y W else dif8o_fwdcore1_va n x y W)
  else (if inv then dif8o_invcore_va n s x y W else dif8o_fwdcore_va n s x y W).
Definition dif8o_end_va (inv : bool) (mode : smode) (n s : nat) (eo : bool) (x y : ptr) : list (ptr * ptr) :=
  if n =? 8 then
    if s =? 1 then (if inv then dif8o_invend8_1_va mode eo x y else dif8o_fwdend8_1_va mode eo x y)
    else (if inv then dif8o_invend8_va mode s eo x y else dif8o_fwdend8_va mode s eo x y) else
  dif4o_end_va inv mode n s eo x y.
Definition dif16o_core_va (inv : bool) (W : ptr) (n s : nat) (x y : ptr) : list (ptr * ptr) :=
  if s =? 1 then (if inv then dif16o_invcore1_va n x y W else dif16o_fwdcore1_va n x y W)
  else (if inv then dif16o_invcore_va n s x y W else dif16o_fwdcore_va n s x y W).
Definition dif16o_end_va (inv : bool) (mode : smode) (n s : nat) (eo : bool) (x y : ptr) : list (ptr * ptr) :=
  if n =? 16 then
    if s =? 1 then (if inv then dif16o_invend16_1_va mode eo x y else dif16o_fwdend16_1_va mode eo x y)
    else (if inv then dif16o_invend16_va mode s eo x y else dif16o_fwdend16_va mode s eo x y) else
  dif8o_end_va inv mode n s eo x y.
Definition dit4_core_va (inv : bool) (W : ptr) (n s : nat) (x y : ptr) : list (ptr * ptr) :=
  if s =? 1 then (if inv then dit4_invcore1_va n x y W else dit4_fwdcore1_va n x y W)
  else (if inv then dit4_invcore_va n s x y W else dit4_fwdcore_va n s x y W).
Definition dit4_end_va (inv : bool) (mode : smode) (n s : nat) (eo : bool) (x y : ptr) : list (ptr * ptr) :=
  if n =? 4 then
    if s =? 1 then (if inv then dit4_invend4_1_va mode eo x y else dit4_fwdend4_1_va mode eo x y)
    else (if inv then dit4_invend4_va mode s eo x y else dit4_fwdend4_va mode s eo x y) else
  if n =? 2 then
    if s =? 1 then (if inv then dit4_invend2_1_va mode eo x y else dit4_fwdend2_1_va mode eo x y)
    else (if inv then dit4_invend2_va mode s eo x y else dit4_fwdend2_va mode s eo x y) else
  [].
Definition dit8_core_va (inv : bool) (W : ptr) (n s : nat) (x y : ptr) : list (ptr * ptr) :=
  if s =? 1 then (if inv then dit8_invcore1_va n x y W else dit8_fwdcore1_va n x y W)
  else (if inv then dit8_invcore_va n s x y W else dit8_fwdcore_va n s x y W).
Definition dit8_end_va (inv : bool) (mode : smode) (n s : nat) (eo : bool) (x y : ptr) : list (ptr * ptr) :=
  if n =? 8 then
    if s =? 1 then (if inv then dit8_invend8_1_va mode eo x y else dit8_fwdend8_1_va mode eo x y)
    else (if inv then dit8_invend8_va mode s eo x y else dit8_fwdend8_va mode s eo x y) else
  dit4_end_va inv mode n s eo x y.
Definition dit16_core_va (inv : bool) (W : ptr) (n s : nat) (x y : ptr) : list (ptr * ptr) :=
  if s =? 1 then (if inv then dit16_invcore1_va n x y W else dit16_fwdcore1_va n x y W)
  else (if inv then dit16_invcore_va n s x y W else dit16_fwdcore_va n s x y W).
Definition dit16_end_va (inv : bool) (mode : smode) (n s : nat) (eo : bool) (x y : ptr) : list (ptr * ptr) :=
  if n =? 16 then
    if s =? 1 then (if inv then dit16_invend16_1_va mode eo x y else dit16_fwdend16_1_va mode eo x y)
    else (if inv then dit16_invend16_va mode s eo x y else dit16_fwdend16_va mode s eo x y) else
  dit8_end_va inv mode n s eo x y.
Definition dit4o_core_va (inv : bool) (W : ptr) (n s : nat) (x y : ptr) : list (ptr * ptr) :=
  if s =? 1 then (if inv then dit4o_invcore1_va n x y W else dit4o_fwdcore1_va n x y W)
  else (if inv then dit4o_invcore_va n s x y W else dit4o_fwdcore_va n s x y W).
Definition dit4o_end_va (inv : bool) (mode : smode) (n s : nat) (eo : bool) (x y : ptr) : list (ptr * ptr) :=
  if n =? 4 then
    if s =? 1 then (if inv then dit4o_invend4_1_va mode eo x y else dit4o_fwdend4_1_va mode eo x y)
    else (if inv then dit4o_invend4_va mode s eo x y else dit4o_fwdend4_va mode s eo x y) else
  if n =? 2 then
    if s =? 1 then (if inv then dit4o_invend2_1_va mode eo x y else dit4o_fwdend2_1_va mode eo x y)
    else (if inv then dit4o_invend2_va mode s eo x y else dit4o_fwdend2_va mode s eo x y) else
  [].
Definition dit8o_core_va (inv : bool) (W : ptr) (n s : nat) (x y : ptr) : list (ptr * ptr) :=
  if s =? 1 then (if inv then dit8o_invcore1_va n x y W else dit8o_fwdcore1_va n x y W)
  else (if inv then dit8o_invcore_va n s x y W else dit8o_fwdcore_va n s x y W).
Definition dit8o_end_va (inv : bool) (mode : smode) (n s : nat) (eo : bool) (x y : ptr) : list (ptr * ptr) :=
  if n =? 8 then
    if s =? 1 then (if inv then dit8o_invend8_1_va mode eo x y else dit8o_fwdend8_1_va mode eo x y)
    else (if inv then dit8o_invend8_va mode s eo x y else dit8o_fwdend8_va mode s eo x y) else
  dit4o_end_va inv mode n s eo x y.
Definition dit16o_core_va (inv : bool) (W : ptr) (n s : nat) (x y : ptr) : list (ptr * ptr) :=
  if s =? 1 then (if inv then dit16o_invcore1_va n x y W else dit16o_fwdcore1_va n x y W)
  else (if inv then dit16o_invcore_va n s x y W else dit16o_fwdcore_va n s x y W).
Definition dit16o_end_va (inv : bool) (mode : smode) (n s : nat) (eo : bool) (x y : ptr) : list (ptr * ptr) :=
  if n =? 16 then
    if s =? 1 then (if inv then dit16o_invend16_1_va mode eo x y else dit16o_fwdend16_1_va mode eo x y)
    else (if inv then dit16o_invend16_va mode s eo x y else dit16o_fwdend16_va mode s eo x y) else
  dit8o_end_va inv mode n s eo x y.
End ModelVec.
