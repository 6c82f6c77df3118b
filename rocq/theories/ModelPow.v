(** * Power-of-two transform objects: recursion, fallback ends, setup and methods

    src/otfft_avxdif{4,8,16}{,omp}.h and src/otfft_avxdit{4,8,16}{,omp}.h (the fwdfft/invfft templates and
    the selection of partial specialisations) and src/otfft_algo_dif{4,8,16}.cpp, otfft_algo_dit{4,8,16}.cpp. *)

From Coq Require Import List Arith ZArith Bool.
From Verif Require Import Scalar Mem Omp Lanes Object Engine Twid ModelDif4 ModelDif8 ModelDif16 ModelDit4 ModelDit8 ModelDit16.
Import ListNotations.

Section Rec.
Context {A : Type} (seq : A -> A -> A) (bad : A) (r : nat).
Context (core : nat -> nat -> ptr -> ptr -> A) (fin : nat -> nat -> bool -> ptr -> ptr -> A).

(** template <int n, int s, bool eo, int mode> struct fwdfft, decimation in frequency:
    src/otfft_avxdif4.h:230-256, 465-491; otfft_avxdif8.h:291-326, 599-634; otfft_avxdif16.h:581-625, 1180-1224
    (and the same templates in the omp headers).  The template recursion on n is run with explicit fuel. *)
Fixpoint dif_rec (fuel n s : nat) (eo : bool) (x y : ptr) : A :=
  match fuel with
  | O => bad
  | S fuel' =>
      if n <=? r then fin n s eo x y
      else seq (core n s x y) (dif_rec fuel' (n / r) (r * s) (negb eo) y x)
  end.

(** decimation in time: src/otfft_avxdit4.h:206-232, 418-444; otfft_avxdit8.h:326-361, 670-705;
    otfft_avxdit16.h:644-688, 1306-1350 *)
Fixpoint dit_rec (fuel n s : nat) (eo : bool) (x y : ptr) : A :=
  match fuel with
  | O => bad
  | S fuel' =>
      if n <=? r then fin n s eo x y
      else seq (dit_rec fuel' (n / r) (r * s) (negb eo) y x) (core n s x y)
  end.
End Rec.

Section ModelPow.
Context {Op : Ops}.
Notation prog := (prog C).
Notation phase := (phase (V:=C)).
Notation act := (act C).

(** ** selection of the template specialisation: core<N,1> or core<n,s>; end<r,1,..> or end<r,s,..> *)
Definition dif4_core (inv : bool) (W : ptr) (n s : nat) (x y : ptr) : prog unit :=
  if s =? 1 then (if inv then dif4_invcore1 n x y W else dif4_fwdcore1 n x y W)
  else (if inv then dif4_invcore n s x y W else dif4_fwdcore n s x y W).
Definition dif4_end (inv : bool) (mode : smode) (n s : nat) (eo : bool) (x y : ptr) : prog unit :=
  if n =? 4 then
    if s =? 1 then (if inv then dif4_invend4_1 mode eo x y else dif4_fwdend4_1 mode eo x y)
    else (if inv then dif4_invend4 mode s eo x y else dif4_fwdend4 mode s eo x y) else
  if n =? 2 then
    if s =? 1 then (if inv then dif4_invend2_1 mode eo x y else dif4_fwdend2_1 mode eo x y)
    else (if inv then dif4_invend2 mode s eo x y else dif4_fwdend2 mode s eo x y) else
  UB.
Definition dif8_core (inv : bool) (W : ptr) (n s : nat) (x y : ptr) : prog unit :=
  if s =? 1 then (if inv then dif8_invcore1 n x y W else dif8_fwdcore1 n x y W)
  else (if inv then dif8_invcore n s x y W else dif8_fwdcore n s x y W).
Definition dif8_end (inv : bool) (mode : smode) (n s : nat) (eo : bool) (x y : ptr) : prog unit :=
  if n =? 8 then
    if s =? 1 then (if inv then dif8_invend8_1 mode eo x y else dif8_fwdend8_1 mode eo x y)
    else (if inv then dif8_invend8 mode s eo x y else dif8_fwdend8 mode s eo x y) else
  dif4_end inv mode n s eo x y.
Definition dif16_core (inv : bool) (W : ptr) (n s : nat) (x y : ptr) : prog unit :=
  if s =? 1 then (if inv then dif16_invcore1 n x y W else dif16_fwdcore1 n x y W)
  else (if inv then dif16_invcore n s x y W else dif16_fwdcore n s x y W).
Definition dif16_end (inv : bool) (mode : smode) (n s : nat) (eo : bool) (x y : ptr) : prog unit :=
  if n =? 16 then
    if s =? 1 then (if inv then dif16_invend16_1 mode eo x y else dif16_fwdend16_1 mode eo x y)
    else (if inv then dif16_invend16 mode s eo x y else dif16_fwdend16 mode s eo x y) else
  dif8_end inv mode n s eo x y.
Definition dif4o_core (inv : bool) (W : ptr) (n s : nat) (x y : ptr) : list phase :=
  if s =? 1 then (if inv then dif4o_invcore1 n x y W else dif4o_fwdcore1 n x y W)
  else (if inv then dif4o_invcore n s x y W else dif4o_fwdcore n s x y W).
Definition dif4o_end (inv : bool) (mode : smode) (n s : nat) (eo : bool) (x y : ptr) : list phase :=
  if n =? 4 then
    if s =? 1 then (if inv then dif4o_invend4_1 mode eo x y else dif4o_fwdend4_1 mode eo x y)
    else (if inv then dif4o_invend4 mode s eo x y else dif4o_fwdend4 mode s eo x y) else
  if n =? 2 then
    if s =? 1 then (if inv then dif4o_invend2_1 mode eo x y else dif4o_fwdend2_1 mode eo x y)
    else (if inv then dif4o_invend2 mode s eo x y else dif4o_fwdend2 mode s eo x y) else
  [single UB].
Definition dif8o_core (inv : bool) (W : ptr) (n s : nat) (x y : ptr) : list phase :=
  if s =? 1 then (if inv then dif8o_invcore1 n x y W else dif8o_fwdcore1 n x y W)
  else (if inv then dif8o_invcore n s x y W else dif8o_fwdcore n s x y W).
Definition dif8o_end (inv : bool) (mode : smode) (n s : nat) (eo : bool) (x y : ptr) : list phase :=
  if n =? 8 then
    if s =? 1 then (if inv then dif8o_invend8_1 mode eo x y else dif8o_fwdend8_1 mode eo x y)
    else (if inv then dif8o_invend8 mode s eo x y else dif8o_fwdend8 mode s eo x y) else
  dif4o_end inv mode n s eo x y.
Definition dif16o_core (inv : bool) (W : ptr) (n s : nat) (x y : ptr) : list phase :=
  if s =? 1 then (if inv then dif16o_invcore1 n x y W else dif16o_fwdcore1 n x y W)
  else (if inv then dif16o_invcore n s x y W else dif16o_fwdcore n s x y W).
Definition dif16o_end (inv : bool) (mode : smode) (n s : nat) (eo : bool) (x y : ptr) : list phase :=
  if n =? 16 then
    if s =? 1 then (if inv then dif16o_invend16_1 mode eo x y else dif16o_fwdend16_1 mode eo x y)
    else (if inv then dif16o_invend16 mode s eo x y else dif16o_fwdend16 mode s eo x y) else
  dif8o_end inv mode n s eo x y.
Definition dit4_core (inv : bool) (W : ptr) (n s : nat) (x y : ptr) : prog unit :=
  if s =? 1 then (if inv then dit4_invcore1 n x y W else dit4_fwdcore1 n x y W)
  else (if inv then dit4_invcore n s x y W else dit4_fwdcore n s x y W).
Definition dit4_end (inv : bool) (mode : smode) (n s : nat) (eo : bool) (x y : ptr) : prog unit :=
  if n =? 4 then
    if s =? 1 then (if inv then dit4_invend4_1 mode eo x y else dit4_fwdend4_1 mode eo x y)
    else (if inv then dit4_invend4 mode s eo x y else dit4_fwdend4 mode s eo x y) else
  if n =? 2 then
    if s =? 1 then (if inv then dit4_invend2_1 mode eo x y else dit4_fwdend2_1 mode eo x y)
    else (if inv then dit4_invend2 mode s eo x y else dit4_fwdend2 mode s eo x y) else
  UB.
Definition dit8_core (inv : bool) (W : ptr) (n s : nat) (x y : ptr) : prog unit :=
  if s =? 1 then (if inv then dit8_invcore1 n x y W else dit8_fwdcore1 n x y W)
  else (if inv then dit8_invcore n s x y W else dit8_fwdcore n s x y W).
Definition dit8_end (inv : bool) (mode : smode) (n s : nat) (eo : bool) (x y : ptr) : prog unit :=
  if n =? 8 then
    if s =? 1 then (if inv then dit8_invend8_1 mode eo x y else dit8_fwdend8_1 mode eo x y)
    else (if inv then dit8_invend8 mode s eo x y else dit8_fwdend8 mode s eo x y) else
  dit4_end inv mode n s eo x y.
Definition dit16_core (inv : bool) (W : ptr) (n s : nat) (x y : ptr) : prog unit :=
  if s =? 1 then (if inv then dit16_invcore1 n x y W else dit16_fwdcore1 n x y W)
  else (if inv then dit16_invcore n s x y W else dit16_fwdcore n s x y W).
Definition dit16_end (inv : bool) (mode : smode) (n s : nat) (eo : bool) (x y : ptr) : prog unit :=
  if n =? 16 then
    if s =? 1 then (if inv then dit16_invend16_1 mode eo x y else dit16_fwdend16_1 mode eo x y)
    else (if inv then dit16_invend16 mode s eo x y else dit16_fwdend16 mode s eo x y) else
  dit8_end inv mode n s eo x y.
Definition dit4o_core (inv : bool) (W : ptr) (n s : nat) (x y : ptr) : list phase :=
  if s =? 1 then (if inv then dit4o_invcore1 n x y W else dit4o_fwdcore1 n x y W)
  else (if inv then dit4o_invcore n s x y W else dit4o_fwdcore n s x y W).
Definition dit4o_end (inv : bool) (mode : smode) (n s : nat) (eo : bool) (x y : ptr) : list phase :=
  if n =? 4 then
    if s =? 1 then (if inv then dit4o_invend4_1 mode eo x y else dit4o_fwdend4_1 mode eo x y)
    else (if inv then dit4o_invend4 mode s eo x y else dit4o_fwdend4 mode s eo x y) else
  if n =? 2 then
    if s =? 1 then (if inv then dit4o_invend2_1 mode eo x y else dit4o_fwdend2_1 mode eo x y)
    else (if inv then dit4o_invend2 mode s eo x y else dit4o_fwdend2 mode s eo x y) else
  [single UB].
Definition dit8o_core (inv : bool) (W : ptr) (n s : nat) (x y : ptr) : list phase :=
  if s =? 1 then (if inv then dit8o_invcore1 n x y W else dit8o_fwdcore1 n x y W)
  else (if inv then dit8o_invcore n s x y W else dit8o_fwdcore n s x y W).
Definition dit8o_end (inv : bool) (mode : smode) (n s : nat) (eo : bool) (x y : ptr) : list phase :=
  if n =? 8 then
    if s =? 1 then (if inv then dit8o_invend8_1 mode eo x y else dit8o_fwdend8_1 mode eo x y)
    else (if inv then dit8o_invend8 mode s eo x y else dit8o_fwdend8 mode s eo x y) else
  dit4o_end inv mode n s eo x y.
Definition dit16o_core (inv : bool) (W : ptr) (n s : nat) (x y : ptr) : list phase :=
  if s =? 1 then (if inv then dit16o_invcore1 n x y W else dit16o_fwdcore1 n x y W)
  else (if inv then dit16o_invcore n s x y W else dit16o_fwdcore n s x y W).
Definition dit16o_end (inv : bool) (mode : smode) (n s : nat) (eo : bool) (x y : ptr) : list phase :=
  if n =? 16 then
    if s =? 1 then (if inv then dit16o_invend16_1 mode eo x y else dit16o_fwdend16_1 mode eo x y)
    else (if inv then dit16o_invend16 mode s eo x y else dit16o_fwdend16 mode s eo x y) else
  dit8o_end inv mode n s eo x y.

(** ** the six algorithms *)
Inductive alg := DIF4 | DIF8 | DIF16 | DIT4 | DIT8 | DIT16.

Definition radix (a : alg) : nat :=
  match a with DIF4 | DIT4 => 4 | DIF8 | DIT8 => 8 | DIF16 | DIT16 => 16 end.
Definition is_dit (a : alg) : bool := match a with DIT4 | DIT8 | DIT16 => true | _ => false end.

(** OMP_THRESHOLD : src/otfft_avxdif4.h:25, otfft_avxdif8.h:25, otfft_avxdif16.h:25, otfft_avxdit4.h:25,
    otfft_avxdit8.h:26, otfft_avxdit16.h:25 *)
Definition omp_min (a : alg) : nat :=
  match a with DIF4 => 2 ^ 13 | DIF8 => 2 ^ 11 | DIF16 => 2 ^ 12 | DIT4 => 2 ^ 13 | DIT8 => 2 ^ 13 | DIT16 => 2 ^ 11 end.

Definition core (a : alg) : bool -> ptr -> nat -> nat -> ptr -> ptr -> prog unit :=
  match a with DIF4 => dif4_core | DIF8 => dif8_core | DIF16 => dif16_core
             | DIT4 => dit4_core | DIT8 => dit8_core | DIT16 => dit16_core end.
Definition fin (a : alg) : bool -> smode -> nat -> nat -> bool -> ptr -> ptr -> prog unit :=
  match a with DIF4 => dif4_end | DIF8 => dif8_end | DIF16 => dif16_end
             | DIT4 => dit4_end | DIT8 => dit8_end | DIT16 => dit16_end end.
Definition coreo (a : alg) : bool -> ptr -> nat -> nat -> ptr -> ptr -> list phase :=
  match a with DIF4 => dif4o_core | DIF8 => dif8o_core | DIF16 => dif16o_core
             | DIT4 => dit4o_core | DIT8 => dit8o_core | DIT16 => dit16o_core end.
Definition fino (a : alg) : bool -> smode -> nat -> nat -> bool -> ptr -> ptr -> list phase :=
  match a with DIF4 => dif4o_end | DIF8 => dif8o_end | DIF16 => dif16o_end
             | DIT4 => dit4o_end | DIT8 => dit8o_end | DIT16 => dit16o_end end.

(** fwdfft<n,s,eo,mode> / invfft<n,s,eo,mode> of one thread and of a thread team *)
Definition fft_s (a : alg) (inv : bool) (mode : smode) (n s : nat) (eo : bool) (x y W : ptr) : prog unit :=
  if is_dit a then dit_rec (fun p q => p ;;; q) UB (radix a) (core a inv W) (fin a inv mode) n n s eo x y
  else dif_rec (fun p q => p ;;; q) UB (radix a) (core a inv W) (fin a inv mode) n n s eo x y.
Definition fft_o (a : alg) (inv : bool) (mode : smode) (n s : nat) (eo : bool) (x y W : ptr) : list phase :=
  if is_dit a then dit_rec (@app _) [single UB] (radix a) (coreo a inv W) (fino a inv mode) n n s eo x y
  else dif_rec (@app _) [single UB] (radix a) (coreo a inv W) (fino a inv mode) n n s eo x y.

(** setup2 : src/otfft_algo_dif4.cpp:44-58 and the same lines of its five siblings.  For N <= radix no
    table is made (W = 0).  [b] is the buffer of the member `weight`. *)
Definition pow_setup_serial (a : alg) (b N : nat) : list act := New b (2 * N) :: init_Wt (radix a) N (b, 0).
Definition pow_setup_parallel (a : alg) (b N : nat) : list act := New b (N / radix a) :: init_Wr1 (radix a) N (b, 0).
Definition pow_setup2 (a : alg) (b n : nat) : list act :=
  let N := 2 ^ n in
  if N <=? radix a then []
  else if N <? omp_min a then pow_setup_serial a b N
  else pow_setup_parallel a b N.

(** fwd ... invn : src/otfft_algo_dif4.cpp:77-298 and siblings; `switch (log_N)` has cases 1..24 and does
    nothing otherwise.  omp: src/otfft_avxdif4omp.h:502-722 and siblings. *)
Definition pow_serial (a : alg) (b n : nat) (k : meth) (x y : ptr) : list act :=
  let ok := (1 <=? n) && (n <=? 24) in
  [Par [single (if ok then fft_s a (meth_inv k) (meth_mode k) (2 ^ n) 1 false x y (b, 0) else skip)]].
Definition pow_parallel (a : alg) (b n : nat) (k : meth) (x y : ptr) : list act :=
  let ok := (1 <=? n) && (n <=? 24) in
  [Par (if ok then fft_o a (meth_inv k) (meth_mode k) (2 ^ n) 1 false x y (b, 0) else [])].
Definition pow_run (a : alg) (b n : nat) (k : meth) (x y : ptr) : list act :=
  if 2 ^ n <? omp_min a then pow_serial a b n k x y else pow_parallel a b n k x y.

End ModelPow.
