(** * Lengths as the C++ type int: setups and constructors with any argument

    The other models take lengths to be natural numbers.  Here the argument of setup and of the constructors ranges over
    all values of int, so that negative lengths and the largest one are covered.  Only memory events are modelled, as in
    ModelArray.v, whose commands are reused; int is 32 bits and size_t 64 bits wide. *)

From Coq Require Import List Arith Bool ZArith.
From Verif Require Import Lanes ModelPow ModelSix ModelApi ModelBluestein ModelArray.
Import ListNotations.
Local Open Scope Z_scope.

Definition INT_MIN : Z := - 2147483648.
Definition is_int (n : Z) : Prop := INT_MIN <= n <= INT_MAX.

(** n*sizeof(T) in simd_array : inc/otfft_complex.h:263, 273.  n is an int and sizeof(T) a size_t, so n is converted to
    size_t and the product is taken modulo 2^w, w being the width of size_t: 64, or 32 on a 32-bit platform. *)
Definition bytes (w n sz : Z) : Z := (n mod 2 ^ w * sz) mod 2 ^ w.
(** no allocator serves a request of more than PTRDIFF_MAX bytes (malloc, posix_memalign: ENOMEM) *)
Definition PTRDIFF_MAX : Z := 2 ^ 63 - 1.

(** weight.setup(n+1): the int sum overflows for the largest int (what follows then is of no interest) : src/otfft_algo_mixed.cpp:42, src/otfft_algo.cpp:222, 517 *)
Definition incr (n : Z) (c : Z -> cmd) : cmd := if n <? INT_MAX then c (n + 1) else do_ (event Bad).
(** the int product 2*N : src/otfft_algo.cpp:518 *)
Definition dbl_ok (n : Z) : bool := (INT_MIN <=? 2 * n) && (2 * n <=? INT_MAX).

Section Alloc.
Variable fail : nat -> bool.

(** simd_malloc(n*sizeof(T)), stored in pointer i : inc/otfft_complex.h:241-254, 263, 273 *)
Definition malloc_z (i : name) (sz n : Z) : cmd :=
  if PTRDIFF_MAX <? bytes 64 n sz then malloc_to (fun _ => true) i 0 else malloc_to fail i (Z.to_nat n).
(** simd_array::simd_array(int n) : lines 263-266 *)
Definition arr_ctor_z (i : name) (sz n : Z) : cmd := malloc_z i sz n ;> check i.
(** simd_array::setup : lines 270-275 *)
Definition arr_setup_z (i : name) (sz n : Z) : cmd := free_of i ;> malloc_z i sz n ;> check i.

(** OTFFT_MixedRadix::FFT0::setup : src/otfft_algo_mixed.cpp:38-54; the loop p = 0 .. n accesses W if n >= 0 *)
Definition mixed_z (n : Z) : cmd :=
  incr n (arr_setup_z EW 16) ;> take EW ;> if n <? 0 then ok else use EW.

(** FFT0::setup : src/otfft_algo.cpp:61-103.  For n <= 0 the loop of line 64 ends with log_N = 0 at once, N differs from
    1 << 0 and log_N becomes -1: the mixed radix algorithm. *)
Definition fft0_z (n : Z) : cmd :=
  obj_reset_arr ;>
  if n <=? 0 then onthrow (instance fail ;> mixed_z n) obj_reset_arr
  else match select (Z.to_nat n) with
  | None => ok
  | Some (EMixed _) => onthrow (instance fail ;> mixed_z n) obj_reset_arr
  | Some e => onthrow (instance fail ;> engine_arr fail e) obj_reset_arr
  end.
(** FFT::setup : lines 154-159 *)
Definition fft_z (n : Z) : cmd := fft0_z n ;> arr_setup_z Work 16 n ;> take Work.
(** FFT::FFT(n) : line 147 *)
Definition fft_ctor_z (n : Z) : cmd :=
  onthrow (fft0_z n) obj_reset_arr ;> onthrow (arr_ctor_z Work 16 n) fft0_dtor ;> take Work.
(** RFFT::setup : lines 216-279; N/2 truncates towards zero.  The length field is compared with 1 and 2 only, so a
    negative length is recorded as 0. *)
Definition rfft_z (n : Z) : cmd :=
  do_ (set_len (Z.to_nat n)) ;> fft0_z (Z.quot n 2) ;>
  incr n (arr_setup_z Wu 16) ;> take Wu ;> if n <? 1 then ok else use Wu.
(** DCT0::setup : lines 513-537 *)
Definition dct0_z (n : Z) : cmd :=
  do_ (set_len (Z.to_nat n)) ;> rfft_z n ;>
  incr n (arr_setup_z Wv 16) ;> take Wv ;> if negb (dbl_ok n) then do_ (event Bad) else if n <? 2 then ok else use Wv.
(** DCT::setup : lines 692-698; work1 is an array of double *)
Definition dct_z (n : Z) : cmd :=
  do_ (set_len (Z.to_nat n)) ;> dct0_z n ;> arr_setup_z Wk1 8 n ;> take Wk1 ;> arr_setup_z Wk2 16 n ;> take Wk2.
(** Bluestein::setup : lines 745-748: nothing happens if n < 1; otherwise as in ModelArray.v (all its sizes are positive) *)
Definition bl_z (n : Z) : cmd := if n <? 1 then ok else bl_arr fail (Z.to_nat n).

Definition c_setup_z (k : cls) : Z -> cmd := match k with CFFT => fft_z | CReal => rfft_z | CDct => dct_z | CBluestein => bl_z end.
(** RFFT(n), DCT(n), Bluestein(n) : lines 206-209, 680-683, 733-736 *)
Definition c_ctor_z (k : cls) (n : Z) : cmd :=
  match k with
  | CFFT => fft_ctor_z n
  | CReal => onthrow (rfft_z n) rfft_unwind
  | CDct => onthrow (dct_z n) dct_unwind
  | CBluestein => onthrow (bl_z n) bl_unwind
  end.
End Alloc.
