(** * CPU detection, the public factory and the deleter: src/otfft.cpp *)

From Coq Require Import List Arith ZArith Bool.
From Verif Require Import Scalar Mem Omp Object ModelApi ModelReal ModelBluestein.
Import ListNotations.
Local Open Scope Z_scope.

(** The processor as the code sees it: CPUID(leaf) = [eax; ebx; ecx; edx] as std::int32_t (hence possibly
    negative; Z.land is bitwise and on two's complement), and the register XCR0.
    src/otfft.cpp:60-81 (CPUID), 83-92 (XGETBV). *)
Record regs := { eax : Z; ebx : Z; ecx : Z; edx : Z }.
Record cpu := { cpuid : Z -> regs; xcr0 : Z }.

(** result of running code that may throw std::domain_error or execute an illegal instruction *)
Inductive res (A : Type) := Ok (a : A) | Throws | Illegal.
Arguments Ok {A}. Arguments Throws {A}. Arguments Illegal {A}.

(** (v & mask) != 0 *)
Definition anyset (v mask : Z) : bool := negb (Z.land v mask =? 0).

(** The instruction XGETBV is illegal (#UD) unless the operating system has set CR4.OSXSAVE, which
    CPUID(1).ecx reports in bit 27 (Intel SDM vol. 2, XGETBV). *)
Definition xgetbv (c : cpu) : option Z := if anyset (ecx (cpuid c 1)) 0x08000000 then Some (xcr0 c) else None.

Record features := { f_xsave : bool; f_sse2 : bool; f_avx : bool; f_avx2 : bool }.

(** sysinfo::sysinfo : src/otfft.cpp:103-141 (the flags SSE, SSE3, SSSE3, SSE41, SSE42 and FMA are never read) *)
Definition sysinfo (c : cpu) : option features :=
  let info0 := cpuid c 0 in
  if eax info0 >? 0 then
    let info1 := cpuid c 1 in
    match xgetbv c with
    | None => None
    | Some xcr =>
        let xsave := anyset (ecx info1) 0x04000000 && (Z.land xcr 6 =? 6) in
        let sse2 := anyset (edx info1) 0x04000000 in
        let avx := anyset (ecx info1) 0x10000000 && anyset (ecx info1) 0x04000000 && anyset (ecx info1) 0x08000000 && xsave in
        let avx2 := if (eax info0 >=? 7) && xsave then anyset (ebx (cpuid c 7)) 0x00000020 else false in
        Some {| f_xsave := xsave; f_sse2 := sse2; f_avx := avx; f_avx2 := avx2 |}
    end
  else Some {| f_xsave := false; f_sse2 := false; f_avx := false; f_avx2 := false |}.

(** compile-time configuration: OTFFT_WITH_SSE2, OTFFT_WITH_AVX, OTFFT_WITH_AVX2 (src/otfft_config.h.in, CMakeLists.txt:88-98) *)
Record config := { with_sse2 : bool; with_avx : bool; with_avx2 : bool }.
(** enum class OptimizationType : inc/otfft.h:35-47 *)
Inductive opt := AUTO | OSSE2 | OAVX | OAVX2.
Definition opt_eqb (a b : opt) : bool :=
  match a, b with AUTO, AUTO | OSSE2, OSSE2 | OAVX, OAVX | OAVX2, OAVX2 => true | _, _ => false end.
(** the three builds of the same sources (namespaces OTFFT_SSE2, OTFFT_AVX, OTFFT_AVX2) *)
Inductive isa := SSE2 | AVX | AVX2.
Inductive kind := Complex | Real | Dct | BluesteinK.
(** what `new FFT(n)` etc. yields: an object of the given class from the given build, on which setup(n) has run
    (src/otfft_algo.cpp:1090-1111) *)
Record product := { p_isa : isa; p_kind : kind; p_n : nat }.

(** createComplexFFT, createRealFFT, createDCT, createBluesteinFFT : src/otfft.cpp:287-315, 317-345, 347-376, 378-406;
    the four functions differ only in the class they instantiate *)
Definition create (k : kind) (cfg : config) (c : cpu) (n : nat) (t : opt) : res product :=
  match sysinfo c with
  | None => Illegal
  | Some f =>
      if with_avx2 cfg && (f_avx2 f && (opt_eqb t AUTO || opt_eqb t OAVX2)) then Ok {| p_isa := AVX2; p_kind := k; p_n := n |}
      else if with_avx cfg && (f_avx f && (opt_eqb t AUTO || opt_eqb t OAVX)) then Ok {| p_isa := AVX; p_kind := k; p_n := n |}
      else if with_sse2 cfg && (f_sse2 f && (opt_eqb t AUTO || opt_eqb t OSSE2)) then Ok {| p_isa := SSE2; p_kind := k; p_n := n |}
      else Throws
  end.

(** unique_ptr_delete::operator() : src/otfft.cpp:211-284 (three identical overloads).  The result is the build whose
    unique_ptr_deleter (src/otfft_algo.cpp:1075-1088: `delete raw_pointer`, through a virtual destructor) is run. *)
Definition deleter (cfg : config) (c : cpu) : res isa :=
  match sysinfo c with
  | None => Illegal
  | Some f =>
      if with_avx2 cfg && f_avx2 f then Ok AVX2
      else if with_avx cfg && f_avx f then Ok AVX
      else if with_sse2 cfg && f_sse2 f then Ok SSE2
      else Throws
  end.

(** the constructors: RFFT(n), DCT(n), Bluestein(n) call setup(n); FFT(n) runs FFT0(n) (which calls FFT0::setup(n)) and
    allocates `work`, as FFT::setup does: src/otfft_algo.cpp:47-50, 147, 207-210, 680-683, 735-738 *)
Definition product_setup {Op : Ops} (b : nat) (p : product) : list (act C) :=
  match p_kind p with
  | Complex => fft_setup b (p_n p)
  | Real => rfft_setup b (p_n p)
  | Dct => dct_setup b (p_n p)
  | BluesteinK => bl_setup b (p_n p)
  end.
