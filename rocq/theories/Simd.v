(** * The SIMD helper functions of src/otfft_misc.h, for every instruction set the library is built for

    The kernels use the types xmm (one complex number), ymm (two) and emm (four) and the helpers modelled here.
    The helpers are preprocessor-selected: intrinsics for SSE2 with or without SSE3, AVX with or without FMA, or
    plain C++ when USE_INTRINSIC or __SSE2__ is not defined.  CMakeLists.txt:183-300 compiles src/otfft_algo.cpp
    once per instruction set.  Doubles are elements of [Sc]; an intrinsic acts on two (128 bit) or four (256 bit)
    of them.  Fused multiply-add is a separate scalar operation. *)

From Coq Require Import ZArith List Bool.
From Verif Require Import Scalar.
Import ListNotations.

(** Which of the preprocessor symbols __SSE2__, __SSE3__, __AVX__, __FMA__ (with USE_INTRINSIC) are defined. *)
Inductive build :=
| Plain      (* src/otfft_misc.h:502-692, 962-1155: no intrinsics *)
| SSE2       (* 227-368, 415-496, 962-1155: -msse2 *)
| SSE3       (* 227-411, 460-496, 962-1155: MSVC for x64 (inc/otfft_complex.h:47-50) *)
| AVX        (* 227-411, 460-496, 694-945: -mavx, and -mavx2 without -mfma *)
| AVX_FMA.   (* the same with __FMA__ (inc/otfft_complex.h:55-59 defines it for MSVC when __AVX2__ is) *)
Definition builds := [Plain; SSE2; SSE3; AVX; AVX_FMA].

Definition has_avx (b : build) := match b with AVX | AVX_FMA => true | _ => false end.
Definition has_sse3 (b : build) := match b with SSE3 | AVX | AVX_FMA => true | _ => false end.
Definition has_fma (b : build) := match b with AVX_FMA => true | _ => false end.

Section Simd.
Context {Op : Ops}.
(** a*b+c and a*b-c with one rounding (the instructions of the FMA extension) *)
Variables (sfma sfms : Sc -> Sc -> Sc -> Sc).

(** ** 128 bit intrinsics (Intel Intrinsics Guide) *)
Definition m128 : Type := (Sc * Sc)%type.
Definition mm_setr (a b : Sc) : m128 := (a, b).
Definition mm_add (a b : m128) : m128 := (sadd (fst a) (fst b), sadd (snd a) (snd b)).
Definition mm_sub (a b : m128) : m128 := (ssub (fst a) (fst b), ssub (snd a) (snd b)).
Definition mm_mul (a b : m128) : m128 := (smul (fst a) (fst b), smul (snd a) (snd b)).
Definition mm_div (a b : m128) : m128 := (sdiv (fst a) (fst b), sdiv (snd a) (snd b)).
(** xor with a constant whose elements are 0.0 (false) or -0.0 (true) flips the sign bits selected *)
Definition flip (f : bool) (x : Sc) : Sc := if f then sneg x else x.
Definition mm_xor (mask : bool * bool) (a : m128) : m128 := (flip (fst mask) (fst a), flip (snd mask) (snd a)).
Definition mm_unpacklo (a b : m128) : m128 := (fst a, fst b).
Definition mm_unpackhi (a b : m128) : m128 := (snd a, snd b).
Definition mm_shuffle (a b : m128) (imm : nat) : m128 :=
  (if Nat.testbit imm 0 then snd a else fst a, if Nat.testbit imm 1 then snd b else fst b).
Definition mm_addsub (a b : m128) : m128 := (ssub (fst a) (fst b), sadd (snd a) (snd b)).
Definition mm_fmaddsub (a b c : m128) : m128 := (sfms (fst a) (fst b) (fst c), sfma (snd a) (snd b) (snd c)).
Definition mm_hadd (a b : m128) : m128 := (sadd (fst a) (snd a), sadd (fst b) (snd b)).
Definition mm_add_sd (a b : m128) : m128 := (sadd (fst a) (fst b), snd a).

(** ** 256 bit intrinsics: four doubles e0..e3 *)
Record m256 := M256 { e0 : Sc; e1 : Sc; e2 : Sc; e3 : Sc }.
Definition mm256_setr (a b c d : Sc) : m256 := M256 a b c d.
Definition map2_256 (f : Sc -> Sc -> Sc) (a b : m256) : m256 := M256 (f (e0 a) (e0 b)) (f (e1 a) (e1 b)) (f (e2 a) (e2 b)) (f (e3 a) (e3 b)).
Definition mm256_add := map2_256 sadd.
Definition mm256_sub := map2_256 ssub.
Definition mm256_mul := map2_256 smul.
Definition mm256_div := map2_256 sdiv.
Definition mm256_xor (m0 m1 m2 m3 : bool) (a : m256) : m256 := M256 (flip m0 (e0 a)) (flip m1 (e1 a)) (flip m2 (e2 a)) (flip m3 (e3 a)).
Definition mm256_unpacklo (a b : m256) : m256 := M256 (e0 a) (e0 b) (e2 a) (e2 b).
Definition mm256_unpackhi (a b : m256) : m256 := M256 (e1 a) (e1 b) (e3 a) (e3 b).
Definition mm256_shuffle (a b : m256) (imm : nat) : m256 :=
  M256 (if Nat.testbit imm 0 then e1 a else e0 a) (if Nat.testbit imm 1 then e1 b else e0 b)
       (if Nat.testbit imm 2 then e3 a else e2 a) (if Nat.testbit imm 3 then e3 b else e2 b).
Definition mm256_addsub (a b : m256) : m256 :=
  M256 (ssub (e0 a) (e0 b)) (sadd (e1 a) (e1 b)) (ssub (e2 a) (e2 b)) (sadd (e3 a) (e3 b)).
Definition mm256_fmaddsub (a b c : m256) : m256 :=
  M256 (sfms (e0 a) (e0 b) (e0 c)) (sfma (e1 a) (e1 b) (e1 c)) (sfms (e2 a) (e2 b) (e2 c)) (sfma (e3 a) (e3 b) (e3 c)).
Definition mm256_hadd (a b : m256) : m256 :=
  M256 (sadd (e0 a) (e1 a)) (sadd (e0 b) (e1 b)) (sadd (e2 a) (e3 a)) (sadd (e2 b) (e3 b)).
(** each nibble of imm: bits 0 and 1 select a.lo, a.hi, b.lo or b.hi, bit 2 is ignored, bit 3 gives zeros *)
Definition sel128 (a b : m256) (c : nat) : m128 :=
  if Nat.testbit c 3 then (sofZ 0%Z, sofZ 0%Z)
  else let v := if Nat.testbit c 1 then b else a in if Nat.testbit c 0 then (e2 v, e3 v) else (e0 v, e1 v).
Definition mm256_permute2f128 (a b : m256) (hi lo : nat) : m256 :=   (* imm = 0x<hi><lo> *)
  let l := sel128 a b lo in let h := sel128 a b hi in M256 (fst l) (snd l) (fst h) (snd h).
(** the upper half of a cast is undefined: any value [u] *)
Definition mm256_castpd128 (u : m128) (a : m128) : m256 := M256 (fst a) (snd a) (fst u) (snd u).
Definition mm256_insertf128_1 (a : m256) (b : m128) : m256 := M256 (e0 a) (e1 a) (fst b) (snd b).
Definition mm256_castpd256 (a : m256) : m128 := (e0 a, e1 a).
Definition mm256_extractf128_1 (a : m256) : m128 := (e2 a, e3 a).
Definition mm256_broadcast (a : m128) : m256 := M256 (fst a) (snd a) (fst a) (snd a).

Variable b : build.

(** ** xmm: one complex number *)
Definition xmm : Type := m128.
(** cmplx, getpz, setpz: src/otfft_misc.h:237-279, 509-538 *)
Definition cmplx (x y : Sc) : xmm := mm_setr x y.
(** 288-293 | 546-550 *)
Definition cnjpz (z : xmm) : xmm :=
  match b with Plain => (fst z, sneg (snd z)) | _ => mm_xor (false, true) z end.
(** 294-299 | 551-555 *)
Definition jxpz (z : xmm) : xmm :=
  match b with Plain => (sneg (snd z), fst z) | _ => let xmy := cnjpz z in mm_shuffle xmy xmy 1 end.
(** 300-305 | 556-560 *)
Definition negpz (z : xmm) : xmm :=
  match b with Plain => (sneg (fst z), sneg (snd z)) | _ => mm_xor (true, true) z end.
(** 306-311 | 561-566 *)
Definition mjxpz (z : xmm) : xmm :=
  match b with Plain => (snd z, sneg (fst z)) | _ => let yx := mm_shuffle z z 1 in cnjpz yx end.
(** 313-332 | 568-591 *)
Definition addpz (x y : xmm) : xmm := match b with Plain => (sadd (fst x) (fst y), sadd (snd x) (snd y)) | _ => mm_add x y end.
Definition subpz (x y : xmm) : xmm := match b with Plain => (ssub (fst x) (fst y), ssub (snd x) (snd y)) | _ => mm_sub x y end.
Definition mulpd (x y : xmm) : xmm := match b with Plain => (smul (fst x) (fst y), smul (snd x) (snd y)) | _ => mm_mul x y end.
Definition divpd (x y : xmm) : xmm := match b with Plain => (sdiv (fst x) (fst y), sdiv (snd x) (snd y)) | _ => mm_div x y end.
(** 334-344 | 593-602 *)
Definition scalepz_ (N : nat) (mode : smode) (z : xmm) : xmm :=
  let sv := (scale_of N mode, scale_of N mode) in match mode with scale_1 => z | _ => mulpd sv z end.
(** 377-381 (SSE3) | 421-429 (SSE2) | 641-646 (plain) *)
Definition haddpz (ab xy : xmm) : xmm :=
  match b with
  | Plain => (sadd (fst ab) (snd ab), sadd (fst xy) (snd xy))
  | SSE2 => let ba := mm_shuffle ab ab 1 in let yx := mm_shuffle xy xy 1 in
            let apb := mm_add_sd ab ba in let xpy := mm_add_sd xy yx in mm_shuffle apb xpy 0
  | _ => mm_hadd ab xy
  end.
(** 383-394 (SSE3, FMA) | 431-437 (SSE2) | 625-630 (plain) *)
Definition mulpz (ab xy : xmm) : xmm :=
  match b with
  | Plain => (ssub (smul (fst ab) (fst xy)) (smul (snd ab) (snd xy)), sadd (smul (fst ab) (snd xy)) (smul (snd ab) (fst xy)))
  | SSE2 => let aa := mm_unpacklo ab ab in let bb := mm_unpackhi ab ab in
            mm_add (mm_mul aa xy) (mm_mul bb (jxpz xy))
  | _ => let aa := mm_unpacklo ab ab in let bb := mm_unpackhi ab ab in let yx := mm_shuffle xy xy 1 in
         if has_fma b then mm_fmaddsub aa xy (mm_mul bb yx) else mm_addsub (mm_mul aa xy) (mm_mul bb yx)
  end.
(** 404-410 (SSE3) | 448-453 (SSE2) | 648-653 (plain) *)
Definition v8xpz (xy : xmm) : xmm :=
  match b with
  | Plain => (smul ssqrt1_2 (ssub (fst xy) (snd xy)), smul ssqrt1_2 (sadd (fst xy) (snd xy)))
  | SSE2 => let rr := (ssqrt1_2, ssqrt1_2) in mm_mul rr (mm_add xy (jxpz xy))
  | _ => let rr := (ssqrt1_2, ssqrt1_2) in let yx := mm_shuffle xy xy 1 in mm_mul rr (mm_addsub xy yx)
  end.
(** 462-468 | 655-660 *)
Definition w8xpz (xy : xmm) : xmm :=
  match b with
  | Plain => (smul ssqrt1_2 (sadd (fst xy) (snd xy)), smul ssqrt1_2 (ssub (snd xy) (fst xy)))
  | _ => let rr := (ssqrt1_2, ssqrt1_2) in let ymx := cnjpz (mm_shuffle xy xy 1) in mm_mul rr (mm_add xy ymx)
  end.
(** 470-496 | 662-688 *)
Definition h1xpz (xy : xmm) : xmm := mulpz (sH1X, sH1Y) xy.
Definition h3xpz (xy : xmm) : xmm := mulpz (sneg sH1Y, sneg sH1X) xy.
Definition hfxpz (xy : xmm) : xmm := mulpz (sH1X, sneg sH1Y) xy.
Definition hdxpz (xy : xmm) : xmm := mulpz (sneg sH1Y, sH1X) xy.

(** ** ymm: two complex numbers; with AVX a 256 bit register (694-945), otherwise struct { xmm lo, hi; } (962-1155).
    Both representations are modelled; [ymm] is the sum of the two, and the helpers below are only ever applied to
    the one the build uses. *)
Definition ymm : Type := if has_avx b then m256 else (xmm * xmm)%type.
Definition of_avx {A} (f : m256 -> A) (g : xmm * xmm -> A) : ymm -> A :=
  match has_avx b as h return (if h then m256 else (xmm * xmm)%type) -> A with true => f | false => g end.
Definition to_ymm (f : m256) (g : xmm * xmm) : ymm :=
  match has_avx b as h return if h then m256 else (xmm * xmm)%type with true => f | false => g end.
Definition op1 (f : m256 -> m256) (g : xmm -> xmm) : ymm -> ymm :=
  match has_avx b as h return let T := if h then m256 else (xmm * xmm)%type in T -> T with
  | true => f | false => fun y => (g (fst y), g (snd y)) end.
Definition op2 (f : m256 -> m256 -> m256) (g : xmm -> xmm -> xmm) : ymm -> ymm -> ymm :=
  match has_avx b as h return let T := if h then m256 else (xmm * xmm)%type in T -> T -> T with
  | true => f | false => fun x y => (g (fst x) (fst y), g (snd x) (snd y)) end.

(** cmplx2 of four doubles, 704-708 | 972-977; getpz2/getpz3/cmplx2 of two complex numbers, 710-732, 926-930 | 979-991, 1144-1148.
    (A load reads the four doubles z[0].Re, z[0].Im, z[1].Re, z[1].Im.) *)
Definition cmplx2 (a0 b0 c0 d0 : Sc) : ymm := to_ymm (mm256_setr a0 b0 c0 d0) (cmplx a0 b0, cmplx c0 d0).
Definition getpz2 (z0 z1 : C) : ymm := to_ymm (mm256_setr (Re z0) (Im z0) (Re z1) (Im z1)) (z0, z1).
(** setpz2/setpz3: what is stored to z[0] and z[1], 734-743, 932-937 | 993-998, 1150-1155 *)
Definition setpz2 : ymm -> C * C := of_avx (fun v => (mkC (e0 v) (e1 v), mkC (e2 v) (e3 v))) (fun y => y).
(** getlo, gethi, 915-924 | 1137-1142 *)
Definition getlo : ymm -> xmm := of_avx mm256_castpd256 fst.
Definition gethi : ymm -> xmm := of_avx mm256_extractf128_1 snd.
(** 745-750 | 1000-1005 *)
Definition cnjpz2 : ymm -> ymm := op1 (mm256_xor false true false true) cnjpz.
(** 751-756 | 1006-1011 *)
Definition jxpz2 : ymm -> ymm :=
  op1 (fun xy => let xmy := mm256_xor false true false true xy in mm256_shuffle xmy xmy 5) jxpz.
(** 757-762 (AVX only) *)
Definition negpz2_avx (v : m256) : m256 := mm256_xor true true true true v.
(** 764-783 | 1013-1036 *)
Definition addpz2 : ymm -> ymm -> ymm := op2 mm256_add addpz.
Definition subpz2 : ymm -> ymm -> ymm := op2 mm256_sub subpz.
Definition mulpd2 : ymm -> ymm -> ymm := op2 mm256_mul mulpd.
Definition divpd2 : ymm -> ymm -> ymm := op2 mm256_div divpd.
(** 786-798 | 1038-1043 *)
Definition mulpz2_avx (ab xy : m256) : m256 :=
  let aa := mm256_unpacklo ab ab in let bb := mm256_unpackhi ab ab in let yx := mm256_shuffle xy xy 5 in
  if has_fma b then mm256_fmaddsub aa xy (mm256_mul bb yx) else mm256_addsub (mm256_mul aa xy) (mm256_mul bb yx).
Definition mulpz2 : ymm -> ymm -> ymm := op2 mulpz2_avx mulpz.
(** 806-817 | 1052-1063 *)
Definition scalepz2 (N : nat) (mode : smode) (z : ymm) : ymm :=
  let s := scale_of N mode in match mode with scale_1 => z | _ => mulpd2 (to_ymm (M256 s s s s) ((s, s), (s, s))) z end.
(** 818-825 | 1065-1070 *)
Definition v8xpz2 : ymm -> ymm :=
  op1 (fun xy => let rr := M256 ssqrt1_2 ssqrt1_2 ssqrt1_2 ssqrt1_2 in let yx := mm256_shuffle xy xy 5 in
                 mm256_mul rr (mm256_addsub xy yx)) v8xpz.
(** 826-833 | 1072-1077 *)
Definition w8xpz2 : ymm -> ymm :=
  op1 (fun xy => let rr := M256 ssqrt1_2 ssqrt1_2 ssqrt1_2 ssqrt1_2 in
                 let ymx := mm256_xor false true false true (mm256_shuffle xy xy 5) in
                 mm256_mul rr (mm256_add xy ymx)) w8xpz.
(** 834-860 | 1079-1105 *)
Definition h1xpz2 : ymm -> ymm := op1 (mulpz2_avx (M256 sH1X sH1Y sH1X sH1Y)) h1xpz.
Definition h3xpz2 : ymm -> ymm := op1 (mulpz2_avx (M256 (sneg sH1Y) (sneg sH1X) (sneg sH1Y) (sneg sH1X))) h3xpz.
Definition hfxpz2 : ymm -> ymm := op1 (mulpz2_avx (M256 sH1X (sneg sH1Y) sH1X (sneg sH1Y))) hfxpz.
Definition hdxpz2 : ymm -> ymm := op1 (mulpz2_avx (M256 (sneg sH1Y) sH1X (sneg sH1Y) sH1X)) hdxpz.
(** duppz2, duppz3: 862-872 | 1107-1119 *)
Definition duppz2 (x : xmm) : ymm := to_ymm (mm256_broadcast x) (x, x).
(** cat: 874-881 | 1121-1126; [u] is the undefined upper half of the cast *)
Definition cat (u : xmm) (x y : xmm) : ymm := to_ymm (mm256_insertf128_1 (mm256_castpd128 u x) y) (x, y).
(** catlo, cathi, swaplohi: 883-899 | 1128-1147 *)
Definition catlo : ymm -> ymm -> ymm :=
  match has_avx b as h return let T := if h then m256 else (xmm * xmm)%type in T -> T -> T with
  | true => fun x y => mm256_permute2f128 x y 2 0 | false => fun x y => (fst x, fst y) end.
Definition cathi : ymm -> ymm -> ymm :=
  match has_avx b as h return let T := if h then m256 else (xmm * xmm)%type in T -> T -> T with
  | true => fun x y => mm256_permute2f128 x y 3 1 | false => fun x y => (snd x, snd y) end.
Definition swaplohi : ymm -> ymm :=
  match has_avx b as h return let T := if h then m256 else (xmm * xmm)%type in T -> T with
  | true => fun x => mm256_permute2f128 x x 0 1 | false => fun x => (snd x, fst x) end.

(** ** emm: four complex numbers, struct { ymm lo, hi; }, 1456-1580 *)
Definition emm : Type := (ymm * ymm)%type.
Definition both (f : ymm -> ymm) (z : emm) : emm := (f (fst z), f (snd z)).
Definition both2 (f : ymm -> ymm -> ymm) (x y : emm) : emm := (f (fst x) (fst y), f (snd x) (snd y)).
(** getez4, setez4: 1458-1470 *)
Definition getez4 (z0 z1 z2 z3 : C) : emm := (getpz2 z0 z1, getpz2 z2 z3).
Definition setez4 (z : emm) : (C * C) * (C * C) := (setpz2 (fst z), setpz2 (snd z)).
(** 1472-1512 *)
Definition cnjez4 := both cnjpz2.
Definition jxez4 := both jxpz2.
Definition addez4 := both2 addpz2.
Definition subez4 := both2 subpz2.
Definition muled4 := both2 mulpd2.
Definition mulez4 := both2 mulpz2.
(** 1514-1524 *)
Definition scaleez4 (N : nat) (mode : smode) (z : emm) : emm :=
  let s := scale_of N mode in let sv := to_ymm (M256 s s s s) ((s, s), (s, s)) in
  match mode with scale_1 => z | _ => muled4 (sv, sv) z end.
(** 1526-1566 *)
Definition v8xez4 := both v8xpz2.
Definition w8xez4 := both w8xpz2.
Definition h1xez4 := both h1xpz2.
Definition h3xez4 := both h3xpz2.
Definition hfxez4 := both hfxpz2.
Definition hdxez4 := both hdxpz2.
(** dupez4, dupez5: 1568-1580 *)
Definition dupez4 (x : xmm) : emm := let y := duppz2 x in (y, y).

(** ** The arithmetic of the build: [Op] with the six operations the helpers above implement *)
Record six := Six {
  k_mulre : Sc -> Sc -> Sc -> Sc -> Sc; k_mulim : Sc -> Sc -> Sc -> Sc -> Sc;
  k_v8re : Sc -> Sc -> Sc; k_v8im : Sc -> Sc -> Sc; k_w8re : Sc -> Sc -> Sc; k_w8im : Sc -> Sc -> Sc }.
Definition set_ops (k : six) : Ops := {|
  Sc := @Sc Op; sadd := @sadd Op; ssub := @ssub Op; smul := @smul Op; sdiv := @sdiv Op; sneg := @sneg Op;
  ssqrt := @ssqrt Op; smysqrt := @smysqrt Op; scos := @scos Op; ssin := @ssin Op; sofZ := @sofZ Op; spi := @spi Op;
  ssqrt1_2 := @ssqrt1_2 Op; sH1X := @sH1X Op; sH1Y := @sH1Y Op;
  smulre := k_mulre k; smulim := k_mulim k; sv8re := k_v8re k; sv8im := k_v8im k; sw8re := k_w8re k; sw8im := k_w8im k |}.
Definition build_six : six := {|
  k_mulre := fun a b' x y =>
    match b with
    | SSE2 => sadd (smul a x) (smul b' (sneg y))
    | AVX_FMA => sfms a x (smul b' y)
    | _ => ssub (smul a x) (smul b' y)
    end;
  k_mulim := fun a b' x y =>
    match b with AVX_FMA => sfma a y (smul b' x) | _ => sadd (smul a y) (smul b' x) end;
  k_v8re := fun x y => match b with SSE2 => smul ssqrt1_2 (sadd x (sneg y)) | _ => smul ssqrt1_2 (ssub x y) end;
  k_v8im := fun x y => match b with Plain => smul ssqrt1_2 (sadd x y) | _ => smul ssqrt1_2 (sadd y x) end;
  k_w8re := fun x y => smul ssqrt1_2 (sadd x y);
  k_w8im := fun x y => match b with Plain => smul ssqrt1_2 (ssub y x) | _ => smul ssqrt1_2 (sadd y (sneg x)) end
|}.
Definition build_ops : Ops := set_ops build_six.

End Simd.
Arguments six : clear implicits.
