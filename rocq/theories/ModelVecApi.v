(** * The 32-byte memory accesses of whole method calls in the AVX builds

    The accesses made by a call of the API, as pairs of cells (see Vec.v), along the same recursions and case
    distinctions as the programs of ModelPow.v, ModelSix.v, ModelMixed.v, ModelApi.v, ModelReal.v and ModelBluestein.v.
    Code that is not mentioned makes none: getpz2, setpz2, getez4, setez4 occur in src/ only in otfft_misc.h (their
    definitions), otfft_avxdi{f,t}{4,8,16}{,omp}.h, otfft_sixstepsq.h, otfft_eightstep.h and otfft_mixedradix.h. *)

From Coq Require Import List Arith Bool.
From Verif Require Import Scalar Mem Omp Lanes Butterfly Engine ModelMixed ModelMixedClass ModelPow ModelSix ModelApi ModelReal ModelBluestein Vec ModelVec.
Import ListNotations.

Section ModelVecApi.
Context {Op : Ops}.
Notation vaccs := (list (ptr * ptr)).

(** ** power-of-two objects, cf. ModelPow.v *)
Definition core_va (o : bool) (a : alg) : bool -> ptr -> nat -> nat -> ptr -> ptr -> vaccs :=
  match a with
  | DIF4 => if o then dif4o_core_va else dif4_core_va | DIF8 => if o then dif8o_core_va else dif8_core_va
  | DIF16 => if o then dif16o_core_va else dif16_core_va | DIT4 => if o then dit4o_core_va else dit4_core_va
  | DIT8 => if o then dit8o_core_va else dit8_core_va | DIT16 => if o then dit16o_core_va else dit16_core_va end.
Definition fin_va (o : bool) (a : alg) : bool -> smode -> nat -> nat -> bool -> ptr -> ptr -> vaccs :=
  match a with
  | DIF4 => if o then dif4o_end_va else dif4_end_va | DIF8 => if o then dif8o_end_va else dif8_end_va
  | DIF16 => if o then dif16o_end_va else dif16_end_va | DIT4 => if o then dit4o_end_va else dit4_end_va
  | DIT8 => if o then dit8o_end_va else dit8_end_va | DIT16 => if o then dit16o_end_va else dit16_end_va end.
Definition fft_va (o : bool) (a : alg) (inv : bool) (mode : smode) (n s : nat) (eo : bool) (x y W : ptr) : vaccs :=
  if is_dit a then dit_rec (@app _) [] (radix a) (core_va o a inv W) (fin_va o a inv mode) n n s eo x y
  else dif_rec (@app _) [] (radix a) (core_va o a inv W) (fin_va o a inv mode) n n s eo x y.
Definition pow_va (a : alg) (b n : nat) (k : meth) (x y : ptr) : vaccs :=
  let ok := (1 <=? n) && (n <=? 24) in
  if ok then fft_va (negb (2 ^ n <? omp_min a)) a (meth_inv k) (meth_mode k) (2 ^ n) 1 false x y (b, 0) else [].

(** ** six- and eight-step objects, cf. ModelSix.v *)
(** transpose_kernel : src/otfft_sixstepsq.h:42-70; the diagonal case has no 32-byte access *)
Definition transpose_va (n k p : nat) (x : ptr) : vaccs :=
  if k =? p then []
  else
    let p_kn := p + k * n in
    let k_pn := k + p * n in
    pairs [x +! (p_kn + 0); x +! (p_kn + 0 + 1); x +! (p_kn + n); x +! (p_kn + n + 1);
           x +! (k_pn + 0); x +! (k_pn + 0 + 1); x +! (k_pn + n); x +! (k_pn + n + 1)] ++
    pairs [x +! (k_pn + n); x +! (k_pn + n + 1); x +! (k_pn + 0); x +! (k_pn + 0 + 1);
           x +! (p_kn + n); x +! (p_kn + n + 1); x +! (p_kn + 0); x +! (p_kn + 0 + 1)].
(** mult_twiddle_factor_kernel : src/otfft_sixstepsq.h:72-119, 196-244 *)
Definition mult_va (n i p k : nat) (x W : ptr) : vaccs :=
  pairs [W +! (4 * i + 0); W +! (4 * i + 0 + 1); W +! (4 * i + 2); W +! (4 * i + 2 + 1)] ++
  if k =? p then
    let p_pn := p + p * n in
    pairs [x +! (p_pn + 0); x +! (p_pn + 0 + 1); x +! (p_pn + n); x +! (p_pn + n + 1)] ++
    pairs [x +! (p_pn + n); x +! (p_pn + n + 1); x +! (p_pn + 0); x +! (p_pn + 0 + 1)]
  else
    let k_pn := k + p * n in
    let p_kn := p + k * n in
    pairs [x +! (k_pn + 0); x +! (k_pn + 0 + 1); x +! (k_pn + n); x +! (k_pn + n + 1);
           x +! (p_kn + 0); x +! (p_kn + 0 + 1); x +! (p_kn + n); x +! (p_kn + n + 1)] ++
    pairs [x +! (p_kn + n); x +! (p_kn + n + 1); x +! (p_kn + 0); x +! (p_kn + 0 + 1);
           x +! (k_pn + n); x +! (k_pn + n + 1); x +! (k_pn + 0); x +! (k_pn + 0 + 1)].
Definition iv_va (iv : itab) (i : nat) (f : nat -> nat -> vaccs) : vaccs :=
  match iv i with Some (row, col) => f row col | None => [] end.
(** part1, part2 : src/otfft_sixstepsq.h:132-194, 256-318 *)
Definition six_fft_va (iv : itab) (inv : bool) (log_N : nat) (x y W Ws : ptr) : vaccs :=
  let n := 2 ^ (log_N / 2) in
  let tr := vfor (six_L n) (fun i => iv_va iv i (fun row col => transpose_va n row col x)) in
  let rows := vfor n (fun p => let pn := p * n in fft_va false DIF8 inv scale_1 n 1 false (x +! pn) (y +! pn) Ws) in
  tr ++ rows ++ vfor (six_L n) (fun i => iv_va iv i (fun row col => mult_va n i row col x W)) ++ rows ++ tr.
(** src/otfft_eightstep.h:42-147, 222-342 *)
Definition eight_bfly_va (inv : bool) (N : nat) (mode : smode) (x y W : ptr) (p : nat) : vaccs :=
  vec 1 Across Across Across 2 (fun l => eight_lane inv N mode x y W (p + l)).
Definition eight_tr_va (N : nat) (x y : ptr) (p : nat) : vaccs :=
  let N1 := N / 8 in
  vfor 4 (fun i => let q := 2 * i in
    pairs [x +! (p + q * N1 + 0); x +! (p + q * N1 + 0 + 1); x +! (p + q * N1 + N1); x +! (p + q * N1 + N1 + 1)] ++
    pairs [y +! (8 * p + q + 0); y +! (8 * p + q + 0 + 1); y +! (8 * p + q + 8); y +! (8 * p + q + 8 + 1)]).
Definition eight_fft_va (iv : itab) (inv : bool) (mode : smode) (log_N : nat) (x y W Wm Ws : ptr) : vaccs :=
  let N := 2 ^ log_N in let N1 := N / 8 in
  vstep N1 2 (eight_bfly_va inv N mode x y W) ++
  vfor 8 (fun i => six_fft_va iv inv (log_N - 3) (y +! N1 * i) (x +! N1 * i) Wm Ws) ++
  vstep N1 2 (eight_tr_va N y x).
Definition six_va (b n : nat) (k : meth) (x y : ptr) : vaccs :=
  let inv := meth_inv k in
  let mode := meth_mode k in
  let W : ptr := (b, 0) in let Wm : ptr := (S b, 0) in let Ws : ptr := (S (S b), 0) in
  if n =? 0 then []
  else if n <=? 5 then fft_va false DIF8 inv mode (2 ^ n) 1 false x y W
  else if 24 <? n then []
  else if Nat.odd n then eight_fft_va (six_iv (2 ^ (n / 2 - 1))) inv mode n x y W Wm Ws
  else six_fft_va (six_iv (2 ^ (n / 2))) inv n x y W Ws.

(** ** the mixed-radix object, cf. ModelMixed.v: only radix 2, 4 and 8 with s >= 2.  The forward and inverse kernels
    of one radix differ in their twiddle factors and arithmetic, not in their 32-byte accesses; the serial and the
    parallel loops visit the same blocks.  Cited for each radix: fwdend, fwdcore, invend, invcore, and then the
    functions of the thread team. *)
(** src/otfft_mixedradix.h:46-66, 603-623, 1160-1184, 1744-1768 *)
Definition mixed_end2_va (s : nat) (eo : bool) (x y : ptr) : vaccs :=
  let z := if eo then y else x in
  if 2 <=? s then vstep s 2 (fun q => vec 0 Scalar Across Across 2 (fun l => lane_end 2 s x z x [] (fun v => v) (q + l))) else [].
(** src/otfft_mixedradix.h:68-101, 625-658, 1186-1221, 1770-1805 *)
Definition mixed_core2_va (n s : nat) (x y W : ptr) : vaccs :=
  let m := n / 2 in let N := n * s in let N1 := N / 2 in
  if 2 <=? s
  then vfor m (fun p => let sp := s * p in
         vstep s 2 (fun q => vec 1 Scalar Across Across 2 (fun l => lane_core 2 N1 s x y W [sp] (fun v => v) sp (q + l))))
  else [].
(** src/otfft_mixedradix.h:105-141, 662-698, 1225-1265, 1809-1849 *)
Definition mixed_end4_va (s : nat) (eo : bool) (x y : ptr) : vaccs :=
  let z := if eo then y else x in
  if 2 <=? s then vstep s 2 (fun q => vec 0 Scalar Across Across 2 (fun l => lane_end 4 s x z x [] (fun v => v) (q + l))) else [].
(** src/otfft_mixedradix.h:143-198, 700-755, 1267-1324, 1851-1908 *)
Definition mixed_core4_va (n s : nat) (x y W : ptr) : vaccs :=
  let m := n / 4 in let N := n * s in let N1 := N / 4 in
  if 2 <=? s
  then vfor m (fun p => let sp := s * p in
         vstep s 2 (fun q => vec 3 Scalar Across Across 2 (fun l => lane_core 4 N1 s x y W [1 * sp; 2 * sp; 3 * sp] (fun v => v) sp (q + l))))
  else [].
(** src/otfft_mixedradix.h:202-278, 759-835, 1328-1408, 1912-1992 *)
Definition mixed_end8_va (s : nat) (eo : bool) (x y : ptr) : vaccs :=
  let z := if eo then y else x in
  if 2 <=? s then vstep s 2 (fun q => vec 0 Scalar Across Across 2 (fun l => lane_end 8 s x z x [] (fun v => v) (q + l))) else [].
(** src/otfft_mixedradix.h:280-387, 837-944, 1410-1519, 1994-2103 *)
Definition mixed_core8_va (n s : nat) (x y W : ptr) : vaccs :=
  let m := n / 8 in let N := n * s in let N1 := N / 8 in
  if 2 <=? s
  then vfor m (fun p => let sp := s * p in
         vstep s 2 (fun q => vec 3 Scalar Across Across 2 (fun l => lane_core 8 N1 s x y W [1 * sp; 2 * sp; 3 * sp] (fun v => v) sp (q + l))))
  else [].
(** fwdfft, invfft, fwdfftp, invfftp : src/otfft_mixedradix.h:551-597, 1108-1154, 1692-1738, 2276-2322 *)
Fixpoint mixed_fft_va (fuel n s : nat) (eo : bool) (x y W : ptr) : vaccs :=
  match fuel with
  | O => []
  | S fuel' =>
      let N := n * s in
      if N <? 2 then []
      else if n mod 8 =? 0 then
        if n =? 8 then mixed_end8_va s eo x y
        else mixed_core8_va n s x y W ++ mixed_fft_va fuel' (n / 8) (8 * s) (negb eo) y x W
      else if n mod 4 =? 0 then
        if n =? 4 then mixed_end4_va s eo x y
        else mixed_core4_va n s x y W ++ mixed_fft_va fuel' (n / 4) (4 * s) (negb eo) y x W
      else if n mod 2 =? 0 then
        if n =? 2 then mixed_end2_va s eo x y
        else mixed_core2_va n s x y W ++ mixed_fft_va fuel' (n / 2) (2 * s) (negb eo) y x W
      else if n mod 5 =? 0 then
        if n =? 5 then [] else mixed_fft_va fuel' (n / 5) (5 * s) (negb eo) y x W
      else if n mod 3 =? 0 then
        if n =? 3 then [] else mixed_fft_va fuel' (n / 3) (3 * s) (negb eo) y x W
      else []
  end.
Definition mixed_va (b N : nat) (x y : ptr) : vaccs := mixed_fft_va (S N) N 1 false x y (b, 0).

(** ** dispatch, cf. ModelApi.v *)
Definition engine_va (b : nat) (e : engine) (k : meth) (x y : ptr) : vaccs :=
  match e with
  | EPow a n => pow_va a b n k x y
  | ESix n => six_va b n k x y
  | EMixed N => mixed_va b N x y
  end.
Definition fft0_va (b N : nat) (k : meth) (x y : ptr) : vaccs :=
  match select N with Some e => engine_va b e (fft0_meth k) x y | None => [] end.
(** ComplexFFT::fwd .. invn *)
Definition complex_va (b N : nat) (k : meth) (x : ptr) : vaccs := fft0_va b N k x (b + 3, 0).

(** ** RFFT, DCT, Bluestein, cf. ModelReal.v, ModelBluestein.v *)
Definition rfft_va (b N : nat) (k : meth) (x y : ptr) : vaccs :=
  if N <? 2 then []
  else
    let Nh := N / 2 in
    if meth_inv k then fft0_va b Nh (match k with invn => invn | _ => inv0 end) (x +! Nh) x
    else fft0_va b Nh fwd0 (y +! Nh) y.
Definition dct_va (b N : nat) (k : dmeth) (x : ptr) : vaccs :=
  let y : ptr := (b + 5, 0) in let z : ptr := (b + 6, 0) in
  if N <? 2 then []
  else match k with
       | Dfwd | Dfwd0 | Dfwdn => rfft_va b N (dct_kind k) y z
       | Dinv | Dinv0 | Dinvn => rfft_va b N (dct_kind k) z y
       end.
Definition bluestein_va (b N : nat) (k : meth) (x : ptr) : vaccs :=
  match pad_loop 32 1 (2 * N - 1) with
  | Some L =>
      if N <? 2 then []
      else let a : ptr := (b + 4, 0) in let bb : ptr := (b + 5, 0) in
           complex_va b L fwd0 a ++ complex_va b L fwd0 bb ++ complex_va b L invn a
  | None => []
  end.
End ModelVecApi.
