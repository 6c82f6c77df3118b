(** * The six-step / eight-step transform object (large powers of two)

    src/otfft_sixstepsq.h, src/otfft_eightstep.h, src/otfft_algo_sixstep.cpp.
    The AVX vector operations work on two complex numbers; catlo(ab, AB) = aA, cathi(ab, AB) = bB
    (src/otfft_misc.h:884-894, 1108-1120). *)

From Coq Require Import List Arith ZArith Bool.
From Verif Require Import Scalar Mem Omp Lanes Object Engine Twid Butterfly ModelPow ModelMixedClass.
Import ListNotations.

Section ModelSix.
Context {Op : Ops}.
Notation prog := (prog C).
Notation phase := (phase (V:=C)).
Notation act := (act C).
Local Open Scope nat_scope.

(** OMP_THRESHOLD : src/otfft_sixstepsq.h:28-32; OMP_THRESHOLD1, OMP_THRESHOLD2 : src/otfft_eightstep.h:21-27 *)
Definition six_omp : nat := 2 ^ 14.
Definition eight_omp1 : nat := 2 ^ 13.
Definition eight_omp2 : nat := 2 ^ 19.

(** ** the index array `simd_array<index_t> index_array`, index_t = { short col, row; } : src/otfft_sixstep.h:22.
    It holds no numbers of the transform, so it is modelled apart from the memory of complex numbers, as a
    table from positions to (row, col); positions never written and positions outside the array read as None. *)
Definition itab : Type := nat -> option (nat * nat).

(** ip[i].row = p; ip[i].col = k; on an array of [len] elements: None is a store outside the array, or a value
    that does not fit in a short *)
Definition iv_set (len : nat) (t : option itab) (i p k : nat) : option itab :=
  match t with
  | Some t => if (i <? len) && (p <? 2 ^ 15) && (k <? 2 ^ 15) then Some (fun j => if j =? i then Some (p, k) else t j) else None
  | None => None
  end.

(** for (int p = 0; p < n; p += 2) for (int k = p; k < n; k += 2) *)
Definition pk_pairs (n : nat) : list (nat * nat) :=
  flat_map (fun q => let p := 2 * q in map (fun j => (p, p + 2 * j)) (seq 0 ((n - p + 1) / 2))) (seq 0 ((n + 1) / 2)).

(** const int u = p/2, v = k/2; const int i = u*m + v - u*(u+1)/2; : src/otfft_algo_sixstep.cpp:143-145, 160-162 *)
Definition wnxn_i (m p k : nat) : nat := let u := p / 2 in let v := k / 2 in u * m + v - u * (u + 1) / 2.

(** the index part of init_weight_nxn / init_Wnxn : src/otfft_algo_sixstep.cpp:80-90, 133-170 *)
Definition init_iv (n : nat) : option itab :=
  let m := n / 2 in
  fold_left (fun t pk => iv_set (m * (m + 1) / 2) t (wnxn_i m (fst pk) (snd pk)) (fst pk) (snd pk)) (pk_pairs n) (Some (fun _ => None)).

(** the twiddle part: src/otfft_algo_sixstep.cpp:138-152 (serial), 155-170 (parallel);
    theta * (k+a)*(p+b) is (theta*(k+a))*(p+b) *)
Definition wnxn_body (n : nat) (w : ptr) (p : nat) : prog unit :=
  let N := n * n in
  let m := n / 2 in
  let e k p := expj (smul (smul (theta_of N) (sofZ (Z.of_nat k))) (sofZ (Z.of_nat p))) in
  for_ ((n - p + 1) / 2) (fun j =>
    let k := p + 2 * j in
    let i := wnxn_i m p k in
    store (w +! (4 * i + 0)) (e (k + 0) (p + 0)) ;;;
    store (w +! (4 * i + 1)) (e (k + 1) (p + 0)) ;;;
    store (w +! (4 * i + 2)) (e (k + 0) (p + 1)) ;;;
    store (w +! (4 * i + 3)) (e (k + 1) (p + 1))).
Definition init_Wnxn (n : nat) (w : ptr) : list act :=
  if n * n <? six_omp then [Par [single (for_step n 2 (wnxn_body n w))]]
  else [Par [(n / 2, fun q => wnxn_body n w (2 * q))]].
Definition init_weight_nxn (n b : nat) : list act :=
  New b (n * (n + 2) / 2) :: init_Wnxn n (b, 0) ++
  match init_iv n with Some _ => [] | None => [Par [single UB]] end.

(** init_weight_8xm, init_W8xm : src/otfft_algo_sixstep.cpp:73-78, 115-131 *)
Definition init_weight_8xm (n b : nat) : list act :=
  let m := n / 8 in
  let body p := store ((b, 0) +! p) (expj (smul (theta_of n) (sofZ (Z.of_nat p)))) in
  New b m :: if m <? six_omp then [Par [single (for_ m body)]] else [Par [(m, body)]].

(** init_weight_sub : src/otfft_algo_sixstep.cpp:92-113 (the `#elif 1` branch) *)
Definition init_weight_sub (n b : nat) : list act :=
  if n <=? 8 then [] else New b (2 * n) :: init_Wt 8 n (b, 0).

(** setup2 : src/otfft_algo_sixstep.cpp:53-71.  Buffers: weight = b, weight_med = b+1, weight_sub = b+2. *)
Definition six_setup2 (b n : nat) : list act :=
  let N := 2 ^ n in
  if n <=? 5 then init_weight_sub N b
  else if Nat.odd n then
    let m := 2 ^ (n / 2 - 1) in
    init_weight_8xm N b ++ init_weight_nxn m (S b) ++ init_weight_sub m (S (S b))
  else
    let m := 2 ^ (n / 2) in
    init_weight_nxn m b ++ init_weight_sub m (S (S b)).

(** ** kernels of src/otfft_sixstepsq.h *)
(** lines 42-70 *)
Definition transpose_kernel (n k p : nat) (x : ptr) : prog unit :=
  if k =? p then
    let k_kn := k + k * n in
    block [x +! (k_kn + 1); x +! (k_kn + n)] [x +! (k_kn + n); x +! (k_kn + 1)]
      (fun v => match v with [x12; x21] => [x12; x21] | _ => [] end)
  else
    let p_kn := p + k * n in
    let k_pn := k + p * n in
    block
      [x +! (p_kn + 0); x +! (p_kn + 0 + 1); x +! (p_kn + n); x +! (p_kn + n + 1);
       x +! (k_pn + 0); x +! (k_pn + 0 + 1); x +! (k_pn + n); x +! (k_pn + n + 1)]
      [x +! (k_pn + n); x +! (k_pn + n + 1); x +! (k_pn + 0); x +! (k_pn + 0 + 1);
       x +! (p_kn + n); x +! (p_kn + n + 1); x +! (p_kn + 0); x +! (p_kn + 0 + 1)]
      (fun v => match v with
       | [a; b; A; B; c; C; d; D] => [b; B; a; A; C; D; c; d]
       | _ => [] end).

(** lines 72-119 (fwdffts), 196-244 (invffts: the twiddles are conjugated) *)
Definition mult_twiddle_factor_kernel (inv : bool) (N : nat) (mode : smode) (n i p k : nat) (x W : ptr) : prog unit :=
  let sw w := scalepz N mode (if inv then cconj w else w) in
  let ws := [W +! (4 * i + 0); W +! (4 * i + 0 + 1); W +! (4 * i + 2); W +! (4 * i + 2 + 1)] in
  if k =? p then
    let p_pn := p + p * n in
    block
      (ws ++ [x +! (p_pn + 0); x +! (p_pn + 0 + 1); x +! (p_pn + n); x +! (p_pn + n + 1)])
      [x +! (p_pn + n); x +! (p_pn + n + 1); x +! (p_pn + 0); x +! (p_pn + 0 + 1)]
      (fun v => match v with
       | [w11; w12; w21; w22; a; b; A; B] =>
           let a := cmul (sw w11) a in let b := cmul (sw w12) b in
           let A := cmul (sw w21) A in let B := cmul (sw w22) B in
           [b; B; a; A]
       | _ => [] end)
  else
    let k_pn := k + p * n in
    let p_kn := p + k * n in
    block
      (ws ++ [x +! (k_pn + 0); x +! (k_pn + 0 + 1); x +! (k_pn + n); x +! (k_pn + n + 1);
       x +! (p_kn + 0); x +! (p_kn + 0 + 1); x +! (p_kn + n); x +! (p_kn + n + 1)])
      [x +! (p_kn + n); x +! (p_kn + n + 1); x +! (p_kn + 0); x +! (p_kn + 0 + 1);
       x +! (k_pn + n); x +! (k_pn + n + 1); x +! (k_pn + 0); x +! (k_pn + 0 + 1)]
      (fun v => match v with
       | [w11; w12; w21; w22; a; b; A; B; c; C; d; D] =>
           let a := cmul (sw w11) a in let b := cmul (sw w12) b in
           let A := cmul (sw w21) A in let B := cmul (sw w22) B in
           [b; B; a; A; cmul (sw w21) C; cmul (sw w22) D; cmul (sw w11) c; cmul (sw w12) d]
       | _ => [] end).

(** reading iv[i] *)
Definition iv_get (iv : itab) (i : nat) (f : nat -> nat -> prog unit) : prog unit :=
  match iv i with Some (row, col) => f row col | None => UB end.

(** the five loops of part1 (lines 132-160, 256-284) and part2 (162-194, 286-318):
    transpose; rows; twiddles and transpose; rows; transpose *)
Definition six_tr (iv : itab) (n : nat) (x : ptr) (i : nat) : prog unit :=
  iv_get iv i (fun row col => let k := row in let p := col in transpose_kernel n k p x).
Definition six_row (inv : bool) (n : nat) (x y Ws : ptr) (p : nat) : prog unit :=
  let pn := p * n in fft_s DIF8 inv scale_1 n 1 false (x +! pn) (y +! pn) Ws.
Definition six_mul (iv : itab) (inv : bool) (N : nat) (mode : smode) (n : nat) (x W : ptr) (i : nat) : prog unit :=
  iv_get iv i (fun row col => let k := col in let p := row in mult_twiddle_factor_kernel inv N mode n i p k x W).
Definition six_L (n : nat) : nat := let m := n / 2 in m * (m + 1) / 2.

(** N = 2^log_N, n = 2^(log_N/2) *)
Definition six_part1 (iv : itab) (inv : bool) (mode : smode) (log_N : nat) (x y W Ws : ptr) : prog unit :=
  let N := 2 ^ log_N in
  let n := 2 ^ (log_N / 2) in
  for_ (six_L n) (six_tr iv n x) ;;;
  for_ n (six_row inv n x y Ws) ;;;
  for_ (six_L n) (six_mul iv inv N mode n x W) ;;;
  for_ n (six_row inv n x y Ws) ;;;
  for_ (six_L n) (six_tr iv n x).
Definition six_part2 (iv : itab) (inv : bool) (mode : smode) (log_N : nat) (x y W Ws : ptr) : list phase :=
  let N := 2 ^ log_N in
  let n := 2 ^ (log_N / 2) in
  [(six_L n, six_tr iv n x);
   (n, six_row inv n x y Ws);
   (six_L n, six_mul iv inv N mode n x W);
   (n, six_row inv n x y Ws);
   (six_L n, six_tr iv n x)].

(** fwdffts / invffts ::operator() : lines 121-131, 245-255 (sng = false in every use) *)
Definition six_serial (iv : itab) (inv : bool) (mode : smode) (log_N : nat) (x y W Ws : ptr) : list act :=
  [Par [single (six_part1 iv inv mode log_N x y W Ws)]].
Definition six_parallel (iv : itab) (inv : bool) (mode : smode) (log_N : nat) (x y W Ws : ptr) : list act :=
  [Par (six_part2 iv inv mode log_N x y W Ws)].
Definition six_fft (iv : itab) (inv : bool) (mode : smode) (log_N : nat) (x y W Ws : ptr) : list act :=
  if 2 ^ log_N <? six_omp then six_serial iv inv mode log_N x y W Ws else six_parallel iv inv mode log_N x y W Ws.

(** ** src/otfft_eightstep.h *)
(** fft_and_mult_twiddle_factor_kernel : lines 84-147 (`#else` branch); ifft_and_mult_... : 222-282; one of the two lanes *)
Definition eight_fwd (N : nat) (mode : smode) (v : list C) : list C :=
  match v with
  | [w1p; x0; x1; x2; x3; x4; x5; x6; x7] =>
      let x0 := scalepz N mode x0 in let x1 := scalepz N mode x1 in
      let x2 := scalepz N mode x2 in let x3 := scalepz N mode x3 in
      let x4 := scalepz N mode x4 in let x5 := scalepz N mode x5 in
      let x6 := scalepz N mode x6 in let x7 := scalepz N mode x7 in
      let a04 := cadd x0 x4 in let s04 := csub x0 x4 in
      let a26 := cadd x2 x6 in let js26 := jx (csub x2 x6) in
      let a15 := cadd x1 x5 in let s15 := csub x1 x5 in
      let a37 := cadd x3 x7 in let js37 := jx (csub x3 x7) in
      let a04_p1_a26 := cadd a04 a26 in
      let s04_mj_s26 := csub s04 js26 in
      let a04_m1_a26 := csub a04 a26 in
      let s04_pj_s26 := cadd s04 js26 in
      let a15_p1_a37 := cadd a15 a37 in
      let w8_s15_mj_s37 := w8x (csub s15 js37) in
      let j_a15_m1_a37 := jx (csub a15 a37) in
      let v8_s15_pj_s37 := v8x (cadd s15 js37) in
      let w2p := cmul w1p w1p in
      let w3p := cmul w1p w2p in
      let w4p := cmul w2p w2p in
      let w5p := cmul w2p w3p in
      let w6p := cmul w3p w3p in
      let w7p := cmul w3p w4p in
      [cadd a04_p1_a26 a15_p1_a37;
       cmul w1p (cadd s04_mj_s26 w8_s15_mj_s37);
       cmul w2p (csub a04_m1_a26 j_a15_m1_a37);
       cmul w3p (csub s04_pj_s26 v8_s15_pj_s37);
       cmul w4p (csub a04_p1_a26 a15_p1_a37);
       cmul w5p (csub s04_mj_s26 w8_s15_mj_s37);
       cmul w6p (cadd a04_m1_a26 j_a15_m1_a37);
       cmul w7p (cadd s04_pj_s26 v8_s15_pj_s37)]
  | _ => [] end.
Definition eight_inv (N : nat) (mode : smode) (v : list C) : list C :=
  match v with
  | [w; x0; x1; x2; x3; x4; x5; x6; x7] =>
      let x0 := scalepz N mode x0 in let x1 := scalepz N mode x1 in
      let x2 := scalepz N mode x2 in let x3 := scalepz N mode x3 in
      let x4 := scalepz N mode x4 in let x5 := scalepz N mode x5 in
      let x6 := scalepz N mode x6 in let x7 := scalepz N mode x7 in
      let a04 := cadd x0 x4 in let s04 := csub x0 x4 in
      let a26 := cadd x2 x6 in let js26 := jx (csub x2 x6) in
      let a15 := cadd x1 x5 in let s15 := csub x1 x5 in
      let a37 := cadd x3 x7 in let js37 := jx (csub x3 x7) in
      let a04_p1_a26 := cadd a04 a26 in
      let s04_pj_s26 := cadd s04 js26 in
      let a04_m1_a26 := csub a04 a26 in
      let s04_mj_s26 := csub s04 js26 in
      let a15_p1_a37 := cadd a15 a37 in
      let v8_s15_pj_s37 := v8x (cadd s15 js37) in
      let j_a15_m1_a37 := jx (csub a15 a37) in
      let w8_s15_mj_s37 := w8x (csub s15 js37) in
      let w1p := cconj w in
      let w2p := cmul w1p w1p in
      let w3p := cmul w1p w2p in
      let w4p := cmul w2p w2p in
      let w5p := cmul w2p w3p in
      let w6p := cmul w3p w3p in
      let w7p := cmul w3p w4p in
      [cadd a04_p1_a26 a15_p1_a37;
       cmul w1p (cadd s04_pj_s26 v8_s15_pj_s37);
       cmul w2p (cadd a04_m1_a26 j_a15_m1_a37);
       cmul w3p (csub s04_mj_s26 w8_s15_mj_s37);
       cmul w4p (csub a04_p1_a26 a15_p1_a37);
       cmul w5p (csub s04_pj_s26 v8_s15_pj_s37);
       cmul w6p (csub a04_m1_a26 j_a15_m1_a37);
       cmul w7p (cadd s04_mj_s26 w8_s15_mj_s37)]
  | _ => [] end.
Definition eight_lane (inv : bool) (N : nat) (mode : smode) (x y W : ptr) (p : nat) : lane C :=
  let N1 := N / 8 in
  Lane ((W +! p) :: map (fun j => x +! (p + N1 * j)) (seq 0 8)) (map (fun j => y +! (p + N1 * j)) (seq 0 8))
    (if inv then eight_inv N mode else eight_fwd N mode).
(** two lanes p, p+1.  In the source the operand w1p is loaded after the store of y[p+N0]; y and W never overlap. *)
Definition eight_bfly (inv : bool) (N : nat) (mode : smode) (x y W : ptr) (p : nat) : prog unit :=
  vblock 2 (fun l => eight_lane inv N mode x y W (p + l)).

(** transpose_kernel(p, x, y) : lines 42-82 (`#else` branch), q = 2*i *)
Definition eight_tr (N : nat) (x y : ptr) (p : nat) : prog unit :=
  let N1 := N / 8 in
  for_ 4 (fun i => let q := 2 * i in
    block [x +! (p + q * N1 + 0); x +! (p + q * N1 + 0 + 1); x +! (p + q * N1 + N1); x +! (p + q * N1 + N1 + 1)]
          [y +! (8 * p + q + 0); y +! (8 * p + q + 0 + 1); y +! (8 * p + q + 8); y +! (8 * p + q + 8 + 1)]
          (fun v => match v with [a; A; b; B] => [a; b; A; B] | _ => [] end)).

(** fwdfftr / invfftr ::operator() : lines 149-207, 284-342.  In the last branch `part2` is called outside any
    parallel region: its work-sharing loops are executed by the calling thread alone.  The eight consecutive
    calls with offsets N0, N1, ..., N7 (Nk = N1*k) are written as a sequential loop over k = 0..7. *)
Section EightFft.
Variables (iv : itab) (inv : bool) (mode : smode) (log_N : nat) (x y W Wm Ws : ptr).
Let N := 2 ^ log_N.
Let N1 := N / 8.
Definition eight_part1 (iN1 : nat) : prog unit := six_part1 iv inv scale_1 (log_N - 3) (y +! iN1) (x +! iN1) Wm Ws.
Definition eight_part2 (iN1 : nat) : prog unit := region_seq (six_part2 iv inv scale_1 (log_N - 3) (y +! iN1) (x +! iN1) Wm Ws).
Definition eight_serial : list act :=
  [Par [single (
    for_step N1 2 (eight_bfly inv N mode x y W) ;;;
    for_ 8 (fun i => eight_part1 (N1 * i)) ;;;
    for_step N1 2 (eight_tr N y x))]].
Definition eight_parallel : list act :=
  [Par [par_step N1 2 (eight_bfly inv N mode x y W);
        (8, fun i => eight_part1 (i * N1));
        par_step N1 2 (eight_tr N y x)]].
Definition eight_large : list act :=
  [Par [par_step N1 2 (eight_bfly inv N mode x y W)];
   Par [single (for_ 8 (fun i => eight_part2 (N1 * i)))];
   Par [par_step N1 2 (eight_tr N y x)]].
Definition eight_fft : list act :=
  if N <? eight_omp1 then eight_serial else if N <? eight_omp2 then eight_parallel else eight_large.
End EightFft.

(** ** fwd ... invn : src/otfft_algo_sixstep.cpp:191-398; `switch (log_N)` has cases 0..24 *)
Definition six_iv (n : nat) : itab := match init_iv n with Some t => t | None => fun _ => None end.
Definition six_run (b n : nat) (k : meth) (x y : ptr) : list act :=
  let inv := meth_inv k in
  let mode := meth_mode k in
  let W : ptr := (b, 0) in let Wm : ptr := (S b, 0) in let Ws : ptr := (S (S b), 0) in
  if n =? 0 then []
  else if n <=? 5 then [Par [single (fft_s DIF8 inv mode (2 ^ n) 1 false x y W)]]
  else if 24 <? n then []
  else if Nat.odd n then eight_fft (six_iv (2 ^ (n / 2 - 1))) inv mode n x y W Wm Ws
  else six_fft (six_iv (2 ^ (n / 2))) inv mode n x y W Ws.

End ModelSix.
